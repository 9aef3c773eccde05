(** C71: Sets overtaken by a split of their bucket in the embedded map. *)
From Verif Require Import Base Bucket ItemProofs EmbModel EmbPool ConcEmb ConcSet.
From Coq Require Import PeanoNat Sorting.Sorted Lia.
Local Open Scope list_scope.
Local Open Scope Z_scope.

(** * Statements *)
(** the items of the bucket in order and in its range, at least one slot; the boundary inside the range *)
Record wgood (g : wcfg) : Prop := {
  wg_sorted : StronglySorted Z.lt (wc_items g);
  wg_range : forall rv, In rv (wc_items g) -> wc_lo g <= rv < wc_hi g;
  wg_room : (1 <= List.length (wc_items g) + wc_room g)%nat;
  wg_new : wc_lo g < wc_new g < wc_hi g }.
Definition wreach (g : wcfg) (s : wstate) : Prop := exists ls, wrun g (winit g) ls = Some s.
(** the Sets are of new keys, all different *)
Definition new_keys (g : wcfg) (s : wstate) : Prop := NoDup (wc_items g ++ w_called s).
(** the new bucket has its items *)
Definition divided (s : wstate) : Prop := exists p, w_new s = WPool p.
Definition returned (s : wstate) (rv : Z) : Prop := exists b, In (rv, b) (w_done s).

(** * Pools *)
Definition poss (p : pool) : list Z := map sl_rev (live p).
Definition pgood (p : pool) (lo hi : Z) : Prop := pool_ok p lo hi /\ nodel p.
Lemma hit_iff p lo hi rv : pgood p lo hi -> whit p rv <-> In rv (poss p).
Proof.
  intros [K N]. unfold whit, poss. rewrite in_map_iff. split.
  - intros (i & E & R). exists (slot_at p i). split; auto. apply (live_in p lo hi i K). destruct (search_some p lo hi rv K i E); auto.
  - intros (sl & R & I). destruct (in_live p lo hi sl K I) as (i & L & E). subst sl. exists i. split; auto. apply (search_hit p lo hi rv K i L R). left. apply N. auto.
Qed.
Lemma put_good p lo hi rv : pgood p lo hi -> lo <= rv < hi -> ~ In rv (poss p) ->
  exists q, put p rv = Some q /\ pgood q lo hi /\ forall x, In x (poss q) <-> In x (poss p) \/ x = rv.
Proof.
  intros [K N] R NI. destruct (get_with_fn_ok p lo hi rv K N R) as (p1 & i & l1 & l2 & G & Z0 & E & _ & _ & _ & F).
  { intros sl I X. apply NI. unfold poss. apply in_map_iff. exists sl. auto. }
  unfold put. rewrite G. eexists. split; [reflexivity|]. destruct (F (fill_slot rv) eq_refl) as (K' & E' & N'). split; [split; auto|].
  intros x. unfold poss. rewrite <- !map_pr_rev. rewrite E', E, !map_app. cbn [map]. rewrite !in_app_iff. cbn [In]. change (pr_rev (pr (fill_slot rv zero_slot))) with rv. intuition.
Qed.
Lemma pgood_wider p lo hi hi' : pgood p lo hi -> hi <= hi' -> pgood p lo hi'.
Proof. intros [[A B C D E] N] L. split; auto. constructor; auto. intros sl I. specialize (D sl I). lia. Qed.

(** * The invariant *)
Definition is_cut (s : wstate) : bool := match w_ph s with PhPool _ => true | _ => match w_new s with WPool _ => true | _ => false end end.
Definition hi_pool (s : wstate) : option pool := match w_ph s with PhPool p => Some p | _ => match w_new s with WPool p => Some p | _ => None end end.
Definition wpend (p : wpc) : option Z := match p with WIdle => None | WLook rv | WPut rv _ => Some rv end.
Record winv (g : wcfg) (s : wstate) : Prop := {
  wi_old : pgood (w_old s) (wc_lo g) (wc_hi g);
  wi_hi : forall p, hi_pool s = Some p -> pgood p (wc_new g) (wc_hi g);
  wi_ph : match w_ph s with
          | PhBegin => w_new s = WNone
          | PhFind => w_new s = WBare
          | PhCut i => w_new s = WBare /\ find_idx (w_old s) (wc_new g) = Some i /\ i <> O
          | PhPool _ => w_new s = WBare
          | PhLast | PhDone => w_new s <> WNone
          end;
  wi_done : w_ph s = PhDone \/ forall rv, ~ In (rv, false) (w_done s);
  wi_done2 : forall rv, In (rv, true) (w_done s) -> exists p, w_new s = WPool p;
  wi_in_old : forall rv, In rv (poss (w_old s)) <-> (In rv (wc_items g) /\ (is_cut s = true -> rv < wc_new g)) \/ In (rv, false) (w_done s);
  wi_in_hi : forall p, hi_pool s = Some p -> forall rv, In rv (poss p) <-> (In rv (wc_items g) /\ wc_new g <= rv) \/ In (rv, true) (w_done s);
  wi_pend : forall t rv, wpend (w_pcs s t) = Some rv -> In rv (w_called s) /\ wc_lo g <= rv < wc_hi g /\ forall b, ~ In (rv, b) (w_done s);
  wi_diff : forall t u rv, wpend (w_pcs s t) = Some rv -> wpend (w_pcs s u) = Some rv -> t = u;
  wi_nw : forall t rv, w_pcs s t = WPut rv true -> wc_new g <= rv;
  wi_called : forall rv b, In (rv, b) (w_done s) -> In rv (w_called s) /\ (b = true -> wc_new g <= rv) }.

Lemma wrun_app g l1 : forall s l2, wrun g s (l1 ++ l2) = match wrun g s l1 with Some s' => wrun g s' l2 | None => None end.
Proof. induction l1 as [|l l1 IH]; intros s l2; cbn [wrun app]; auto. destruct (wstep g s l); auto. Qed.
Lemma init_inv g : wgood g -> winv g (winit g).
Proof.
  intros [S R M N].
  assert (E : map sl_rev (map stored_slot (wc_items g)) = wc_items g) by (rewrite map_map; apply map_id).
  destruct (pool_make (st := true) (map stored_slot (wc_items g)) (wc_room g) (Z.of_nat (List.length (wc_items g))) (wc_lo g) (wc_hi g)) as [K L].
  - rewrite map_length. reflexivity.
  - rewrite map_length. exact M.
  - rewrite E. exact S.
  - intros sl I. apply in_map_iff in I as (rv & <- & I). apply R, I.
  - assert (P : poss (w_old (winit g)) = wc_items g) by (unfold poss; cbn [w_old winit]; rewrite L; exact E).
    constructor; cbn [winit w_ph w_new w_pcs w_called w_done hi_pool is_cut wpend]; try discriminate; auto.
    + split; [exact K|]. intros sl I. cbn [w_old winit] in I. rewrite L in I. apply in_map_iff in I as (rv & <- & _). reflexivity.
    + intros rv [].
    + intros rv. rewrite P. unfold is_cut. cbn. intuition discriminate.
    + intros rv b [].
Qed.
(** what a step does not touch *)
Lemma called_step g s l s' : wstep g s l = Some s' -> exists c, w_called s' = w_called s ++ c.
Proof.
  assert (Z0 : forall x, x = w_called s -> exists c, x = w_called s ++ c) by (intros x ->; exists []; rewrite app_nil_r; auto).
  intros E. destruct l as [|t rv|t]; cbn [wstep] in E.
  - unfold wsplit in E. destruct (w_ph s); [|destruct (find_idx _ _) as [[|i]|]| | | |]; try discriminate; injection E as <-; apply Z0; reflexivity.
  - destruct (w_pcs s t); try discriminate. destruct (_ && _); [|discriminate]. injection E as <-. cbn. eauto.
  - unfold wset in E. destruct (w_pcs s t) as [|rv|rv [|]]; try discriminate.
    + injection E as <-. apply Z0. reflexivity.
    + destruct (w_new s) as [| |p] eqn:EN; [injection E as <-; apply Z0; auto|injection E as <-; apply Z0; auto|]. destruct (put p rv); [|discriminate]. injection E as <-. apply Z0. reflexivity.
    + destruct (w_ph s); try discriminate. destruct (put _ _); [|discriminate]. injection E as <-. apply Z0. reflexivity.
Qed.
Lemma split_inv g s s' : wgood g -> winv g s -> wsplit g s = Some s' -> winv g s'.
Proof.
  intros G I E. destruct I as [O H P D D2 IO IH PE DI NW CA]. unfold wsplit in E. unfold hi_pool, is_cut in *.
  destruct (w_ph s) as [| |i|p| |] eqn:EP; try discriminate.
  - injection E as <-. rewrite P in *. constructor; cbn [w_ph w_new w_old w_pcs w_called w_done w_setph w_setn hi_pool is_cut]; unfold hi_pool, is_cut; cbn [w_ph w_new w_setph w_setn]; auto; try discriminate.
    + right. destruct D as [D|D]; [discriminate|exact D].
    + intros rv X. destruct (D2 rv X) as (p & Q). discriminate Q.
  - rewrite P in *. assert (D' : forall rv, ~ In (rv, false) (w_done s)) by (destruct D as [D|D]; [discriminate|exact D]).
    assert (GO : forall ph, (ph = PhLast \/ exists i, ph = PhCut i /\ find_idx (w_old s) (wc_new g) = Some i /\ i <> 0%nat) -> winv g (w_setph s ph)).
    { intros ph Q. assert (HP : hi_pool (w_setph s ph) = None) by (unfold hi_pool; cbn; rewrite P; destruct Q as [-> |(i & -> & _)]; auto).
      assert (HC : is_cut (w_setph s ph) = false) by (unfold is_cut; cbn; rewrite P; destruct Q as [-> |(i & -> & _)]; auto).
      constructor; rewrite ?HP, ?HC; cbn [w_ph w_new w_old w_pcs w_called w_done w_setph]; rewrite ?P; auto; try discriminate.
      destruct Q as [-> |(i & -> & Q1 & Q2)]; [discriminate|auto]. }
    destruct (find_idx (w_old s) (wc_new g)) as [[|i]|] eqn:F; injection E as <-; apply GO; auto. right. exists (S i). auto.
  - injection E as <-. destruct P as (P & F & NI). rewrite P in *. destruct O as [K N]. destruct (find_idx_spec (w_old s) _ _ (wc_new g) i K N F) as (l1 & x & l2 & L & Ei & Rx & Lo).
    assert (S : StronglySorted Z.lt (poss (w_old s))) by (apply (po_sorted _ _ _ K)).
    assert (Hi : forall y, In y (x :: l2) -> wc_new g <= sl_rev y).
    { unfold poss in S. rewrite L, map_app in S. apply ItemProofs.sorted_app in S as (_ & S & _). cbn [map] in S. inversion S as [|? ? _ FA]; subst. intros y [<-|Y]; [auto|]. rewrite Forall_forall in FA. specialize (FA (sl_rev y) (in_map sl_rev _ _ Y)). lia. }
    destruct (split_ok (w_old s) (wc_lo g) (wc_new g) (wc_hi g) l1 (x :: l2) K L) as (K1 & L1 & K2 & L2); auto; [intros ->; apply NI; subst i; auto|discriminate|]. rewrite <- Ei in *.
    assert (D' : forall rv, ~ In (rv, false) (w_done s)) by (destruct D as [D|D]; [discriminate|exact D]).
    assert (D3 : forall rv, ~ In (rv, true) (w_done s)) by (intros rv X; destruct (D2 rv X) as (p & Q); discriminate Q).
    assert (PO : forall rv, In rv (poss (w_old s)) <-> In rv (map sl_rev l1) \/ In rv (map sl_rev (x :: l2))) by (intros rv; unfold poss; rewrite L, map_app, in_app_iff; reflexivity).
    assert (B1 : forall rv, In rv (map sl_rev l1) -> rv < wc_new g) by (intros rv Y; apply in_map_iff in Y as (y & <- & Y); auto).
    assert (B2 : forall rv, In rv (map sl_rev (x :: l2)) -> wc_new g <= rv) by (intros rv Y; apply in_map_iff in Y as (y & <- & Y); auto).
    constructor; unfold hi_pool, is_cut; cbn [w_ph w_new w_old w_pcs w_called w_done w_setph w_seto]; auto.
    + apply (pgood_wider _ _ (wc_new g)); [split; [exact K1|]|pose proof (wg_new g G); lia]. intros sl Y. rewrite L1 in Y. apply N. rewrite L. apply in_or_app. auto.
    + intros p [= <-]. split; [exact K2|]. intros sl Y. rewrite L2 in Y. apply N. rewrite L. apply in_or_app. auto.
    + intros rv X. destruct (D3 rv X).
    + intros rv. unfold poss at 1. rewrite L1. specialize (IO rv). rewrite PO in IO. specialize (B1 rv). specialize (B2 rv). specialize (D' rv). split.
      * intros Y. left. split; [|auto]. destruct (proj1 IO (or_introl Y)) as [[Q _]|Q]; [auto|contradiction].
      * intros [[Q Q2]|Q]; [|contradiction]. destruct (proj2 IO) as [Y|Y]; [left; split; [auto|discriminate]|auto|]. specialize (B2 Y). specialize (Q2 eq_refl). lia.
    + intros p [= <-] rv. unfold poss. rewrite L2. specialize (IO rv). rewrite PO in IO. specialize (B1 rv). specialize (B2 rv). specialize (D' rv). specialize (D3 rv). split.
      * intros Y. left. split; [|auto]. destruct (proj1 IO (or_intror Y)) as [[Q _]|Q]; [auto|contradiction].
      * intros [[Q Q2]|Q]; [|contradiction]. destruct (proj2 IO) as [Y|Y]; [left; split; [auto|discriminate]| |auto]. specialize (B1 Y). lia.
  - injection E as <-. constructor; unfold hi_pool, is_cut; cbn [w_ph w_new w_old w_pcs w_called w_done w_setph w_setn]; auto; try discriminate.
    + right. destruct D as [D|D]; [discriminate|exact D].
    + eauto.
  - injection E as <-. constructor; unfold hi_pool, is_cut; cbn [w_ph w_new w_old w_pcs w_called w_done w_setph]; auto.
Qed.
Lemma nd_new g s rv : NoDup (wc_items g ++ w_called s) -> In rv (w_called s) -> ~ In rv (wc_items g).
Proof.
  intros ND C I. induction (wc_items g) as [|x l IH]; [destruct I|]. cbn [app] in ND. inversion ND as [|? ? N1 N2]; subst. destruct I as [->|I]; [apply N1, in_or_app; auto|auto].
Qed.
Lemma nd_snoc {A} (l : list A) x : NoDup (l ++ [x]) -> ~ In x l.
Proof. intros ND I. apply NoDup_remove_2 in ND. rewrite app_nil_r in ND. auto. Qed.
Lemma nd_pre {A} (l1 l2 : list A) : NoDup (l1 ++ l2) -> NoDup l1.
Proof. induction l2 as [|x l2 IH] using rev_ind; [rewrite app_nil_r; auto|]. rewrite app_assoc. intros H. apply NoDup_remove_1 in H. rewrite app_nil_r in H. auto. Qed.
(** a Set that ends takes its key from the running ones to the finished ones *)
Lemma step_inv g s l s' : wgood g -> winv g s -> new_keys g s' -> wstep g s l = Some s' -> winv g s'.
Proof.
  intros G I NK E. destruct l as [|t rv|t]; cbn [wstep] in E; [eapply split_inv; eauto| |].
  - destruct (w_pcs s t) eqn:EP; try discriminate. destruct (Z.leb_spec (wc_lo g) rv); [|discriminate]. destruct (Z.ltb_spec rv (wc_hi g)); [|discriminate]. cbn [andb] in E. injection E as <-.
    unfold new_keys in NK. cbn [w_called w_goto w_call] in NK. rewrite app_assoc in NK. pose proof (nd_snoc _ _ NK) as NW. rewrite in_app_iff in NW.
    destruct I as [O H1 P D D2 IO IH PE DI NV CA]. constructor; auto.
    + intros u rv'. cbn. destruct (Nat.eqb_spec u t) as [->|N]; cbn [wpend].
      * intros [= <-]. rewrite in_app_iff. cbn [In]. split; [auto|]. split; [lia|]. intros b X. apply NW. right. apply (CA _ _ X).
      * intros X. destruct (PE u rv' X) as (A & B & C). rewrite in_app_iff. auto.
    + intros u v rv'. cbn. destruct (Nat.eqb_spec u t) as [->|N], (Nat.eqb_spec v t) as [->|N2]; cbn [wpend]; auto.
      * intros [= <-] X. exfalso. apply NW. right. apply (PE v rv X).
      * intros X [= <-]. exfalso. apply NW. right. apply (PE u rv X).
      * apply DI.
    + intros u rv'. cbn. destruct (Nat.eqb u t); [discriminate|apply NV].
    + intros rv' b X. cbn. rewrite in_app_iff. destruct (CA rv' b X). auto.
  - pose proof I as [O H1 P D D2 IO IH PE DI NV CA]. unfold wset in E. destruct (w_pcs s t) as [|rv|rv [|]] eqn:EP; try discriminate.
    + injection E as <-. constructor; auto.
      * intros u rv'. cbn. destruct (Nat.eqb_spec u t) as [->|N]; [|apply PE]. cbn. intros [= <-]. apply (PE t). rewrite EP. reflexivity.
      * intros u v rv'. cbn. destruct (Nat.eqb_spec u t) as [->|N], (Nat.eqb_spec v t) as [->|N2]; cbn [wpend]; auto.
        -- intros [= <-] X. apply (DI t v rv); auto. rewrite EP. reflexivity.
        -- intros X [= <-]. apply (DI u t rv); auto. rewrite EP. reflexivity.
        -- apply DI.
      * intros u rv'. cbn. destruct (Nat.eqb_spec u t) as [->|N]; [|apply NV]. intros X. injection X as X1 X2. subst rv'. destruct (w_new s); [discriminate|apply Z.leb_le; auto|apply Z.leb_le; auto].
    + (* into the new bucket *) destruct (w_new s) as [| |p] eqn:EN; [injection E as <-; exact I|injection E as <-; exact I|].
      destruct (PE t rv ltac:(rewrite EP; reflexivity)) as (C & R & ND). pose proof (NV t rv EP) as NR.
      assert (HS : hi_pool s = Some p) by (unfold hi_pool; rewrite EN; destruct (w_ph s); auto; discriminate P).
      assert (NP : forall q, w_ph s <> PhPool q) by (intros q X; rewrite X in P; discriminate P).
      pose proof (nd_new g s rv) as NI. assert (CS : w_called s' = w_called s) by (destruct (put p rv); [|discriminate]; injection E as <-; reflexivity). unfold new_keys in NK. rewrite CS in NK. specialize (NI NK C).
      destruct (put_good p (wc_new g) (wc_hi g) rv (H1 p HS)) as (q & Q & QG & QP); [lia|intros X; apply (IH p HS) in X as [[X _]|X]; [auto|exact (ND _ X)]|].
      rewrite Q in E. injection E as <-.
      assert (HS' : hi_pool (w_goto (w_end (w_setn s (WPool q)) (rv, true)) t WIdle) = Some q) by (unfold hi_pool; cbn; destruct (w_ph s) eqn:X; auto; destruct (NP _ eq_refl)).
      assert (HC' : is_cut (w_goto (w_end (w_setn s (WPool q)) (rv, true)) t WIdle) = is_cut s) by (unfold is_cut; cbn; rewrite EN; destruct (w_ph s); auto).
      constructor; rewrite ?HS', ?HC'; auto.
      * intros p0 [= <-]. auto.
      * cbn. destruct (w_ph s); try discriminate; auto; destruct P; discriminate.
      * cbn. destruct D as [D|D]; auto. right. intros rv' X. apply in_app_iff in X as [X|[X|[]]]; [exact (D _ X)|discriminate].
      * cbn. eauto.
      * intros rv'. cbn. rewrite in_app_iff. cbn [In]. rewrite IO. intuition discriminate.
      * intros p0 [= <-] rv'. cbn. rewrite in_app_iff. cbn [In]. rewrite QP, (IH p HS). split; [intros [[X|X]| ->]; auto|intros [X|[X|[X|[]]]]; auto; injection X as <-; auto].
      * intros u rv'. cbn. destruct (Nat.eqb_spec u t) as [->|N]; [discriminate|]. intros X. destruct (PE u rv' X) as (A1 & A2 & A3). split; auto. split; auto. intros b Y. apply in_app_iff in Y as [Y|[Y|[]]]; [exact (A3 _ Y)|]. injection Y as -> _. apply N. apply (DI u t rv'); auto. rewrite EP. reflexivity.
      * intros u v rv'. cbn. destruct (Nat.eqb_spec u t), (Nat.eqb_spec v t); try discriminate. apply DI.
      * intros u rv'. cbn. destruct (Nat.eqb_spec u t); [discriminate|apply NV].
      * intros rv' b. cbn. rewrite in_app_iff. intros [X|[X|[]]]; [apply (CA rv' b X)|]. injection X as <- <-. auto.
    + (* into the old bucket *) destruct (w_ph s) eqn:EPH; try discriminate.
      destruct (PE t rv ltac:(rewrite EP; reflexivity)) as (C & R & ND).
      pose proof (nd_new g s rv) as NI. assert (CS : w_called s' = w_called s) by (destruct (put (w_old s) rv); [|discriminate]; injection E as <-; reflexivity). unfold new_keys in NK. rewrite CS in NK. specialize (NI NK C).
      destruct (put_good (w_old s) (wc_lo g) (wc_hi g) rv O) as (q & Q & QG & QP); [lia|intros X; apply IO in X as [[X _]|X]; [auto|exact (ND _ X)]|].
      rewrite Q in E. injection E as <-. 
      assert (HS' : hi_pool (w_goto (w_end (w_seto s q) (rv, false)) t WIdle) = hi_pool s) by reflexivity.
      assert (HC' : is_cut (w_goto (w_end (w_seto s q) (rv, false)) t WIdle) = is_cut s) by reflexivity.
      constructor; rewrite ?HS', ?HC'; auto.
      * cbn. rewrite EPH. exact P.
      * intros rv'. cbn. rewrite in_app_iff. intros [X|[X|[]]]; [apply (D2 rv' X)|discriminate].
      * intros rv'. cbn. rewrite in_app_iff. cbn [In]. rewrite QP, IO. split; [intros [[X|X]| ->]; auto|intros [X|[X|[X|[]]]]; auto; injection X as <-; auto].
      * intros p0 HP rv'. cbn. rewrite in_app_iff. cbn [In]. rewrite (IH p0 HP). intuition discriminate.
      * intros u rv'. cbn. destruct (Nat.eqb_spec u t) as [->|N]; [discriminate|]. intros X. destruct (PE u rv' X) as (A1 & A2 & A3). split; auto. split; auto. intros b Y. apply in_app_iff in Y as [Y|[Y|[]]]; [exact (A3 _ Y)|]. injection Y as -> _. apply N. apply (DI u t rv'); auto. rewrite EP. reflexivity.
      * intros u v rv'. cbn. destruct (Nat.eqb_spec u t), (Nat.eqb_spec v t); try discriminate. apply DI.
      * intros u rv'. cbn. destruct (Nat.eqb_spec u t); [discriminate|apply NV].
      * intros rv' b. cbn. rewrite in_app_iff. intros [X|[X|[]]]; [apply (CA rv' b X)|]. injection X as <- <-. split; [auto|discriminate].
Qed.
Lemma run_keys g : forall ls s s', wrun g s ls = Some s' -> new_keys g s' -> new_keys g s.
Proof.
  induction ls as [|l ls IH]; intros s s' E NK; cbn [wrun] in E; [injection E as <-; auto|]. destruct (wstep g s l) as [s1|] eqn:E1; [|discriminate].
  specialize (IH s1 s' E NK). destruct (called_step g s l s1 E1) as (c & C). unfold new_keys in *. rewrite C, app_assoc in IH. exact (nd_pre _ _ IH).
Qed.
Lemma run_inv g : wgood g -> forall ls s s', winv g s -> wrun g s ls = Some s' -> new_keys g s' -> winv g s'.
Proof.
  intros G. induction ls as [|l ls IH]; intros s s' I E NK; cbn [wrun] in E; [injection E as <-; auto|]. destruct (wstep g s l) as [s1|] eqn:E1; [|discriminate].
  apply (IH s1 s'); auto. apply (step_inv g s l s1); auto. exact (run_keys g ls s1 s' E NK).
Qed.
Lemma reach_inv g s : wgood g -> wreach g s -> new_keys g s -> winv g s.
Proof. intros G (ls & E) NK. exact (run_inv g G ls (winit g) s (init_inv g G) E NK). Qed.

(** * C71 *)
(** The items the bucket had are found once the new bucket has its part. *)
Theorem C71_items : forall g s rv, wgood g -> wreach g s -> new_keys g s -> divided s -> In rv (wc_items g) -> wfinds g s rv.
Proof.
  intros g s rv G R NK (p & EN) I. pose proof (reach_inv g s G R NK) as W. unfold wfinds. rewrite EN.
  assert (NP : forall q, w_ph s <> PhPool q) by (intros q X; pose proof (wi_ph _ _ W) as P; rewrite X, EN in P; discriminate P).
  assert (HS : hi_pool s = Some p) by (unfold hi_pool; rewrite EN; destruct (w_ph s) eqn:X; auto; destruct (NP _ eq_refl)).
  destruct (Z.leb_spec (wc_new g) rv).
  - apply (hit_iff p _ _ rv (wi_hi _ _ W p HS)). apply (wi_in_hi _ _ W p HS). auto.
  - apply (hit_iff _ _ _ rv (wi_old _ _ W)). apply (wi_in_old _ _ W). auto.
Qed.
Print Assumptions C71_items.
(** Nothing else is found but what was Set. *)
Theorem C71_only : forall g s rv, wgood g -> wreach g s -> new_keys g s -> wfinds g s rv -> In rv (wc_items g) \/ returned s rv.
Proof.
  intros g s rv G R NK F. pose proof (reach_inv g s G R NK) as W.
  assert (OLD : whit (w_old s) rv -> In rv (wc_items g) \/ returned s rv).
  { intros X. apply (hit_iff _ _ _ rv (wi_old _ _ W)) in X. apply (wi_in_old _ _ W) in X as [[X _]|X]; [auto|right; exists false; auto]. }
  unfold wfinds in F. destruct (w_new s) as [| |p] eqn:EN; [auto|apply OLD, F|].
  assert (HS : hi_pool s = Some p) by (unfold hi_pool; rewrite EN; destruct (w_ph s) eqn:X; auto; pose proof (wi_ph _ _ W) as P; rewrite X, EN in P; discriminate P).
  destruct (Z.leb_spec (wc_new g) rv); auto. apply (hit_iff p _ _ rv (wi_hi _ _ W p HS)) in F. apply (wi_in_hi _ _ W p HS) in F as [[F _]|F]; [auto|right; exists true; auto].
Qed.
Print Assumptions C71_only.
(** Exactly which Sets are found after the split: those whose key is below the boundary, and those that used the new bucket. *)
Theorem C71_exact : forall g s rv b, wgood g -> wreach g s -> new_keys g s -> divided s -> In (rv, b) (w_done s) ->
  (wfinds g s rv <-> b = true \/ rv < wc_new g).
Proof.
  intros g s rv b G R NK (p & EN) I. pose proof (reach_inv g s G R NK) as W. unfold wfinds. rewrite EN.
  assert (HS : hi_pool s = Some p) by (unfold hi_pool; rewrite EN; destruct (w_ph s) eqn:X; auto; pose proof (wi_ph _ _ W) as P; rewrite X, EN in P; discriminate P).
  destruct (wi_called _ _ W rv b I) as [C B]. pose proof (nd_new g s rv NK C) as NI. destruct (Z.leb_spec (wc_new g) rv).
  - rewrite (hit_iff p _ _ rv (wi_hi _ _ W p HS)), (wi_in_hi _ _ W p HS). split; [|intros [->|X]; [auto|lia]]. intros [[X _]|X]; [contradiction|]. left. destruct b; auto. exfalso.
    (* one Set of a key: it cannot have used both buckets *)
    assert (Q : forall s0, wreach g s0 -> new_keys g s0 -> forall x, In (x, true) (w_done s0) -> In (x, false) (w_done s0) -> False).
    { clear - G. intros s0 (ls & E) NK x. revert s0 E NK. induction ls as [|l ls IHl] using rev_ind; intros s0 E NK X Y; [injection E as <-; destruct X|].
      rewrite wrun_app in E. destruct (wrun g (winit g) ls) as [s1|] eqn:E1; [|discriminate]. cbn [wrun] in E. destruct (wstep g s1 l) as [s2|] eqn:E2; [|discriminate]. injection E as <-.
      assert (NK1 : new_keys g s1) by (apply (run_keys g [l] s1 s2); [cbn; rewrite E2; auto|auto]). pose proof (reach_inv g s1 G (ex_intro _ ls E1) NK1) as W1. specialize (IHl s1 eq_refl NK1).
      assert (D : w_done s2 = w_done s1 \/ exists t rv b, wpend (w_pcs s1 t) = Some rv /\ w_done s2 = w_done s1 ++ [(rv, b)]).
      { destruct l as [|t rv|t]; cbn [wstep] in E2.
        - left. unfold wsplit in E2. destruct (w_ph s1); [|destruct (find_idx _ _) as [[|i]|]| | | |]; try discriminate; injection E2 as <-; reflexivity.
        - left. destruct (w_pcs s1 t); try discriminate. destruct (_ && _); [|discriminate]. injection E2 as <-. reflexivity.
        - unfold wset in E2. destruct (w_pcs s1 t) as [|rv|rv [|]] eqn:PC; try discriminate.
          + left. injection E2 as <-. reflexivity.
          + destruct (w_new s1) as [| |q]; [left; injection E2 as <-; auto|left; injection E2 as <-; auto|]. destruct (put q rv); [|discriminate]. injection E2 as <-. right. exists t, rv, true. rewrite PC. auto.
          + destruct (w_ph s1); try discriminate. destruct (put _ _); [|discriminate]. injection E2 as <-. right. exists t, rv, false. rewrite PC. auto. }
      destruct D as [D|(t & rv & b & PC & D)]; rewrite D in X, Y; [auto|]. destruct (wi_pend _ _ W1 t rv PC) as (_ & _ & ND). apply in_app_iff in X as [X|[X|[]]], Y as [Y|[Y|[]]]; auto.
      - injection Y as -> _. exact (ND _ X).
      - injection X as -> _. exact (ND _ Y).
      - congruence. }
    exact (Q s R NK rv X I).
  - rewrite (hit_iff _ _ _ rv (wi_old _ _ W)), (wi_in_old _ _ W). split; [auto|]. intros _. right. destruct b; auto. specialize (B eq_refl). lia.
Qed.
Print Assumptions C71_exact.
(** A key below the boundary is found as soon as its Set has returned. *)
Theorem C71_below : forall g s rv, wgood g -> wreach g s -> new_keys g s -> returned s rv -> rv < wc_new g -> wfinds g s rv.
Proof.
  intros g s rv G R NK (b & I) L. pose proof (reach_inv g s G R NK) as W. destruct (wi_called _ _ W rv b I) as [C B]. assert (b = false) as -> by (destruct b; auto; specialize (B eq_refl); lia).
  assert (H : whit (w_old s) rv) by (apply (hit_iff _ _ _ rv (wi_old _ _ W)); apply (wi_in_old _ _ W); auto).
  unfold wfinds. destruct (w_new s); auto. destruct (Z.leb_spec (wc_new g) rv); [lia|auto].
Qed.
Print Assumptions C71_below.
(** A Set that begins after the new bucket has become visible is found. *)
Definition wlate (g : wcfg) (old : list Z) (s : wstate) : Prop := w_new s <> WNone /\ incl old (w_called s) /\
  (forall t rv, w_pcs s t = WPut rv false -> In rv old \/ rv < wc_new g) /\ (forall rv, In (rv, false) (w_done s) -> In rv old \/ rv < wc_new g).
Lemma wlate_step g old s l s' : wlate g old s -> wstep g s l = Some s' -> wlate g old s'.
Proof.
  intros (N & INC & P & D) E. destruct l as [|t rv|t]; cbn [wstep] in E.
  - unfold wsplit in E. destruct (w_ph s); [|destruct (find_idx _ _) as [[|i]|]| | | |]; try discriminate; injection E as <-; (split; [cbn; auto; discriminate|auto]).
  - destruct (w_pcs s t); try discriminate. destruct (_ && _); [|discriminate]. injection E as <-. split; auto. split; [intros x X; cbn; apply in_or_app; auto|]. split; auto. intros u rv'. cbn. destruct (Nat.eqb u t); [discriminate|apply P].
  - unfold wset in E. destruct (w_pcs s t) as [|rv|rv [|]] eqn:PC; try discriminate.
    + injection E as <-. split; auto. split; auto. split; auto. intros u rv'. cbn. destruct (Nat.eqb_spec u t) as [->|NE]; [|apply P]. intros X. injection X as X1 X2. subst rv'. destruct (w_new s); [destruct (N eq_refl)| |]; apply Z.leb_gt in X2; auto.
    + destruct (w_new s) as [| |q] eqn:EN; [injection E as <-; repeat split; auto|injection E as <-; repeat split; auto; congruence|]. destruct (put q rv); [|discriminate]. injection E as <-. split; [discriminate|]. split; auto. split.
      * intros u rv'. cbn. destruct (Nat.eqb u t); [discriminate|apply P].
      * intros rv'. cbn. rewrite in_app_iff. intros [X|[X|[]]]; [auto|discriminate].
    + destruct (w_ph s); try discriminate. destruct (put _ _); [|discriminate]. injection E as <-. split; auto. split; auto. split.
      * intros u rv'. cbn. destruct (Nat.eqb u t); [discriminate|apply P].
      * intros rv'. cbn. rewrite in_app_iff. intros [X|[X|[]]]; [auto|]. injection X as <-. apply (P t rv PC).
Qed.
Lemma wlate_run g old : forall ls s s', wlate g old s -> wrun g s ls = Some s' -> wlate g old s'.
Proof. induction ls as [|l ls IH]; intros s s' L E; cbn [wrun] in E; [injection E as <-; auto|]. destruct (wstep g s l) as [s1|] eqn:E1; [|discriminate]. apply (IH s1 s'); auto. eapply wlate_step; eauto. Qed.
Theorem C71_late : forall g s0 ls s rv, wgood g -> wreach g s0 -> w_new s0 <> WNone -> ~ In rv (w_called s0) ->
  wrun g s0 ls = Some s -> new_keys g s -> divided s -> returned s rv -> wfinds g s rv.
Proof.
  intros g s0 ls s rv G (ls0 & E0) N NC E NK D (b & I).
  assert (R : wreach g s) by (exists (ls0 ++ ls); rewrite wrun_app, E0; auto).
  apply (C71_exact g s rv b G R NK D I). destruct b; auto. right.
  pose proof (reach_inv g s0 G (ex_intro _ ls0 E0) (run_keys g ls s0 s E NK)) as W0.
  assert (L0 : wlate g (w_called s0) s0).
  { split; auto. split; [intros x; auto|]. split; [intros t x X; left; apply (wi_pend _ _ W0 t x); rewrite X; auto|intros x X; left; apply (wi_called _ _ W0 x false X)]. }
  destruct (wlate_run g _ ls s0 s L0 E) as (_ & _ & _ & X). destruct (X rv I); [contradiction|auto].
Qed.
Print Assumptions C71_late.
(** The others are lost: no Get finds such a key, then or later, as long as it is not Set again. *)
Lemma done_run g : forall ls s s' d, wrun g s ls = Some s' -> In d (w_done s) -> In d (w_done s').
Proof.
  induction ls as [|l ls IH]; intros s s' d E I; cbn [wrun] in E; [injection E as <-; auto|]. destruct (wstep g s l) as [s1|] eqn:E1; [|discriminate]. apply (IH s1 s' d E). clear - E1 I.
  destruct l as [|t rv|t]; cbn [wstep] in E1.
  - unfold wsplit in E1. destruct (w_ph s); [|destruct (find_idx _ _) as [[|i]|]| | | |]; try discriminate; injection E1 as <-; auto.
  - destruct (w_pcs s t); try discriminate. destruct (_ && _); [|discriminate]. injection E1 as <-. auto.
  - unfold wset in E1. destruct (w_pcs s t) as [|rv|rv [|]]; try discriminate.
    + injection E1 as <-. auto.
    + destruct (w_new s) as [| |q]; [injection E1 as <-; auto|injection E1 as <-; auto|]. destruct (put q rv); [|discriminate]. injection E1 as <-. cbn. apply in_or_app. auto.
    + destruct (w_ph s); try discriminate. destruct (put _ _); [|discriminate]. injection E1 as <-. cbn. apply in_or_app. auto.
Qed.
Theorem C71_lost_for_ever : forall g s rv ls s', wgood g -> wreach g s -> In (rv, false) (w_done s) -> wc_new g <= rv ->
  wrun g s ls = Some s' -> new_keys g s' -> returned s' rv /\ ~ wfinds g s' rv.
Proof.
  intros g s rv ls s' G (ls0 & E0) I L E NK. assert (R : wreach g s') by (exists (ls0 ++ ls); rewrite wrun_app, E0; auto). pose proof (done_run g ls s s' _ E I) as I'. split; [exists false; auto|]. intros F.
  destruct (w_new s') as [| |p] eqn:EN.
  - pose proof (reach_inv g s' G R NK) as W. destruct (wi_done _ _ W) as [D|D]; [|exact (D _ I')]. pose proof (wi_ph _ _ W) as P. rewrite D in P. congruence.
  - unfold wfinds in F. rewrite EN in F. lia.
  - assert (D : divided s') by (exists p; auto). apply (C71_exact g s' rv false G R NK D I') in F as [F|F]; [discriminate|lia].
Qed.
Print Assumptions C71_lost_for_ever.
(** Every Set can return once the split is over and the new bucket has its items. *)
Theorem C71_returns : forall g s t, wgood g -> wreach g s -> new_keys g s -> divided s -> w_ph s = PhDone ->
  exists k s', (k <= 2)%nat /\ wrun g s (repeat (LGo t) k) = Some s' /\ w_pcs s' t = WIdle.
Proof.
  assert (ONE : forall g s t rv nw, wgood g -> winv g s -> new_keys g s -> divided s -> w_ph s = PhDone -> w_pcs s t = WPut rv nw -> exists s', wset g s t = Some s' /\ w_pcs s' t = WIdle).
  { intros g s t rv nw G W NK (p & EN) PH PC. unfold wset. rewrite PC. destruct (wi_pend _ _ W t rv ltac:(rewrite PC; reflexivity)) as (C & R & ND). pose proof (nd_new g s rv NK C) as NI. destruct nw.
    - rewrite EN. assert (HS : hi_pool s = Some p) by (unfold hi_pool; rewrite PH, EN; auto). pose proof (wi_nw _ _ W t rv PC).
      destruct (put_good p _ _ rv (wi_hi _ _ W p HS)) as (q & Q & _); [lia|intros X; apply (wi_in_hi _ _ W p HS) in X as [[X _]|X]; [auto|exact (ND _ X)]|]. rewrite Q. eexists. split; [reflexivity|]. cbn. rewrite Nat.eqb_refl. auto.
    - rewrite PH. destruct (put_good (w_old s) _ _ rv (wi_old _ _ W)) as (q & Q & _); [lia|intros X; apply (wi_in_old _ _ W) in X as [[X _]|X]; [auto|exact (ND _ X)]|]. rewrite Q. eexists. split; [reflexivity|]. cbn. rewrite Nat.eqb_refl. auto. }
  intros g s t G R NK D PH. pose proof (reach_inv g s G R NK) as W. destruct (w_pcs s t) as [|rv|rv nw] eqn:PC.
  - exists 0%nat, s. auto.
  - assert (E : exists s1, wset g s t = Some s1) by (unfold wset; rewrite PC; eauto). destruct E as (s1 & E). pose proof E as E2. unfold wset in E2. rewrite PC in E2. injection E2 as E2.
    assert (W1 : winv g s1) by (apply (step_inv g s (LGo t) s1 G W); [rewrite <- E2; exact NK|exact E]).
    destruct (ONE g s1 t rv (match w_new s with WNone => false | _ => wc_new g <=? rv end) G W1) as (s2 & Q & I2); [rewrite <- E2; exact NK|rewrite <- E2; exact D|rewrite <- E2; exact PH|rewrite <- E2; cbn; rewrite Nat.eqb_refl; auto|].
    exists 2%nat, s2. split; [lia|]. cbn [repeat wrun wstep]. rewrite E. rewrite Q. auto.
  - destruct (ONE g s t rv nw G W NK D PH PC) as (s2 & Q & I2). exists 1%nat, s2. split; [lia|]. cbn [repeat wrun wstep]. rewrite Q. auto.
Qed.
Print Assumptions C71_returns.

(** The natural claim: after the Sets have returned and the split is over, every key that was Set is found. *)
Definition sets_found : Prop := forall g s rv, wgood g -> wreach g s -> new_keys g s -> divided s -> w_ph s = PhDone ->
  (forall t, w_pcs s t = WIdle) -> returned s rv -> wfinds g s rv.
(** items at 1, 3, 5 and 7, the new bucket begins at 4. Goroutines 1 and 2 look up the bucket for the keys 6 and 2, the
    split runs, goroutine 3 Sets 5, then 1 and 2 go on: 6 is stored in the old bucket *)
Definition w_four : wcfg := mkWC 0 8 [1; 3; 5; 7] 0 4.
Definition w_lost : list wlabel := [LSet 1 6; LGo 1; LSet 2 2; LGo 2] ++ repeat LSplit 5 ++ [LGo 1; LGo 2].
Lemma w_four_good : wgood w_four.
Proof. constructor; cbn; [repeat constructor|intros rv H; decompose [or] H; subst; lia||contradiction|lia|lia]. Qed.
Definition wlook (o : option wstate) := match o with Some s => Some (poss (w_old s), match w_new s with WPool p => Some (poss p) | _ => None end, w_called s, w_done s, map (w_pcs s) [0; 1; 2; 3]%nat) | None => None end.
Lemma wlook_inv o x : wlook o = Some x -> exists s, o = Some s /\ x = (poss (w_old s), match w_new s with WPool p => Some (poss p) | _ => None end, w_called s, w_done s, map (w_pcs s) [0; 1; 2; 3]%nat).
Proof. destruct o as [s|]; cbn [wlook]; intros E; [|discriminate]. injection E as <-. eauto. Qed.
Lemma w_lost_look : wlook (wrun w_four (winit w_four) w_lost) = Some ([1; 2; 3; 6], Some [5; 7], [6; 2], [(6, false); (2, false)], [WIdle; WIdle; WIdle; WIdle]).
Proof. vm_compute. reflexivity. Qed.
Lemma set_other g s l s' t : wstep g s l = Some s' -> (forall rv, l <> LSet t rv) -> l <> LGo t -> w_pcs s' t = w_pcs s t.
Proof.
  intros E N1 N2. destruct l as [|u rv|u]; cbn [wstep] in E.
  - unfold wsplit in E. destruct (w_ph s); [|destruct (find_idx _ _) as [[|i]|]| | | |]; try discriminate; injection E as <-; auto.
  - assert (t <> u) by (intros ->; exact (N1 rv eq_refl)). destruct (w_pcs s u); try discriminate. destruct (_ && _); [|discriminate]. injection E as <-. cbn. destruct (Nat.eqb_spec t u); congruence.
  - assert (t <> u) by congruence. unfold wset in E. destruct (w_pcs s u) as [|rv|rv [|]]; try discriminate.
    + injection E as <-. cbn. destruct (Nat.eqb_spec t u); congruence.
    + destruct (w_new s) as [| |q]; [injection E as <-; auto|injection E as <-; auto|]. destruct (put q rv); [|discriminate]. injection E as <-. cbn. destruct (Nat.eqb_spec t u); congruence.
    + destruct (w_ph s); try discriminate. destruct (put _ _); [|discriminate]. injection E as <-. cbn. destruct (Nat.eqb_spec t u); congruence.
Qed.
Lemma set_others g t : forall ls s s', wrun g s ls = Some s' -> (forall l, In l ls -> (forall rv, l <> LSet t rv) /\ l <> LGo t) -> w_pcs s' t = w_pcs s t.
Proof.
  induction ls as [|l ls IH]; intros s s' E H; cbn [wrun] in E; [injection E as <-; auto|]. destruct (wstep g s l) as [s1|] eqn:E1; [|discriminate].
  rewrite (IH s1 s' E) by (intros x X; apply H; right; auto). destruct (H l) as [A B]; [left; auto|]. exact (set_other g s l s1 t E1 A B).
Qed.
Theorem C71_sets_found_refuted : ~ sets_found.
Proof.
  intros H. destruct (wlook_inv _ _ w_lost_look) as (s & E & X). injection X as _ L2 L3 L4 L5 L6 L7 L8. symmetry in L2, L3, L4, L5, L6, L7, L8.
  assert (R : wreach w_four s) by (exists w_lost; auto).
  assert (NK : new_keys w_four s) by (unfold new_keys; rewrite L3; cbn; repeat constructor; cbn; intuition discriminate).
  assert (D : divided s) by (destruct (w_new s) as [| |p] eqn:X; try discriminate; exists p; auto).
  assert (I : In (6, false) (w_done s)) by (rewrite L4; left; auto).
  destruct (C71_lost_for_ever w_four s 6 [] s w_four_good R I ltac:(cbn; lia) eq_refl NK) as [RT NF]. apply NF. apply (H w_four s 6 w_four_good R NK D); auto.
  - destruct (wi_done _ _ (reach_inv w_four s w_four_good R NK)) as [X|X]; [auto|destruct (X _ I)].
  - intros t. destruct t as [|[|[|t]]]; auto. apply (set_others w_four (S (S (S t))) w_lost (winit w_four) s E).
    intros l X. unfold w_lost in X. cbn in X. decompose [or] X; subst; try contradiction; split; intros; discriminate.
Qed.
Print Assumptions C71_sets_found_refuted.
(** the hypotheses of the other theorems are met in the same run, and by a Set that begins after the split *)
Example C71_case : wlook (wrun w_four (winit w_four) (w_lost ++ [LSet 3 4; LGo 3; LGo 3])) =
  Some ([1; 2; 3; 6], Some [4; 5; 7], [6; 2; 4], [(6, false); (2, false); (4, true)], [WIdle; WIdle; WIdle; WIdle]).
Proof. vm_compute. reflexivity. Qed.
