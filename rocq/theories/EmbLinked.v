(** Embedded mode: every used slot is linked, as long as nothing was purged. *)
From Verif Require Import Base BaseProofs Util UtilProofs Bucket TrieProofs TrieInv TrieGrow MapModel ItemProofs MapInv MapSplit
  MapInit Spec MapRefine EmbModel EmbPool EmbTrie EmbInv EmbSplit EmbSpec EmbRefine EmbDel EmbReuse.
From Coq Require Import ZifyBool Sorted.
Local Open Scope Z_scope.
Local Opaque reverse64 level_of base find_bucket.

Definition plinked (p : pool) : Prop := forall i, (i < p_n p)%nat -> (i < List.length (p_slots p))%nat -> sl_linked (slot_at p i) = true.
Definition elinked (s : estate) : Prop := forall n p, b_pool (bget (x_trie s) n) = Some p -> plinked p.
Definition sub_pools (t t' : trie) : Prop := forall n p, b_pool (bget t' n) = Some p -> b_pool (bget t n) = Some p.
Lemma sub_refl t : sub_pools t t. Proof. intros n p H. auto. Qed.
Lemma sub_trans a b c : sub_pools a b -> sub_pools b c -> sub_pools a c. Proof. intros A B n p H. auto. Qed.
Lemma sub_tset t n b : b_pool b = None \/ b_pool b = b_pool (bget t n) -> sub_pools t (tset t n b).
Proof.
  intros HB m p. rewrite bget_tset. destruct (nid_eqb n m) eqn:E; auto. apply nid_eqb_eq in E. subst m. destruct HB as [->| ->]; [discriminate|auto].
Qed.
Lemma sub_down t lv l n : sub_pools t (fst (ensure_down t lv l n)).
Proof.
  unfold ensure_down. match goal with |- context [if ?b then _ else _] => destruct b end; cbn [fst]; [|apply sub_refl].
  intros m p. rewrite bget_tset. destruct (nid_eqb n m) eqn:E.
  - apply nid_eqb_eq in E. subst m. intros H. exact H.
  - rewrite bget_tset. destruct (nid_eqb (child n 0) m); intros H; [discriminate H|exact H].
Qed.
Lemma sub_bfpe : forall f t lv l lev r n, sub_pools t (fst (fst (bfpe_loop f t lv l lev r n))).
Proof.
  induction f as [|f IH]; intros t lv l lev r n; cbn [bfpe_loop]; [apply sub_refl|].
  destruct (lev <? l); [apply sub_refl|]. pose proof (sub_down t lv l n) as SD. destruct (ensure_down t lv l n) as [t1 lv1]. cbn [fst] in SD.
  set (t2 := if b_down (bget t1 n) <=? nib r l then tupd t1 n (fun b => set_down b (nib r l + 1)) else t1).
  assert (S2 : sub_pools t t2).
  { eapply sub_trans; [exact SD|]. unfold t2. destruct (_ <=? _); [|apply sub_refl]. apply sub_tset. right. reflexivity. }
  cbv zeta. fold t2. destruct (lvl t2 _ =? 0); cbn [fst].
  - eapply sub_trans; [exact S2|]. apply sub_tset. left. reflexivity.
  - eapply sub_trans; [exact S2|]. apply IH.
Qed.
Lemma plinked_lo p i : plinked p -> (i <= p_n p)%nat -> plinked (split_lo p i).
Proof.
  intros H Hi a A1 A2. unfold split_lo, p_n in *. cbn [p_len p_slots] in *. rewrite Nat2Z.id in A1. rewrite firstn_length in A2.
  unfold slot_at. cbn [p_slots]. rewrite nth_firstn_lt by auto. apply H; unfold p_n; lia.
Qed.
Lemma nth_skipn_add {A} (d : A) : forall i l a, nth a (skipn i l) d = nth (i + a) l d.
Proof. induction i as [|i IH]; intros [|z l] a; cbn [skipn nth Nat.add]; auto; destruct a; auto. Qed.
Lemma plinked_hi p i : plinked p -> (i <= p_n p)%nat -> plinked (split_hi p i).
Proof.
  intros H Hi a A1 A2. unfold split_hi, p_n in *. cbn [p_len p_slots] in *. rewrite skipn_length in A2.
  unfold slot_at. cbn [p_slots]. rewrite nth_skipn_add. apply H; unfold p_n; lia.
Qed.
Lemma find_idx_lt p r i : find_idx p r = Some i -> (i <= p_n p)%nat.
Proof.
  unfold find_idx. intros E. apply first_ge_spec in E as (l1 & x & l2 & E & -> & _).
  assert (L : (List.length (firstn (p_n p) (p_slots p)) <= p_n p)%nat) by (rewrite firstn_length; lia). rewrite E, app_length in L. lia.
Qed.

Lemma linked_make : forall f s b s', elinked s -> make_bucket2 f s b = Ret s' -> elinked s'.
Proof.
  induction f as [|f IH]; intros s b s' H; cbn [make_bucket2]; [discriminate|]. cbv zeta.
  set (nr := if Z.odd _ then _ else _). unfold bucket_from_pool_embedded. destruct (level_of nr =? 0); [intros E; injection E as <-; auto|].
  pose proof (sub_bfpe 15 (x_trie s) (x_lv s) 2 (level_of nr) nr (top_of nr)) as SB.
  destruct (bfpe_loop 15 (x_trie s) (x_lv s) 2 (level_of nr) nr (top_of nr)) as [[t1 lv1] nb]. cbn [fst] in SB.
  assert (H1 : elinked (mkX t1 (x_bl s) lv1 (x_len s) (x_max s))) by (intros n p Hp; apply (H n p), SB; exact Hp).
  destruct (in_blist (x_bl s) nb); [discriminate|].
  destruct ((brev t1 nb =? 0) && (1 <? lvl t1 nb)); [intros E; injection E as <-; auto|].
  destruct (b_pool (bget t1 b)) as [p|] eqn:EP; [|discriminate].
  destruct (find_idx p nr) as [[|i]|] eqn:EI; [intros E; injection E as <-; auto| |intros E; injection E as <-; auto].
  pose proof (find_idx_lt _ _ _ EI) as Hi. assert (LP : plinked p) by (apply (H1 b p); exact EP).
  set (t3 := tupd (tupd t1 nb _) b _).
  assert (H3 : forall bl lv, elinked (mkX t3 bl lv (x_len s) (x_max s))).
  { intros bl lv n q. cbn [x_trie]. unfold t3, tupd. rewrite bget_tset. destruct (nid_eqb b n).
    - cbn [set_blen set_pool b_pool]. intros E. injection E as <-. apply plinked_lo; auto.
    - rewrite bget_tset. destruct (nid_eqb nb n).
      + cbn [set_blen set_pool b_pool]. intros E. injection E as <-. apply plinked_hi; auto.
      + intros E. apply (H1 n q). exact E. }
  destruct (_ <? _); [apply IH; apply H3|]. destruct (_ <? _); [apply IH; apply H3|]. intros E. injection E as <-. apply H3.
Qed.

(** the slots that are already there stay or become linked *)
Definition but_linked (p : pool) (i : nat) : Prop := forall a, a <> i -> (a < p_n p)%nat -> (a < List.length (p_slots p))%nat -> sl_linked (slot_at p a) = true.
Lemma linked_get : forall f p rv p1 i, plinked p -> (p_n p <= List.length (p_slots p))%nat -> 0 <= p_len p -> get_with_fn f p rv = GSlot p1 i -> but_linked p1 i.
Proof.
  induction f as [|f IH]; intros p rv p1 i H HN HZ; cbn [get_with_fn]; [discriminate|]. cbv zeta.
  destruct (Z.eqb_spec (p_len p) 0) as [E0|N0].
  { destruct (_ <=? _); [discriminate|]. intros E. injection E as <- <-. intros a A1 A2 A3. unfold p_n in A2. cbn [p_len] in A2. lia. }
  destruct (free_idx p rv _) as [a|].
  { intros E. injection E as <- <-. intros b B1 B2 B3. unfold upd_slot, slot_at, p_n in *. cbn [p_slots p_len] in *. rewrite nth_upd_nth_other by auto.
    rewrite upd_nth_length in B3. apply H; auto. }
  destruct (p_cap p =? p_len p).
  { apply IH.
    - intros a A1 A2. assert (AL : (a < p_n p)%nat) by exact A1. unfold slot_at, expand. cbn [p_slots]. rewrite app_nth1 by (rewrite firstn_length; lia).
      rewrite nth_firstn_lt by auto. apply H; lia.
    - unfold expand, p_n. cbn [p_slots p_len]. rewrite app_length, repeat_length, firstn_length. unfold p_n in HN. lia.
    - exact HZ. }
  destruct (last_active _ _) as [tl|]; [|discriminate]. destruct (_ <? _).
  { destruct (_ <=? _); [discriminate|]. intros E. injection E as <- <-. intros a A1 A2 A3. unfold p_n in *. cbn [p_len p_slots] in *. apply H; unfold p_n; lia. }
  destruct (find_idx p rv) as [a|] eqn:EI.
  2:{ apply IH; auto. }
  pose proof (find_idx_lt _ _ _ EI) as Ha. intros E. injection E as <- <-. intros b B1 B2 B3.
  set (old := map relink (firstn (p_n p) (p_slots p))).
  assert (OL : List.length old = p_n p) by (unfold old; rewrite map_length, firstn_length; lia).
  assert (OK : forall z, (z < p_n p)%nat -> sl_linked (nth z old zero_slot) = true).
  { intros z Hz. rewrite (nth_indep old zero_slot (relink zero_slot)) by lia. unfold old. rewrite map_nth. reflexivity. }
  assert (Hb : (b < S (p_n p))%nat) by (unfold p_n, insert_at in B2 |- *; cbn [p_len] in B2; lia).
  unfold slot_at, insert_at. cbn [p_slots]. fold old. destruct (Nat.ltb_spec b a) as [LT|GE].
  - rewrite app_nth1 by (rewrite firstn_length; lia). rewrite nth_firstn_lt by auto. apply OK. lia.
  - rewrite app_nth2 by (rewrite firstn_length; lia). rewrite firstn_length. replace (Nat.min a (List.length old)) with a by lia.
    destruct (b - a)%nat as [|z] eqn:EB; [lia|]. cbn [nth]. rewrite app_nth1 by (rewrite skipn_length; lia). rewrite nth_skipn_add. apply OK. lia.
Qed.

Lemma linked_new max : elinked (new_emb max).
Proof.
  intros n p. unfold new_emb, emb_trie. cbn [x_trie]. intros E i Hi _. exfalso.
  assert (L : p_len p = 0).
  { assert (G : forall t, Forall (fun x => match b_pool (snd x) with Some q => p_len q = 0 | None => True end) t -> b_pool (bget t n) = Some p -> p_len p = 0).
    { clear. intros t. unfold bget. induction t as [|[a b] t IH]; intros F; cbn [tget]; [discriminate|]. apply Forall_cons_iff in F as [F1 F2].
      destruct (nid_eqb a n); [|auto]. cbn [snd] in F1. intros E. rewrite E in F1. exact F1. }
    apply (G _ ) in E; auto. constructor; [reflexivity|]. apply Forall_map. apply Forall_forall. intros z _. reflexivity. }
  unfold p_n in Hi. rewrite L in Hi. cbn in Hi. lia.
Qed.
Lemma linked_moved s s' n q z : elinked s -> moved s s' n q z -> plinked q -> elinked s'.
Proof.
  intros H (_ & _ & _ & _ & M5 & M6) Q m p E. destruct (nid_eq_dec m n) as [->|N]; [rewrite M5 in E; injection E as <-; exact Q|]. rewrite M6 in E by auto. apply (H m p E).
Qed.
Lemma linked_upd s n i f : elinked s -> (forall sl, sl_linked (f sl) = sl_linked sl) -> elinked (upd_item s n i f).
Proof.
  intros H Hf. unfold upd_item. destruct (b_pool (bget (x_trie s) n)) as [p|] eqn:EP; [|auto].
  apply (linked_moved s _ n (upd_slot p i f) _ H (moved_set s n _)). intros a A1 A2. unfold upd_slot, slot_at, p_n in *. cbn [p_slots p_len] in *. rewrite upd_nth_length in A2.
  destruct (Nat.eq_dec a i) as [->|N].
  - rewrite nth_upd_nth_same by auto. rewrite Hf. apply (H n p EP); auto.
  - rewrite nth_upd_nth_other by auto. apply (H n p EP); auto.
Qed.
Lemma linked_blen s n g : elinked s -> elinked (set_xtrie s (tupd (x_trie s) n (fun b => set_blen b (g b)))).
Proof.
  intros H m p. unfold set_xtrie, tupd. cbn [x_trie]. rewrite bget_tset. destruct (nid_eqb n m) eqn:E; [|apply H].
  apply nid_eqb_eq in E. subst m. cbn [set_blen b_pool]. apply H.
Qed.
Lemma linked_step h s m o : erel s m -> elinked s -> store_or_read o ->
  (forall k c c', writes h o = Some (k, c) -> c' <> c -> sm_map m (k, c') = None) -> elinked (fst (estep h s o)).
Proof.
  intros R H HO HC.
  assert (G : forall k c, fst (eget s k c) = s) by (intros k c; unfold eget; destruct (eload s k c) as [[[n i]|]| | |]; auto).
  assert (GI : forall k c, fst (eget_item s k c) = s) by (intros k c; unfold eget_item; destruct (eload s k c) as [[[n i]|]| | |]; auto).
  destruct o as [key v|i|key|k c|key|k c|key|key|]; try contradiction; cbn [estep]; unfold ewith; rewrite ?G, ?GI; auto.
  2, 3: destruct (key_to_hash h key) as [[k c]|]; rewrite ?G, ?GI; auto.
  destruct HO as (x & ->). destruct (key_to_hash h (KStr x)) as [[k c]|] eqn:EK; [|unfold eset; rewrite EK; auto].
  pose proof (key_range _ _ _ _ EK) as [Hk Hc]. cbn [writes] in HC. rewrite EK in HC.
  destruct (er_inv _ _ R) as (xl & I). destruct (eload_rel s m k c R Hk) as [E|[(n & j & p & E & HT & HI & EM)|(E & EM)]].
  - unfold eset. rewrite EK, E. auto.
  - unfold eset. rewrite EK, E. unfold eupdate. destruct (set_value _ _ v) as [[v' ok]|]; cbn [fst]; [|auto]. apply linked_upd; auto.
  - assert (FR : forall z, cont s z -> pr_rev z <> reverse64 k).
    { intros [[[[r cf] d] ky] vl] HZ Er. cbn [pr_rev fst] in Er. subst r.
      assert (D0 : d = false).
      { destruct HZ as (y & b & p & Hy & HP & Hin). apply in_map_iff in Hin as (sl & Es & Hs).
        pose proof (er_nd _ _ R y b p Hy HP sl Hs) as D. unfold pr in Es. congruence. }
      subst d. assert (EX : sm_map m (k, cf) = Some (mkBd KSample ky vl)) by (apply (er_at _ _ R); eauto).
      destruct (Z.eq_dec cf c) as [->|NE]; [congruence|]. rewrite (HC k c cf eq_refl NE) in EX. discriminate. }
    destruct (eset_new h s xl x v k c I (er_nd _ _ R) (er_max _ _ R) EK E FR) as (s' & xl' & ES & _).
    destruct (eload_spec s xl k c I) as [E'|[(n & j & p & E' & _)|(_ & y & b & p & Hy & Eb & Ri & HP & K & _)]]; [congruence|congruence|].
    assert (NP : forall sl, In sl (live p) -> sl_rev sl <> reverse64 k).
    { intros sl Hs E0. apply (FR (pr sl)); [|exact E0]. exists y, b, p. split; auto. split; auto. apply in_map; auto. }
    destruct (get_with_fn_ok p _ _ (reverse64 k) K (er_nd _ _ R _ _ _ Hy HP) Ri NP) as (p1 & i & l1 & l2 & EG & EZ & _ & EN & _ & _ & HU).
    assert (BB : base (x_trie s) b = b) by (apply (base_linked _ xl); [apply (ei_trie _ _ I)|apply (ei_adj_x s xl I _ _ Hy)]).
    pose proof (eset_slot h s x v k c b p p1 i EK (eq_sym Eb) BB HP E EG) as SL.
    rewrite EZ in SL. cbn [zero_slot sl_val sl_del sl_linked] in SL. destruct (set_value_zero v) as (ok & EV). rewrite EV in SL. destruct SL as (s2 & M2 & _ & _ & OUT).
    pose proof (linked_get 4 p (reverse64 k) p1 i (H b p HP) (po_n _ _ _ K) (proj1 (po_len _ _ _ K)) EG) as BL.
    assert (PF : plinked (filled p1 i (reverse64 k) c (KStr x) v true)).
    { intros a A1 A2. unfold filled, upd_slot, p_n in A1, A2. cbn [p_len p_slots] in A1, A2. rewrite upd_nth_length in A2. unfold filled, upd_slot, slot_at at 1. cbn [p_slots].
      destruct (Nat.eq_dec a i) as [->|N]; [rewrite nth_upd_nth_same by auto; reflexivity|]. rewrite nth_upd_nth_other by auto. apply BL; auto. }
    pose proof (linked_moved _ _ _ _ _ H M2 PF) as L2.
    destruct (OUT s' ES) as (s4 & H4 & ->). rewrite ES. cbn [fst]. apply linked_blen. destruct H4 as [->|H4]; [auto|]. eapply linked_make; eauto.
Qed.
Lemma linked_run h : forall os s m, erel s m -> elinked s -> Forall store_or_read os ->
  (forall o k c c', In o os -> writes h o = Some (k, c) -> c' <> c -> sm_map m (k, c') = None) -> no_collision h os ->
  existsb stops (eouts h s os) = false -> elinked (erun h s os).
Proof.
  induction os as [|o os IH]; intros s m R H HF HC HN NS; cbn [erun]; auto. apply Forall_cons_iff in HF as [HO HF].
  pose proof (linked_step h s m o R H HO (fun k c c' => HC o k c c' (or_introl eq_refl))) as L.
  pose proof (estep_agrees h s m o R HO (fun k c c' => HC o k c c' (or_introl eq_refl))) as A.
  cbn [eouts] in NS. destruct (estep h s o) as [s' r]. cbn [fst snd] in *. cbn [existsb] in NS. apply orb_false_iff in NS as [N1 N2]. rewrite N1 in *.
  destruct A as [[-> _]|[_ A]]; [discriminate N1|].
  apply (IH s' _ A L HF); auto.
  - intros o' k c c' Hin HW NE. destruct (sm_map (fst (sm_step h m o)) (k, c')) eqn:E; auto. exfalso.
    destruct (sm_step_writes h m o k c' ltac:(congruence)) as [X|X].
    + apply X. eapply HC; eauto. right. auto.
    + apply NE. symmetry. eapply (HN o' o); [right; auto|left; auto|eauto|eauto].
  - intros o1 o2 k c c' I1 I2. apply HN; right; auto.
Qed.

(** * A fresh slot behind the deleted last one *)
Lemma search_appended P Q j lo hi r : pool_ok P lo hi -> nodel P -> p_n P = S j -> (0 < j)%nat -> p_n Q = S (S j) ->
  (forall i, (i < j)%nat -> slot_at Q i = slot_at P i) -> sl_del (slot_at Q j) = true -> sl_rev (slot_at Q j) = sl_rev (slot_at P j) ->
  slot_at Q (S j) = slot_at P j ->
  emb_search Q r = match emb_search P r with Some i => Some (if Nat.eqb i j then S j else i) | None => None end.
Proof.
  intros K ND EP J0 EQ SO DQ RQ SQ.
  assert (DP : forall i, (i < S j)%nat -> sl_del (slot_at P i) = false) by (intros i Hi; apply (nodel_at P lo hi i K ND); lia).
  assert (KP : forall i, (i < S j)%nat -> skip_left (p_slots P) i = i) by (intros i Hi; apply skip_left_self, DP; auto).
  assert (KQ : forall i, (i < j)%nat -> skip_left (p_slots Q) i = i) by (intros i Hi; apply skip_left_self; fold (slot_at Q i); rewrite SO by auto; apply DP; lia).
  assert (KJ : skip_left (p_slots Q) j = (j - 1)%nat).
  { destruct j as [|j']; [lia|]. cbn [skip_left]. fold (slot_at Q (S j')). rewrite DQ. rewrite KQ by lia. lia. }
  assert (KS : skip_left (p_slots Q) (S j) = S j) by (apply skip_left_self; fold (slot_at Q (S j)); rewrite SQ; apply DP; lia).
  set (f := fun i => r <=? sl_rev (slot_at P (skip_left (p_slots P) i))). set (g := fun i => r <=? sl_rev (slot_at Q (skip_left (p_slots Q) i))).
  assert (F : forall i, (i < S j)%nat -> f i = (r <=? sl_rev (slot_at P i))) by (intros i Hi; unfold f; rewrite KP by auto; auto).
  assert (G : forall i, (i < S (S j))%nat -> g i = f (if Nat.ltb i j then i else if Nat.eqb i j then (j - 1)%nat else j)).
  { intros i Hi. destruct (Nat.ltb_spec i j) as [LT|GE].
    - unfold g, f. rewrite KQ, KP, SO by lia. auto.
    - destruct (Nat.eqb_spec i j) as [->|NE].
      + unfold g, f. rewrite KJ, KP, SO by lia. auto.
      + assert (i = S j) by lia. subst i. unfold g, f. rewrite KS, KP, SQ by lia. auto. }
  assert (MF : forall a b, (a <= b)%nat -> (b < S j)%nat -> f a = true -> f b = true).
  { intros a b Hab Hb. rewrite !F by lia. pose proof (slot_le P lo hi a b K ltac:(lia)). lia. }
  assert (IQ : sort_search (p_n Q) 0 (p_n Q) g = let i := sort_search (p_n P) 0 (p_n P) f in if Nat.ltb i j then i else if Nat.eqb i j then S j else S (S j)).
  { rewrite EP, EQ. destruct (sort_search_spec f (S j) 0 (S j)) as (A & B & C); try lia. { intros a b [_ Hab] Hb Ha. apply (MF a b); auto. }
    destruct (sort_search_spec g (S (S j)) 0 (S (S j))) as (A' & B' & C'); try lia.
    { intros a b Hab Hb. rewrite !G by lia. apply MF.
      - destruct (Nat.ltb_spec a j), (Nat.ltb_spec b j), (Nat.eqb_spec a j), (Nat.eqb_spec b j); lia.
      - destruct (Nat.ltb_spec b j), (Nat.eqb_spec b j); lia. }
    set (i := sort_search (S j) 0 (S j) f) in *. set (i' := sort_search (S (S j)) 0 (S (S j)) g) in *. cbv zeta.
    assert (LO : forall a, (a < i')%nat -> (a < S (S j))%nat -> f (if Nat.ltb a j then a else if Nat.eqb a j then (j - 1)%nat else j) = false) by (intros a Ha Ha'; rewrite <- G by auto; apply B'; lia).
    assert (HI : forall a, (i' <= a)%nat -> (a < S (S j))%nat -> f (if Nat.ltb a j then a else if Nat.eqb a j then (j - 1)%nat else j) = true) by (intros a Ha Ha'; rewrite <- G by auto; apply C'; lia).
    destruct (Nat.ltb_spec i j) as [LT|GE].
    - destruct (Nat.lt_trichotomy i' i) as [L|[E|L]]; auto; exfalso.
      + specialize (HI i' ltac:(lia) ltac:(lia)). destruct (Nat.ltb_spec i' j); [|lia]. rewrite B in HI by lia. discriminate.
      + specialize (LO i ltac:(lia) ltac:(lia)). destruct (Nat.ltb_spec i j); [|lia]. rewrite C in LO by lia. discriminate.
    - assert (FJ : f (j - 1)%nat = false) by (apply B; lia).
      assert (I1 : (j < i')%nat).
      { destruct (Nat.le_gt_cases i' j) as [L|]; auto. exfalso. specialize (HI j ltac:(lia) ltac:(lia)). destruct (Nat.ltb_spec j j); [lia|]. rewrite Nat.eqb_refl, FJ in HI. discriminate. }
      destruct (Nat.eqb_spec i j) as [Ei|Ni].
      + assert (FT : f j = true) by (apply C; lia). destruct (Nat.eq_dec i' (S (S j))) as [E|]; [|lia]. exfalso.
        specialize (LO (S j) ltac:(lia) ltac:(lia)). destruct (Nat.ltb_spec (S j) j); [lia|]. destruct (Nat.eqb_spec (S j) j); [lia|]. congruence.
      + assert (FT : f j = false) by (apply B; lia). destruct (Nat.eq_dec i' (S j)) as [E|]; [|lia]. exfalso.
        specialize (HI (S j) ltac:(lia) ltac:(lia)). destruct (Nat.ltb_spec (S j) j); [lia|]. destruct (Nat.eqb_spec (S j) j); [lia|]. congruence. }
  unfold emb_search. fold f g. cbv zeta. rewrite IQ. cbv zeta. rewrite EP, EQ. set (i := sort_search (S j) 0 (S j) f).
  destruct (Nat.ltb_spec i j) as [LT|GE].
  - destruct (Nat.ltb_spec i (S (S j))); [|lia]. destruct (Nat.ltb_spec i (S j)); [|lia]. cbn [andb]. rewrite SO by auto.
    destruct (sl_rev (slot_at P i) =? r); auto. rewrite KQ, KP by lia. destruct (Nat.eqb_spec i j); [lia|auto].
  - destruct (Nat.eqb_spec i j) as [->|NE].
    + destruct (Nat.ltb_spec (S j) (S (S j))); [|lia]. destruct (Nat.ltb_spec j (S j)); [|lia]. cbn [andb]. rewrite SQ.
      destruct (sl_rev (slot_at P j) =? r); auto. rewrite KS, KP by lia. rewrite Nat.eqb_refl. auto.
    + destruct (Nat.ltb_spec (S (S j)) (S (S j))); [lia|]. destruct (Nat.ltb_spec i (S j)); [lia|]. auto.
Qed.

(** reads see only what lookups give *)
Definition looked (s : estate) (k c : Z) : res (option (gkey * gval)) :=
  match eload s k c with
  | Ret (Some (n, i)) => Ret (Some (sl_key (item_at s n i), sl_val (item_at s n i)))
  | Ret None => Ret None | Pan => Pan | Div => Div | Undef => Undef
  end.
Lemma reads_looked h : forall os s s', (forall k c, looked s k c = looked s' k c) -> x_len s = x_len s' -> Forall read_only os -> eouts h s os = eouts h s' os.
Proof.
  induction os as [|o os IH]; intros s s' HS HL HF; cbn [eouts]; auto. apply Forall_cons_iff in HF as [HO HF].
  assert (G : forall k c, (fst (eget s k c) = s /\ fst (eget s' k c) = s') /\ snd (eget s k c) = snd (eget s' k c)).
  { intros k c. specialize (HS k c). unfold looked, eget in *. destruct (eload s k c) as [[[n i]|]| | |], (eload s' k c) as [[[n' i']|]| | |]; try discriminate HS; cbn [fst snd]; auto. injection HS as _ ->. auto. }
  assert (GI : forall k c, (fst (eget_item s k c) = s /\ fst (eget_item s' k c) = s') /\ snd (eget_item s k c) = snd (eget_item s' k c)).
  { intros k c. specialize (HS k c). unfold looked, eget_item in *. destruct (eload s k c) as [[[n i]|]| | |], (eload s' k c) as [[[n' i']|]| | |]; try discriminate HS; cbn [fst snd]; auto. injection HS as -> ->. auto. }
  assert (ST : (fst (estep h s o) = s /\ fst (estep h s' o) = s') /\ snd (estep h s o) = snd (estep h s' o)).
  { destruct o as [key v|i|key|k c|key|k c|key|key|]; try contradiction; cbn [estep]; unfold ewith; auto.
    - destruct (key_to_hash h key) as [[k c]|]; auto.
    - destruct (key_to_hash h key) as [[k c]|]; auto.
    - cbn [fst snd]. rewrite HL. auto. }
  destruct (estep h s o) as [s1 r], (estep h s' o) as [s1' r']. cbn [fst snd] in ST. destruct ST as [[-> ->] ->].
  f_equal. destruct (stops r'); auto.
Qed.

Lemma get_behind f q lo hi rv j : pool_ok q lo hi -> p_n q = S j -> (0 < j)%nat -> sl_del (slot_at q j) = true -> sl_rev (slot_at q j) = rv ->
  (forall i, (i < j)%nat -> sl_del (slot_at q i) = false) -> p_cap q <> p_len q ->
  get_with_fn (S f) q rv = GSlot (mkP (p_slots q) (p_len q + 1)) (S j).
Proof.
  intros K EN J0 DJ RJ ND NC. cbn [get_with_fn]. pose proof (po_len _ _ _ K). assert (PL : p_len q = Z.of_nat (S j)) by (unfold p_n in EN; lia).
  destruct (Z.eqb_spec (p_len q) 0); [lia|]. rewrite EN.
  assert (LA : last_active (p_slots q) (S j) = Some (j - 1)%nat).
  { cbn [last_active]. fold (slot_at q j). rewrite DJ. apply last_active_live; auto. }
  rewrite LA. assert (FI : free_idx q rv (Some (j - 1)%nat) = None).
  { cbn [free_idx]. set (idx := sort_search _ _ _ _). destruct (_ || _) eqn:E; auto. apply orb_false_iff in E as [E1 E2]. apply Nat.leb_gt in E1. apply Nat.ltb_ge in E2.
    rewrite ND by lia. auto. }
  rewrite FI. destruct (Z.eqb_spec (p_cap q) (p_len q)); [contradiction|].
  pose proof (slot_lt q lo hi (j - 1) j K ltac:(lia)) as LT. destruct (Z.ltb_spec (sl_rev (slot_at q (j - 1))) rv); [|lia].
  destruct (Z.leb_spec (p_cap q) (p_len q)); [lia|]. reflexivity.
Qed.
Lemma get_behind_full q lo hi rv j : pool_ok q lo hi -> p_n q = S j -> (0 < j)%nat -> sl_del (slot_at q j) = true -> sl_rev (slot_at q j) = rv ->
  (forall i, (i < j)%nat -> sl_del (slot_at q i) = false) ->
  exists q1, get_with_fn 4 q rv = GSlot q1 (S j) /\ p_len q1 = p_len q + 1 /\ (forall i, (i < S j)%nat -> slot_at q1 i = slot_at q i) /\ slot_at q1 (S j) = zero_slot /\
    (S j < List.length (p_slots q1))%nat.
Proof.
  intros K EN J0 DJ RJ ND. pose proof (po_len _ _ _ K) as PL0. assert (PL : p_len q = Z.of_nat (S j)) by (unfold p_n in EN; lia).
  assert (REST : forall q' lo' hi', pool_ok q' lo' hi' -> p_n q' = S j -> p_cap q' <> p_len q' -> slot_at q' (S j) = zero_slot /\ (S j < List.length (p_slots q'))%nat).
  { intros q' lo' hi' K' EN' NC. pose proof (po_len _ _ _ K') as PL'. unfold p_cap, p_n in *. assert (L : (S j < List.length (p_slots q'))%nat) by lia. split; auto.
    unfold slot_at. apply (po_rest _ _ _ K'). unfold p_n. rewrite EN'. replace (nth (S j) (p_slots q') zero_slot) with (nth 0 (skipn (S j) (p_slots q')) zero_slot) by (rewrite nth_skipn_add, Nat.add_0_r; auto). apply nth_In. rewrite skipn_length. lia. }
  destruct (Z.eq_dec (p_cap q) (p_len q)) as [EC|NC].
  - destruct (expand_ok q lo hi K) as (K' & LV & LE & LC).
    assert (EN' : p_n (expand q) = S j) by exact EN.
    assert (SE : forall i, (i < S j)%nat -> slot_at (expand q) i = slot_at q i) by (intros i Hi; rewrite <- !live_nth by lia; rewrite LV; auto).
    assert (NC : p_cap (expand q) <> p_len (expand q)).
    { lia. }
    destruct (REST _ _ _ K' EN' NC) as [Z1 Z2].
    exists (mkP (p_slots (expand q)) (p_len (expand q) + 1)). split; [|split; [reflexivity|split; [exact SE|split; [exact Z1|exact Z2]]]].
    change (get_with_fn 4 q rv) with (get_with_fn (S 3) q rv). cbn [get_with_fn]. destruct (Z.eqb_spec (p_len q) 0); [lia|]. rewrite EN.
    assert (LA : last_active (p_slots q) (S j) = Some (j - 1)%nat).
    { cbn [last_active]. fold (slot_at q j). rewrite DJ. apply last_active_live; auto. }
    rewrite LA. assert (FI : free_idx q rv (Some (j - 1)%nat) = None).
    { cbn [free_idx]. set (idx := sort_search _ _ _ _). destruct (_ || _) eqn:E; auto. apply orb_false_iff in E as [E1 E2]. apply Nat.leb_gt in E1. apply Nat.ltb_ge in E2.
      rewrite ND by lia. auto. }
    rewrite FI. destruct (Z.eqb_spec (p_cap q) (p_len q)); [|contradiction].
    refine (get_behind 2 (expand q) lo hi rv j K' EN' J0 _ _ _ NC).
    + rewrite SE by lia. auto.
    + rewrite SE by lia. auto.
    + intros i Hi. rewrite SE by lia. auto.
  - destruct (REST _ _ _ K EN NC) as [Z1 Z2]. exists (mkP (p_slots q) (p_len q + 1)). split; [|split; [reflexivity|split; [reflexivity|split; [exact Z1|exact Z2]]]].
    apply (get_behind 3 q lo hi rv j); auto.
Qed.

Lemma ru_deleted_last h s m x v k c n j p reads : erel s m -> key_to_hash h (KStr x) = Some (k, c) -> eload s k c = Ret (Some (n, j)) -> hit s k c n j p ->
  Forall read_only reads -> p_len p - 1 = Z.of_nat j -> (0 < j)%nat -> p_len p < x_max s ->
  agree (eouts h (upd_item s n j set_sdel) (OpSet (KStr x) v :: reads))
        (RBool true :: sm_outs h (mkSM (sm_put m (k, c) (Some (mkBd KSample (KStr x) v))) KSample (sm_created m + 1)) reads).
Proof.
  intros H EK EL HT RO EJ J0 PM. pose proof (proj1 (key_range _ _ _ _ EK)) as Hk.
  destruct (ru_ok s m k c n j p H HT) as (lo & hi & K & ND & Hj & Hr & Hc & HL). pose proof (ru_pool s k c n j p HT) as HP.
  assert (EN : p_n p = S j) by (unfold p_n; lia).
  assert (EU : upd_item s n j set_sdel = set_bpool s n (upd_slot p j set_sdel)) by (unfold upd_item; rewrite HP; reflexivity).
  rewrite EU. set (q := upd_slot p j set_sdel).
  destruct (upd_slot_ok p lo hi j set_sdel K Hj eq_refl) as (K' & _ & N' & S'). fold q in K', N', S'.
  pose proof (moved_set s n q) as M. set (s1 := set_bpool s n q) in *.
  assert (Sj : slot_at q j = set_sdel (slot_at p j)) by (rewrite S', Nat.eqb_refl by auto; auto).
  assert (SO : forall i, (i < j)%nat -> slot_at q i = slot_at p i) by (intros i Hi; rewrite S' by lia; destruct (Nat.eqb_spec j i); [lia|auto]).
  assert (ES : emb_search q (reverse64 k) = None) by (apply (search_hidden q lo hi _ K' j); [lia|rewrite Sj; exact Hr|rewrite Sj; reflexivity|auto]).
  destruct (get_behind_full q lo hi (reverse64 k) j K' ltac:(rewrite N'; exact EN) J0 ltac:(rewrite Sj; reflexivity) ltac:(rewrite Sj; exact Hr)
     ltac:(intros i Hi; rewrite SO by auto; apply (nodel_at p lo hi i K ND); lia)) as (q1 & EG & LN & SQ & SZ & LQ).
  destruct (ru_base s m k c n j p H EL HT q _ s1 M) as [B1 B2].
  pose proof (eset_slot h s1 x v k c n q q1 (S j) EK B1 B2 ltac:(apply M) (ru_absent s m k c n j p H EL HT q _ s1 M ES) EG) as SL.
  rewrite SZ in SL. cbn [zero_slot sl_val sl_del sl_linked] in SL. destruct (set_value_zero v) as (ok & EV). rewrite EV in SL. destruct SL as (s2 & M2 & NS & _).
  assert (XM : x_max s1 = x_max s) by apply M. assert (XL : x_len s1 = x_len s) by apply M.
  destruct NS as (s' & ES' & M'). { right. rewrite LN, XM. change (p_len q) with (p_len p). lia. }
  apply agree_cons. cbn [estep]. right. rewrite ES'. cbn [fst snd seen]. split; auto.
  set (Q := filled q1 (S j) (reverse64 k) c (KStr x) v true) in *.
  assert (QS : slot_at Q (S j) = mkS (reverse64 k) c false (KStr x) v true).
  { unfold Q, filled, upd_slot, slot_at at 1. cbn [p_slots]. rewrite nth_upd_nth_same by auto. rewrite SZ. reflexivity. }
  assert (QO : forall i, (i < S j)%nat -> slot_at Q i = slot_at q i).
  { intros i Hi. rewrite <- SQ by auto. unfold Q, filled, upd_slot, slot_at at 1. cbn [p_slots]. apply nth_upd_nth_other. lia. }
  assert (QN : p_n Q = S (S j)) by (unfold Q, filled, upd_slot, p_n; cbn [p_len]; rewrite LN; change (p_len q) with (p_len p); lia).
  set (P := upd_slot p j (rewrite_slot false (KStr x) v true)).
  destruct (upd_slot_ok p lo hi j (rewrite_slot false (KStr x) v true) K Hj eq_refl) as (KP & _ & NP & SP). fold P in KP, NP, SP.
  assert (NDP : nodel P).
  { intros sl Hs. destruct (in_live _ _ _ _ KP Hs) as (i & Hi & <-). rewrite SP by lia. destruct (Nat.eqb j i); [reflexivity|]. apply (nodel_at p lo hi i K ND). lia. }
  assert (PJ : slot_at P j = mkS (reverse64 k) c false (KStr x) v true) by (rewrite SP, Nat.eqb_refl by auto; unfold rewrite_slot; rewrite Hr, Hc; auto).
  set (s3 := set_bpool s n P). pose proof (moved_set s n P) as M3. fold s3 in M3.
  set (sx := mkX (x_trie s3) (x_bl s3) (x_lv s3) (x_len s3 + 1) (x_max s3)).
  assert (MX : moved s sx n P (sm_created m + 1)).
  { destruct M3 as (C1 & C2 & C3 & C4 & C5 & C6). split; [exact C1|]. split; [exact C2|]. split; [exact C3|]. split; [cbn; rewrite <- (er_len _ _ H); auto|]. split; [exact C5|exact C6]. }
  assert (MS : moved s s' n Q (sm_created m + 1)) by (rewrite <- (er_len _ _ H); rewrite XL in M'; exact (moved_trans _ _ _ _ _ _ _ _ M M')).
  pose proof (reuse_srel s m k c n j p sx false (KStr x) v true _ H Hk HT MX) as R. cbn [andb] in R.
  rewrite (reads_looked h reads s' sx); [apply (srel_reads (in_first s)); auto| |destruct MX as (_ & _ & _ & -> & _); apply MS|auto].
  intros k' c'. unfold looked, eload, pool_of. destruct MX as (SX & _ & _ & _ & X5 & X6). destruct MS as (SS & _ & _ & _ & S5 & S6).
  rewrite <- (find_bucket_shape _ _ SX), <- (base_shape _ _ SX), <- (find_bucket_shape _ _ SS), <- (base_shape _ _ SS).
  set (b := base (x_trie s) (find_bucket (x_trie s) (reverse64 k'))).
  destruct (nid_eq_dec b n) as [->|NE].
  - rewrite X5, S5. rewrite (search_appended P Q j lo hi (reverse64 k') KP NDP).
    + destruct (emb_search P (reverse64 k')) as [i|] eqn:EI; auto. destruct (search_some P lo hi _ KP i EI) as [Hi _].
      assert (SI : slot_at Q (if Nat.eqb i j then S j else i) = slot_at P i).
      { destruct (Nat.eqb_spec i j) as [->|N]; [congruence|]. rewrite QO, S', SP by lia. destruct (Nat.eqb_spec j i); [lia|auto]. }
      rewrite SI. destruct (_ && _); auto. unfold item_at. rewrite X5, S5, SI. auto.
    + rewrite NP. exact EN.
    + exact J0.
    + exact QN.
    + intros i Hi. rewrite QO, SO, SP by lia. destruct (Nat.eqb_spec j i); [lia|auto].
    + rewrite QO, Sj by lia. reflexivity.
    + rewrite QO, Sj, PJ by lia. exact Hr.
    + congruence.
  - rewrite X6, S6 by auto. destruct (b_pool (bget (x_trie s) b)) as [pb|] eqn:EB; auto. destruct (emb_search pb (reverse64 k')) as [i|]; auto.
    destruct (_ && _); auto. unfold item_at. rewrite X6, S6 by auto. auto.
Qed.

(** MaxPerBucket never changes *)
Lemma max_make : forall f s b s', make_bucket2 f s b = Ret s' -> x_max s' = x_max s.
Proof.
  induction f as [|f IH]; intros s b s'; cbn [make_bucket2]; [discriminate|]. cbv zeta.
  destruct (bucket_from_pool_embedded _ _ _) as [[[t1 lv1] nb]|]; [|intros E; injection E as <-; auto].
  destruct (in_blist (x_bl s) nb); [discriminate|]. destruct (_ && _); [intros E; injection E as <-; auto|].
  destruct (b_pool (bget t1 b)) as [p|]; [|discriminate]. destruct (find_idx p _) as [[|i]|]; try (intros E; injection E as <-; reflexivity).
  destruct (_ <? _); [intros E; apply IH in E; exact E|]. destruct (_ <? _); [intros E; apply IH in E; exact E|]. intros E. injection E as <-. reflexivity.
Qed.
Lemma max_upd s n i f : x_max (upd_item s n i f) = x_max s.
Proof. unfold upd_item. destruct (b_pool _); reflexivity. Qed.
Lemma max_update s n i v : x_max (fst (eupdate s n i v)) = x_max s.
Proof. unfold eupdate. destruct (set_value _ _ v) as [[v' ok]|]; cbn [fst]; auto. apply max_upd. Qed.
Lemma max_step h s o : x_max (fst (estep h s o)) = x_max s.
Proof.
  assert (G : forall k c, fst (eget s k c) = s) by (intros k c; unfold eget; destruct (eload s k c) as [[[n i]|]| | |]; auto).
  assert (GI : forall k c, fst (eget_item s k c) = s) by (intros k c; unfold eget_item; destruct (eload s k c) as [[[n i]|]| | |]; auto).
  destruct o as [key v|i|key|k c|key|k c|key|key|]; cbn [estep]; unfold ewith; rewrite ?G, ?GI; auto.
  - unfold eset. destruct (key_to_hash h key) as [[k c]|]; auto. destruct (eload s k c) as [[[n i]|]| | |]; auto; [apply max_update|].
    cbv zeta. destruct (pool_of _ _) as [p|]; auto. destruct (get_with_fn 4 p (reverse64 k)) as [p1 i| |]; auto.
    destruct key; auto. destruct (set_value KSample _ v) as [[v' ok]|]; auto.
    match goal with |- context [if ?b then _ else _] => destruct b end; [|reflexivity].
    match goal with |- context [make_bucket2 64 ?a ?b] => destruct (make_bucket2 64 a b) as [s3| | |] eqn:E end; try reflexivity.
    apply max_make in E. exact E.
  - unfold estore. destruct (item_hash h i) as [[k c]|]; auto. destruct (eload s k c) as [[[n j]|]| | |]; auto; [apply max_update|].
    cbv zeta. match goal with |- context [if ?b then _ else Ret _] => destruct b end; [|reflexivity].
    destruct (in_blist _ _); [|reflexivity].
    match goal with |- context [make_bucket2 64 ?a ?b] => destruct (make_bucket2 64 a b) as [s3| | |] eqn:E end; try reflexivity.
    apply max_make in E. exact E.
  - destruct (key_to_hash h key) as [[k c]|]; rewrite ?G; auto.
  - destruct (key_to_hash h key) as [[k c]|]; rewrite ?GI; auto.
  - destruct (key_to_hash h key) as [[k c]|]; auto. unfold edelete. destruct (eload s k c) as [[[n j]|]| | |]; auto. apply max_upd.
  - destruct (key_to_hash h key) as [[k c]|]; auto. unfold epurge. destruct (eload s k c) as [[[n j]|]| | |]; auto. destruct (b_pool _); reflexivity.
Qed.
Lemma max_run h : forall os s, x_max (erun h s os) = x_max s.
Proof.
  induction os as [|o os IH]; intros s; cbn [erun]; auto. pose proof (max_step h s o) as M. destruct (estep h s o) as [s' r]. cbn [fst] in M.
  destruct (stops r); [auto|]. rewrite IH. auto.
Qed.
