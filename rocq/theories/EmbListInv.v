(** The list of EmbList.v is, for histories that store and read, the buckets in ascending order, each with its
    slots behind its dummy. *)
From Verif Require Import Base BaseProofs Util UtilProofs Bucket TrieProofs TrieInv TrieGrow MapModel ItemProofs MapInv MapSplit
  MapRefine Spec SpecUtil EmbModel EmbPool EmbTrie EmbInv EmbSplit EmbSpec EmbRefine EmbList.
From Coq Require Import ZifyBool Sorted.
Local Open Scope Z_scope.
Local Opaque reverse64 level_of base find_bucket.

Lemma eref_eqb_spec a b : reflect (a = b) (eref_eqb a b).
Proof.
  destruct a as [n|n i], b as [m|m j]; cbn [eref_eqb]; try (constructor; discriminate).
  - destruct (nid_eqb n m) eqn:E; constructor; [apply nid_eqb_eq in E; congruence|].
    intros X. injection X as ->. rewrite nid_eqb_refl in E. discriminate.
  - destruct (nid_eqb n m) eqn:E; cbn [andb].
    + apply nid_eqb_eq in E. subst m. destruct (Nat.eqb_spec i j); constructor; congruence.
    + constructor. intros X. injection X as -> _. rewrite nid_eqb_refl in E. discriminate.
Qed.
Lemma split_at_app P a x b : (forall e, In e a -> P e = false) -> P x = true ->
  split_at P (a ++ x :: b) = Some (a, x :: b).
Proof.
  intros HA HX. induction a as [|e a IH]; cbn [app split_at]; [rewrite HX; auto|].
  rewrite (HA e (or_introl eq_refl)), IH; auto. intros e' He. apply HA. right; auto.
Qed.
Lemma first_split (x : eref) l : In x l -> exists a b, l = a ++ x :: b /\ ~ In x a.
Proof.
  induction l as [|e l IH]; [intros []|]. intros H. destruct (eref_eqb_spec x e) as [->|N].
  - exists [], l. split; auto.
  - destruct H as [->|H]; [congruence|]. destruct (IH H) as (a & b & -> & Ha). exists (e :: a), b. split; auto.
    intros [->|X]; auto.
Qed.
Lemma split_at_ref x a b : ~ In x a -> split_at (eref_eqb x) (a ++ x :: b) = Some (a, x :: b).
Proof.
  intros H. apply split_at_app.
  - intros e He. destruct (eref_eqb_spec x e); auto. subst. contradiction.
  - destruct (eref_eqb_spec x x); auto.
Qed.

(** * Insertion *)
Lemma ins_gt_ok t x start A B : In start A -> (forall e, In e A -> rv_of t e < rv_of t x) ->
  (forall e, In e B -> rv_of t x < rv_of t e) -> B <> [] -> ins_gt t x start (A ++ B) = Some (A ++ x :: B).
Proof.
  intros HS HA HB NB. destruct (first_split _ _ HS) as (a & a2 & -> & Ha).
  unfold ins_gt. rewrite <- app_assoc. cbn [app]. rewrite split_at_ref by auto.
  destruct B as [|y B]; [congruence|].
  rewrite (split_at_app _ (start :: a2) y B).
  - assert (HR : forall p l, rev (a ++ start :: a2) = p :: l -> rv_of t p < rv_of t x).
    { intros p l E. apply HA. apply in_rev. rewrite E. left; auto. }
    destruct (rev (a ++ start :: a2)) as [|p l] eqn:E; [rewrite <- app_assoc; auto|].
    specialize (HR p l eq_refl). destruct (Z.ltb_spec (rv_of t x) (rv_of t p)); [lia|]. rewrite <- app_assoc; auto.
  - intros e He. specialize (HA e ltac:(apply in_or_app; right; exact He)). lia.
  - specialize (HB y (or_introl eq_refl)). lia.
Qed.
Lemma link_in_ok t b x A B : In (RD b) A -> (forall e, In e A -> rv_of t e < rv_of t x) ->
  (forall e, In e B -> rv_of t x < rv_of t e) -> B <> [] -> link_in t b (rv_of t x) x (A ++ B) = Some (A ++ x :: B).
Proof.
  intros HS HA HB NB. destruct (first_split _ _ HS) as (a & a2 & E & Ha).
  unfold link_in. rewrite E at 1. rewrite <- app_assoc. cbn [app]. rewrite split_at_ref by auto.
  destruct B as [|y B]; [congruence|].
  rewrite (split_at_app _ (RD b :: a2) y B).
  - rewrite <- E. destruct (rev A) as [|p l] eqn:ER.
    + apply ins_gt_ok; auto.
    + assert (Hp : In p A) by (apply in_rev; rewrite ER; left; auto).
      destruct (rv_of t p <? rv_of t x); apply ins_gt_ok; auto.
  - intros e He. specialize (HA e ltac:(rewrite E; apply in_or_app; right; exact He)). lia.
  - specialize (HB y (or_introl eq_refl)). lia.
Qed.

(** * Chunks *)
Definition slots (b : nid) (a n : nat) : list eref := map (RS b) (seq a n).
Lemma in_slots b a n e : In e (slots b a n) <-> exists j, e = RS b j /\ (a <= j < a + n)%nat.
Proof.
  unfold slots. rewrite in_map_iff. split.
  - intros (j & <- & Hj). apply in_seq in Hj. eauto.
  - intros (j & -> & Hj). exists j. split; auto. apply in_seq. lia.
Qed.
Lemma chunk_ok b n pre post : (0 < n)%nat -> (forall e, In e pre -> own b e = false) ->
  chunk b n (pre ++ slots b 0 n ++ post) = Some (pre, slots b 0 n, post).
Proof.
  intros Hn HP. unfold chunk. destruct n as [|n]; [lia|].
  assert (NP : ~ In (RS b 0) pre).
  { intros H. specialize (HP _ H). cbn [own] in HP. rewrite nid_eqb_refl in HP. discriminate. }
  change (slots b 0 (S n)) with (RS b 0 :: slots b 1 n) at 1. cbn [app]. rewrite split_at_ref by auto.
  change (RS b 0 :: slots b 1 n ++ post) with (slots b 0 (S n) ++ post).
  replace (S n - 1)%nat with n by lia.
  assert (E : slots b 0 (S n) = slots b 0 n ++ [RS b n]).
  { unfold slots. rewrite seq_S, map_app. auto. }
  rewrite E, <- app_assoc. cbn [app]. rewrite split_at_ref.
  - assert (F : forallb (own b) (slots b 0 n) = true).
    { apply forallb_forall. intros e He. apply in_slots in He as (j & -> & _). cbn [own]. apply nid_eqb_refl. }
    rewrite F. auto.
  - rewrite in_slots. intros (j & Ej & Hj). injection Ej as ->. lia.
Qed.

(** * Taking a slot *)
Lemma link_get_ok p lo hi rv b pre post : pool_ok p lo hi -> nodel p -> lo <= rv < hi ->
  (forall sl, In sl (live p) -> sl_rev sl <> rv) -> (forall e, In e pre -> own b e = false) ->
  exists p1 i, get_with_fn 4 p rv = GSlot p1 i /\ (i <= p_n p)%nat /\
    link_get 4 p rv b (pre ++ slots b 0 (p_n p) ++ post) = Some (pre ++ slots b 0 i ++ slots b (S i) (p_n p - i) ++ post).
Proof.
  intros K N Hrv Hno Hpre.
  assert (ROOM : forall f p, pool_ok p lo hi -> nodel p -> (forall sl, In sl (live p) -> sl_rev sl <> rv) ->
    p_len p < p_cap p -> exists p1 i, get_with_fn (S f) p rv = GSlot p1 i /\ (i <= p_n p)%nat /\
    link_get (S f) p rv b (pre ++ slots b 0 (p_n p) ++ post) = Some (pre ++ slots b 0 i ++ slots b (S i) (p_n p - i) ++ post)).
  { clear p K N Hno. intros f p K N Hno Hcap. cbn [get_with_fn link_get].
    pose proof (po_len _ _ _ K) as PL. pose proof (live_length _ _ _ K) as LL.
    destruct (Z.eqb_spec (p_len p) 0) as [E0|N0].
    - destruct (Z.leb_spec (p_cap p) 0); [lia|]. eexists _, 0%nat. split; [reflexivity|]. split; [lia|].
      unfold p_n. rewrite E0. reflexivity.
    - assert (PN : (0 < p_n p)%nat) by (unfold p_n; lia).
      rewrite (last_active_live (p_slots p) (p_n p)); auto.
      2:{ intros i Hi. apply (nodel_at p lo hi i K N Hi). }
      rewrite (free_idx_none (st := true) p lo hi) by (auto; intros t X; injection X as <-; lia).
      destruct (Z.eqb_spec (p_cap p) (p_len p)); [lia|].
      destruct (Z.ltb_spec (sl_rev (slot_at p (p_n p - 1))) rv) as [Hlt|Hge].
      + destruct (Z.leb_spec (p_cap p) (p_len p)); [lia|]. eexists _, (p_n p). split; [reflexivity|]. split; [lia|].
        rewrite Nat.sub_diag. reflexivity.
      + destruct (find_idx p rv) as [i|] eqn:F.
        * eexists _, i. split; [reflexivity|].
          destruct (find_idx_spec p lo hi rv i K N F) as (l1 & x & l2 & EL & -> & _).
          assert (List.length (live p) = List.length l1 + S (List.length l2))%nat by (rewrite EL, app_length; auto).
          split; [lia|]. unfold relist. rewrite chunk_ok by auto. unfold slots. rewrite map_app, <- app_assoc. auto.
        * exfalso. unfold find_idx in F. fold (live p) in F.
          pose proof (first_ge_none _ _ _ F (slot_at p (p_n p - 1))) as X.
          pose proof (live_in _ _ _ (p_n p - 1) K ltac:(lia)) as Hin. specialize (X Hin (N _ Hin)). lia. }
  pose proof (po_len _ _ _ K) as PL. pose proof (po_cap _ _ _ K) as PC.
  destruct (Z.eq_dec (p_cap p) (p_len p)) as [E|NE]; [|apply ROOM; auto; lia].
  destruct (expand_ok _ _ _ K) as (K' & EL & ELn & EC).
  assert (N' : nodel (expand p)) by (intros sl; rewrite EL; apply N).
  destruct (ROOM 2%nat (expand p) K' N') as (p1 & i & A1 & A2 & A3); [rewrite EL; auto|auto|].
  assert (PNE : p_n (expand p) = p_n p) by (unfold p_n; rewrite ELn; auto). rewrite PNE in *.
  exists p1, i. remember 3%nat as f. cbn [get_with_fn link_get]. destruct (Z.eqb_spec (p_len p) 0); [lia|].
  assert (PN : (0 < p_n p)%nat) by (unfold p_n; lia).
  rewrite (last_active_live (p_slots p) (p_n p)); auto.
  2:{ intros j Hj. apply (nodel_at p lo hi j K N Hj). }
  rewrite (free_idx_none (st := true) p lo hi) by (auto; intros t X; injection X as <-; lia).
  destruct (Z.eqb_spec (p_cap p) (p_len p)); [|lia]. rewrite chunk_ok by auto. auto.
Qed.

(** * The shape of the list *)
Definition plen (t : trie) (n : nid) : nat :=
  if nid_eqb n bmax then 0%nat else match b_pool (bget t n) with Some p => p_n p | None => 0%nat end.
Definition seg (t : trie) (n : nid) : list eref := RD n :: slots n 0 (plen t n).
Definition flat (t : trie) (bl : list nid) : list eref := flat_map (seg t) (rev bl).
Lemma flat_app t a b : flat t (a ++ b) = flat t b ++ flat t a.
Proof. unfold flat. rewrite rev_app_distr, flat_map_app. auto. Qed.
Lemma flat_cons t n b : flat t (n :: b) = flat t b ++ seg t n.
Proof. change (n :: b) with ([n] ++ b). rewrite flat_app. unfold flat at 2. cbn. rewrite app_nil_r. auto. Qed.
Lemma in_flat t bl e : In e (flat t bl) <-> exists n, In n bl /\ In e (seg t n).
Proof.
  unfold flat. rewrite in_flat_map. split; intros (n & H & E); exists n; [rewrite <- in_rev in H|rewrite <- in_rev]; auto.
Qed.
Lemma in_seg t n e : In e (seg t n) <-> e = RD n \/ exists j, e = RS n j /\ (j < plen t n)%nat.
Proof.
  unfold seg. cbn [In]. rewrite in_slots. split.
  - intros [<-|(j & -> & Hj)]; auto. right. exists j. split; auto. lia.
  - intros [->|(j & -> & Hj)]; auto. right. exists j. split; auto. lia.
Qed.
Lemma flat_ext t t' bl : (forall n, In n bl -> b_pool (bget t' n) = b_pool (bget t n)) -> flat t' bl = flat t bl.
Proof.
  intros H. induction bl as [|n bl IH]; auto. rewrite !flat_cons, IH by (intros; apply H; right; auto).
  unfold seg, plen. rewrite H by (left; auto). auto.
Qed.

(** No stored position is a boundary. *)
Definition off (s : estate) : Prop := forall z, cont s z -> ~ In (pr_rev z) (edump s).

Section Flat.
Context (s : estate) (xl : list nid) (I : einv s xl) (A : list nid) (y b : nid) (B : list nid)
        (EB : x_bl s = A ++ y :: b :: B).
Notation t := (x_trie s).
Lemma fl_adj : adj (x_bl s) y b. Proof. exists A, B. auto. Qed.
Lemma fl_eq t' : flat t' (A ++ y :: b :: B) = flat t' B ++ seg t' b ++ flat t' (A ++ [y]).
Proof.
  replace (A ++ y :: b :: B) with ((A ++ [y]) ++ b :: B) by (rewrite <- app_assoc; auto).
  rewrite flat_app, flat_cons, app_assoc. auto.
Qed.
(** a slot of a linked bucket *)
Lemma fl_slot u c p j : adj (x_bl s) u c -> b_pool (bget t c) = Some p -> (j < p_n p)%nat ->
  rv_of t (RS c j) = sl_rev (slot_at p j) /\ brev t c <= sl_rev (slot_at p j) < up t u /\ cont s (pr (slot_at p j)).
Proof.
  intros H HP Hj. cbn [rv_of]. unfold slot_in. rewrite HP. split; auto.
  destruct (ei_pool _ _ I u c H) as (p' & E' & K). rewrite HP in E'. injection E' as <-.
  pose proof (live_in _ _ _ j K Hj) as Hin. split; [apply (po_rng _ _ _ K); auto|].
  exists u, c, p. split; auto. split; auto. apply in_map; auto.
Qed.
Lemma fl_plen c j : In c (x_bl s) -> (j < plen t c)%nat -> exists u p, adj (x_bl s) u c /\ b_pool (bget t c) = Some p /\ (j < p_n p)%nat.
Proof.
  intros Hc Hj. unfold plen in Hj. destruct (nid_eqb c bmax) eqn:E; [lia|].
  assert (c <> bmax) by (intros ->; rewrite nid_eqb_refl in E; discriminate).
  destruct (ei_pred s xl I c Hc H) as (u & Hu). exists u.
  destruct (b_pool (bget t c)) as [p|]; [|lia]. eauto.
Qed.
Lemma fl_b p : b_pool (bget t b) = Some p -> plen t b = p_n p.
Proof.
  intros HP. unfold plen. pose proof (ei_adj_ne s xl I _ _ fl_adj) as N. apply nid_eqb_neq in N. rewrite N, HP. auto.
Qed.
Lemma fl_low e : In e (flat t B) -> rv_of t e < brev t b /\ own b e = false /\ e <> RD b.
Proof.
  intros H. apply in_flat in H as (c & Hc & He).
  pose proof (ei_sorted s xl I) as S. rewrite EB in S. destruct (sorted_before _ _ _ _ _ S) as [_ S2].
  assert (HL : brev t c < brev t b).
  { clear -S Hc. apply sorted_app in S as (_ & S & _). apply StronglySorted_inv in S as [S _].
    apply StronglySorted_inv in S as [_ F]. rewrite Forall_forall in F. apply F; auto. }
  assert (NC : c <> b) by (intros ->; lia).
  apply in_seg in He as [->|(j & -> & Hj)]; [cbn [rv_of own]; split; auto; split; congruence|].
  cbn [own]. split; [|split; [apply nid_eqb_neq; auto|discriminate]].
  destruct (fl_plen c j) as (u & p & Hu & HP & Hj'); auto.
  { rewrite EB. apply in_or_app. right. right. right. auto. }
  destruct (fl_slot u c p j Hu HP Hj') as (-> & R & _).
  destruct (Z_lt_ge_dec (sl_rev (slot_at p j)) (brev t b)); auto. exfalso.
  (* u is b or below *)
  assert (HU : up t u <= brev t b); [|lia].
  clear R g HP Hj Hj' p j.
  assert (IN : In u (b :: B)).
  { destruct (in_split _ _ Hc) as (B1 & B2 & EB2).
    assert (HX : exists w, In w (b :: B) /\ adj (x_bl s) w c).
    { destruct B1 as [|q B1 _] using rev_ind.
      - exists b. split; [left; auto|]. rewrite EB, EB2. exists (A ++ [y]), B2. rewrite <- app_assoc. auto.
      - exists q. split; [right; rewrite EB2; apply in_or_app; left; apply in_or_app; right; left; auto|].
        rewrite EB, EB2. exists (A ++ y :: b :: B1), B2. rewrite <- !app_assoc. cbn [app]. auto. }
    destruct HX as (w & Hw & Aw). rewrite (adj_uniq_l (x_bl s) u w c (ei_nodup s xl I) Hu Aw). auto. }
  assert (NU : u <> bmax).
  { intros ->. destruct (ei_bl_head s xl I) as (bl' & Ebl). pose proof (ei_nodup s xl I) as ND. rewrite Ebl in ND.
    rewrite EB in Ebl. apply NoDup_cons_iff in ND as [ND _]. destruct A as [|a A']; cbn [app] in Ebl; injection Ebl as -> <-; apply ND.
    - auto.
    - apply in_or_app. right. right. auto. }
  unfold up. apply nid_eqb_neq in NU. rewrite NU. destruct IN as [->|IN]; [lia|].
  clear -S IN. apply sorted_app in S as (_ & S & _). apply StronglySorted_inv in S as [S _].
    apply StronglySorted_inv in S as [_ F]. rewrite Forall_forall in F. specialize (F u IN). lia.
Qed.
Lemma fl_high e : In e (flat t (A ++ [y])) -> brev t y <= rv_of t e /\ own b e = false /\ e <> RD b.
Proof.
  intros H. apply in_flat in H as (c & Hc & He).
  pose proof (ei_sorted s xl I) as S. rewrite EB in S. destruct (sorted_before _ _ _ _ _ S) as [_ S2].
  assert (HL : brev t y <= brev t c).
  { apply in_app_or in Hc as [Hc|[<-|[]]]; [|lia]. apply sorted_app in S as (_ & _ & S).
    specialize (S c y Hc (or_introl eq_refl)). cbn beta in S. lia. }
  pose proof (ei_adj_lt s xl I y b fl_adj) as LT.
  assert (NC : c <> b) by (intros ->; lia).
  apply in_seg in He as [->|(j & -> & Hj)]; [cbn [rv_of own]; split; auto; split; congruence|].
  cbn [own]. split; [|split; [apply nid_eqb_neq; auto|discriminate]].
  destruct (fl_plen c j) as (u & p & Hu & HP & Hj'); auto.
  { rewrite EB. apply in_or_app. apply in_app_or in Hc as [Hc|[<-|[]]]; [left; auto|right; left; auto]. }
  destruct (fl_slot u c p j Hu HP Hj') as (-> & R & _). lia.
Qed.
Lemma fl_high_ne : flat t (A ++ [y]) <> [].
Proof. intros E. assert (H : In (RD y) (flat t (A ++ [y]))) by (apply in_flat; exists y; split; [apply in_or_app; right; left; auto|left; auto]). rewrite E in H. auto. Qed.
End Flat.

(** * Storing a new key *)
Lemma below_up s xl y b rv : einv s xl -> adj (x_bl s) y b -> rv < up (x_trie s) y -> ~ In rv (edump s) ->
  rv < brev (x_trie s) y.
Proof.
  intros I H R N. unfold up in R. destruct (nid_eqb y bmax) eqn:E; auto.
  apply nid_eqb_eq in E. subst y. destruct (tk_bmax _ _ (ei_trie _ _ I)) as (_ & EM & _).
  assert (rv <> brev (x_trie s) bmax).
  { intros ->. apply N. unfold edump. apply in_map. apply (adj_in _ _ _ H). }
  change W64 with (MAX64 + 1) in R. lia.
Qed.
Lemma in_dump s n : In n (x_bl s) -> In (brev (x_trie s) n) (edump s).
Proof. intros H. unfold edump. apply in_map. auto. Qed.

Lemma link_place s xl y b p rv : einv s xl -> enodel s -> adj (x_bl s) y b -> b_pool (bget (x_trie s) b) = Some p ->
  brev (x_trie s) b <= rv < up (x_trie s) y -> ~ In rv (edump s) -> (forall sl, In sl (live p) -> sl_rev sl <> rv) ->
  exists p1 i l1, get_with_fn 4 p rv = GSlot p1 i /\ link_get 4 p rv b (flat (x_trie s) (x_bl s)) = Some l1 /\
    forall f, sl_rev (f zero_slot) = rv ->
      let t' := tupd (x_trie s) b (fun z => set_pool z (Some (upd_slot p1 i f))) in
      link_in t' b rv (RS b i) l1 = Some (flat t' (x_bl s)).
Proof.
  intros I ND H HP R NB NE.
  destruct (ei_pool _ _ I y b H) as (p' & E' & K). rewrite HP in E'. injection E' as <-.
  pose proof (ND y b p H HP) as NP. pose proof H as (A & B & EB).
  pose proof (fl_low s xl I A y b B EB) as LOW. pose proof (fl_high s xl I A y b B EB) as HIGH.
  pose proof (fl_b s xl I A y b B EB p HP) as PL.
  set (t := x_trie s) in *.
  assert (RB : brev t b < rv).
  { assert (rv <> brev t b); [|lia]. intros ->. apply NB. apply in_dump. apply (adj_in _ _ _ H). }
  pose proof (below_up s xl y b rv I H (proj2 R) NB) as RY. fold t in RY.
  destruct (link_get_ok p _ _ rv b (flat t B ++ [RD b]) (flat t (A ++ [y])) K NP R NE) as (p1 & i & EG & Hi & EL).
  { intros e He. apply in_app_or in He as [He|[<-|[]]]; [apply LOW; auto|auto]. }
  exists p1, i, ((flat t B ++ [RD b]) ++ slots b 0 i ++ slots b (S i) (p_n p - i) ++ flat t (A ++ [y])).
  split; [exact EG|]. split.
  { rewrite EB, fl_eq. unfold seg. rewrite PL. rewrite <- EL. f_equal. rewrite <- !app_assoc. auto. }
  intros f Hf t'.
  destruct (get_with_fn_ok p _ _ rv K NP R NE) as (p1' & i' & l1 & l2 & EG' & ES & EM & EN & HL1 & HL2 & HU).
  rewrite EG in EG'. injection EG' as <- <-.
  destruct (HU f Hf) as (K2 & EM2 & _). set (p2 := upd_slot p1 i f) in *.
  assert (P2 : p_n p2 = S (p_n p)).
  { unfold p2, upd_slot, p_n. cbn [p_len]. rewrite EN. pose proof (po_len _ _ _ K). lia. }
  assert (SI : sl_rev (slot_at p2 i) = rv).
  { pose proof (po_n _ _ _ K2) as LN. rewrite P2 in LN. unfold p2, upd_slot in LN. cbn [p_slots] in LN. rewrite upd_nth_length in LN.
    unfold p2, upd_slot, slot_at at 1. cbn [p_slots]. destruct (upd_nth_split i (f (slot_at p1 i)) zero_slot (p_slots p1)) as (q1 & q2 & Q1 & Q2 & Q3); [lia|].
    rewrite Q3, app_nth2, Q2, Nat.sub_diag by lia. cbn [nth]. rewrite ES. auto. }
  assert (GB : b_pool (bget t' b) = Some p2) by (unfold t', tupd; rewrite bget_tset_eq; reflexivity).
  assert (SS : same_shape t t') by (apply same_shape_tupd; intros; reflexivity).
  assert (HB : forall n, brev t' n = brev t n) by (intros; symmetry; apply same_shape_brev; auto).
  assert (GO : forall n, n <> b -> b_pool (bget t' n) = b_pool (bget t n)).
  { intros n Hn. unfold t', tupd. rewrite bget_tset_ne by auto. auto. }
  assert (RVb : forall j, rv_of t' (RS b j) = sl_rev (slot_at p2 j)).
  { intros j. cbn [rv_of]. unfold slot_in. rewrite GB. auto. }
  assert (RVO : forall e, own b e = false -> rv_of t' e = rv_of t e).
  { intros [n|n j] Ho; cbn [rv_of own] in *; auto. unfold slot_in. rewrite GO; auto. intros ->. rewrite nid_eqb_refl in Ho. discriminate. }
  pose proof (ei_nodup s xl I) as NDB. rewrite EB in NDB.
  replace (A ++ y :: b :: B) with ((A ++ [y]) ++ b :: B) in NDB by (rewrite <- app_assoc; auto).
  apply NoDup_remove_2 in NDB.
  assert (FB : flat t' B = flat t B) by (apply flat_ext; intros n Hn; apply GO; intros ->; apply NDB; apply in_or_app; auto).
  assert (FA : flat t' (A ++ [y]) = flat t (A ++ [y])) by (apply flat_ext; intros n Hn; apply GO; intros ->; apply NDB; apply in_or_app; auto).
  replace rv with (rv_of t' (RS b i)) by (rewrite RVb; auto).
  replace ((flat t B ++ [RD b]) ++ slots b 0 i ++ slots b (S i) (p_n p - i) ++ flat t (A ++ [y]))
    with ((flat t B ++ RD b :: slots b 0 i) ++ slots b (S i) (p_n p - i) ++ flat t (A ++ [y])) by (rewrite <- !app_assoc; auto).
  rewrite link_in_ok.
  - f_equal. rewrite EB, fl_eq. rewrite FB, FA. unfold seg, plen. rewrite GB.
    pose proof (ei_adj_ne s xl I _ _ H) as Nb. apply nid_eqb_neq in Nb. rewrite Nb, P2.
    assert (ES2 : slots b 0 (S (p_n p)) = slots b 0 i ++ RS b i :: slots b (S i) (p_n p - i)).
    { unfold slots. replace (S (p_n p)) with (i + S (p_n p - i))%nat by lia. rewrite seq_app, map_app. auto. }
    rewrite ES2, <- !app_assoc. cbn [app]. rewrite <- !app_assoc. auto.
  - apply in_or_app. right. left. auto.
  - intros e He. rewrite RVb, SI. apply in_app_or in He as [He|[<-|He]].
    + destruct (LOW e He) as (L1 & L2 & _). rewrite RVO by auto. lia.
    + cbn [rv_of]. rewrite HB. lia.
    + apply in_slots in He as (j & -> & Hj). rewrite RVb. rewrite <- SI. apply (slot_lt _ _ _ _ _ K2). lia.
  - intros e He. rewrite RVb, SI. apply in_app_or in He as [He|He].
    + apply in_slots in He as (j & -> & Hj). rewrite RVb. rewrite <- SI. apply (slot_lt _ _ _ _ _ K2). lia.
    + destruct (HIGH e He) as (L1 & L2 & _). rewrite RVO by auto. lia.
  - intros E. apply app_eq_nil in E as [_ E]. revert E. apply (fl_high_ne s A y).
Qed.

(** * Splitting *)
Lemma map_id_in {X} (f : X -> X) l : (forall e, In e l -> f e = e) -> map f l = l.
Proof. intros H. induction l as [|e l IH]; auto. cbn [map]. rewrite H by (left; auto). rewrite IH; auto. intros; apply H; right; auto. Qed.
Lemma rename_slots b nb i n : (i <= n)%nat -> map (rename b nb i) (slots b 0 n) = slots b 0 i ++ slots nb 0 (n - i).
Proof.
  intros H. unfold slots. replace n with (i + (n - i))%nat at 1 by lia. rewrite seq_app, !map_app, !map_map. f_equal.
  - apply map_ext_in. intros j Hj. apply in_seq in Hj. cbn [rename]. rewrite nid_eqb_refl.
    destruct (Nat.leb_spec i j); [lia|]. auto.
  - generalize (n - i)%nat. intros m. cbn [Nat.add].
    assert (G : forall a c, map (fun x => rename b nb i (RS b x)) (seq (i + a) c) = map (RS nb) (seq a c)).
    { intros a c. revert a. induction c as [|c IH]; intros a; auto. cbn [seq map].
      replace (S (i + a)) with (i + S a)%nat by lia. rewrite IH. f_equal. cbn [rename]. rewrite nid_eqb_refl.
      destruct (Nat.leb_spec i (i + a)); [|lia]. cbn [andb]. f_equal. lia. }
    rewrite <- (G 0%nat m). rewrite Nat.add_0_r. auto.
Qed.
Lemma rename_other b nb i e : own b e = false -> rename b nb i e = e.
Proof. destruct e as [n|n j]; cbn [own rename]; auto. intros ->. auto. Qed.

Lemma link_split_shape f s b l : link_split (S f) s b l =
  let t := x_trie s in
  let nr := mid_rev t (prev_as_b (x_bl s) b) b in
  match bucket_from_pool_embedded t (x_lv s) nr with
  | None => Some l
  | Some (t1, lv1, nb) =>
      if in_blist (x_bl s) nb then None else
      if (brev t1 nb =? 0) && (1 <? lvl t1 nb) then Some l else
      match b_pool (bget t1 b) with
      | None => None
      | Some p =>
          match find_idx p nr with
          | None | Some O => Some l
          | Some i =>
              let t2 := tupd t1 nb (fun x => set_blen (set_pool x (Some (split_hi p i))) (p_len p - Z.of_nat i)) in
              let t3 := tupd t2 b (fun x => set_blen (set_pool x (Some (split_lo p i))) (Z.of_nat i)) in
              let below := bucket_below t3 (brev t3 nb) (x_bl s) in
              let l1 := map (rename b nb i) l in
              let l2 := match below with Some n => ins_gt t3 (RD nb) (RD n) l1 | None => Some l1 end in
              let bl := match below with Some n => ins_before n nb (x_bl s) | None => x_bl s end in
              let lv := lv_set lv1 (lvl t3 nb)
                          (ins_level t3 (in_blist bl) nb (lv_get lv1 (lvl t3 nb))) in
              let s2 := mkX t3 bl lv (x_len s) (x_max s) in
              match l2 with
              | None => None
              | Some l2 =>
                  if x_max s <? p_len p - Z.of_nat i then link_split f s2 nb l2
                  else if x_max s <? Z.of_nat i then link_split f s2 b l2
                  else Some l2
              end
          end
      end
  end.
Proof. reflexivity. Qed.

(** the new dummy goes where it belongs *)
Lemma link_dummy s xl A y b B p t3 nb nr i :
  einv s xl -> x_bl s = A ++ y :: b :: B -> b_pool (bget (x_trie s) b) = Some p ->
  (forall n, In n (x_bl s) -> brev t3 n = brev (x_trie s) n) -> brev t3 nb = nr -> ~ In nb (x_bl s) -> nb <> bmax ->
  b_pool (bget t3 nb) = Some (split_hi p i) -> b_pool (bget t3 b) = Some (split_lo p i) ->
  (forall n, In n (x_bl s) -> n <> b -> b_pool (bget t3 n) = b_pool (bget (x_trie s) n)) ->
  brev (x_trie s) b < nr < brev (x_trie s) y -> (i <= p_n p)%nat ->
  (forall j, (j < i)%nat -> sl_rev (slot_at p j) < nr) -> (forall j, (i <= j < p_n p)%nat -> nr < sl_rev (slot_at p j)) ->
  (forall j, (j < i)%nat -> slot_at (split_lo p i) j = slot_at p j) ->
  (forall j, (j < p_n p - i)%nat -> slot_at (split_hi p i) j = slot_at p (i + j)%nat) ->
  ins_gt t3 (RD nb) (RD b) (map (rename b nb i) (flat (x_trie s) (x_bl s))) = Some (flat t3 (A ++ y :: nb :: b :: B)).
Proof.
  intros I EB HP HR RN NIN NBM PN PB PO RR Hi H1 H2 SL SH.
  pose proof (fl_low s xl I A y b B EB) as LOW. pose proof (fl_high s xl I A y b B EB) as HIGH.
  pose proof (fl_b s xl I A y b B EB p HP) as PL.
  set (t := x_trie s) in *.
  assert (INS : forall e, In e (flat t B) \/ In e (flat t (A ++ [y])) -> own b e = false -> rv_of t3 e = rv_of t e).
  { intros e He Ho.
    assert (HN : exists n, In n (x_bl s) /\ In e (seg t n)).
    { destruct He as [He|He]; apply in_flat in He as (n & Hn & He); exists n; (split; [rewrite EB|auto]);
        apply in_or_app; [right; right; right; auto|]. apply in_app_or in Hn as [Hn|[<-|[]]]; [left|right; left]; auto. }
    destruct HN as (n & Hn & Hs). apply in_seg in Hs as [->|(j & -> & _)]; cbn [rv_of own] in *; [auto|].
    unfold slot_in. rewrite PO; auto. intros ->. rewrite nid_eqb_refl in Ho. discriminate. }
  pose proof (ei_nodup s xl I) as NDB. rewrite EB in NDB.
  replace (A ++ y :: b :: B) with ((A ++ [y]) ++ b :: B) in NDB by (rewrite <- app_assoc; auto).
  apply NoDup_remove_2 in NDB.
  assert (FB : flat t3 B = flat t B).
  { apply flat_ext; intros n Hn; apply PO; [rewrite EB; apply in_or_app; right; right; right; auto|intros ->; apply NDB; apply in_or_app; auto]. }
  assert (FA : flat t3 (A ++ [y]) = flat t (A ++ [y])).
  { apply flat_ext; intros n Hn; apply PO; [rewrite EB|intros ->; apply NDB; apply in_or_app; auto].
    apply in_or_app. apply in_app_or in Hn as [Hn|[<-|[]]]; [left|right; left]; auto. }
  assert (E : map (rename b nb i) (flat t (x_bl s)) =
    (flat t B ++ RD b :: slots b 0 i) ++ slots nb 0 (p_n p - i) ++ flat t (A ++ [y])).
  { rewrite EB, fl_eq, !map_app. unfold seg. rewrite PL. cbn [map rename]. rewrite rename_slots by auto.
    rewrite (map_id_in _ (flat t B)) by (intros e He; apply rename_other, LOW; auto).
    rewrite (map_id_in _ (flat t (A ++ [y]))) by (intros e He; apply rename_other, HIGH; auto).
    rewrite <- !app_assoc. cbn [app]. rewrite <- !app_assoc. auto. }
  rewrite E.
  pose proof (ei_adj_ne s xl I _ _ (fl_adj s A y b B EB)) as Nb.
  assert (Hb : In b (x_bl s)) by (rewrite EB; apply in_or_app; right; right; left; auto).
  rewrite ins_gt_ok.
  - f_equal. replace (A ++ y :: nb :: b :: B) with ((A ++ [y]) ++ nb :: b :: B) by (rewrite <- app_assoc; auto).
    rewrite (flat_app t3 (A ++ [y])), !(flat_cons t3), FB, FA. unfold seg, plen. rewrite PN, PB.
    apply nid_eqb_neq in Nb, NBM. rewrite Nb, NBM.
    replace (p_n (split_lo p i)) with i by (unfold split_lo, p_n; cbn [p_len]; lia).
    replace (p_n (split_hi p i)) with (p_n p - i)%nat by (unfold split_hi, p_n; cbn [p_len]; unfold p_n in *; lia).
    rewrite <- !app_assoc. auto.
  - apply in_or_app. right. left. auto.
  - intros e He. change (rv_of t3 (RD nb)) with (brev t3 nb). rewrite RN. apply in_app_or in He as [He|[<-|He]].
    + destruct (LOW e He) as (L1 & L2 & _). rewrite INS by auto. lia.
    + cbn [rv_of]. rewrite HR by auto. lia.
    + apply in_slots in He as (j & -> & Hj). cbn [rv_of]. unfold slot_in. rewrite PB, SL by lia. apply H1; lia.
  - intros e He. change (rv_of t3 (RD nb)) with (brev t3 nb). rewrite RN. apply in_app_or in He as [He|He].
    + apply in_slots in He as (j & -> & Hj). cbn [rv_of]. unfold slot_in. rewrite PN, SH by lia. apply H2; lia.
    + destruct (HIGH e He) as (L1 & L2 & _). rewrite INS by auto. lia.
  - intros X. apply app_eq_nil in X as [_ X]. revert X. apply (fl_high_ne s A y).
Qed.
Lemma split_slots p lo hi l1 l2 : pool_ok p lo hi -> live p = l1 ++ l2 ->
  let i := List.length l1 in (i <= p_n p)%nat /\
  (forall j, (j < i)%nat -> In (slot_at p j) l1) /\ (forall j, (i <= j < p_n p)%nat -> In (slot_at p j) l2) /\
  (forall j, (j < i)%nat -> slot_at (split_lo p i) j = slot_at p j) /\
  (forall j, (j < p_n p - i)%nat -> slot_at (split_hi p i) j = slot_at p (i + j)%nat).
Proof.
  intros K E i. pose proof (live_length _ _ _ K) as LL. rewrite E, app_length in LL. fold i in LL. split; [lia|].
  split. { intros j Hj. rewrite <- live_nth, E, app_nth1 by lia. apply nth_In. auto. }
  split. { intros j Hj. rewrite <- live_nth, E, app_nth2 by lia. apply nth_In. fold i. lia. }
  split.
  - intros j Hj. unfold slot_at, split_lo. cbn [p_slots]. pose proof (po_n _ _ _ K).
    rewrite <- (firstn_skipn i (p_slots p)) at 2. rewrite app_nth1; auto. rewrite firstn_length. lia.
  - intros j Hj. unfold slot_at, split_hi. cbn [p_slots]. pose proof (po_n _ _ _ K).
    rewrite <- (firstn_skipn i (p_slots p)) at 2. rewrite app_nth2; rewrite firstn_length; [f_equal; lia|lia].
Qed.

Theorem link_split_spec : forall f s xl A y b B p m,
  einv s xl -> enodel s -> 16 <= x_max s -> x_bl s = A ++ y :: b :: B ->
  b_pool (bget (x_trie s) b) = Some p -> x_max s < p_len p ->
  up (x_trie s) y = brev (x_trie s) b + 2 ^ m -> 0 <= m <= Z.of_nat f ->
  exists s' xl', make_bucket2 f s b = Ret s' /\ einv s' xl' /\
    (forall r, In r (edump s) -> In r (edump s')) /\ (forall x, cont s' x <-> cont s x) /\
    (off s' -> link_split f s b (flat (x_trie s) (x_bl s)) = Some (flat (x_trie s') (x_bl s'))).
Proof.
  induction f as [|f IH]; intros s xl A y b B p m I ND HM EB HP HL HU Hf;
  (assert (Hyb : adj (x_bl s) y b) by (exists A, B; auto));
  destruct (ei_pool _ _ I y b Hyb) as (p' & E' & Kp); rewrite HP in E'; injection E' as <-;
  pose proof (ei_adj_lt s xl I _ _ Hyb) as LT;
  pose proof (Z.pow_pos_nonneg 2 m ltac:(lia) ltac:(lia)) as PM;
  pose proof (pool_count _ _ _ Kp ltac:(lia)) as PC;
  (assert (Hm5 : 5 <= m) by (destruct (Z_lt_ge_dec m 5); [|lia];
     assert (2 ^ m <= 2 ^ 4) by (apply Z.pow_le_mono_r; lia); change (2 ^ 4) with 16 in *; lia)).
  { exfalso. change (Z.of_nat 0) with 0 in Hf. lia. }
  rewrite find_idx_shape, link_split_shape. cbv zeta. set (t := x_trie s) in *.
  pose proof (ei_nodup s xl I) as NDB.
  assert (EP : prev_as_b (x_bl s) b = y) by (rewrite EB in *; apply prev_as_b_adj; auto).
  rewrite EP.
  pose proof (ei_ext _ _ I) as EXT. rewrite EB in EXT. fold t in EXT.
  destruct (ext_at _ _ _ _ _ _ EXT) as (xa & ds & xb & m' & EX & EA & M & EBX).
  assert (m' = m).
  { destruct M as (MU & _ & M0 & _). rewrite HU in MU. apply Z.add_cancel_l in MU. symmetry in MU. apply Z.pow_inj_r in MU; lia. }
  subst m'.
  rewrite (md_mid_rev t xl xa y ds b xb m (ei_trie _ _ I) (ei_16 _ _ I) EX M Hm5).
  set (nr := brev t b + 2 ^ (m - 1)).
  destruct (md_nr t xl xa y ds b xb m (ei_trie _ _ I) (ei_16 _ _ I) EX M Hm5) as (N1 & N2 & N3 & N4). fold nr in N1, N2, N3, N4.
  destruct (md_bfpe t xl xa y ds b xb m (ei_trie _ _ I) (ei_16 _ _ I) EX M Hm5 (x_lv s)) as (t1 & lv1 & E & K1 & HO & PNB & RNB & NBM).
  fold nr in E, K1, HO, PNB, RNB, NBM. rewrite E. set (nb := (level_of nr, nr)) in *.
  assert (XB : forall n, In n (x_bl s) -> In n xl) by (apply (ext_in _ _ _ (ei_ext _ _ I))).
  assert (HyX : In y xl) by (apply XB, (adj_in _ _ _ Hyb)).
  assert (HbX : In b xl) by (apply XB, (adj_in _ _ _ Hyb)).
  assert (NIN : ~ In nb (x_bl s)).
  { intros H. destruct (HO nb (XB _ H)) as [R _]. rewrite RNB in R.
    apply (sorted_gap t (x_bl s) A y b B nb (ei_sorted s xl I) EB H). rewrite <- R. lia. }
  destruct (in_blist (x_bl s) nb) eqn:IB; [apply in_blist_spec in IB; contradiction|].
  rewrite RNB. destruct (Z.eqb_spec nr 0) as [Z0|_]; [lia|]. cbn [andb].
  assert (NBb : b <> nb) by (intros EQ; apply NIN; rewrite <- EQ; apply (adj_in _ _ _ Hyb)).
  assert (PB1 : b_pool (bget t1 b) = Some p) by (rewrite (proj2 (HO b HbX) NBb); auto).
  rewrite PB1.
  set (xl1 := xa ++ y :: nb :: b :: xb) in *.
  set (s1 := mkX t1 (x_bl s) lv1 (x_len s) (x_max s)).
  assert (INX : forall n, In n (xa ++ [y]) \/ In n (b :: xb) -> In n xl).
  { intros n [H|H]; rewrite EX.
    - apply in_app_or in H as [H|[<-|[]]]; apply in_or_app; [left; auto|right; left; auto].
    - apply in_or_app. right. right. apply in_or_app. right. auto. }
  pose proof (sorted_nodup _ _ (tk_sorted _ _ K1)) as NDX1.
  assert (NN : (forall n, In n (xa ++ [y]) -> n <> nb) /\ (forall n, In n (b :: xb) -> n <> nb) /\ NoDup (xa ++ [y]) /\ NoDup (b :: xb)).
  { unfold xl1 in NDX1. replace (xa ++ y :: nb :: b :: xb) with ((xa ++ [y]) ++ nb :: b :: xb) in NDX1 by (rewrite <- app_assoc; auto).
    clear -NDX1. set (u := xa ++ [y]) in *. clearbody u.
    pose proof (NoDup_remove _ _ _ NDX1) as [R1 R2].
    split; [intros n Hn ->; apply R2; apply in_or_app; auto|].
    split; [intros n Hn ->; apply R2; apply in_or_app; auto|].
    split; clear -R1; induction u as [|w u IH]; try (constructor; fail); auto; cbn [app] in R1; apply NoDup_cons_iff in R1 as [X Y]; auto.
    constructor; auto. intros H; apply X; apply in_or_app; auto. }
  destruct NN as (NN1 & NN2 & NN3 & NN4).
  assert (EA1 : ext t1 (A ++ [y]) (xa ++ [y])).
  { apply (ext_change t); auto.
    - intros n Hn. apply HO. auto.
    - intros n Hn _ D. unfold dead. rewrite (proj2 (HO n (INX n (or_introl Hn))) (NN1 n Hn)). auto. }
  assert (EB1 : ext t1 (b :: B) (b :: xb)).
  { apply (ext_change t); auto.
    - intros n Hn. apply HO. auto.
    - intros n Hn _ D. unfold dead. rewrite (proj2 (HO n (INX n (or_intror Hn))) (NN2 n Hn)). auto. }
  assert (I1 : einv s1 xl1).
  { constructor; cbn [s1 x_trie x_bl]; auto.
    - intros n Hn Nn. unfold xl1 in Hn. apply in_app_or in Hn as [Hn|[<-|[<-|Hn]]].
      + rewrite (proj1 (HO n (INX n (or_introl (in_or_app _ _ _ (or_introl Hn)))))).
        apply (ei_16 _ _ I); auto. apply INX. left. apply in_or_app; auto.
      + rewrite (proj1 (HO y HyX)). apply (ei_16 _ _ I); auto.
      + rewrite RNB. auto.
      + rewrite (proj1 (HO n (INX n (or_intror Hn)))). apply (ei_16 _ _ I); auto.
    - rewrite EB. unfold xl1. apply (ext_build t1 A y b B xa [nb] xb m); auto.
      unfold mid, up. rewrite (proj1 (HO y HyX)), (proj1 (HO b HbX)). fold (up t y).
      destruct M as (MU & MD & M0 & _). split; auto. split; auto. split; auto.
      right. exists nb. split; auto. split; auto. split; [rewrite RNB; auto|lia].
    - intros u w H. destruct (adj_in _ _ _ H) as [Hu Hw].
      assert (Nw : w <> nb) by (intros ->; contradiction).
      rewrite (proj2 (HO w (XB _ Hw)) Nw), (proj1 (HO w (XB _ Hw))).
      unfold up. rewrite (proj1 (HO u (XB _ Hu))). apply (ei_pool _ _ I); auto. }
  assert (C1 : forall x, cont s1 x <-> cont s x).
  { intros x. unfold cont. cbn [s1 x_trie x_bl]. split; intros (u & w & q & H & Hq & Hin); exists u, w, q;
    destruct (adj_in _ _ _ H) as [Hu Hw]; (assert (Nw : w <> nb) by (intros ->; contradiction));
    split; auto; split; auto; rewrite (proj2 (HO w (XB _ Hw)) Nw) in *; auto. }
  assert (ND1 : enodel s1).
  { intros u w q H Hq. cbn [s1 x_trie x_bl] in *. destruct (adj_in _ _ _ H) as [Hu Hw].
    assert (Nw : w <> nb) by (intros ->; contradiction). rewrite (proj2 (HO w (XB _ Hw)) Nw) in Hq. apply (ND u w q); auto. }
  assert (BL1 : forall n, In n (x_bl s) -> b_pool (bget t1 n) = b_pool (bget t n)).
  { intros n Hn. apply (HO n (XB _ Hn)). intros ->. contradiction. }
  assert (TRIV : exists s' xl', Ret s1 = Ret s' /\ einv s' xl' /\ (forall r, In r (edump s) -> In r (edump s')) /\
    (forall x, cont s' x <-> cont s x) /\ (off s' -> Some (flat t (x_bl s)) = Some (flat (x_trie s') (x_bl s')))).
  { exists s1, xl1. split; auto. split; auto. split; [|split; [auto|]].
    - intros r Hr. unfold edump in *. apply in_map_iff in Hr as (n & <- & Hn). apply in_map_iff. exists n. split; auto. apply HO; auto.
    - intros _. f_equal. symmetry. apply flat_ext. auto. }
  destruct (find_idx p nr) as [[|i]|] eqn:FI; auto.
  assert (NP : nodel p) by (apply (ND y b p); auto).
  destruct (find_idx_spec p _ _ nr (S i) Kp NP FI) as (l1 & x & l2 & EL & Ei & Rx & L1).
  assert (N1' : l1 <> []) by (intros ->; discriminate).
  assert (L2 : forall z, In z (x :: l2) -> nr <= sl_rev z).
  { intros z [<-|Hz]; auto. pose proof (po_sorted _ _ _ Kp) as S. rewrite EL, map_app in S. apply sorted_app in S as (_ & S2 & _).
    cbn [map] in S2. apply StronglySorted_inv in S2 as [_ F]. rewrite Forall_forall in F.
    specialize (F (sl_rev z) (in_map _ _ _ Hz)). lia. }
  pose proof (split_step s xl A y b B p m t1 lv1 xa xb nr l1 (x :: l2) I ND EB HP I1 HO EA1 EB1 NIN NBM RNB ltac:(lia) HU
    ltac:(apply M) eq_refl N4 EL N1' ltac:(discriminate) L1 L2) as ST.
  cbv zeta in ST. rewrite <- Ei in ST. fold nb in ST. fold xl1 in ST. 
  match goal with |- context [mkX _ _ ?lvq _ _] => specialize (ST lvq) end.
  destruct ST as (S1 & S2 & S3 & S4 & S5 & S6 & S7 & S8).
  set (t3 := tupd (tupd t1 nb (fun x => set_blen (set_pool x (Some (split_hi p (S i)))) (p_len p - Z.of_nat (S i)))) b
      (fun x => set_blen (set_pool x (Some (split_lo p (S i)))) (Z.of_nat (S i)))) in *.
  assert (BLW : bucket_below t3 (brev t3 nb) (x_bl s) = Some b).
  { pose proof (ei_sorted s xl I) as S. rewrite EB in S. destruct (sorted_before _ _ _ _ _ S) as [HA HC].
    rewrite EB. replace (A ++ y :: b :: B) with ((A ++ [y]) ++ b :: B) by (rewrite <- app_assoc; auto).
    rewrite S6. apply bucket_below_app.
    - intros n Hn. rewrite S5; [specialize (HA n Hn); fold t in HA; fold t; lia|].
      apply XB. rewrite EB. apply in_or_app. apply in_app_or in Hn as [Hn|[<-|[]]]; [left|right; left]; auto.
    - rewrite S5 by auto. fold t. lia. }
  rewrite BLW in *. set (bl := ins_before b nb (x_bl s)) in *.
  match goal with |- context [mkX t3 bl ?l _ _] => set (lvq := l) in * end.
  set (s2 := mkX t3 bl lvq (x_len s) (x_max s)) in *.
  assert (PW : 2 ^ m = 2 * 2 ^ (m - 1)) by (replace m with (Z.succ (m - 1)) at 1 by lia; apply Z.pow_succ_r; lia).
  assert (DM : forall r, In r (edump s) -> In r (edump s2)).
  { intros r Hr. unfold edump in *. apply in_map_iff in Hr as (n & <- & Hn). apply in_map_iff. exists n. cbn [s2 x_trie x_bl].
    split; [apply S5; auto|]. rewrite S1. rewrite EB in Hn. apply in_app_or in Hn as [Hn|[<-|Hn]]; apply in_or_app; cbn [In]; auto. }
  assert (DN : In nr (edump s2)).
  { rewrite <- S6. unfold edump. cbn [s2 x_trie x_bl]. apply in_map. rewrite S1. apply in_or_app. right. right. left. auto. }
  assert (LD : (forall z, cont s z -> pr_rev z <> nr) ->
    ins_gt t3 (RD nb) (RD b) (map (rename b nb (S i)) (flat t (x_bl s))) = Some (flat (x_trie s2) (x_bl s2))).
  { intros OFF. cbn [s2 x_trie x_bl]. rewrite S1.
    destruct (split_slots p _ _ l1 (x :: l2) Kp EL) as (Q1 & Q2 & Q3 & Q4 & Q5). rewrite <- Ei in Q1, Q2, Q3, Q4, Q5.
    apply (link_dummy s xl A y b B p t3 nb nr (S i)); auto.
    - intros n Hn Nn. unfold t3, tupd. rewrite bget_tset_ne by auto. rewrite bget_tset_ne by (intros <-; contradiction). auto.
    - fold t. lia.
    - intros j Hj. assert (nr <= sl_rev (slot_at p j)) by (apply L2, Q3; auto).
      assert (sl_rev (slot_at p j) <> nr); [|lia]. apply (OFF (pr (slot_at p j))).
      exists y, b, p. split; auto. split; auto. apply in_map. apply (live_in _ _ _ _ Kp). lia. }
  destruct (Z.ltb_spec (x_max s) (p_len p - Z.of_nat (S i))) as [G1|G1].
  - destruct (IH s2 xl1 A y nb (b :: B) (split_hi p (S i)) (m - 1)) as (s' & xl' & R1 & R2 & R3 & R4 & R5); auto; try lia.
    + cbn [s2 x_trie]. assert (UY : up t3 y = up t y) by (unfold up; rewrite S5 by auto; reflexivity).
      rewrite UY, HU, S6. unfold nr. lia.
    + exists s', xl'. split; auto. split; auto. split; [auto|]. split; [intros q; rewrite R4; auto|].
      intros OF. rewrite LD; [auto|]. intros z Hz E0. apply (OF z); [apply R4, S4; auto|]. rewrite E0. auto.
  - destruct (Z.ltb_spec (x_max s) (Z.of_nat (S i))) as [G2|G2].
    + destruct (IH s2 xl1 (A ++ [y]) nb b B (split_lo p (S i)) (m - 1)) as (s' & xl' & R1 & R2 & R3 & R4 & R5); auto; try lia.
      * cbn [s2 x_bl]. rewrite S1, <- app_assoc. auto.
      * cbn [s2 x_trie]. unfold up. apply nid_eqb_neq in NBM. rewrite NBM, S6, S5 by auto. unfold nr. auto.
      * exists s', xl'. split; auto. split; auto. split; [auto|]. split; [intros q; rewrite R4; auto|].
        intros OF. rewrite LD; [auto|]. intros z Hz E0. apply (OF z); [apply R4, S4; auto|]. rewrite E0. auto.
    + exists s2, xl1. split; auto. split; auto. split; auto. split; auto.
      intros OF. rewrite LD; [auto|]. intros z Hz E0. apply (OF z); [apply S4; auto|]. rewrite E0. auto.
Qed.

Definition flat_of (s : estate) : list eref := flat (x_trie s) (x_bl s).
Lemma flat_same s t' lv l mx : (forall n, b_pool (bget t' n) = b_pool (bget (x_trie s) n)) ->
  flat_of (mkX t' (x_bl s) lv l mx) = flat_of s.
Proof. intros H. unfold flat_of. cbn [x_trie x_bl]. apply flat_ext. auto. Qed.
Lemma dump_same s t' lv l mx : same_shape (x_trie s) t' -> edump (mkX t' (x_bl s) lv l mx) = edump s.
Proof. intros H. unfold edump. cbn [x_trie x_bl]. apply map_ext. intros n. symmetry. apply same_shape_brev; auto. Qed.

Lemma fset_new h s xl x v k conf : einv s xl -> enodel s -> 16 <= x_max s -> key_to_hash h (KStr x) = Some (k, conf) ->
  eload s k conf = Ret None -> (forall z, cont s z -> pr_rev z <> reverse64 k) ->
  exists s', eset h s (KStr x) v = (s', Ret (RBool true)) /\
    (forall r, In r (edump s) -> In r (edump s')) /\
    (off s' -> link_set h s (KStr x) v (flat_of s) = Some (flat_of s')).
Proof.
  intros I ND HM HK EL HF. pose proof (reverse64_range k) as R.
  destruct (eset_new h s xl x v k conf I ND HM HK EL HF) as (s' & xl' & ES & _ & _ & _ & _ & CS & _).
  exists s'. split; auto. assert (NEWC : cont s' (reverse64 k, conf, false, KStr x, v)) by (apply CS; auto). clear CS xl'.
  destruct (eload_spec s xl k conf I) as [E|[(n & j & p & E & _)|(_ & y & b & p & Hy & Eb & Ri & HP & K & _)]];
    [congruence|congruence|].
  unfold eset in ES. unfold link_set. rewrite HK, EL in *. cbv zeta in *. unfold pool_of in *.
  assert (BB : base (x_trie s) (base (x_trie s) (find_bucket (x_trie s) (reverse64 k))) = b).
  { rewrite <- Eb. apply (base_linked _ xl); [apply (ei_trie _ _ I)|]. apply (ei_adj_x s xl I _ _ Hy). }
  rewrite BB, HP in *. rewrite <- Eb in *.
  assert (NP : forall sl, In sl (live p) -> sl_rev sl <> reverse64 k).
  { intros sl Hs E. apply (HF (pr sl)); [|exact E]. exists y, b, p. split; auto. split; auto. apply in_map; auto. }
  destruct (get_with_fn_ok p _ _ (reverse64 k) K (ND _ _ _ Hy HP) Ri NP) as (p1 & i & l1 & l2 & EG & EZ & EM & EN & HL1 & HL2 & HU).
  rewrite EG, EZ in *. cbn [zero_slot sl_rev sl_conf sl_val sl_del sl_linked negb andb] in *. rewrite !Z.eqb_refl in *.
  destruct (set_value_zero v) as (ok & EV). rewrite EV in *.
  set (fl := fun z : slot => mkS (reverse64 k) conf (sl_del z) (KStr x) v true) in *.
  destruct (HU fl eq_refl) as (K1 & EM1 & ND1). specialize (ND1 (ND _ _ _ Hy HP) eq_refl).
  set (p2 := upd_slot p1 i fl) in *.
  unfold set_bpool, set_xtrie in *. cbn [x_trie x_bl x_lv x_len x_max] in *.
  set (t' := tupd (x_trie s) b (fun z => set_pool z (Some p2))) in *.
  assert (SS : same_shape (x_trie s) t') by (apply same_shape_tupd; intros; reflexivity).
  assert (GN : b_pool (bget t' b) = Some p2) by (unfold t', tupd; rewrite bget_tset, nid_eqb_refl; reflexivity).
  assert (GO : forall m, m <> b -> b_pool (bget t' m) = b_pool (bget (x_trie s) m)).
  { intros m Hm. unfold t', tupd. rewrite bget_tset_ne by auto. auto. }
  destruct (einv_pool s xl t' y b p p2 I SS Hy HP GN GO K1 (x_lv s) (x_len s + 1)) as (I' & C' & D').
  set (s2 := mkX t' (x_bl s) (x_lv s) (x_len s + 1) (x_max s)) in *.
  assert (D2 : edump s2 = edump s) by (apply dump_same; auto).
  (* the part before the split *)
  assert (PLACE : ~ In (reverse64 k) (edump s) -> exists l1, link_get 4 p (reverse64 k) b (flat_of s) = Some l1 /\
     link_in t' b (reverse64 k) (RS b i) l1 = Some (flat_of s2)).
  { intros NB. destruct (link_place s xl y b p (reverse64 k) I ND Hy HP Ri NB NP) as (p1' & i' & l' & EG' & EL1 & EL2).
    rewrite EG in EG'. injection EG' as <- <-. exists l'. split; auto. apply (EL2 fl eq_refl). }
  assert (BLEN : forall s3, flat_of (mkX (tupd (x_trie s3) b (fun z => set_blen z (b_len z + 1))) (x_bl s3) (x_lv s3) (x_len s3) (x_max s3)) = flat_of s3 /\
     edump (mkX (tupd (x_trie s3) b (fun z => set_blen z (b_len z + 1))) (x_bl s3) (x_lv s3) (x_len s3) (x_max s3)) = edump s3).
  { intros s3. split.
    - apply flat_same. intros m. unfold tupd. rewrite bget_tset. destruct (nid_eqb b m) eqn:E; auto. apply nid_eqb_eq in E. subst; auto.
    - apply dump_same. apply same_shape_tupd; intros; reflexivity. }
  destruct ((reverse64 k <? MAX64) && (x_max s <? p_len p1)) eqn:EC.
  - pose proof EC as EC2. apply andb_true_iff in EC2 as [_ EC2]. apply Z.ltb_lt in EC2.
    assert (Hy2 : adj (x_bl s2) y b) by exact Hy.
    destruct (gap_pow s2 xl y b I' Hy2) as (m & MU & M0). destruct Hy2 as (A & B & EAB).
    destruct (link_split_spec 64 s2 xl A y b B p2 m I' (D' ND ND1) HM EAB GN EC2 MU M0) as (s3 & xl' & E3 & I3 & N3 & C3 & L3).
    rewrite E3 in ES. injection ES as <-. destruct (BLEN s3) as [B1 B2]. rewrite B1, B2.
    split; [intros r Hr; apply N3; rewrite D2; auto|]. intros OF.
    assert (C4 : forall z, cont s3 z -> ~ In (pr_rev z) (edump s3)).
    { intros z Hz. rewrite <- B2. apply OF.
      destruct (einv_same s3 xl' (tupd (x_trie s3) b (fun z => set_blen z (b_len z + 1))) (x_lv s3) (x_len s3) I3) as (_ & C4 & _).
      { apply same_shape_tupd; intros; reflexivity. }
      { intros q. unfold tupd. rewrite bget_tset. destruct (nid_eqb b q) eqn:E; auto. apply nid_eqb_eq in E. subst; auto. }
      apply C4; auto. }
    destruct PLACE as (l' & PL1 & PL2).
    { intros Hin. apply (OF _ NEWC). rewrite B2. apply N3. rewrite D2. exact Hin. }
    rewrite PL1, PL2. apply L3. exact C4.
  - injection ES as <-. destruct (BLEN s2) as [B1 B2]. cbn [x_trie x_bl x_lv x_len x_max s2] in B1, B2. fold s2 in B1, B2.
    rewrite B2.
    split; [intros r Hr; rewrite D2; auto|]. intros OF. rewrite B1.
    destruct PLACE as (l' & PL1 & PL2).
    { intros Hin. apply (OF _ NEWC). rewrite B2, D2. exact Hin. }
    rewrite PL1, PL2. auto.
Qed.

Lemma flat_plen t t' bl : (forall n, In n bl -> plen t' n = plen t n) -> flat t' bl = flat t bl.
Proof.
  intros H. induction bl as [|n bl IH]; auto. rewrite !flat_cons, IH by (intros; apply H; right; auto).
  unfold seg. rewrite H by (left; auto). auto.
Qed.
Lemma upd_item_flat s n i f : flat_of (upd_item s n i f) = flat_of s /\ edump (upd_item s n i f) = edump s.
Proof.
  unfold upd_item. destruct (b_pool (bget (x_trie s) n)) as [p|] eqn:EP; [|auto].
  unfold set_bpool, set_xtrie, flat_of, edump. cbn [x_trie x_bl].
  set (t' := tupd (x_trie s) n _). split.
  - apply flat_plen. intros m _. unfold plen. destruct (nid_eqb m bmax); auto. unfold t', tupd. rewrite bget_tset.
    destruct (nid_eqb n m) eqn:E; auto. apply nid_eqb_eq in E. subst m. rewrite EP. reflexivity.
  - apply map_ext. intros m. symmetry. apply same_shape_brev. apply same_shape_tupd; intros; reflexivity.
Qed.
Definition norm (r : res out) : Prop := stops r = false.
Lemma fstep_flat h s m o : erel s m -> store_or_read o ->
  (forall k c c', writes h o = Some (k, c) -> c' <> c -> sm_map m (k, c') = None) ->
  (forall r, In r (edump s) -> In r (edump (fst (estep h s o)))) /\
  (stops (snd (estep h s o)) = false -> off (fst (estep h s o)) ->
     link_step h s o (flat_of s) = Some (flat_of (fst (estep h s o)))).
Proof.
  intros H HO HC.
  assert (RD0 : forall o, read_only o -> fst (estep h s o) = s).
  { intros o' Ho. destruct o' as [| |key|k c|key|k c|key|key|]; try contradiction; cbn [estep]; unfold ewith, eget, eget_item;
      try destruct (key_to_hash h key) as [[k c]|]; auto; destruct (eload s _ _) as [[[]|]| | |]; auto. }
  destruct o as [key v|i|key|k c|key|k c|key|key|]; try contradiction; cbn [link_step];
    try (rewrite RD0 by exact Logic.I; split; auto; fail).
  destruct HO as (x & ->). cbn [estep].
  destruct (key_to_hash h (KStr x)) as [[k c]|] eqn:EK; [|discriminate].
  destruct (key_range _ _ _ _ EK) as [Hk Hc]. specialize (HC k c).
  destruct (eload_rel s m k c H Hk) as [E|[(n & j & p & E & HT & HI & EM)|(E & EM)]].
  - unfold eset, link_set. rewrite EK, E. split; auto.
  - unfold eset, link_set. rewrite EK, E. unfold eupdate.
    destruct (set_value KSample (sl_val (item_at s n j)) v) as [[v' ok]|]; cbn [fst snd]; auto.
    destruct (upd_item_flat s n j (set_sval v')) as [U1 U2]. rewrite U1, U2. auto.
  - destruct (er_inv _ _ H) as (xl & I).
    assert (NC : forall c', sm_map m (k, c') = None).
    { intros c'. destruct (Z.eq_dec c' c) as [->|N]; auto. }
    assert (FR : forall z, cont s z -> pr_rev z <> reverse64 k).
    { intros [[[[r cf] d] ky] vl] HZ Er. cbn [pr_rev fst] in Er. subst r.
      assert (D0 : d = false).
      { destruct HZ as (y & b & p & Hy & HP & Hin). apply in_map_iff in Hin as (sl & Es & Hs).
        pose proof (er_nd _ _ H y b p Hy HP sl Hs) as D. unfold pr in Es. congruence. }
      subst d. assert (EX : sm_map m (k, cf) = Some (mkBd KSample ky vl)) by (apply (er_at _ _ H); eauto).
      rewrite NC in EX. discriminate. }
    destruct (fset_new h s xl x v k c I (er_nd _ _ H) (er_max _ _ H) EK E FR) as (s' & ES & D' & L').
    rewrite ES. cbn [fst snd]. auto.
Qed.

(** * Histories *)
Lemma dump_run h : forall os s m, erel s m -> Forall store_or_read os ->
  (forall o k c c', In o os -> writes h o = Some (k, c) -> c' <> c -> sm_map m (k, c') = None) -> no_collision h os ->
  forall r, In r (edump s) -> In r (edump (erun h s os)).
Proof.
  induction os as [|o os IH]; intros s m H HF HC HN r Hr; cbn [erun]; auto.
  apply Forall_cons_iff in HF as [HO HF].
  destruct (fstep_flat h s m o H HO (fun k c c' => HC o k c c' (or_introl eq_refl))) as [D _].
  pose proof (estep_agrees h s m o H HO (fun k c c' => HC o k c c' (or_introl eq_refl))) as A.
  destruct (estep h s o) as [s' q]. cbn [fst snd] in *. destruct (stops q) eqn:ST; auto.
  destruct A as [[-> _]|[_ A]]; [discriminate|].
  apply (IH s' (fst (sm_step h m o)) A HF); auto.
  - intros o' k c c' Hin HW Nc. destruct (sm_map (fst (sm_step h m o)) (k, c')) eqn:EM; auto. exfalso.
    destruct (sm_step_writes h m o k c') as [N|W]; [congruence| |].
    + apply N. apply (HC o' k c c'); auto. right; auto.
    + apply Nc. apply (HN o o' k c' c); auto; [left|right]; auto.
  - intros o1 o2 k c c' H1 H2. apply HN; right; auto.
Qed.

Lemma frun_flat h (Q : Z -> Prop) : forall os s m, erel s m -> Forall store_or_read os ->
  (forall o k c c', In o os -> writes h o = Some (k, c) -> c' <> c -> sm_map m (k, c') = None) -> no_collision h os ->
  ~ stopped h s os -> (forall k c, 0 <= k < W64 -> sm_map m (k, c) <> None -> Q (reverse64 k)) ->
  (forall r, In r (positions h os) -> Q r) ->
  (forall r, Q r -> ~ In r (edump (erun h s os))) ->
  frun h (s, flat_of s) os = (erun h s os, flat_of (erun h s os)) /\ fouts h (s, flat_of s) os = eouts h s os /\
  erel (erun h s os) (sm_run h m os).
Proof.
  induction os as [|o os IH]; intros s m H HF HC HN NS HQ HP HD; cbn [frun fouts erun eouts sm_run]; auto.
  pose proof HF as HF0. apply Forall_cons_iff in HF as [HO HF].
  pose proof (fun k c c' => HC o k c c' (or_introl eq_refl)) as HC0.
  destruct (fstep_flat h s m o H HO HC0) as [D L].
  pose proof (estep_agrees h s m o H HO HC0) as A.
  unfold fstep. cbn [fst snd]. unfold stopped in NS. cbn [eouts erun] in NS, HD.
  destruct (estep h s o) as [s' q]. cbn [fst snd] in *.
  destruct (stops q) eqn:ST; [exfalso; apply NS; cbn [existsb]; rewrite ST; auto|].
  destruct A as [[-> _]|[_ A]]; [discriminate|].
  assert (HC' : forall o' k c c', In o' os -> writes h o' = Some (k, c) -> c' <> c -> sm_map (fst (sm_step h m o)) (k, c') = None).
  { intros o' k c c' Hin HW Nc. destruct (sm_map (fst (sm_step h m o)) (k, c')) eqn:EM; auto. exfalso.
    destruct (sm_step_writes h m o k c') as [N|W]; [congruence| |].
    + apply N. apply (HC o' k c c'); auto. right; auto.
    + apply Nc. apply (HN o o' k c' c); auto; [left|right]; auto. }
  assert (HN' : no_collision h os) by (intros o1 o2 k c c' H1 H2; apply HN; right; auto).
  assert (HQ' : forall k c, 0 <= k < W64 -> sm_map (fst (sm_step h m o)) (k, c) <> None -> Q (reverse64 k)).
  { intros k c Hk HM. destruct (sm_step_writes h m o k c HM) as [N|W]; [eapply HQ; eauto|].
    apply HP. unfold positions. cbn [flat_map]. rewrite W. left. auto. }
  rewrite L; auto.
  - rewrite ST. destruct (IH s' (fst (sm_step h m o)) A HF HC' HN') as (I1 & I2 & I3); auto.
    + intros X. apply NS. cbn [existsb]. rewrite ST. exact X.
    + intros r Hr. apply HP. unfold positions. cbn [flat_map]. apply in_or_app. right. exact Hr.
    + rewrite I1, I2. auto.
  - intros z Hz Hin. apply (HD (pr_rev z)).
    + destruct z as [[[[r cf] d] ky] vl]. cbn [pr_rev fst].
      destruct (er_inv _ _ A) as (xl & I'). pose proof (cont_rev s' xl I' _ Hz) as Rr. cbn [pr_rev fst] in Rr.
      assert (D0 : d = false).
      { destruct Hz as (y & b & p & Hy & HPp & Hi). apply in_map_iff in Hi as (sl & Es & Hs).
        pose proof (er_nd _ _ A y b p Hy HPp sl Hs) as D1. unfold pr in Es. congruence. }
      subst d. rewrite <- (reverse64_involutive r) by auto.
      apply (HQ' (reverse64 r) cf); [apply reverse64_range|].
      assert (EX : sm_map (fst (sm_step h m o)) (reverse64 r, cf) = Some (mkBd KSample ky vl)).
      { apply (er_at _ _ A); [apply reverse64_range|]. eexists _, _. split; [reflexivity|]. rewrite reverse64_involutive by auto. auto. }
      rewrite EX. discriminate.
    + apply (dump_run h os s' (fst (sm_step h m o)) A HF HC' HN'). exact Hin.
Qed.
