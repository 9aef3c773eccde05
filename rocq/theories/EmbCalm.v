(** A Set that keeps the order of its bucket (AfterSpec.calm): the pool after it, and the list of entries. Lemmas for C42 and C76. *)
From Verif Require Import Base BaseProofs Util UtilProofs Bucket TrieProofs TrieInv TrieGrow MapModel ItemProofs MapInv MapSplit
  MapInit Spec MapRefine EmbModel EmbPool EmbTrie EmbInv EmbSplit EmbSpec EmbRefine EmbDel EmbFull EmbReuse EmbLinked PurgeSpec EmbPurge MixSpec EmbMix EmbAfter AfterSpec.
From Coq Require Import ZifyBool Sorted Ascii String.
Local Open Scope Z_scope.
Local Open Scope list_scope.
Local Opaque reverse64 level_of base find_bucket.

(** * Pools from their slots *)
Lemma seq_sorted f : forall n a, (forall i j, (a <= i < j)%nat -> (j < a + n)%nat -> f i < f j) -> StronglySorted Z.lt (map f (seq a n)).
Proof.
  induction n as [|n IH]; intros a H; cbn [seq map]; constructor.
  - apply IH. intros i j A B. apply H; lia.
  - apply Forall_forall. intros z Hz. apply in_map_iff in Hz as (j & <- & Hj). apply in_seq in Hj. apply H; lia.
Qed.
Lemma make_ok Q lo hi : 0 <= p_len Q -> (1 <= p_n Q)%nat -> (p_n Q <= List.length (p_slots Q))%nat ->
  (forall i j, (i < j < p_n Q)%nat -> sl_rev (slot_at Q i) < sl_rev (slot_at Q j)) -> (forall i, (i < p_n Q)%nat -> lo <= sl_rev (slot_at Q i) < hi) ->
  (forall a, (p_n Q <= a)%nat -> slot_at Q a = zero_slot) -> pool_ok Q lo hi.
Proof.
  intros H0 H1 HC HS HR HZ. pose proof (live_seq Q HC) as L. constructor.
  - unfold p_cap, p_n in *. lia.
  - unfold p_cap, p_n in *. lia.
  - rewrite L, map_map. apply (seq_sorted (fun i => sl_rev (slot_at Q i))). intros i j A B. apply HS. lia.
  - intros sl Hs. rewrite L in Hs. apply in_map_iff in Hs as (i & <- & Hi). apply in_seq in Hi. apply HR. lia.
  - intros sl Hs. apply In_nth with (d := zero_slot) in Hs as (a & Ha & <-). rewrite nth_skipn_add. apply (HZ (p_n Q + a)%nat). lia.
Qed.
Lemma rest_zero P lo hi a : pool_ok P lo hi -> (p_n P <= a)%nat -> slot_at P a = zero_slot.
Proof.
  intros K Ha. unfold slot_at. destruct (Nat.lt_ge_cases a (List.length (p_slots P))) as [L|L]; [|apply nth_overflow; lia].
  apply (po_rest _ _ _ K). pose proof (po_n _ _ _ K). rewrite <- (firstn_skipn (p_n P) (p_slots P)) at 1. rewrite app_nth2; rewrite firstn_length_le by lia; [|lia]. apply nth_In. rewrite skipn_length. lia.
Qed.
Definition zeros (p : pool) : Prop := forall a, (p_n p <= a)%nat -> slot_at p a = zero_slot.
Lemma nth_repeat_z n a : nth a (repeat zero_slot n) zero_slot = zero_slot.
Proof. revert a. induction n as [|n IH]; intros [|a]; cbn; auto. Qed.
Lemma get_zeros : forall f p rv p1 i, zeros p -> (p_n p <= List.length (p_slots p))%nat -> 0 <= p_len p -> get_with_fn f p rv = GSlot p1 i -> zeros p1.
Proof.
  induction f as [|f IH]; intros p rv p1 i H HN HZ; cbn [get_with_fn]; [discriminate|]. cbv zeta.
  destruct (Z.eqb_spec (p_len p) 0) as [E0|N0].
  { destruct (_ <=? _); [discriminate|]. intros E. injection E as <- <-. intros a A1. apply H. unfold p_n in *. cbn [p_len] in A1. lia. }
  pose proof (last_active_spec (p_slots p) (p_n p)) as LA. destruct (last_active (p_slots p) (p_n p)) as [t|] eqn:EL.
  2:{ cbn [free_idx]. destruct (p_cap p =? p_len p); [|discriminate]. apply IH; auto.
    - intros a A1. unfold slot_at, expand. cbn [p_slots]. assert (AL : (p_n p <= a)%nat) by exact A1. rewrite app_nth2 by (rewrite firstn_length; lia). apply nth_repeat_z.
    - unfold expand, p_n. cbn [p_slots p_len]. rewrite app_length, repeat_length, firstn_length. unfold p_n in HN. lia. }
  destruct LA as (LT & _).
  destruct (free_idx p rv (Some t)) as [a|] eqn:EF.
  { assert (Ha : (a < p_n p)%nat).
    { unfold free_idx in EF. set (idx := sort_search _ _ _ _) in EF. destruct (Nat.leb_spec idx 1); cbn [orb] in EF; [discriminate|]. destruct (Nat.ltb_spec t idx); [discriminate|]. destruct (_ && _); [|discriminate]. injection EF as <-. lia. }
    intros E. injection E as <- <-. intros b B1. rewrite upd_at by lia. destruct (Nat.eqb_spec a b) as [->|N]; [unfold upd_slot, p_n in *; cbn [p_len] in B1; lia|]. apply H. exact B1. }
  destruct (p_cap p =? p_len p).
  { apply IH; auto.
    - intros a A1. unfold slot_at, expand. cbn [p_slots]. assert (AL : (p_n p <= a)%nat) by exact A1. rewrite app_nth2 by (rewrite firstn_length; lia). apply nth_repeat_z.
    - unfold expand, p_n. cbn [p_slots p_len]. rewrite app_length, repeat_length, firstn_length. unfold p_n in HN. lia. }
  destruct (_ <? _).
  { destruct (_ <=? _); [discriminate|]. intros E. injection E as <- <-. intros a A1. apply H. unfold p_n in *. cbn [p_len] in *. lia. }
  destruct (find_idx p rv) as [a|] eqn:EI; [|apply IH; auto].
  pose proof (find_idx_lt _ _ _ EI) as Ha. intros E. injection E as <- <-. intros b B1.
  assert (Hb : (p_n p < b)%nat) by (unfold p_n, insert_at in *; cbn [p_len] in B1; lia).
  unfold slot_at, insert_at. cbn [p_slots]. set (old := map relink (firstn (p_n p) (p_slots p))).
  assert (OL : List.length old = p_n p) by (unfold old; rewrite map_length, firstn_length; lia).
  rewrite app_nth2 by (rewrite firstn_length; lia). rewrite firstn_length. replace (Nat.min a (List.length old)) with a by lia.
  destruct (b - a)%nat as [|z] eqn:EB; [lia|]. cbn [nth]. rewrite app_nth2 by (rewrite skipn_length; lia). apply nth_repeat_z.
Qed.
Lemma zeros_filled q i r c ky vl lk : zeros q -> (i < p_n q)%nat -> (p_n q <= List.length (p_slots q))%nat -> zeros (filled q i r c ky vl lk).
Proof.
  intros Z Hi HN a Ha. unfold filled. rewrite upd_at by lia. assert (AL : (p_n q <= a)%nat) by exact Ha. destruct (Nat.eqb_spec i a); [lia|]. apply Z. exact AL.
Qed.
Lemma linked_filled q i r c ky vl : but_linked q i -> (i < p_n q)%nat -> (p_n q <= List.length (p_slots q))%nat -> plinked (filled q i r c ky vl true).
Proof.
  intros B Hi HN a A1 A2. unfold filled in *. rewrite upd_at by lia. assert (AL : (a < p_n q)%nat) by exact A1. destruct (Nat.eqb_spec i a) as [->|N]; [reflexivity|]. apply B; auto. lia.
Qed.

(** * Taking the place of a deleted slot *)
Lemma reuse_must P lo hi r i t : pool_ok P lo hi -> plinked P -> last_one P t -> (1 <= i)%nat -> (S i <= t)%nat -> sl_del (slot_at P i) = true ->
  sl_rev (slot_at P i) <= r -> r < sl_rev (slot_at P (S i)) -> get_with_fn 4 P r = GSlot (upd_slot P i recycle) i.
Proof.
  intros K LK LO I1 IT D R1 R2. pose proof LO as (Ht & LT & _). pose proof (po_n _ _ _ K) as PN.
  assert (FI : free_idx P r (Some t) = Some i).
  { unfold free_idx. set (f := fun i => r <? sl_rev (slot_at P i)).
    destruct (sort_search_spec f t 0 t) as (A & B & C); try lia.
    { intros x y Hxy Hy Hx. unfold f in *. destruct (Nat.eq_dec x y) as [->|N]; auto. pose proof (slot_lt P lo hi x y K ltac:(lia)). lia. }
    set (idx := sort_search t 0 t f) in *.
    assert (E : idx = S i).
    { destruct (Nat.lt_trichotomy idx (S i)) as [H|[H|H]]; auto; exfalso.
      - pose proof (C i ltac:(lia)) as X. unfold f in X. lia.
      - pose proof (B (S i) ltac:(lia)) as X. unfold f in X. lia. }
    rewrite E. destruct (Nat.leb_spec (S i) 1); [lia|]. destruct (Nat.ltb_spec t (S i)); [lia|]. cbn [orb]. replace (S i - 1)%nat with i by lia.
    rewrite D, (LK i) by lia. auto. }
  cbn [get_with_fn]. cbv zeta. destruct (Z.eqb_spec (p_len P) 0) as [E0|_]; [unfold p_n in Ht; lia|].
  pose proof (last_active_spec (p_slots P) (p_n P)) as LA. destruct (last_active (p_slots P) (p_n P)) as [t'|].
  - assert (t' = t) as -> by (apply (last_one_eq P); auto). rewrite FI. auto.
  - exfalso. unfold slot_at in LT. rewrite LA in LT by lia. discriminate.
Qed.
(** the new pool's slots: the old ones in order with the new one at its place, the reused one gone *)
Section Pools.
Context (P : pool) (lo hi r c : Z) (ky : gkey) (vl : gval) (q : pool) (i : nat) (K : pool_ok P lo hi) (LK : plinked P) (RG : lo <= r < hi)
  (EG : get_with_fn 4 P r = GSlot q i).
Let Q := filled q i r c ky vl true.
Let new := mkS r c false ky vl true.
Lemma get_ok : zeros q /\ but_linked q i.
Proof.
  pose proof (po_n _ _ _ K). pose proof (po_len _ _ _ K). split.
  - eapply get_zeros; [|exact H|lia|exact EG]. intros a Ha. eapply rest_zero; eauto.
  - eapply linked_get; [exact LK|exact H|lia|exact EG].
Qed.
Lemma pool_reused : q = upd_slot P i recycle -> (i < p_n P)%nat ->
  (forall a, (a < i)%nat -> sl_rev (slot_at P a) < r) -> (forall a, (i < a < p_n P)%nat -> r < sl_rev (slot_at P a)) ->
  pool_ok Q lo hi /\ plinked Q /\ forall sl, In sl (live Q) <-> sl = new \/ (In sl (live P) /\ sl <> slot_at P i).
Proof.
  intros E Hi LO HI. destruct get_ok as [Z B]. pose proof (po_n _ _ _ K) as PN. pose proof (po_len _ _ _ K) as PL.
  assert (QN : p_n q = p_n P) by (rewrite E; reflexivity). assert (QL : (p_n q <= List.length (p_slots q))%nat) by (rewrite QN, E; unfold upd_slot; cbn [p_slots]; rewrite upd_nth_length; auto).
  assert (QA : forall a, slot_at Q a = if Nat.eqb i a then new else slot_at P a).
  { intros a. unfold Q, filled. rewrite upd_at by lia. rewrite E. rewrite !upd_at by lia. rewrite Nat.eqb_refl. destruct (Nat.eqb i a); reflexivity. }
  assert (KQ : pool_ok Q lo hi).
  { apply make_ok.
    - unfold Q, filled, upd_slot. cbn [p_len]. rewrite E. cbn [upd_slot p_len]. lia.
    - change (p_n Q) with (p_n q). lia.
    - change (p_n Q) with (p_n q). unfold Q, filled, upd_slot. cbn [p_slots]. rewrite upd_nth_length. auto.
    - change (p_n Q) with (p_n q). intros a b Hab. rewrite !QA. destruct (Nat.eqb_spec i a) as [<-|Na], (Nat.eqb_spec i b) as [<-|Nb]; cbn [sl_rev new]; [lia|apply HI; lia|apply LO; lia|apply (slot_lt P lo hi); auto; lia].
    - change (p_n Q) with (p_n q). intros a Ha. rewrite QA. destruct (Nat.eqb_spec i a); [cbn; lia|]. apply (po_rng _ _ _ K). eapply live_in; eauto. lia.
    - apply zeros_filled; auto. lia. }
  split; auto. split; [apply linked_filled; auto; lia|]. intros sl. split.
  - intros Hs. destruct (in_live _ _ _ _ KQ Hs) as (a & Ha & <-). change (p_n Q) with (p_n q) in Ha. rewrite QA. destruct (Nat.eqb_spec i a) as [<-|N]; auto. right. split; [eapply live_in; eauto; lia|].
    intros X. apply N. symmetry. apply (slot_inj P lo hi a i K); try lia. rewrite X. auto.
  - intros [->|[Hs NE]].
    + replace new with (slot_at Q i) by (rewrite QA, Nat.eqb_refl; auto). eapply live_in; [exact KQ|]. change (p_n Q) with (p_n q). lia.
    + destruct (in_live _ _ _ _ K Hs) as (a & Ha & <-). assert (i <> a) by congruence. replace (slot_at P a) with (slot_at Q a) by (rewrite QA; destruct (Nat.eqb_spec i a); congruence). eapply live_in; [exact KQ|]. change (p_n Q) with (p_n q). lia.
Qed.
Lemma pool_inserted : (i <= p_n P)%nat -> (i < p_n q)%nat -> (p_n q <= List.length (p_slots q))%nat -> 0 <= p_len q -> p_n q = S (p_n P) ->
  slot_at Q i = new ->
  (forall a, (a < i)%nat -> relink (slot_at Q a) = relink (slot_at P a)) ->
  (forall a, (i <= a < p_n P)%nat -> relink (slot_at Q (S a)) = relink (slot_at P a)) ->
  (forall a, (a < i)%nat -> sl_rev (slot_at P a) < r) -> (forall a, (i <= a < p_n P)%nat -> r < sl_rev (slot_at P a)) ->
  pool_ok Q lo hi /\ plinked Q /\ forall e, In e (map ent_of (live Q)) <-> e = ent_of new \/ In e (map ent_of (live P)).
Proof.
  intros Hi Hq QL QZ QN QI T8 T10 LO HI. destruct get_ok as [Z B]. pose proof (po_n _ _ _ K) as PN. pose proof (po_len _ _ _ K) as PL.
  assert (RL : forall x y, relink x = relink y -> sl_rev x = sl_rev y /\ ent_of x = ent_of y).
  { intros x y E. destruct x, y. unfold relink in E. cbn in E. injection E as <- <- <- <- <-. auto. }
  assert (SP : forall a, (a < S (p_n P))%nat -> (a = i /\ slot_at Q a = new) \/ (exists b, (b < p_n P)%nat /\ ((a < i /\ b = a)%nat \/ (i < a /\ a = S b)%nat) /\ sl_rev (slot_at Q a) = sl_rev (slot_at P b) /\ ent_of (slot_at Q a) = ent_of (slot_at P b))).
  { intros a Ha. destruct (Nat.lt_trichotomy a i) as [L|[->|L]]; [right|left; auto|right].
    - exists a. destruct (RL _ _ (T8 a L)). split; [lia|]. split; [lia|auto].
    - destruct a as [|a]; [lia|]. exists a. destruct (RL _ _ (T10 a ltac:(lia))). split; [lia|]. split; [lia|auto]. }
  assert (KQ : pool_ok Q lo hi).
  { apply make_ok.
    - exact QZ.
    - change (p_n Q) with (p_n q). lia.
    - change (p_n Q) with (p_n q). unfold Q, filled, upd_slot. cbn [p_slots]. rewrite upd_nth_length. auto.
    - change (p_n Q) with (p_n q). intros a b Hab. destruct (SP a ltac:(lia)) as [[-> Ea]|(a' & A1 & A2 & A3 & _)], (SP b ltac:(lia)) as [[-> Eb]|(b' & B1 & B2 & B3 & _)]; try lia.
      + rewrite Ea, B3. cbn [sl_rev new]. apply HI. lia.
      + rewrite Eb, A3. cbn [sl_rev new]. apply LO. lia.
      + rewrite A3, B3. apply (slot_lt P lo hi); auto. lia.
    - change (p_n Q) with (p_n q). intros a Ha. destruct (SP a ltac:(lia)) as [[-> Ea]|(a' & A1 & A2 & A3 & _)]; [rewrite Ea; cbn; lia|]. rewrite A3. apply (po_rng _ _ _ K). eapply live_in; eauto.
    - apply zeros_filled; auto. }
  split; auto. split; [apply linked_filled; auto|]. intros e. split.
  - intros Hs. apply in_map_iff in Hs as (sl & <- & Hs). destruct (in_live _ _ _ _ KQ Hs) as (a & Ha & <-). change (p_n Q) with (p_n q) in Ha. destruct (SP a ltac:(lia)) as [[-> Ea]|(a' & A1 & _ & _ & A4)]; [left; congruence|].
    right. rewrite A4. apply in_map. eapply live_in; eauto.
  - intros [->|Hs].
    + rewrite <- QI. apply in_map. eapply live_in; [exact KQ|]. change (p_n Q) with (p_n q). lia.
    + apply in_map_iff in Hs as (sl & <- & Hs). destruct (in_live _ _ _ _ K Hs) as (b & Hb & <-). destruct (Nat.lt_ge_cases b i) as [L|L].
      * destruct (RL _ _ (T8 b L)) as [_ <-]. apply in_map. eapply live_in; [exact KQ|]. change (p_n Q) with (p_n q). lia.
      * destruct (RL _ _ (T10 b ltac:(lia))) as [_ <-]. apply in_map. eapply live_in; [exact KQ|]. change (p_n Q) with (p_n q). lia.
Qed.
End Pools.

(** * The list of entries *)
Lemma together_trans bs a b c : together bs a b = true -> together bs b c = true -> together bs a c = true.
Proof.
  intros H1 H2. apply not_false_iff_true. intros H3. apply together_spec in H3 as (x & Hx & NX & R).
  assert (X : forall u w, together bs u w = true -> ~ (Z.min u w < x <= Z.max u w)).
  { intros u w H L. assert (together bs u w = false) by (apply together_spec; exists x; auto). congruence. }
  pose proof (X _ _ H1). pose proof (X _ _ H2). lia.
Qed.
Definition asc (l : list ent) : Prop := StronglySorted Z.lt (map e_pos l).
Lemma asc_uniq l : asc l -> forall x y, In x l -> In y l -> e_pos x = e_pos y -> x = y.
Proof.
  intros S x y Hx Hy E. apply In_nth_error in Hx as (i & Hi). apply In_nth_error in Hy as (j & Hj). pose proof (sorted_nth l S) as N.
  destruct (Nat.lt_trichotomy i j) as [H|[H|H]]; [pose proof (N i j x y Hi Hj H); lia|subst j; congruence|pose proof (N j i y x Hj Hi H); lia].
Qed.
Lemma entry_iff l p e : asc l -> (entry l p = Some e <-> In e l /\ e_hash e = p).
Proof.
  intros S. unfold entry. split.
  - intros H. apply find_some in H as [H1 H2]. split; auto. apply same_hash. auto.
  - intros [H1 <-]. apply find_unique; [auto|apply pair_eqb_refl|]. intros y Hy E. apply (asc_uniq l S); auto. unfold e_pos. rewrite (same_hash _ _ E). auto.
Qed.
Definition first_in (bs : list Z) (l : list ent) (e : ent) : Prop := forall e2, In e2 l -> together bs (e_pos e) (e_pos e2) = true -> e_pos e <= e_pos e2.
Lemma first_iff bs l e : asc l -> In e l -> (is_first bs l e = true <-> first_in bs l e).
Proof.
  intros S He. unfold is_first. pose proof (filter_sorted (fun x => together bs (e_pos e) (e_pos x)) l S) as SF. fold (bucket_of bs l (e_pos e)) in SF.
  assert (IN : In e (bucket_of bs l (e_pos e))) by (apply filter_In; split; auto; apply together_refl).
  destruct (bucket_of bs l (e_pos e)) as [|x t] eqn:EB; [destruct IN|]. cbn [map] in SF. inversion SF as [|? ? S1 S2]; subst.
  assert (AL : forall z, In z (x :: t) <-> In z l /\ together bs (e_pos e) (e_pos z) = true) by (intros z; rewrite <- EB; apply filter_In).
  split.
  - intros H e2 H2 T. apply same_hash in H. assert (PX : e_pos x = e_pos e) by (unfold e_pos; rewrite H; auto).
    destruct (proj2 (AL e2) (conj H2 T)) as [<-|H3]; [lia|]. rewrite Forall_forall in S2. specialize (S2 (e_pos e2) (in_map _ _ _ H3)). lia.
  - intros F. destruct (proj1 (AL x) (or_introl eq_refl)) as [X1 X2]. pose proof (F x X1 X2) as L. destruct IN as [<-|IN]; [apply pair_eqb_refl|].
    rewrite Forall_forall in S2. specialize (S2 (e_pos e) (in_map _ _ _ IN)). lia.
Qed.
Lemma visible_iff bs l p b : asc l -> (visible bs l p = Some b <-> exists e, In e l /\ e_hash e = p /\ e_bd e = b /\ (alive e \/ first_in bs l e)).
Proof.
  intros S. unfold visible. split.
  - destruct (entry l p) as [e|] eqn:EE; [|discriminate]. apply entry_iff in EE as [H1 H2]; auto. destruct (negb (e_dead e) || is_first bs l e) eqn:V; [|discriminate]. intros X. injection X as <-.
    exists e. repeat (split; auto). apply orb_true_iff in V as [V|V]; [left; apply negb_true_iff; auto|right; apply first_iff; auto].
  - intros (e & H1 & H2 & H3 & V). rewrite (proj2 (entry_iff l p e S) (conj H1 H2)). replace (negb (e_dead e) || is_first bs l e) with true; [congruence|].
    symmetry. apply orb_true_iff. destruct V as [V|V]; [left; unfold alive in V; rewrite V; auto|right; apply first_iff; auto].
Qed.
Lemma in_bucket bs l r e : In e (bucket_of bs l r) <-> In e l /\ together bs r (e_pos e) = true.
Proof. apply filter_In. Qed.
Lemma place_iff bs l r d : asc l -> (place bs l r = Some d <->
  In d (bucket_of bs l r) /\ dead d /\ e_pos d <= r /\ (exists a, In a (bucket_of bs l r) /\ e_pos a < e_pos d) /\
  (exists u, In u (bucket_of bs l r) /\ alive u /\ r < e_pos u) /\ (forall e, In e (bucket_of bs l r) -> e_pos e <= r -> e_pos e <= e_pos d)).
Proof.
  intros S. pose proof (filter_sorted (fun x => together bs r (e_pos x)) l S) as SB. fold (bucket_of bs l r) in SB.
  pose proof (filter_sorted (fun e => e_pos e <=? r) _ SB) as SL. fold (lower bs l r) in SL.
  assert (IL : forall e, In e (lower bs l r) <-> In e (bucket_of bs l r) /\ e_pos e <= r) by (intros e; unfold lower; rewrite filter_In, Z.leb_le; tauto).
  assert (IU : existsb (fun e => negb (e_dead e)) (upper bs l r) = true <-> exists u, In u (bucket_of bs l r) /\ alive u /\ r < e_pos u).
  { rewrite existsb_exists. unfold upper. split; intros (u & H).
    - destruct H as [H1 H2]. apply filter_In in H1 as [H1 H3]. exists u. split; auto. split; [apply negb_true_iff; auto|]. lia.
    - destruct H as (H1 & H2 & H3). exists u. split; [apply filter_In; split; auto; lia|]. unfold alive in H2. rewrite H2. auto. }
  unfold place. assert (RV : lower bs l r = rev (rev (lower bs l r))) by (rewrite rev_involutive; auto). revert RV. generalize (rev (lower bs l r)). intros w RV.
  assert (MX : forall d0 t, w = d0 :: t -> In d0 (lower bs l r) /\ forall x, In x t -> In x (lower bs l r) /\ e_pos x < e_pos d0).
  { intros d0 t ->. cbn [rev] in RV. rewrite RV. rewrite RV, map_app in SL. cbn [map] in SL. split; [apply in_or_app; cbn; auto|]. intros x Hx. split; [apply in_or_app; left; rewrite <- in_rev; auto|].
    apply (proj2 (proj2 (proj1 (sorted_app _ _ _) SL))); [apply in_map; rewrite <- in_rev; auto|cbn; auto]. }
  assert (ALL : forall x, In x (lower bs l r) <-> In x w) by (intros x; rewrite RV, <- in_rev; tauto).
  split.
  - destruct w as [|d0 [|x t]]; try discriminate. destruct (e_dead d0 && existsb _ (upper bs l r)) eqn:C; [|discriminate]. intros E. injection E as <-. apply andb_true_iff in C as [C1 C2].
    destruct (MX d0 (x :: t) eq_refl) as [M1 M2]. apply IL in M1 as [M1 M3]. split; auto. split; auto. split; auto. split.
    + destruct (M2 x (or_introl eq_refl)) as [X1 X2]. apply IL in X1 as [X1 _]. exists x. auto.
    + split; [apply IU; auto|]. intros e H1 H2. destruct (proj1 (ALL e) (proj2 (IL e) (conj H1 H2))) as [<-|H3]; [lia|]. destruct (M2 e H3). lia.
  - intros (H1 & H2 & H3 & (a & A1 & A2) & HU & HM). assert (D : In d w) by (apply ALL, IL; auto). assert (A : In a w) by (apply ALL, IL; split; auto; lia).
    destruct w as [|d0 [|x t]]; [destruct D|exfalso; destruct D as [<-|[]], A as [<-|[]]; lia|]. destruct (MX d0 (x :: t) eq_refl) as [M1 M2]. apply IL in M1 as [M1 M3].
    assert (d0 = d) as ->. { destruct D as [D|D]; auto. exfalso. destruct (M2 d D). specialize (HM d0 M1 M3). lia. }
    unfold dead in H2. rewrite H2. cbn [andb]. rewrite (proj2 IU HU). auto.
Qed.
Section Entered.
Context (bs : list Z) (l : list ent) (p : Z * Z) (key : gkey) (v w : gval) (S : asc l) (C : calm bs l (pos_of p)) (G : given bs l (pos_of p) v = Some w).
Let r := pos_of p.
Let new := mkE p (mkBd KSample key w) false.
Lemma entered_in e : In e (entered bs l p key v) <-> e = new \/ (In e l /\ place bs l r <> Some e).
Proof.
  unfold entered. rewrite G, put_in. fold new r. destruct (place bs l r) as [d|] eqn:EP.
  - pose proof EP as P. apply (place_iff bs l r d S) in P as (P1 & _). apply in_bucket in P1 as [P1 _]. unfold without. rewrite filter_In. cbn [existsb]. rewrite orb_false_r.
    split; intros [H|[H1 H2]]; auto; right; (split; auto).
    + intros X. injection X as <-. unfold same_entry in H2. rewrite pair_eqb_refl in H2. discriminate.
    + apply negb_true_iff. destruct (same_entry e d) eqn:E; auto. exfalso. apply H2. f_equal. apply (asc_uniq l S); auto. unfold e_pos. rewrite (same_hash _ _ E). auto.
  - split; intros [H|H]; auto; right; [split; auto; discriminate|tauto].
Qed.
Lemma entered_free e : In e l -> place bs l r <> Some e -> e_pos e <> r.
Proof.
  intros He NP E. pose proof C as CC. unfold calm in CC. fold r in CC. destruct (place bs l r) as [d|] eqn:EP; [|apply (proj1 CC e He E)].
  pose proof EP as P. apply (place_iff bs l r d S) in P as (P1 & _ & P3 & _ & _ & P6). apply in_bucket in P1 as [P1 _]. apply NP. f_equal. apply (asc_uniq l S); auto.
  assert (X : In e (bucket_of bs l r)) by (apply in_bucket; split; auto; rewrite E; apply together_refl). specialize (P6 e X). lia.
Qed.
Lemma entered_asc : asc (entered bs l p key v).
Proof.
  unfold entered. rewrite G. fold new r. apply put_sorted.
  - destruct (place bs l r); [apply filter_sorted|]; exact S.
  - intros x Hx. change (e_pos new) with r. apply entered_free; destruct (place bs l r) as [d|] eqn:EP; auto; try discriminate.
    + apply filter_In in Hx. tauto.
    + intros X. injection X as <-. apply filter_In in Hx as [_ Hx]. cbn [existsb] in Hx. unfold same_entry in Hx. rewrite pair_eqb_refl in Hx. discriminate.
Qed.
Lemma entered_own : visible bs (entered bs l p key v) p = Some (mkBd KSample key w).
Proof. apply visible_iff; [apply entered_asc|]. exists new. split; [apply entered_in; auto|]. split; auto. split; auto. left. reflexivity. Qed.
Lemma first_bound e : In e l -> dead e -> first_in bs l e -> together bs (e_pos e) r = true -> e_pos e <= r.
Proof.
  intros He DE F T. destruct (Z_le_gt_dec (e_pos e) r) as [L|L]; auto. exfalso. pose proof C as CC. unfold calm in CC. fold r in CC.
  assert (EB : In e (bucket_of bs l r)) by (apply in_bucket; split; auto; rewrite together_sym; auto).
  assert (FB : forall x, In x (bucket_of bs l r) -> e_pos e <= e_pos x).
  { intros x Hx. apply in_bucket in Hx as [H1 H2]. exact (F x H1 (together_trans bs _ _ _ T H2)). }
  destruct (place bs l r) as [d|] eqn:EP.
  - apply (place_iff bs l r d S) in EP as (P1 & _ & P3 & _). specialize (FB d P1). lia.
  - destruct CC as [_ CC]. unfold upper in CC. pose proof (filter_sorted (fun x => together bs r (e_pos x)) l S) as SB. fold (bucket_of bs l r) in SB.
    pose proof (filter_sorted (fun e => r <? e_pos e) _ SB) as SU.
    assert (IE : In e (filter (fun e => r <? e_pos e) (bucket_of bs l r))) by (apply filter_In; split; auto; lia).
    assert (AU : forall x, In x (filter (fun e => r <? e_pos e) (bucket_of bs l r)) -> In x (bucket_of bs l r)) by (intros x Hx; apply filter_In in Hx; tauto).
    destruct (filter (fun e => r <? e_pos e) (bucket_of bs l r)) as [|u t]; [destruct IE|]. cbn [map] in SU. inversion SU as [|? ? S1 S2]; subst.
    destruct IE as [->|IE]; [unfold alive, dead in *; congruence|]. rewrite Forall_forall in S2. specialize (S2 (e_pos e) (in_map _ _ _ IE)). specialize (FB u (AU u (or_introl eq_refl))). lia.
Qed.
Lemma entered_other p' : p' <> p -> visible bs (entered bs l p key v) p' = visible bs l p'.
Proof.
  intros NP. pose proof entered_asc as S'.
  assert (X : forall b, visible bs (entered bs l p key v) p' = Some b <-> visible bs l p' = Some b).
  { intros b. rewrite !visible_iff by auto. split; intros (e & H1 & H2 & H3 & V); exists e.
    - apply entered_in in H1 as [->|[H1 ND]]; [cbn in H2; congruence|]. repeat (split; auto). destruct V as [V|V]; [auto|]. right. intros e2 I2 T.
      destruct (place bs l r) as [d|] eqn:EP; [|apply V; auto; apply entered_in; right; split; auto; congruence].
      destruct (Z.eq_dec (e_pos e2) (e_pos d)) as [ED|ND2].
      + pose proof EP as P. apply (place_iff bs l r d S) in P as (P1 & _ & _ & (a & A1 & A2) & _). apply in_bucket in P1 as [P1 P1'], A1 as [A1 A1'].
        assert (e_pos e <= e_pos a); [|lia]. apply V; [apply entered_in; right; split; auto; intros Y; assert (d = a) by congruence; subst; lia|].
        rewrite ED in T. eapply together_trans; [exact T|]. eapply together_trans; [|exact A1']. rewrite together_sym. exact P1'.
      + apply V; auto. apply entered_in. right. split; auto. intros Y. assert (d = e2) by congruence. subst. lia.
    - assert (ND : place bs l r <> Some e).
      { intros EP. apply (place_iff bs l r e S) in EP as (P1 & P2 & _ & (a & A1 & A2) & _). destruct V as [V|V]; [unfold alive, dead in *; congruence|].
        apply in_bucket in P1 as [P1 P1'], A1 as [A1 A1']. specialize (V a A1). assert (together bs (e_pos e) (e_pos a) = true) by (eapply together_trans; [|exact A1']; rewrite together_sym; auto). specialize (V H). lia. }
      split; [apply entered_in; auto|]. split; auto. split; auto. destruct (e_dead e) eqn:DE; [|left; exact DE]. destruct V as [V|V]; [auto|]. right. intros e2 I2 T.
      apply entered_in in I2 as [->|[I2 _]]; [|apply V; auto]. change (e_pos new) with r in *. apply first_bound; auto. }
  revert X. generalize (visible bs l p') (visible bs (entered bs l p key v) p'). intros o o' X. destruct o as [b|]; [apply X; auto|]. destruct o' as [b|]; auto. exfalso. pose proof (proj1 (X b) eq_refl). discriminate.
Qed.
End Entered.

(** * The state *)
Record arel (bs : list Z) (n : Z) (s : estate) (xl : list nid) (l : list ent) : Prop := {
  ar_rel : prel bs n s s xl l;
  ar_link : elinked s;
  ar_asc : asc l }.
Lemma calm_put bs n s s' xl l y b P Q z l' : arel bs n s xl l -> moved s s' b Q z -> adj (x_bl s) y b -> b_pool (bget (x_trie s) b) = Some P ->
  pool_ok P (brev (x_trie s) b) (up (x_trie s) y) -> pool_ok Q (brev (x_trie s) b) (up (x_trie s) y) -> plinked Q ->
  asc l' -> (forall e, In e l' <-> In e (map ent_of (live Q)) \/ (In e l /\ ~ In e (map ent_of (live P)))) ->
  (forall e, In e l' -> 0 <= fst (e_hash e) < W64) -> arel bs z s' xl l'.
Proof.
  intros [R L S] M Hy HP K KQ LQ S' IN HH. pose proof (pl_inv _ _ _ _ _ _ R) as I. pose proof M as (M1 & M2 & M3 & M4 & M5 & M6).
  destruct (einv_pool s xl (x_trie s') y b P Q I M1 Hy HP M5 M6 KQ (x_lv s') z) as (I' & C' & _).
  assert (E : s' = mkX (x_trie s') (x_bl s) (x_lv s') z (x_max s)) by (destruct s'; cbn in *; congruence). cbv zeta in I', C'. rewrite <- E in I', C'.
  pose proof (prel_holds _ _ _ _ _ _ R) as HL.
  assert (HB : forall m, brev (x_trie s') m = brev (x_trie s) m) by (intros; symmetry; apply same_shape_brev; auto).
  assert (BD : edump s' = bs).
  { rewrite <- (pl_bs _ _ _ _ _ _ R). unfold edump. rewrite M2. apply map_ext. auto. }
  assert (CV : forall P0 k c bd d, pool_ok P0 (brev (x_trie s) b) (up (x_trie s) y) -> 0 <= k < W64 ->
    (In (mkE (k, c) bd d) (map ent_of (live P0)) <-> exists key v, bd = mkBd KSample key v /\ In (reverse64 k, c, d, key, v) (map pr (live P0)))).
  { intros P0 k c bd d K0 Hk. destruct (bound_below s xl y b I Hy) as (B1 & B2 & B3 & _). split.
    - intros H. apply in_map_iff in H as (sl & E0 & Hs). pose proof (po_rng _ _ _ K0 sl Hs) as RS. unfold ent_of in E0. injection E0 as E1 E2 E3 E4. exists (sl_key sl), (sl_val sl). split; auto.
      apply in_map_iff. exists sl. split; auto. unfold pr. rewrite <- E1, reverse64_involutive by lia. rewrite E2, E4. auto.
    - intros (key & v & -> & H). apply in_map_iff in H as (sl & E0 & Hs). unfold pr in E0. injection E0 as E1 E2 E3 E4 E5. apply in_map_iff. exists sl. split; auto. unfold ent_of. rewrite E1, E2, E3, E4, E5, reverse64_involutive by auto. auto. }
  assert (PP : prel (edump s') z s' s' xl l').
  { apply holds_prel; auto.
    - constructor; auto; [intros w; auto|]. intros m. destruct (b_pool (bget (x_trie s') m)); auto. apply used_refl.
    - intros k c bd d Hk. rewrite IN, (CV Q k c bd d KQ Hk), (CV P k c bd d K Hk), (HL k c bd d Hk). split.
      + intros [(key & v & E1 & H)|((key & v & E1 & H) & NH)]; exists key, v; (split; [auto|]); apply C'; [auto|right]. split; auto. intros X. apply NH. eauto.
      + intros (key & v & E1 & H). apply C' in H as [H|[H NH]]; [left; eauto|right]. split; [eauto|]. intros (key' & v' & E2 & H'). rewrite E1 in E2. injection E2 as <- <-. auto.
    - intros y' m q A EM. rewrite M2 in A. destruct (nid_eq_dec m b) as [->|N]; [rewrite M5 in EM; injection EM as <-; apply (po_n _ _ _ KQ)|]. rewrite M6 in EM by auto. apply (pl_cap _ _ _ _ _ _ R y' m q A EM). }
  rewrite BD in PP. constructor; auto. exact (linked_moved s s' b Q z L M LQ).
Qed.
