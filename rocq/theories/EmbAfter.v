(** A Set of a new key into a pool with deleted slots (get_with_fn of EmbModel.v on such a pool). Lemmas for C42 and C76. *)
From Verif Require Import Base BaseProofs Util UtilProofs Bucket TrieProofs TrieInv TrieGrow MapModel ItemProofs MapInv MapSplit
  MapInit Spec MapRefine EmbModel EmbPool EmbTrie EmbInv EmbSplit EmbSpec EmbRefine EmbDel EmbReuse EmbLinked PurgeSpec EmbPurge.
From Coq Require Import ZifyBool Sorted.
Local Open Scope Z_scope.
Local Open Scope list_scope.
Local Opaque reverse64 level_of base find_bucket.

(** * Looking up in a pool that need not be sorted *)
Lemma skip_left_vis slots i : skip_left slots i = 0%nat \/ sl_del (nth (skip_left slots i) slots zero_slot) = false.
Proof.
  induction i as [|i IH]; [left; auto|]. cbn [skip_left]. destruct (sl_del (nth (S i) slots zero_slot)) eqn:D; auto.
Qed.
Lemma search_vis Q rv i : emb_search Q rv = Some i -> (i < p_n Q)%nat /\ (sl_del (slot_at Q i) = false \/ i = 0%nat).
Proof.
  unfold emb_search. cbv zeta. set (idx := sort_search _ _ _ _). destruct (Nat.ltb_spec idx (p_n Q)); cbn [andb]; [|discriminate].
  destruct (_ =? _); [|discriminate]. intros E. injection E as <-. pose proof (skip_left_le (p_slots Q) idx). split; [lia|].
  destruct (skip_left_vis (p_slots Q) idx) as [V|V]; auto.
Qed.
Section Look.
Context (Q : pool) (j : nat) (rv : Z).
Lemma search_idx_at : (j < p_n Q)%nat ->
  (forall i, (i < j)%nat -> sl_del (slot_at Q i) = false \/ i = 0%nat -> sl_rev (slot_at Q i) < rv) ->
  (forall i, (j <= i < p_n Q)%nat -> sl_del (slot_at Q i) = false -> rv <= sl_rev (slot_at Q i)) ->
  sl_del (slot_at Q j) = false \/ j = 0%nat -> rv <= sl_rev (slot_at Q j) ->
  sort_search (p_n Q) 0 (p_n Q) (fun i => rv <=? sl_rev (slot_at Q (skip_left (p_slots Q) i))) = j.
Proof.
  intros Hj LO HI VJ RJ. set (f := fun i => rv <=? sl_rev (slot_at Q (skip_left (p_slots Q) i))).
  assert (SJ : skip_left (p_slots Q) j = j) by (destruct VJ as [V|V]; [apply skip_left_self; exact V|rewrite V; reflexivity]).
  assert (FL : forall i, (i < j)%nat -> f i = false).
  { intros i Hi. unfold f. pose proof (skip_left_le (p_slots Q) i). apply Z.leb_gt. apply LO; [lia|]. destruct (skip_left_vis (p_slots Q) i) as [V|V]; auto. }
  assert (FH : forall i, (j <= i < p_n Q)%nat -> f i = true).
  { intros i Hi. unfold f. pose proof (skip_left_le (p_slots Q) i). pose proof (skip_left_mono (p_slots Q) j i ltac:(lia)) as M. rewrite SJ in M. apply Z.leb_le.
    destruct (skip_left_vis (p_slots Q) i) as [V|V]; [rewrite V in *; assert (j = 0)%nat by lia; subst j; auto|]. apply HI; [lia|exact V]. }
  destruct (sort_search_spec f (p_n Q) 0 (p_n Q)) as (A & B & C); try lia.
  - intros x y Hxy Hy Hx. destruct (Nat.lt_ge_cases x j) as [L|L]; [rewrite FL in Hx by auto; discriminate|]. apply FH. lia.
  - destruct (Nat.lt_trichotomy (sort_search (p_n Q) 0 (p_n Q) f) j) as [H|[H|H]]; auto; exfalso.
    + pose proof (C (sort_search (p_n Q) 0 (p_n Q) f) ltac:(lia)) as X. rewrite FL in X by auto. discriminate.
    + pose proof (B j ltac:(lia)) as X. rewrite FH in X by lia. discriminate.
Qed.
Lemma search_at : (j < p_n Q)%nat ->
  (forall i, (i < j)%nat -> sl_del (slot_at Q i) = false \/ i = 0%nat -> sl_rev (slot_at Q i) < rv) ->
  (forall i, (j < i < p_n Q)%nat -> sl_del (slot_at Q i) = false -> rv <= sl_rev (slot_at Q i)) ->
  sl_del (slot_at Q j) = false \/ j = 0%nat -> sl_rev (slot_at Q j) = rv -> emb_search Q rv = Some j.
Proof.
  intros Hj LO HI VJ RJ. unfold emb_search. cbv zeta. rewrite search_idx_at; auto; [| |lia].
  - destruct (Nat.ltb_spec j (p_n Q)); [|lia]. rewrite RJ, Z.eqb_refl. cbn [andb]. f_equal. destruct VJ as [V|V]; [apply skip_left_self; exact V|rewrite V; reflexivity].
  - intros i Hi D. destruct (Nat.eq_dec i j) as [->|N]; [lia|]. apply HI; auto. lia.
Qed.
(** a slot of a larger position hides what stands behind it *)
Lemma search_hides : (j < p_n Q)%nat ->
  (forall i, (i < j)%nat -> sl_del (slot_at Q i) = false \/ i = 0%nat -> sl_rev (slot_at Q i) < rv) ->
  (forall i, (j < i < p_n Q)%nat -> sl_del (slot_at Q i) = false -> rv <= sl_rev (slot_at Q i)) ->
  sl_del (slot_at Q j) = false \/ j = 0%nat -> rv < sl_rev (slot_at Q j) -> emb_search Q rv = None.
Proof.
  intros Hj LO HI VJ RJ. unfold emb_search. cbv zeta. rewrite search_idx_at; auto; [| |lia].
  - destruct (Z.eqb_spec (sl_rev (slot_at Q j)) rv); [lia|]. rewrite andb_false_r. auto.
  - intros i Hi D. destruct (Nat.eq_dec i j) as [->|N]; [lia|]. apply HI; auto. lia.
Qed.
End Look.

(** * The slot that is taken *)
Lemma last_active_spec slots : forall n, match last_active slots n with
  | Some t => (t < n)%nat /\ sl_del (nth t slots zero_slot) = false /\ forall j, (t < j < n)%nat -> sl_del (nth j slots zero_slot) = true
  | None => forall j, (j < n)%nat -> sl_del (nth j slots zero_slot) = true
  end.
Proof.
  induction n as [|n IH]; cbn [last_active]; [intros; lia|]. destruct (sl_del (nth n slots zero_slot)) eqn:D.
  - destruct (last_active slots n) as [t|].
    + destruct IH as (A & B & C). split; [lia|]. split; auto. intros j Hj. destruct (Nat.eq_dec j n) as [->|N]; auto. apply C. lia.
    + intros j Hj. destruct (Nat.eq_dec j n) as [->|N]; auto. apply IH. lia.
  - split; [lia|]. split; auto. intros; lia.
Qed.
(** the last slot that is not deleted *)
Definition last_one (P : pool) (t : nat) : Prop :=
  (t < p_n P)%nat /\ sl_del (slot_at P t) = false /\ forall j, (t < j < p_n P)%nat -> sl_del (slot_at P j) = true.
Lemma free_idx_spec P lo hi r t : pool_ok P lo hi -> plinked P -> last_one P t -> (forall sl, In sl (live P) -> sl_rev sl <> r) ->
  match free_idx P r (Some t) with
  | Some i => (1 <= i)%nat /\ (S i <= t)%nat /\ sl_del (slot_at P i) = true /\ sl_rev (slot_at P i) < r /\
              (r < sl_rev (slot_at P (S i)) \/ (S i = t /\ sl_rev (slot_at P t) < r))
  | None => ~ ((2 <= t)%nat /\ sl_del (slot_at P (t - 1)) = true /\ sl_rev (slot_at P t) < r)
  end.
Proof.
  intros K LK (Ht & LT & _) NR. unfold free_idx. set (f := fun i => r <? sl_rev (slot_at P i)).
  assert (NE : forall i, (i < p_n P)%nat -> sl_rev (slot_at P i) <> r) by (intros i Hi; apply NR; eapply live_in; eauto).
  destruct (sort_search_spec f t 0 t) as (A & B & C); try lia.
  { intros x y Hxy Hy Hx. unfold f in *. destruct (Nat.eq_dec x y) as [->|N]; auto. pose proof (slot_lt P lo hi x y K ltac:(lia)). lia. }
  set (idx := sort_search t 0 t f) in *.
  destruct (Nat.leb_spec idx 1) as [L1|L1]; cbn [orb].
  - intros (T2 & _ & RT). pose proof (C (t - 1)%nat ltac:(lia)) as X. unfold f in X. pose proof (slot_lt P lo hi (t - 1) t K ltac:(lia)). lia.
  - destruct (Nat.ltb_spec t idx); [lia|].
    pose proof (B (idx - 1)%nat ltac:(lia)) as F. unfold f in F. pose proof (NE (idx - 1)%nat ltac:(lia)) as NI.
    pose proof (LK (idx - 1)%nat ltac:(lia) ltac:(pose proof (po_n _ _ _ K); lia)) as LI. rewrite LI, andb_true_r.
    destruct (sl_del (slot_at P (idx - 1))) eqn:D.
    + split; [lia|]. split; [lia|]. split; auto. split; [lia|]. replace (S (idx - 1)) with idx by lia.
      destruct (Nat.eq_dec idx t) as [E|N].
      * rewrite E in *. pose proof (NE t Ht). destruct (Z_lt_ge_dec (sl_rev (slot_at P t)) r); [right; auto|left; lia].
      * left. pose proof (C idx ltac:(lia)) as X. unfold f in X. lia.
    + intros (T2 & DT & RT). assert (idx <> t) by (intros E; rewrite E in *; congruence).
      pose proof (C (t - 1)%nat ltac:(lia)) as X. unfold f in X. pose proof (slot_lt P lo hi (t - 1) t K ltac:(lia)). lia.
Qed.
Inductive taken (P : pool) (r : Z) (q : pool) (i : nat) : Prop :=
| T_reuse t : last_one P t -> (1 <= i)%nat -> (S i <= t)%nat -> sl_del (slot_at P i) = true -> sl_rev (slot_at P i) < r ->
    (r < sl_rev (slot_at P (S i)) \/ (S i = t /\ sl_rev (slot_at P t) < r)) ->
    p_len q = p_len P -> (p_n q <= List.length (p_slots q))%nat ->
    (forall a, (a < p_n P)%nat -> slot_at q a = if Nat.eqb i a then recycle (slot_at P i) else slot_at P a) -> taken P r q i
| T_append : i = p_n P -> p_n P = 0%nat \/ (exists t, last_one P t) -> (forall a, (a < p_n P)%nat -> sl_del (slot_at P a) = false -> sl_rev (slot_at P a) < r) ->
    (forall t, last_one P t -> ~ ((2 <= t)%nat /\ sl_del (slot_at P (t - 1)) = true /\ sl_rev (slot_at P t) < r)) ->
    p_len q = p_len P + 1 -> (p_n q <= List.length (p_slots q))%nat ->
    (forall a, (a < p_n P)%nat -> slot_at q a = slot_at P a) -> slot_at q i = zero_slot -> taken P r q i
| T_insert : (i < p_n P)%nat -> sl_del (slot_at P i) = false -> r < sl_rev (slot_at P i) ->
    (forall a, (a < i)%nat -> sl_del (slot_at P a) = false -> sl_rev (slot_at P a) < r) ->
    (forall t, last_one P t -> ~ ((2 <= t)%nat /\ sl_del (slot_at P (t - 1)) = true /\ sl_rev (slot_at P t) < r)) ->
    p_len q = p_len P + 1 -> (p_n q <= List.length (p_slots q))%nat ->
    (forall a, (a < i)%nat -> slot_at q a = relink (slot_at P a)) -> slot_at q i = zero_slot ->
    (forall a, (i <= a < p_n P)%nat -> slot_at q (S a) = relink (slot_at P a)) -> taken P r q i.
Lemma last_one_eq P t t' : last_one P t -> last_one P t' -> t = t'.
Proof.
  intros (A1 & A2 & A3) (B1 & B2 & B3). destruct (Nat.lt_trichotomy t t') as [H|[H|H]]; auto; exfalso.
  - rewrite A3 in B2 by lia. discriminate.
  - rewrite B3 in A2 by lia. discriminate.
Qed.
Lemma taken_step f P lo hi r q i : pool_ok P lo hi -> plinked P -> (forall sl, In sl (live P) -> sl_rev sl <> r) ->
  p_cap P <> p_len P -> get_with_fn (S f) P r = GSlot q i -> taken P r q i.
Proof.
  intros K LK NR NC. cbn [get_with_fn]. pose proof (po_len _ _ _ K) as PL. pose proof (po_n _ _ _ K) as PN. cbv zeta.
  assert (REST : forall a, (p_n P <= a)%nat -> slot_at P a = zero_slot).
  { intros a Ha. unfold slot_at. destruct (Nat.lt_ge_cases a (List.length (p_slots P))) as [L|L]; [|apply nth_overflow; lia].
    apply (po_rest _ _ _ K). rewrite <- (firstn_skipn (p_n P) (p_slots P)) at 1. rewrite app_nth2; rewrite firstn_length_le by lia; [|lia]. apply nth_In. rewrite skipn_length. lia. }
  assert (LC : (p_n P < List.length (p_slots P))%nat) by (unfold p_n, p_cap in *; lia).
  destruct (Z.eqb_spec (p_len P) 0) as [E0|N0].
  { destruct (_ <=? 0); [discriminate|]. intros E. injection E as <- <-. assert (EN : p_n P = 0%nat) by (unfold p_n; lia). apply T_append; auto.
    - intros a Ha. lia.
    - intros t (Ht & _). lia.
    - cbn [p_len]. lia.
    - unfold p_n. cbn [p_len p_slots]. lia.
    - apply (REST 0%nat). lia. }
  pose proof (last_active_spec (p_slots P) (p_n P)) as LA. destruct (last_active (p_slots P) (p_n P)) as [t|].
  2:{ unfold free_idx. destruct (Z.eqb_spec (p_cap P) (p_len P)); [lia|discriminate]. }
  assert (LO : last_one P t) by exact LA. pose proof (free_idx_spec P lo hi r t K LK LO NR) as FI.
  destruct (free_idx P r (Some t)) as [a|].
  { intros E. injection E as <- <-. destruct FI as (F1 & F2 & F3 & F4 & F5). apply (T_reuse P r _ a t); auto.
    - unfold upd_slot, p_n. cbn [p_len p_slots]. rewrite upd_nth_length. exact PN.
    - intros b Hb. apply upd_at. lia. }
  assert (NS : forall t0, last_one P t0 -> ~ ((2 <= t0)%nat /\ sl_del (slot_at P (t0 - 1)) = true /\ sl_rev (slot_at P t0) < r)).
  { intros t0 L0. rewrite (last_one_eq P t0 t L0 LO). exact FI. }
  destruct (Z.eqb_spec (p_cap P) (p_len P)); [lia|]. destruct LA as (Ht & DT & AD). fold (slot_at P t) in DT.
  destruct (Z.ltb_spec (sl_rev (slot_at P t)) r) as [LT|GE].
  - destruct (Z.leb_spec (p_cap P) (p_len P)); [discriminate|]. intros E. injection E as <- <-. apply T_append; auto.
    + right. exists t. exact LO.
    + intros a Ha D. destruct (Nat.lt_trichotomy a t) as [H1|[->|H1]]; auto.
      * pose proof (slot_lt P lo hi a t K ltac:(lia)). lia.
      * unfold slot_at in D. rewrite AD in D by lia. discriminate.
    + unfold p_n in *. cbn [p_len p_slots]. lia.
    + apply (REST (p_n P)). lia.
  - destruct (find_idx P r) as [a|] eqn:EF.
    + intros E. injection E as <- <-. unfold find_idx in EF. apply first_ge_spec in EF as (l1 & x & l2 & EL & -> & DX & RX & L1). cbn [Nat.add] in *.
      fold (live P) in EL. assert (LL : List.length (live P) = p_n P) by (eapply live_length; eauto). rewrite EL, app_length in LL. cbn [List.length] in LL.
      assert (SA : slot_at P (List.length l1) = x) by (rewrite <- live_nth by lia; rewrite EL, app_nth2, Nat.sub_diag by lia; auto).
      assert (OL : map relink (firstn (p_n P) (p_slots P)) = map relink l1 ++ map relink (x :: l2)) by (fold (live P); rewrite EL, map_app; auto).
      assert (SL : p_slots (insert_at P (List.length l1)) = map relink l1 ++ zero_slot :: map relink (x :: l2) ++ repeat zero_slot (Z.to_nat (Z.max (p_cap P) (p_len P + 1)) - (p_n P + 1))).
      { unfold insert_at. cbn [p_slots]. rewrite OL. rewrite <- (map_length relink l1). rewrite firstn_app, Nat.sub_diag, firstn_all, firstn_O, app_nil_r. rewrite skipn_app, Nat.sub_diag, skipn_all, skipn_O. auto. }
      apply T_insert; auto.
      * lia.
      * rewrite SA. auto.
      * rewrite SA. assert (sl_rev x <> r) by (apply NR; rewrite EL; apply in_or_app; cbn; auto). lia.
      * intros a Ha D. rewrite <- live_nth in * by lia. rewrite EL, app_nth1 in * by lia. apply L1; auto. apply nth_In. auto.
      * rewrite SL. rewrite app_length. cbn [List.length]. rewrite app_length, !map_length, repeat_length. cbn [List.length]. unfold p_n, p_cap in *. cbn [p_len insert_at]. lia.
      * intros a Ha. unfold slot_at at 1. rewrite SL. rewrite app_nth1 by (rewrite map_length; lia). rewrite <- live_nth by lia. rewrite EL, app_nth1 by lia.
        rewrite <- (map_nth relink). apply nth_indep. rewrite map_length. lia.
      * unfold slot_at at 1. rewrite SL. rewrite app_nth2 by (rewrite map_length; lia). rewrite map_length, Nat.sub_diag. auto.
      * intros a Ha. unfold slot_at at 1. rewrite SL. rewrite app_nth2 by (rewrite map_length; lia). rewrite map_length. replace (S a - List.length l1)%nat with (S (a - List.length l1)) by lia. cbn [nth].
        rewrite app_nth1 by (rewrite map_length; cbn [List.length]; lia). rewrite <- live_nth by lia. rewrite EL, app_nth2 by lia.
        rewrite <- (map_nth relink). apply nth_indep. rewrite map_length. cbn [List.length]. lia.
    + exfalso. unfold find_idx in EF. pose proof (first_ge_none _ _ _ EF (slot_at P t)) as X. fold (live P) in X. specialize (X (live_in _ _ _ _ K Ht) DT). lia.
Qed.
Lemma taken_all P lo hi r q i : pool_ok P lo hi -> plinked P -> (forall sl, In sl (live P) -> sl_rev sl <> r) ->
  get_with_fn 4 P r = GSlot q i -> taken P r q i.
Proof.
  intros K LK NR. destruct (Z.eq_dec (p_cap P) (p_len P)) as [EC|NC]; [|eapply taken_step; eauto].
  destruct (expand_ok P lo hi K) as (K' & L' & N' & C'). pose proof (po_cap _ _ _ K) as PC. pose proof (po_len _ _ _ K) as PL.
  assert (PN : p_n (expand P) = p_n P) by (unfold p_n; rewrite N'; auto).
  assert (SA : forall a, (a < p_n P)%nat -> slot_at (expand P) a = slot_at P a) by (intros a Ha; rewrite <- !live_nth by lia; rewrite L'; auto).
  assert (LO : forall t, last_one (expand P) t <-> last_one P t).
  { intros t. unfold last_one. rewrite PN. split; intros (A & B & C); (split; [auto|]); (split; [rewrite SA in * by auto; auto|]); intros j Hj; specialize (C j Hj); rewrite SA in * by lia; auto. }
  assert (LK' : plinked (expand P)) by (intros a A1 A2; rewrite PN in A1; rewrite SA by auto; apply LK; auto; pose proof (po_n _ _ _ K); lia).
  cbn [get_with_fn]. cbv zeta. destruct (Z.eqb_spec (p_len P) 0); [lia|].
  pose proof (last_active_spec (p_slots P) (p_n P)) as LA. destruct (last_active (p_slots P) (p_n P)) as [t|].
  - assert (LT : last_one P t) by exact LA. pose proof (free_idx_spec P lo hi r t K LK LT NR) as FI. destruct (free_idx P r (Some t)) as [a|].
    + intros E. injection E as <- <-. destruct FI as (F1 & F2 & F3 & F4 & F5). destruct LT as (LT1 & LT2). apply (T_reuse P r _ a t); auto.
      * unfold upd_slot, p_n. cbn [p_len p_slots]. rewrite upd_nth_length. apply (po_n _ _ _ K).
      * intros b Hb. apply upd_at. pose proof (po_n _ _ _ K). lia.
    + rewrite EC, Z.eqb_refl. intros E. change (get_with_fn 3 (expand P) r = GSlot q i) in E.
      pose proof (taken_step 2 (expand P) lo hi r q i K' LK' ltac:(rewrite L'; auto) ltac:(lia) E) as T.
      destruct T as [t0 T1 T2 T3 T4 T5 T6 T7 T8 T9|T1 TX T2 T3 T4 T5 T6 T7|T1 T2 T3 T4 T5 T6 T7 T8 T9 T10].
      * pose proof T1 as T1'. apply LO in T1'. destruct T1' as (B1 & B2). apply (T_reuse P r q i t0); auto; try (apply LO; auto); try lia.
        -- rewrite SA in T4 by lia. auto.
        -- rewrite SA in T5 by lia. auto.
        -- rewrite !SA in T6 by lia. auto.
        -- intros a Ha. rewrite T9 by lia. destruct (Nat.eqb_spec i a) as [->|N]; rewrite SA by lia; auto.
      * apply T_append; auto; try lia.
        -- destruct TX as [TX|(t0 & TX)]; [left; lia|right; exists t0; apply LO; auto].
        -- intros a Ha. rewrite <- SA by lia. apply T2. lia.
        -- intros t0 L0. pose proof L0 as (Q1 & _). rewrite <- !SA by lia. apply T3. apply LO. auto.
        -- intros a Ha. rewrite <- SA by lia. apply T6. lia.
      * rewrite PN in *. rewrite SA in T2, T3 by lia. apply T_insert; auto; try lia.
        -- intros a Ha. rewrite <- SA by lia. apply T4. lia.
        -- intros t0 L0. pose proof L0 as (Q1 & _). rewrite <- !SA by lia. apply T5. apply LO. auto.
        -- intros a Ha. rewrite <- SA by lia. apply T8. lia.
        -- intros a Ha. rewrite <- SA by lia. apply T10. lia.
  - cbn [free_idx]. rewrite EC, Z.eqb_refl. cbn [get_with_fn]. cbv zeta.
    assert (LN : last_active (p_slots (expand P)) (p_n (expand P)) = None).
    { pose proof (last_active_spec (p_slots (expand P)) (p_n (expand P))) as LB. destruct (last_active _ _) as [t|]; auto. exfalso. destruct LB as (B1 & B2 & _). fold (slot_at (expand P) t) in B2. rewrite SA in B2 by lia. unfold slot_at in B2. rewrite LA in B2 by lia. discriminate. }
    rewrite LN. cbn [free_idx]. destruct (Z.eqb_spec (p_len (expand P)) 0); [lia|]. destruct (Z.eqb_spec (p_cap (expand P)) (p_len (expand P))); [lia|discriminate].
Qed.

(** * The pool after the new key has been written *)
Definition swapped (P : pool) (r : Z) (t : nat) : Prop := last_one P t /\ (2 <= t)%nat /\ sl_del (slot_at P (t - 1)) = true /\ sl_rev (slot_at P t) < r.
Section After.
Context (P : pool) (lo hi r c : Z) (ky : gkey) (vl : gval) (q : pool) (i : nat) (K : pool_ok P lo hi)
  (NR : forall sl, In sl (live P) -> sl_rev sl <> r) (T : taken P r q i).
Let Q := filled q i r c ky vl true.
Lemma taken_fresh : (i < p_n q)%nat /\ (p_n q <= List.length (p_slots q))%nat /\ sl_rev (slot_at q i) = 0 /\ sl_conf (slot_at q i) = 0 /\ sl_del (slot_at q i) = false.
Proof.
  destruct T as [t T1 T2 T3 T4 T5 T6 T7 T8 T9|T1 TX T2 T3 T4 T5 T6 T7|T1 T2 T3 T4 T5 T6 T7 T8 T9 T10].
  - destruct T1 as (A & _). split; [unfold p_n in *; lia|]. split; auto. rewrite T9 by lia. rewrite Nat.eqb_refl. auto.
  - pose proof (po_len _ _ _ K). split; [unfold p_n in *; lia|]. split; auto. rewrite T7. auto.
  - pose proof (po_len _ _ _ K). split; [unfold p_n in *; lia|]. split; auto. rewrite T9. auto.
Qed.
Lemma q_n : p_n Q = p_n q.
Proof. reflexivity. Qed.
Lemma q_at a : slot_at Q a = if Nat.eqb i a then mkS r c false ky vl true else slot_at q a.
Proof.
  destruct taken_fresh as (A & B & C & D & E). unfold Q, filled. rewrite upd_at by lia. rewrite C, D, E. reflexivity.
Qed.
Lemma same_slot a : (a < p_n P)%nat -> sl_rev (slot_at P a) <> r.
Proof. intros Ha. apply NR. eapply live_in; eauto. Qed.
Lemma P_lt a b : (a < b < p_n P)%nat -> sl_rev (slot_at P a) < sl_rev (slot_at P b).
Proof. apply (slot_lt P lo hi); auto. Qed.
Lemma after_cases :
  ((exists t, last_one P t /\ (1 <= i)%nat /\ (S i <= t)%nat /\ sl_del (slot_at P i) = true /\ sl_rev (slot_at P i) < r /\
    (r < sl_rev (slot_at P (S i)) \/ (S i = t /\ sl_rev (slot_at P t) < r))) /\ p_n Q = p_n P /\
    forall a, (a < p_n P)%nat -> a <> i -> slot_at Q a = slot_at P a) \/
  ((forall t, ~ swapped P r t) /\ (i <= p_n P)%nat /\ p_n Q = S (p_n P) /\
    (forall a, (a < i)%nat -> sl_del (slot_at P a) = false -> sl_rev (slot_at P a) < r) /\
    (forall a, (i <= a < p_n P)%nat -> r < sl_rev (slot_at P a)) /\
    (i = p_n P -> p_n P = 0%nat \/ exists t, last_one P t) /\
    (forall a, (a < i)%nat -> relink (slot_at Q a) = relink (slot_at P a)) /\
    (forall a, (i <= a < p_n P)%nat -> relink (slot_at Q (S a)) = relink (slot_at P a))).
Proof.
  destruct taken_fresh as (FI & FN & _). pose proof (po_len _ _ _ K) as PL. rewrite q_n.
  destruct T as [t T1 T2 T3 T4 T5 T6 T7 T8 T9|T1 TX T2 T3 T4 T5 T6 T7|T1 T2 T3 T4 T5 T6 T7 T8 T9 T10].
  - left. split; [exists t; auto 10|]. split; [unfold p_n; lia|]. intros a Ha N. rewrite q_at, T9 by auto. destruct (Nat.eqb_spec i a); [congruence|auto].
  - right. split; [intros t (S1 & S2 & S3 & S4); apply (T3 t S1); auto|]. split; [lia|]. split; [unfold p_n in *; lia|]. split; [subst i; auto|]. split; [intros; lia|]. split; [auto|]. split; [|intros; lia].
    intros a Ha. rewrite q_at, T6 by lia. destruct (Nat.eqb_spec i a); [lia|auto].
  - right. split; [intros t (S1 & S2 & S3 & S4); apply (T5 t S1); auto|]. split; [lia|]. split; [unfold p_n in *; lia|]. split; [auto|]. split.
    { intros a Ha. destruct (Nat.eq_dec a i) as [->|N]; auto. pose proof (P_lt i a ltac:(lia)). lia. }
    split; [intros; lia|]. split.
    + intros a Ha. rewrite q_at. destruct (Nat.eqb_spec i a); [lia|]. rewrite T8 by auto. destruct (slot_at P a); reflexivity.
    + intros a Ha. rewrite q_at. destruct (Nat.eqb_spec i (S a)); [lia|]. rewrite T10 by lia. destruct (slot_at P a); reflexivity.
Qed.
Lemma relink_same x y : relink x = relink y -> sl_rev x = sl_rev y /\ sl_conf x = sl_conf y /\ sl_del x = sl_del y /\ sl_key x = sl_key y /\ sl_val x = sl_val y.
Proof. destruct x, y. unfold relink. cbn. intros E. injection E as <- <- <- <- <-. auto. Qed.

(** the old keys that were not deleted *)
Lemma after_live j : (j < p_n P)%nat -> sl_del (slot_at P j) = false ->
  (swapped P r j -> emb_search Q (sl_rev (slot_at P j)) = None) /\
  (~ swapped P r j -> exists a, emb_search Q (sl_rev (slot_at P j)) = Some a /\ relink (slot_at Q a) = relink (slot_at P j)).
Proof.
  intros Hj DJ. pose proof q_at as QA. destruct after_cases as [((t & T1 & T2 & T3 & T4 & T5 & T6) & QN & QS)|(NS & Hi & QN & T4 & T5 & TX & T8 & T10)].
  - pose proof T1 as (B1 & B2 & B3). pose proof (QA i) as QI. rewrite Nat.eqb_refl in QI.
    assert (NI : j <> i) by (intros ->; congruence).
    assert (JT : (j <= t)%nat) by (destruct (Nat.le_gt_cases j t); auto; rewrite B3 in DJ by lia; discriminate).
    split.
    + intros (S1 & S2 & S3 & S4). assert (j = t) by (apply (last_one_eq P); auto). subst j.
      assert (IT : S i = t).
      { destruct T6 as [T6|[T6 _]]; auto. destruct (Nat.eq_dec (S i) t); auto. pose proof (P_lt (S i) t ltac:(lia)). lia. }
      apply (search_hides Q i).
      * lia.
      * intros a Ha _. rewrite QS by lia. apply P_lt. lia.
      * intros a Ha D. rewrite QS in D |- * by lia. destruct (Nat.eq_dec a t) as [->|N]; [lia|]. rewrite B3 in D by lia. discriminate.
      * left. rewrite QI. auto.
      * rewrite QI. cbn [sl_rev]. lia.
    + intros NS. exists j. split; [|rewrite QS by auto; auto]. apply search_at.
      * lia.
      * intros a Ha _. destruct (Nat.eq_dec a i) as [->|N].
        -- rewrite QI. cbn [sl_rev]. destruct (Nat.eq_dec (S i) j) as [E|N].
           ++ destruct T6 as [T6|[T6 T7]]; [rewrite <- E; auto|]. exfalso. apply NS. rewrite <- E. rewrite T6 in *. split; auto. split; [lia|]. replace (t - 1)%nat with i by lia. auto.
           ++ destruct T6 as [T6|[T6 T7]]; [|lia]. pose proof (P_lt (S i) j ltac:(lia)). lia.
        -- rewrite QS by lia. apply P_lt. lia.
      * intros a Ha D. destruct (Nat.eq_dec a i) as [->|N].
        -- rewrite QI. cbn [sl_rev]. pose proof (P_lt j i ltac:(lia)). lia.
        -- rewrite QS by lia. pose proof (P_lt j a ltac:(lia)). lia.
      * left. rewrite QS by auto. auto.
      * rewrite QS by auto. auto.
  - split; [intros S; exfalso; apply (NS j S)|]. intros _. pose proof (QA i) as QI. rewrite Nat.eqb_refl in QI.
    destruct (Nat.lt_ge_cases j i) as [L|L].
    + exists j. split; [|auto]. apply search_at.
      * lia.
      * intros a Ha _. destruct (relink_same _ _ (T8 a ltac:(lia))) as (-> & _). apply P_lt. lia.
      * intros a Ha D. destruct (Nat.lt_trichotomy a i) as [L2|[->|L2]].
        -- destruct (relink_same _ _ (T8 a ltac:(lia))) as (-> & _). pose proof (P_lt j a ltac:(lia)). lia.
        -- rewrite QI. cbn [sl_rev]. specialize (T4 j L DJ). lia.
        -- destruct a as [|a]; [lia|]. destruct (relink_same _ _ (T10 a ltac:(lia))) as (-> & _). pose proof (P_lt j a ltac:(lia)). lia.
      * destruct (relink_same _ _ (T8 j L)) as (_ & _ & -> & _). auto.
      * destruct (relink_same _ _ (T8 j L)) as (-> & _). auto.
    + exists (S j). split; [|apply T10; lia]. apply search_at.
      * lia.
      * intros a Ha _. destruct (Nat.lt_trichotomy a i) as [L2|[->|L2]].
        -- destruct (relink_same _ _ (T8 a ltac:(lia))) as (-> & _). apply P_lt. lia.
        -- rewrite QI. cbn [sl_rev]. apply T5. lia.
        -- destruct a as [|a]; [lia|]. destruct (relink_same _ _ (T10 a ltac:(lia))) as (-> & _). apply P_lt. lia.
      * intros a Ha D. destruct a as [|a]; [lia|]. destruct (relink_same _ _ (T10 a ltac:(lia))) as (-> & _). pose proof (P_lt j a ltac:(lia)). lia.
      * destruct (relink_same _ _ (T10 j ltac:(lia))) as (_ & _ & -> & _). auto.
      * destruct (relink_same _ _ (T10 j ltac:(lia))) as (-> & _). auto.
Qed.
(** the first slot if it is deleted *)
Lemma after_first : (0 < p_n P)%nat -> sl_rev (slot_at P 0) < r ->
  emb_search Q (sl_rev (slot_at P 0)) = Some 0%nat /\ relink (slot_at Q 0) = relink (slot_at P 0) \/ sl_del (slot_at P 0) = false.
Proof.
  intros N0 R0. destruct (sl_del (slot_at P 0)) eqn:D0; [left|auto]. pose proof q_at as QA. pose proof (QA i) as QI. rewrite Nat.eqb_refl in QI.
  destruct after_cases as [((t & T1 & T2 & T3 & T4 & T5 & T6) & QN & QS)|(NS & Hi & QN & T4 & T5 & TX & T8 & T10)].
  - rewrite QS by lia. split; auto. apply search_at.
    + lia.
    + intros; lia.
    + intros a Ha _. destruct (Nat.eq_dec a i) as [->|N]; [rewrite QI; cbn [sl_rev]; lia|]. rewrite QS by lia. pose proof (P_lt 0 a ltac:(lia)). lia.
    + auto.
    + rewrite QS by lia. auto.
  - assert (I0 : (0 < i)%nat).
    { destruct (Nat.eq_dec i 0) as [E|N]; [|lia]. exfalso. pose proof (T5 0%nat ltac:(lia)). lia. }
    split; [|apply T8; auto]. destruct (relink_same _ _ (T8 0%nat I0)) as (E0 & _). apply search_at.
    + lia.
    + intros; lia.
    + intros a Ha D. destruct (Nat.lt_trichotomy a i) as [L2|[->|L2]].
      * destruct (relink_same _ _ (T8 a ltac:(lia))) as (-> & _). pose proof (P_lt 0 a ltac:(lia)). lia.
      * rewrite QI. cbn [sl_rev]. lia.
      * destruct a as [|a]; [lia|]. destruct (relink_same _ _ (T10 a ltac:(lia))) as (-> & _). pose proof (T5 a ltac:(lia)). lia.
    + auto.
    + auto.
Qed.
(** whatever is found is the new key or an old slot that could be found *)
Lemma after_only rv a : emb_search Q rv = Some a -> sl_rev (slot_at Q a) = rv -> rv <> r ->
  exists j, (j < p_n P)%nat /\ (sl_del (slot_at P j) = false \/ j = 0%nat) /\ relink (slot_at Q a) = relink (slot_at P j).
Proof.
  intros ES ER NE. destruct (search_vis _ _ _ ES) as [Ha V]. pose proof q_at as QA. assert (NI : a <> i) by (intros ->; rewrite QA, Nat.eqb_refl in ER; cbn in ER; congruence).
  destruct after_cases as [((t & T1 & T2 & T3 & T4 & T5 & T6) & QN & QS)|(NS & Hi & QN & T4 & T5 & TX & T8 & T10)].
  - exists a. rewrite QS in V by lia. rewrite QS by lia. split; [lia|auto].
  - destruct (Nat.lt_ge_cases a i) as [L|L].
    + exists a. pose proof (T8 a L) as E. destruct (relink_same _ _ E) as (_ & _ & D & _). rewrite D in V. split; [lia|auto].
    + destruct a as [|a]; [lia|]. exists a. pose proof (T10 a ltac:(lia)) as E. destruct (relink_same _ _ E) as (_ & _ & D & _). rewrite D in V. split; [lia|]. split; auto. destruct V as [V|V]; [auto|lia].
Qed.
(** the new key *)
Lemma after_own : (forall t, ~ swapped P r t) ->
  (((0 < p_n P)%nat /\ sl_del (slot_at P 0) = true /\ r < sl_rev (slot_at P 0)) -> emb_search Q r = None) /\
  (~ ((0 < p_n P)%nat /\ sl_del (slot_at P 0) = true /\ r < sl_rev (slot_at P 0)) -> emb_search Q r = Some i).
Proof.
  intros NS. pose proof q_at as QA. pose proof (QA i) as QI. rewrite Nat.eqb_refl in QI.
  destruct after_cases as [((t & T1 & T2 & T3 & T4 & T5 & T6) & QN & QS)|(_ & Hi & QN & T4 & T5 & TX & T8 & T10)].
  - pose proof T1 as (B1 & B2 & B3).
    assert (UP : r < sl_rev (slot_at P (S i))).
    { destruct T6 as [T6|[T6 T7]]; auto. exfalso. apply (NS t). split; auto. split; [lia|]. replace (t - 1)%nat with i by lia. auto. }
    pose proof (P_lt 0 i ltac:(lia)). split; [intros (_ & _ & X); lia|]. intros _. apply search_at.
    + lia.
    + intros a Ha _. rewrite QS by lia. pose proof (P_lt a i ltac:(lia)). lia.
    + intros a Ha _. rewrite QS by lia. destruct (Nat.eq_dec a (S i)) as [->|N]; [lia|]. pose proof (P_lt (S i) a ltac:(lia)). lia.
    + rewrite QI. auto.
    + rewrite QI. auto.
  - split.
    + intros (N0 & D0 & R0).
      assert (I0 : (0 < i)%nat).
      { destruct (Nat.eq_dec i 0) as [E|N]; [|lia]. exfalso. subst i. clear -T N0 D0 R0 K. pose proof (po_len _ _ _ K). destruct T as [t T1 T2|T1 TX|T1 T2]; [lia|lia|congruence]. }
      assert (NL : forall a, (a < i)%nat -> (a < p_n P)%nat -> sl_del (slot_at P a) = false -> False).
      { intros a Ha Hb D. pose proof (T4 a Ha D). destruct (Nat.eq_dec a 0) as [->|N]; [congruence|]. pose proof (P_lt 0 a ltac:(lia)). lia. }
      destruct (relink_same _ _ (T8 0%nat I0)) as (E0 & _).
      apply (search_hides Q 0).
      * lia.
      * intros; lia.
      * intros a Ha D. destruct (Nat.lt_trichotomy a i) as [L2|[->|L2]].
        -- destruct (relink_same _ _ (T8 a ltac:(lia))) as (_ & _ & E & _). rewrite E in D. exfalso. apply (NL a); auto. lia.
        -- rewrite QI. cbn [sl_rev]. lia.
        -- destruct a as [|a]; [lia|]. destruct (relink_same _ _ (T10 a ltac:(lia))) as (-> & _). pose proof (T5 a ltac:(lia)). lia.
      * auto.
      * rewrite E0. auto.
    + intros N0. apply search_at.
      * lia.
      * intros a Ha V. destruct (relink_same _ _ (T8 a ltac:(lia))) as (E & _ & ED & _). rewrite E. rewrite ED in V. destruct (sl_del (slot_at P a)) eqn:DA; [|apply T4; auto].
        destruct V as [V|V]; [discriminate|]. subst a. pose proof (same_slot 0 ltac:(lia)). destruct (Z_lt_ge_dec r (sl_rev (slot_at P 0))); [|lia]. exfalso. apply N0. split; [lia|auto].
      * intros a Ha _. destruct a as [|a]; [lia|]. destruct (relink_same _ _ (T10 a ltac:(lia))) as (-> & _). pose proof (T5 a ltac:(lia)). lia.
      * rewrite QI. auto.
      * rewrite QI. auto.
Qed.
End After.
