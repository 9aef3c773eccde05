(** Facts about one item pool of the embedded mode. *)
From Verif Require Import Base BaseProofs Util UtilProofs Bucket MapModel ItemProofs EmbModel.
From Coq Require Import ZifyBool Sorted Arith.
Local Open Scope Z_scope.

(** * sort.Search *)
Lemma sort_search_spec f : forall fuel i j, (j - i <= fuel)%nat -> (i <= j)%nat ->
  (forall x y, (i <= x <= y)%nat -> (y < j)%nat -> f x = true -> f y = true) ->
  (i <= sort_search fuel i j f <= j)%nat /\
  (forall x, (i <= x < sort_search fuel i j f)%nat -> f x = false) /\
  (forall x, (sort_search fuel i j f <= x < j)%nat -> f x = true).
Proof.
  induction fuel as [|fuel IH]; intros i j Hf Hij Hm; cbn [sort_search].
  - repeat split; try lia; intros; lia.
  - destruct (Nat.leb_spec j i) as [L|L].
    { repeat split; try lia; intros; lia. }
    set (h := Nat.div2 (i + j)).
    assert (Hh : (i <= h < j)%nat).
    { unfold h. rewrite Nat.div2_div. split.
      - apply Nat.div_le_lower_bound; lia.
      - apply Nat.div_lt_upper_bound; lia. }
    destruct (f h) eqn:Eh.
    + destruct (IH i h ltac:(lia) ltac:(lia)) as (A & B & C).
      { intros x y H1 H2. apply Hm; lia. }
      split; [lia|]. split; [exact B|]. intros x Hx. destruct (Nat.lt_ge_cases x h) as [H|H].
      * apply C. lia.
      * apply (Hm h x); auto; lia.
    + destruct (IH (S h) j ltac:(lia) ltac:(lia)) as (A & B & C).
      { intros x y H1 H2. apply Hm; lia. }
      split; [lia|]. split; [|exact C]. intros x Hx. destruct (Nat.lt_ge_cases h x) as [H|H].
      * apply B. lia.
      * destruct (f x) eqn:Ex; auto. rewrite <- Eh. symmetry. apply (Hm x h); auto; lia.
Qed.

(** * Live part *)
Definition live (p : pool) : list slot := firstn (p_n p) (p_slots p).
Definition prj := (Z * Z * bool * gkey * gval)%type.
Definition pr (sl : slot) : prj := (sl_rev sl, sl_conf sl, sl_del sl, sl_key sl, sl_val sl).
Definition pr_rev (x : prj) : Z := fst (fst (fst (fst x))).

(** strictly sorted (no two slots at one position), or not *)
Definition rel (st : bool) : Z -> Z -> Prop := if st then Z.lt else Z.le.
Lemma rel_le st a b : rel st a b -> a <= b.
Proof. destruct st; cbn; lia. Qed.
Lemma lt_rel st a b : a < b -> rel st a b.
Proof. destruct st; cbn; lia. Qed.
Record pool_okb (st : bool) (p : pool) (lo hi : Z) : Prop := {
  po_len : 0 <= p_len p <= p_cap p;
  po_cap : 1 <= p_cap p;
  po_sortedb : StronglySorted (rel st) (map sl_rev (live p));
  po_rng : forall sl, In sl (live p) -> lo <= sl_rev sl < hi;
  po_rest : forall sl, In sl (skipn (p_n p) (p_slots p)) -> sl = zero_slot }.
Arguments po_len {st} _ _ _ _. Arguments po_cap {st} _ _ _ _. Arguments po_sortedb {st} _ _ _ _.
Arguments po_rng {st} _ _ _ _ _ _. Arguments po_rest {st} _ _ _ _ _ _.
Notation pool_ok := (pool_okb true).
Lemma po_sorted p lo hi : pool_ok p lo hi -> StronglySorted Z.lt (map sl_rev (live p)).
Proof. exact (po_sortedb p lo hi). Qed.
Lemma pool_weaken {st} p lo hi : pool_okb st p lo hi -> pool_okb false p lo hi.
Proof.
  intros [A B C D E]. constructor; auto. clear -C. induction C as [|x l C IH F]; constructor; auto.
  eapply Forall_impl; [|exact F]. intros a. apply rel_le.
Qed.

Definition nodel (p : pool) : Prop := forall sl, In sl (live p) -> sl_del sl = false.

Lemma po_n {st} p lo hi : pool_okb st p lo hi -> (p_n p <= List.length (p_slots p))%nat.
Proof. intros H. destruct (po_len _ _ _ H). unfold p_n, p_cap in *. lia. Qed.
Lemma live_length {st} p lo hi : pool_okb st p lo hi -> List.length (live p) = p_n p.
Proof. intros H. unfold live. apply firstn_length_le. eapply po_n; eauto. Qed.
Lemma live_nth p i : (i < p_n p)%nat -> nth i (live p) zero_slot = slot_at p i.
Proof.
  intros H. unfold live, slot_at. revert i H. generalize (p_n p) (p_slots p). intros n l. revert l.
  induction n as [|n IH]; intros l i H; [lia|]. destruct l; destruct i; cbn [firstn nth]; auto. apply IH. lia.
Qed.
Lemma live_in {st} p lo hi i : pool_okb st p lo hi -> (i < p_n p)%nat -> In (slot_at p i) (live p).
Proof.
  intros K H. rewrite <- live_nth by auto. apply nth_In. rewrite (live_length _ _ _ K). auto.
Qed.
Lemma in_live {st} p lo hi sl : pool_okb st p lo hi -> In sl (live p) -> exists i, (i < p_n p)%nat /\ slot_at p i = sl.
Proof.
  intros K H. apply (In_nth _ _ zero_slot) in H as (i & Hi & E). rewrite (live_length _ _ _ K) in Hi.
  exists i. split; auto. rewrite <- live_nth; auto.
Qed.

Lemma sorted_nth l : StronglySorted Z.lt l -> forall i j, (i < j < List.length l)%nat -> nth i l 0 < nth j l 0.
Proof.
  induction 1 as [|x l S IH F]; intros i j H; cbn [List.length] in H; [lia|].
  destruct i as [|i], j as [|j]; try lia; cbn [nth].
  - rewrite Forall_forall in F. apply F. apply nth_In. lia.
  - apply IH. lia.
Qed.
Lemma slot_lt p lo hi i j : pool_ok p lo hi -> (i < j < p_n p)%nat -> sl_rev (slot_at p i) < sl_rev (slot_at p j).
Proof.
  intros K H. pose proof (sorted_nth _ (po_sorted _ _ _ K) i j) as S.
  rewrite map_length, (live_length _ _ _ K) in S. specialize (S H).
  change 0 with (sl_rev zero_slot) in S. rewrite !map_nth, !live_nth in S by lia. auto.
Qed.
Lemma sorted_nth_le l : StronglySorted Z.le l -> forall i j, (i < j < List.length l)%nat -> nth i l 0 <= nth j l 0.
Proof.
  induction 1 as [|x l S IH F]; intros i j H; cbn [List.length] in H; [lia|].
  destruct i as [|i], j as [|j]; try lia; cbn [nth].
  - rewrite Forall_forall in F. apply F. apply nth_In. lia.
  - apply IH. lia.
Qed.
Lemma slot_le {st} p lo hi i j : pool_okb st p lo hi -> (i <= j < p_n p)%nat -> sl_rev (slot_at p i) <= sl_rev (slot_at p j).
Proof.
  intros K H. destruct (Nat.eq_dec i j) as [->|N]; [lia|]. apply pool_weaken in K.
  pose proof (sorted_nth_le _ (po_sortedb _ _ _ K) i j) as S.
  rewrite map_length, (live_length _ _ _ K) in S. specialize (S ltac:(lia)).
  change 0 with (sl_rev zero_slot) in S. rewrite !map_nth, !live_nth in S by lia. auto.
Qed.
Lemma slot_inj p lo hi i j : pool_ok p lo hi -> (i < p_n p)%nat -> (j < p_n p)%nat ->
  sl_rev (slot_at p i) = sl_rev (slot_at p j) -> i = j.
Proof.
  intros K Hi Hj E. destruct (Nat.lt_trichotomy i j) as [H|[H|H]]; auto;
  [pose proof (slot_lt _ _ _ i j K ltac:(lia))|pose proof (slot_lt _ _ _ j i K ltac:(lia))]; lia.
Qed.

(** * skip_left *)
Lemma skip_left_le slots i : (skip_left slots i <= i)%nat.
Proof.
  induction i as [|i IH]; cbn [skip_left]; auto. destruct (sl_del _); lia.
Qed.
Lemma skip_left_self slots i : sl_del (nth i slots zero_slot) = false -> skip_left slots i = i.
Proof. destruct i; cbn [skip_left]; auto. intros ->. auto. Qed.
Lemma skip_left_del slots i : sl_del (nth i slots zero_slot) = true -> (0 < i)%nat -> (skip_left slots i < i)%nat.
Proof.
  destruct i; cbn [skip_left]; [lia|]. intros -> _. pose proof (skip_left_le slots i). lia.
Qed.
Lemma skip_left_mono slots i j : (i <= j)%nat -> (skip_left slots i <= skip_left slots j)%nat.
Proof.
  induction j as [|j IH]; intros H.
  - assert (i = 0)%nat by lia. subst. auto.
  - destruct (Nat.eq_dec i (S j)) as [->|N]; auto. cbn [skip_left].
    specialize (IH ltac:(lia)). pose proof (skip_left_le slots i).
    destruct (sl_del _); lia.
Qed.

(** * Search in a sorted pool with deleted marks *)
Section Search.
Variables (p : pool) (lo hi rv : Z).
Hypothesis K : pool_ok p lo hi.
Let f := fun i => rv <=? sl_rev (slot_at p (skip_left (p_slots p) i)).
Let idx := sort_search (p_n p) 0 (p_n p) f.

Lemma search_idx : (idx <= p_n p)%nat /\ (forall x, (x < idx)%nat -> f x = false) /\
  (forall x, (idx <= x < p_n p)%nat -> f x = true).
Proof.
  destruct (sort_search_spec f (p_n p) 0 (p_n p)) as (A & B & C); try lia.
  - intros x y Hxy Hy Hx. unfold f in *.
    pose proof (skip_left_mono (p_slots p) x y ltac:(lia)). pose proof (skip_left_le (p_slots p) y).
    pose proof (slot_le _ _ _ (skip_left (p_slots p) x) (skip_left (p_slots p) y) K ltac:(lia)). lia.
  - fold idx in A, B, C. split; [lia|]. split; [intros; apply B; lia|intros; apply C; lia].
Qed.

Lemma search_hit j : (j < p_n p)%nat -> sl_rev (slot_at p j) = rv ->
  (sl_del (slot_at p j) = false \/ j = 0%nat) -> emb_search p rv = Some j.
Proof.
  intros Hj Er Hd. destruct search_idx as (A & B & C).
  assert (Sj : skip_left (p_slots p) j = j).
  { destruct Hd as [Hd| ->]; [apply skip_left_self; auto|reflexivity]. }
  assert (E : idx = j).
  { destruct (Nat.lt_trichotomy idx j) as [H|[H|H]]; auto; exfalso.
    - specialize (C (j - 1)%nat ltac:(lia)). unfold f in C.
      pose proof (skip_left_le (p_slots p) (j - 1)).
      pose proof (slot_lt _ _ _ (skip_left (p_slots p) (j - 1)) j K ltac:(lia)). lia.
    - specialize (B j H). unfold f in B. rewrite Sj in B. lia. }
  unfold emb_search. fold f. fold idx. rewrite E.
  destruct (Nat.ltb_spec j (p_n p)); [|lia]. rewrite Er, Z.eqb_refl. cbn [andb]. rewrite Sj. auto.
Qed.
Lemma search_hidden j : (j < p_n p)%nat -> sl_rev (slot_at p j) = rv ->
  sl_del (slot_at p j) = true -> (0 < j)%nat -> emb_search p rv = None.
Proof.
  intros Hj Er Hd Hp. destruct search_idx as (A & B & C).
  unfold emb_search. fold f. fold idx.
  destruct (Nat.ltb_spec idx (p_n p)); cbn [andb]; auto.
  destruct (Z.eqb_spec (sl_rev (slot_at p idx)) rv) as [E|E]; auto. exfalso.
  assert (idx = j) by (apply (slot_inj _ _ _ _ _ K); auto; lia).
  specialize (C j ltac:(lia)). unfold f in C.
  pose proof (skip_left_del (p_slots p) j Hd Hp).
  pose proof (slot_lt _ _ _ (skip_left (p_slots p) j) j K ltac:(lia)). lia.
Qed.
Lemma search_miss : (forall sl, In sl (live p) -> sl_rev sl <> rv) -> emb_search p rv = None.
Proof.
  intros H. unfold emb_search. fold f. fold idx.
  destruct (Nat.ltb_spec idx (p_n p)); cbn [andb]; auto.
  destruct (Z.eqb_spec (sl_rev (slot_at p idx)) rv) as [E|E]; auto. exfalso.
  apply (H (slot_at p idx)); auto. eapply live_in; eauto.
Qed.
(** whatever is found has that position *)
Lemma search_some i : emb_search p rv = Some i -> (i < p_n p)%nat /\
  (sl_rev (slot_at p i) = rv \/ sl_rev (slot_at p i) < rv).
Proof.
  unfold emb_search. fold f. fold idx.
  destruct (Nat.ltb_spec idx (p_n p)); cbn [andb]; [|discriminate].
  destruct (Z.eqb_spec (sl_rev (slot_at p idx)) rv) as [E|E]; [|discriminate].
  intros X. injection X as <-. pose proof (skip_left_le (p_slots p) idx).
  split; [lia|].
  pose proof (slot_le _ _ _ (skip_left (p_slots p) idx) idx K ltac:(lia)). lia.
Qed.
End Search.

(** * Capacity of an interval *)
Lemma sorted_count l : StronglySorted Z.lt l -> forall lo hi, lo <= hi ->
  (forall x, In x l -> lo <= x < hi) -> Z.of_nat (List.length l) <= hi - lo.
Proof.
  induction 1 as [|x l S IH F]; intros lo hi Hlh H; cbn [List.length]; [lia|].
  rewrite Forall_forall in F.
  assert (Hx : lo <= x < hi) by (apply H; left; auto).
  specialize (IH (x + 1) hi). rewrite Nat2Z.inj_succ. 
  assert (Z.of_nat (List.length l) <= hi - (x + 1)); [|lia].
  apply IH; [lia|]. intros y Hy. specialize (F y Hy). specialize (H y (or_intror Hy)). lia.
Qed.
Lemma pool_count p lo hi : pool_ok p lo hi -> lo <= hi -> p_len p <= hi - lo.
Proof.
  intros K H. pose proof (sorted_count _ (po_sorted _ _ _ K) lo hi H) as C.
  rewrite map_length, (live_length _ _ _ K) in C. pose proof (po_len _ _ _ K). unfold p_n in C.
  rewrite Z2Nat.id in C by lia. apply C. intros x Hx. apply in_map_iff in Hx as (sl & <- & Hs).
  apply (po_rng _ _ _ K); auto.
Qed.

(** * Taking a slot when nothing is deleted *)
Lemma last_active_live slots n : (forall i, (i < n)%nat -> sl_del (nth i slots zero_slot) = false) ->
  (0 < n)%nat -> last_active slots n = Some (n - 1)%nat.
Proof.
  intros H Hn. destruct n; [lia|]. cbn [last_active]. rewrite H by lia. f_equal. lia.
Qed.
Lemma nodel_at {st} p lo hi i : pool_okb st p lo hi -> nodel p -> (i < p_n p)%nat -> sl_del (slot_at p i) = false.
Proof. intros K N H. apply N. eapply live_in; eauto. Qed.
Lemma free_idx_none {st} p lo hi rv tl : pool_okb st p lo hi -> nodel p -> (forall t, tl = Some t -> (t < p_n p)%nat) ->
  free_idx p rv tl = None.
Proof.
  intros K N H. destruct tl as [t|]; cbn [free_idx]; auto.
  destruct (_ || _) eqn:E; auto. apply orb_false_iff in E as [E1 E2].
  rewrite (nodel_at (st := st) p lo hi) by (auto; specialize (H t eq_refl);
    apply Nat.leb_gt in E1; apply Nat.ltb_ge in E2; lia). auto.
Qed.

Lemma upd_nth_length {A} k (x : A) l : List.length (upd_nth k x l) = List.length l.
Proof. revert k. induction l; intros [|k]; cbn [upd_nth List.length]; auto. Qed.
Lemma upd_nth_firstn {A} k (x : A) l n : (k < n)%nat -> firstn n (upd_nth k x l) = upd_nth k x (firstn n l).
Proof.
  revert k n. induction l as [|y l IH]; intros k n H; destruct k, n; cbn [upd_nth firstn]; auto; try lia.
  f_equal. apply IH. lia.
Qed.
Lemma upd_nth_skipn {A} k (x : A) l n : (k < n)%nat -> skipn n (upd_nth k x l) = skipn n l.
Proof.
  revert k n. induction l as [|y l IH]; intros k n H; destruct k, n; cbn [upd_nth skipn]; auto; try lia.
  apply IH. lia.
Qed.
Lemma upd_nth_app {A} (x y : A) l r : upd_nth (List.length l) x (l ++ y :: r) = l ++ x :: r.
Proof. induction l as [|z l IH]; cbn [upd_nth List.length app]; auto. f_equal; auto. Qed.
Lemma upd_nth_split {A} k (x d : A) l : (k < List.length l)%nat -> exists l1 l2,
  l = l1 ++ nth k l d :: l2 /\ List.length l1 = k /\ upd_nth k x l = l1 ++ x :: l2.
Proof.
  revert k. induction l as [|y l IH]; intros k H; cbn [List.length] in H; [lia|].
  destruct k as [|k]; cbn [nth upd_nth].
  - exists [], l. auto.
  - destruct (IH k ltac:(lia)) as (l1 & l2 & E & L & U). exists (y :: l1), l2. cbn [app List.length].
    split; [f_equal; auto|]. split; [lia|]. f_equal; auto.
Qed.

Lemma first_ge_spec rv slots : forall i0 i, first_ge rv i0 slots = Some i ->
  exists l1 x l2, slots = l1 ++ x :: l2 /\ i = (i0 + List.length l1)%nat /\ sl_del x = false /\ rv <= sl_rev x /\
    forall y, In y l1 -> sl_del y = false -> sl_rev y < rv.
Proof.
  induction slots as [|s slots IH]; intros i0 i; cbn [first_ge]; [discriminate|].
  destruct (negb (sl_del s) && (rv <=? sl_rev s)) eqn:E.
  - intros X. injection X as <-. exists [], s, slots. cbn [app List.length].
    destruct (sl_del s); [discriminate|]. cbn in E. 
    split; auto. split; [lia|]. split; auto. split; [lia|]. intros y [].
  - intros X. destruct (IH _ _ X) as (l1 & x & l2 & -> & -> & A & B & C).
    exists (s :: l1), x, l2. cbn [app List.length]. split; auto. split; [lia|]. split; auto. split; auto.
    intros y [<-|Hy] Hd; auto. rewrite Hd in E. cbn in E. lia.
Qed.
Lemma first_ge_none rv slots : forall i0, first_ge rv i0 slots = None ->
  forall y, In y slots -> sl_del y = false -> sl_rev y < rv.
Proof.
  induction slots as [|s slots IH]; intros i0; cbn [first_ge]; [intros _ y []|].
  destruct (negb (sl_del s) && (rv <=? sl_rev s)) eqn:E; [discriminate|].
  intros X y [<-|Hy] Hd; [|eapply IH; eauto]. rewrite Hd in E. cbn in E. lia.
Qed.

(** A pool written as live part and zero rest *)
Lemma pool_parts {st} p lo hi : pool_okb st p lo hi -> exists r, p_slots p = live p ++ repeat zero_slot r /\
  Z.of_nat (List.length (live p)) = p_len p /\ p_cap p = p_len p + Z.of_nat r.
Proof.
  intros K. exists (List.length (skipn (p_n p) (p_slots p))).
  pose proof (live_length _ _ _ K) as L. pose proof (po_len _ _ _ K) as PL. pose proof (po_n _ _ _ K) as PN.
  split; [|split].
  - unfold live. rewrite <- (firstn_skipn (p_n p) (p_slots p)) at 1. f_equal.
    pose proof (po_rest _ _ _ K) as R. revert R. generalize (skipn (p_n p) (p_slots p)). intros l R.
    induction l as [|x l IH]; cbn [List.length repeat]; auto. f_equal; [apply R; left; auto|].
    apply IH. intros; apply R; right; auto.
  - rewrite L. unfold p_n. lia.
  - rewrite skipn_length. unfold p_cap in *. unfold p_n in *. lia.
Qed.
(** the converse *)
Lemma pool_make {st} l r ln lo hi : ln = Z.of_nat (List.length l) -> (1 <= List.length l + r)%nat ->
  StronglySorted (rel st) (map sl_rev l) -> (forall sl, In sl l -> lo <= sl_rev sl < hi) ->
  pool_okb st (mkP (l ++ repeat zero_slot r) ln) lo hi /\ live (mkP (l ++ repeat zero_slot r) ln) = l.
Proof.
  intros E H S R.
  assert (N : p_n (mkP (l ++ repeat zero_slot r) ln) = List.length l) by (unfold p_n; cbn [p_len]; lia).
  assert (L : live (mkP (l ++ repeat zero_slot r) ln) = l).
  { unfold live. rewrite N. cbn [p_slots]. rewrite firstn_app, Nat.sub_diag, firstn_all, firstn_O, app_nil_r. auto. }
  split; auto. constructor; rewrite ?L, ?N; auto.
  - unfold p_cap. cbn [p_slots p_len]. rewrite app_length, repeat_length. lia.
  - unfold p_cap. cbn [p_slots p_len]. rewrite app_length, repeat_length. lia.
  - cbn [p_slots]. rewrite skipn_app, Nat.sub_diag, skipn_all, skipn_O. cbn [app].
    intros sl Hs. apply repeat_spec in Hs. auto.
Qed.

Lemma expand_ok {st} p lo hi : pool_okb st p lo hi -> pool_okb st (expand p) lo hi /\ live (expand p) = live p /\
  p_len (expand p) = p_len p /\ p_len p < p_cap (expand p).
Proof.
  intros K. destruct (pool_parts _ _ _ K) as (r & E & L & C).
  pose proof (po_len _ _ _ K) as PL. pose proof (pool_cap_spec (p_len p) ltac:(lia)) as PC.
  pose proof (live_length _ _ _ K) as LL.
  unfold expand. fold (live p).
  assert (p_n p = Z.to_nat (p_len p)) as PN by reflexivity.
  destruct (pool_make (st := st) (live p) (Z.to_nat (pool_cap (p_len p)) - p_n p) (p_len p) lo hi) as [A B]; auto; try lia.
  - apply (po_sortedb _ _ _ K).
  - apply (po_rng _ _ _ K).
  - split; auto. split; auto. split; auto. unfold p_cap. cbn [p_slots]. rewrite app_length, repeat_length. lia.
Qed.

Lemma sorted_ins {st} a x b : StronglySorted (rel st) (a ++ b) -> (forall y, In y a -> y < x) -> (forall y, In y b -> rel st x y) ->
  StronglySorted (rel st) (a ++ x :: b).
Proof.
  intros S Ha Hb. apply sorted_app in S as (S1 & S2 & S3). apply sorted_app. split; auto. split.
  - constructor; auto. apply Forall_forall. auto.
  - intros y z Hy [<-|Hz]; auto using lt_rel.
Qed.

(** What a caller that fills the slot gets. *)
Definition gets_slot (p : pool) (lo hi rv : Z) (g : gres) : Prop :=
  exists p1 i l1 l2, g = GSlot p1 i /\ slot_at p1 i = zero_slot /\
    map pr (live p) = l1 ++ l2 /\ p_len p1 = p_len p + 1 /\
    (forall x, In x l1 -> pr_rev x < rv) /\ (forall x, In x l2 -> rv < pr_rev x) /\
    forall f, sl_rev (f zero_slot) = rv -> pool_ok (upd_slot p1 i f) lo hi /\
      map pr (live (upd_slot p1 i f)) = l1 ++ pr (f zero_slot) :: l2 /\
      (nodel p -> sl_del (f zero_slot) = false -> nodel (upd_slot p1 i f)).
Definition gets_slotb (st : bool) (p : pool) (lo hi rv : Z) (g : gres) : Prop :=
  exists p1 i l1 l2, g = GSlot p1 i /\ slot_at p1 i = zero_slot /\
    map pr (live p) = l1 ++ l2 /\ p_len p1 = p_len p + 1 /\
    (forall x, In x l1 -> pr_rev x < rv) /\ (forall x, In x l2 -> rel st rv (pr_rev x)) /\
    forall f, sl_rev (f zero_slot) = rv -> pool_okb st (upd_slot p1 i f) lo hi /\
      map pr (live (upd_slot p1 i f)) = l1 ++ pr (f zero_slot) :: l2 /\
      (nodel p -> sl_del (f zero_slot) = false -> nodel (upd_slot p1 i f)).

Lemma map_pr_rev l : map pr_rev (map pr l) = map sl_rev l.
Proof. rewrite map_map. apply map_ext. auto. Qed.

(** common part: the new slot goes between l1 and l2 *)
Lemma gets_slot_make {st} p lo hi rv l1 l2 r ln : pool_okb st p lo hi -> lo <= rv < hi ->
  map pr (live p) = map pr (l1 ++ l2) -> p_len p + 1 = ln ->
  (forall x, In x l1 -> sl_rev x < rv) -> (forall x, In x l2 -> rel st rv (sl_rev x)) ->
  gets_slotb st p lo hi rv (GSlot (mkP ((l1 ++ zero_slot :: l2) ++ repeat zero_slot r) ln) (List.length l1)).
Proof.
  intros K Hrv E EL H1 H2. eexists _, _, (map pr l1), (map pr l2).
  split; [reflexivity|].
  assert (SA : slot_at (mkP ((l1 ++ zero_slot :: l2) ++ repeat zero_slot r) ln) (List.length l1) = zero_slot).
  { unfold slot_at. cbn [p_slots]. rewrite <- app_assoc, app_nth2, Nat.sub_diag by lia. reflexivity. }
  split; auto. split; [rewrite E, map_app; auto|]. split; [cbn [p_len]; lia|].
  split. { intros x Hx. apply in_map_iff in Hx as (y & <- & Hy). apply H1; auto. }
  split. { intros x Hx. apply in_map_iff in Hx as (y & <- & Hy). apply H2; auto. }
  intros f Hf. unfold upd_slot. rewrite SA. cbn [p_slots p_len].
  rewrite <- app_assoc. cbn [app]. rewrite upd_nth_app.
  assert (ER : map sl_rev (live p) = map sl_rev (l1 ++ l2)) by (rewrite <- !map_pr_rev, E; auto).
  assert (LN : List.length (live p) = List.length (l1 ++ l2)).
  { apply (f_equal (@List.length _)) in E. rewrite !map_length in E. auto. }
  rewrite (live_length _ _ _ K) in LN. pose proof (po_len _ _ _ K). unfold p_n in LN. rewrite app_length in LN.
  change (l1 ++ f zero_slot :: l2 ++ repeat zero_slot r) with (l1 ++ (f zero_slot :: l2) ++ repeat zero_slot r).
  rewrite app_assoc.
  destruct (pool_make (st := st) (l1 ++ f zero_slot :: l2) r ln lo hi) as [A B].
  - rewrite app_length. cbn [List.length]. lia.
  - rewrite app_length. cbn [List.length]. lia.
  - rewrite map_app. cbn [map]. apply sorted_ins.
    + rewrite <- map_app, <- ER. apply (po_sortedb _ _ _ K).
    + intros y Hy. apply in_map_iff in Hy as (z & <- & Hz). rewrite Hf. auto.
    + intros y Hy. apply in_map_iff in Hy as (z & <- & Hz). rewrite Hf. auto.
  - assert (G : forall z, In z (l1 ++ l2) -> lo <= sl_rev z < hi).
    { intros z Hz. assert (Hz' : In (pr z) (map pr (live p))) by (rewrite E; apply in_map; auto).
      apply in_map_iff in Hz' as (w & Ew & Hw). injection Ew as -> _ _ _ _ || (assert (sl_rev w = sl_rev z) by (inversion Ew; auto)).
      replace (sl_rev z) with (sl_rev w). apply (po_rng _ _ _ K); auto. }
    intros z Hz. apply in_app_or in Hz as [Hz|[<-|Hz]]; [| |].
    + apply G. apply in_or_app; auto.
    + rewrite Hf. auto.
    + apply G. apply in_or_app; auto.
  - split; auto. split.
    + rewrite B, map_app. reflexivity.
    + intros N Hd sl Hs. rewrite B in Hs.
      assert (G : forall z, In z (l1 ++ l2) -> sl_del z = false).
      { intros z Hz. assert (Hz' : In (pr z) (map pr (live p))) by (rewrite E; apply in_map; auto).
        apply in_map_iff in Hz' as (w & Ew & Hw). 
        replace (sl_del z) with (sl_del w) by (inversion Ew; auto). apply N; auto. }
      apply in_app_or in Hs as [Hz|[<-|Hz]]; auto; apply G; apply in_or_app; auto.
Qed.

Lemma pr_relink l : map pr (map relink l) = map pr l.
Proof. rewrite map_map. apply map_ext. auto. Qed.
Lemma rev_relink l : map sl_rev (map relink l) = map sl_rev l.
Proof. rewrite map_map. apply map_ext. auto. Qed.

Lemma get_with_fn_room {st} f p lo hi rv : pool_okb st p lo hi -> nodel p -> lo <= rv < hi ->
  (st = true -> forall sl, In sl (live p) -> sl_rev sl <> rv) -> p_len p < p_cap p ->
  gets_slotb st p lo hi rv (get_with_fn (S f) p rv).
Proof.
  intros K N Hrv Hno Hcap. cbn [get_with_fn].
  destruct (pool_parts _ _ _ K) as (r & E & L & C).
  pose proof (po_len _ _ _ K) as PL. pose proof (live_length _ _ _ K) as LL.
  destruct r as [|r]; [lia|].
  destruct (Z.eqb_spec (p_len p) 0) as [E0|N0].
  - destruct (Z.leb_spec (p_cap p) 0); [lia|].
    assert (live p = []) as L0 by (destruct (live p); [auto|cbn [List.length] in L; lia]).
    rewrite E, L0. cbn [app repeat].
    change (zero_slot :: repeat zero_slot r) with (([] ++ zero_slot :: []) ++ repeat zero_slot r).
    apply (gets_slot_make p lo hi rv [] [] r 1); auto.
    + rewrite L0. auto.
    + lia.
    + intros x [].
    + intros x [].
  - assert (PN : (0 < p_n p)%nat) by (unfold p_n; lia).
    rewrite (last_active_live (p_slots p) (p_n p)); auto.
    2:{ intros i Hi. apply (nodel_at p lo hi i K N Hi). }
    rewrite (free_idx_none (st := st) p lo hi) by (auto; intros t X; injection X as <-; lia).
    destruct (Z.eqb_spec (p_cap p) (p_len p)); [lia|].
    destruct (Z.ltb_spec (sl_rev (slot_at p (p_n p - 1))) rv) as [Hlt|Hge].
    + destruct (Z.leb_spec (p_cap p) (p_len p)); [lia|].
      rewrite E, <- LL. cbn [repeat].
      replace (live p ++ zero_slot :: repeat zero_slot r) with ((live p ++ zero_slot :: []) ++ repeat zero_slot r)
        by (rewrite <- app_assoc; auto).
      apply (gets_slot_make p lo hi rv (live p) [] r (p_len p + 1)); auto.
      * rewrite app_nil_r. auto.
      * intros x Hx. destruct (in_live _ _ _ _ K Hx) as (i & Hi & <-).
        pose proof (slot_le _ _ _ i (p_n p - 1) K ltac:(lia)). lia.
      * intros x [].
    + destruct (find_idx p rv) as [i|] eqn:F.
      * unfold find_idx in F. fold (live p) in F. apply first_ge_spec in F as (l1 & x & l2 & EL & -> & Dx & Rx & Hl1).
        cbn [Nat.add]. unfold insert_at. fold (live p).
        assert (M : map relink (live p) = map relink l1 ++ map relink (x :: l2)) by (rewrite EL, map_app; auto).
        rewrite M. 
        rewrite <- (map_length relink l1).
        rewrite firstn_app, Nat.sub_diag, firstn_all, firstn_O, app_nil_r.
        rewrite skipn_app, Nat.sub_diag, skipn_all, skipn_O. cbn [app].
        match goal with |- context [repeat zero_slot ?q] => generalize q; intros q0 end.
        replace (map relink l1 ++ zero_slot :: map relink (x :: l2) ++ repeat zero_slot q0)
          with ((map relink l1 ++ zero_slot :: map relink (x :: l2)) ++ repeat zero_slot q0)
          by (rewrite <- app_assoc; auto).
        apply (gets_slot_make p lo hi rv (map relink l1) (map relink (x :: l2)) q0 (p_len p + 1)); auto.
        -- rewrite <- map_app, pr_relink, EL. auto.
        -- intros y Hy. apply in_map_iff in Hy as (z & <- & Hz). cbn [sl_rev relink].
           apply Hl1; auto. apply N. rewrite EL. apply in_or_app; auto.
        -- intros y Hy. apply in_map_iff in Hy as (z & <- & Hz). cbn [sl_rev relink].
           assert (Hz' : In z (live p)) by (rewrite EL; apply in_or_app; auto).
           assert (RZ : rv <= sl_rev z).
           {           pose proof (po_sortedb _ _ _ K) as S. rewrite EL, map_app in S. apply sorted_app in S as (_ & S2 & _).
           destruct Hz as [<-|Hz]; [lia|]. cbn [map] in S2. apply StronglySorted_inv in S2 as [_ F].
           rewrite Forall_forall in F. specialize (F (sl_rev z) (in_map _ _ _ Hz)). apply rel_le in F. lia. }
           destruct st; cbn [rel]; [|exact RZ]. specialize (Hno eq_refl z Hz'). lia.
      * exfalso. unfold find_idx in F. fold (live p) in F.
        pose proof (first_ge_none _ _ _ F (slot_at p (p_n p - 1))) as X.
        pose proof (live_in _ _ _ (p_n p - 1) K ltac:(lia)) as Hin. specialize (X Hin (N _ Hin)). lia.
Qed.

Lemma get_with_fn_okb {st} p lo hi rv : pool_okb st p lo hi -> nodel p -> lo <= rv < hi ->
  (st = true -> forall sl, In sl (live p) -> sl_rev sl <> rv) -> gets_slotb st p lo hi rv (get_with_fn 4 p rv).
Proof.
  intros K N Hrv Hno. pose proof (po_len _ _ _ K) as PL. pose proof (po_cap _ _ _ K) as PC.
  destruct (Z.eq_dec (p_cap p) (p_len p)) as [E|NE].
  2:{ apply get_with_fn_room; auto. lia. }
  destruct (expand_ok _ _ _ K) as (K' & EL & ELn & EC).
  assert (N' : nodel (expand p)) by (intros sl; rewrite EL; apply N).
  assert (G : gets_slotb st (expand p) lo hi rv (get_with_fn 3 (expand p) rv)).
  { apply get_with_fn_room; auto. rewrite EL. auto. }
  assert (EQ : get_with_fn 4 p rv = get_with_fn 3 (expand p) rv).
  { remember 3%nat as f. cbn [get_with_fn]. destruct (Z.eqb_spec (p_len p) 0); [lia|].
    assert (PN : (0 < p_n p)%nat) by (unfold p_n; lia).
    rewrite (last_active_live (p_slots p) (p_n p)); auto.
    2:{ intros i Hi. apply (nodel_at p lo hi i K N Hi). }
    rewrite (free_idx_none (st := st) p lo hi) by (auto; intros t X; injection X as <-; lia).
    destruct (Z.eqb_spec (p_cap p) (p_len p)); [auto|lia]. }
  rewrite EQ. destruct G as (p1 & i & l1 & l2 & A & B & C & D & F & H & I).
  rewrite EL in C. rewrite ELn in D.
  exists p1, i, l1, l2. split; [auto|]. split; [auto|]. split; [auto|]. split; [auto|]. split; [auto|]. split; [auto|].
  intros f Hf. destruct (I f Hf) as (I1 & I2 & I3). split; [auto|]. split; [auto|]. intros _ Hd. apply I3; auto.
Qed.

Lemma get_with_fn_ok p lo hi rv : pool_ok p lo hi -> nodel p -> lo <= rv < hi ->
  (forall sl, In sl (live p) -> sl_rev sl <> rv) -> gets_slot p lo hi rv (get_with_fn 4 p rv).
Proof. intros K N Hrv Hno. exact (get_with_fn_okb p lo hi rv K N Hrv (fun _ => Hno)). Qed.

(** * Splitting *)
Lemma find_idx_spec {st} p lo hi rv i : pool_okb st p lo hi -> nodel p -> find_idx p rv = Some i ->
  exists l1 x l2, live p = l1 ++ x :: l2 /\ i = List.length l1 /\ rv <= sl_rev x /\
    (forall y, In y l1 -> sl_rev y < rv).
Proof.
  intros K N F. unfold find_idx in F. fold (live p) in F.
  apply first_ge_spec in F as (l1 & x & l2 & E & -> & D & R & H). exists l1, x, l2.
  split; auto. split; auto. split; auto. intros y Hy. apply H; auto. apply N. rewrite E. apply in_or_app; auto.
Qed.
Lemma split_ok {st} p lo mid hi l1 l2 : pool_okb st p lo hi -> live p = l1 ++ l2 -> l1 <> [] -> l2 <> [] ->
  (forall y, In y l1 -> sl_rev y < mid) -> (forall y, In y l2 -> mid <= sl_rev y) ->
  pool_okb st (split_lo p (List.length l1)) lo mid /\ live (split_lo p (List.length l1)) = l1 /\
  pool_okb st (split_hi p (List.length l1)) mid hi /\ live (split_hi p (List.length l1)) = l2.
Proof.
  intros K E N1 N2 H1 H2. destruct (pool_parts _ _ _ K) as (r & Es & L & C).
  pose proof (po_sortedb _ _ _ K) as S. rewrite E, map_app in S. apply sorted_app in S as (S1 & S2 & _).
  unfold split_lo, split_hi. rewrite Es, E. rewrite <- app_assoc.
  rewrite firstn_app, Nat.sub_diag, firstn_all, firstn_O, app_nil_r.
  rewrite skipn_app, Nat.sub_diag, skipn_all, skipn_O. cbn [app].
  rewrite E, app_length in L.
  destruct (pool_make (st := st) l1 0 (Z.of_nat (List.length l1)) lo mid) as [A B]; auto.
  { destruct l1; [congruence|cbn [List.length]; lia]. }
  { intros sl Hs. pose proof (po_rng _ _ _ K sl). rewrite E in H. specialize (H ltac:(apply in_or_app; auto)).
    specialize (H1 sl Hs). lia. }
  cbn [repeat] in A, B. rewrite app_nil_r in A, B.
  destruct (pool_make (st := st) l2 r (p_len p - Z.of_nat (List.length l1)) mid hi) as [A' B']; auto; try lia.
  { destruct l2; [congruence|cbn [List.length]; lia]. }
  { intros sl Hs. pose proof (po_rng _ _ _ K sl). rewrite E in H. specialize (H ltac:(apply in_or_app; auto)).
    specialize (H2 sl Hs). lia. }
Qed.

(** * Updating one slot in place *)
Lemma upd_slot_ok {st} p lo hi i f : pool_okb st p lo hi -> (i < p_n p)%nat -> sl_rev (f (slot_at p i)) = sl_rev (slot_at p i) ->
  pool_okb st (upd_slot p i f) lo hi /\ live (upd_slot p i f) = upd_nth i (f (slot_at p i)) (live p) /\
  p_n (upd_slot p i f) = p_n p /\
  (forall j, (j < p_n p)%nat -> slot_at (upd_slot p i f) j = if Nat.eqb i j then f (slot_at p i) else slot_at p j).
Proof.
  intros K Hi Hr.
  assert (EL : live (upd_slot p i f) = upd_nth i (f (slot_at p i)) (live p)).
  { unfold live, upd_slot, p_n. cbn [p_slots p_len]. apply upd_nth_firstn. exact Hi. }
  assert (RV : map sl_rev (live (upd_slot p i f)) = map sl_rev (live p)).
  { rewrite EL. destruct (upd_nth_split i (f (slot_at p i)) zero_slot (live p)) as (l1 & l2 & E & L & U).
    - rewrite (live_length _ _ _ K). auto.
    - rewrite U. rewrite live_nth in E by auto. transitivity (map sl_rev (l1 ++ slot_at p i :: l2)); [|rewrite <- E; auto]. rewrite !map_app. cbn [map]. rewrite Hr. auto. }
  split; [|split; [auto|split; [reflexivity|]]].
  - destruct K as [A B C D F]. constructor.
    + unfold p_cap, upd_slot in *. cbn [p_len p_slots]. rewrite upd_nth_length. auto.
    + unfold p_cap, upd_slot in *. cbn [p_slots]. rewrite upd_nth_length. auto.
    + rewrite RV. auto.
    + intros sl Hs. assert (Hin : In (sl_rev sl) (map sl_rev (live p))) by (rewrite <- RV; apply in_map; auto).
      apply in_map_iff in Hin as (w & <- & Hw). auto.
    + unfold upd_slot, p_n. cbn [p_slots p_len]. rewrite upd_nth_skipn by exact Hi. exact F.
  - intros j Hj. pose proof (po_n _ _ _ K) as PN. unfold upd_slot. generalize (f (slot_at p i)); intros x.
    unfold slot_at. cbn [p_slots]. assert (HL : (i < List.length (p_slots p))%nat) by lia.
    revert HL. clear. generalize (p_slots p). intros l.
    revert i j. induction l as [|y l IH]; intros i j H; cbn [List.length] in H; [lia|].
    destruct i as [|i], j as [|j]; cbn [upd_nth nth Nat.eqb]; auto. apply IH. lia.
Qed.

(** * Search with several slots at one position, none deleted: the first of them *)
Lemma search_first {st} p lo hi rv : pool_okb st p lo hi -> nodel p ->
  match emb_search p rv with
  | Some j => (j < p_n p)%nat /\ sl_rev (slot_at p j) = rv /\ forall i, (i < j)%nat -> sl_rev (slot_at p i) < rv
  | None => forall sl, In sl (live p) -> sl_rev sl <> rv
  end.
Proof.
  intros K N.
  assert (SK : forall i, (i < p_n p)%nat -> skip_left (p_slots p) i = i).
  { intros i Hi. apply skip_left_self. apply (nodel_at p lo hi i K N Hi). }
  unfold emb_search. set (f := fun i => rv <=? sl_rev (slot_at p (skip_left (p_slots p) i))).
  destruct (sort_search_spec f (p_n p) 0 (p_n p)) as (A & B & C); try lia.
  { intros x y Hxy Hy Hx. unfold f in *. rewrite SK in * by lia. pose proof (slot_le _ _ _ x y K ltac:(lia)). lia. }
  set (idx := sort_search (p_n p) 0 (p_n p) f) in *.
  assert (LO : forall i, (i < idx)%nat -> sl_rev (slot_at p i) < rv).
  { intros i Hi. specialize (B i ltac:(lia)). unfold f in B. rewrite SK in B by lia. lia. }
  destruct (Nat.ltb_spec idx (p_n p)) as [L|L]; cbn [andb].
  - destruct (Z.eqb_spec (sl_rev (slot_at p idx)) rv) as [E|NE].
    + rewrite SK by auto. auto.
    + intros sl Hs E. destruct (in_live _ _ _ _ K Hs) as (i & Hi & <-).
      specialize (C idx ltac:(lia)). unfold f in C. rewrite SK in C by lia.
      destruct (Nat.lt_ge_cases i idx) as [X|X]; [specialize (LO i X); lia|].
      pose proof (slot_le _ _ _ idx i K ltac:(lia)). lia.
  - intros sl Hs E. destruct (in_live _ _ _ _ K Hs) as (i & Hi & <-). specialize (LO i ltac:(lia)). lia.
Qed.

(** * How many slots are in a window of sixteen positions *)
Definition inwin (a : Z) (sl : slot) : bool := (a <=? sl_rev sl) && (sl_rev sl <? a + 16).
Definition nwin (a : Z) (l : list slot) : Z := Z.of_nat (List.length (filter (inwin a) l)).
Definition narrow (mx : Z) (l : list slot) : Prop := forall a, (16 | a) -> nwin a l <= mx.
Lemma nwin_app a l l' : nwin a (l ++ l') = nwin a l + nwin a l'.
Proof. unfold nwin. rewrite filter_app, app_length. lia. Qed.
Lemma nwin_pos a l : 0 <= nwin a l.
Proof. unfold nwin. lia. Qed.
Lemma narrow_app mx l l' : narrow mx (l ++ l') -> narrow mx l /\ narrow mx l'.
Proof.
  intros H. split; intros a Ha; specialize (H a Ha); rewrite nwin_app in H; pose proof (nwin_pos a l); pose proof (nwin_pos a l'); lia.
Qed.
Lemma nwin_all a l : (forall sl, In sl l -> a <= sl_rev sl < a + 16) -> nwin a l = Z.of_nat (List.length l).
Proof.
  intros H. unfold nwin. f_equal. f_equal. induction l as [|x l IH]; cbn [filter]; auto.
  unfold inwin at 1. pose proof (H x (or_introl eq_refl)).
  destruct (Z.leb_spec a (sl_rev x)); [|lia]. destruct (Z.ltb_spec (sl_rev x) (a + 16)); [|lia]. cbn [andb]. f_equal. apply IH.
  intros; apply H; right; auto.
Qed.
Lemma narrow_strict mx p lo hi : pool_ok p lo hi -> 16 <= mx -> narrow mx (live p).
Proof.
  intros K H a _. pose proof (po_sorted _ _ _ K) as S. unfold nwin.
  assert (S2 : StronglySorted Z.lt (map sl_rev (filter (inwin a) (live p)))).
  { clear -S. induction (live p) as [|x l IH]; cbn [filter map] in *; [constructor|].
    apply StronglySorted_inv in S as [S F]. destruct (inwin a x); auto. cbn [map]. constructor; auto.
    rewrite Forall_forall in *. intros y Hy. apply F. apply in_map_iff in Hy as (z & <- & Hz).
    apply filter_In in Hz as [Hz _]. apply in_map; auto. }
  pose proof (sorted_count _ S2 a (a + 16) ltac:(lia)) as C. rewrite map_length in C.
  etransitivity; [apply C|lia]. intros x Hx. apply in_map_iff in Hx as (z & <- & Hz).
  apply filter_In in Hz as [_ Hz]. unfold inwin in Hz. lia.
Qed.
