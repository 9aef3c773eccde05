(** Facts about the bucket table (Bucket.v): a well-formedness invariant, what
    find_bucket returns, and that creating a bucket at the middle of an
    interval keeps the invariant. *)
From Verif Require Import Base BaseProofs Util UtilProofs Bucket.
From Coq Require Import ZifyBool Sorted.
Local Open Scope Z_scope.
Arguments Z.mul : simpl never.
Arguments Z.add : simpl never.
Arguments Z.sub : simpl never.
Arguments Z.pow : simpl never.

(** * Finite map *)
Lemma bget_tset t n b m : bget (tset t n b) m = if nid_eqb n m then b else bget t m.
Proof.
  unfold bget. induction t as [|[x c] t IH]; cbn [tset tget].
  - destruct (nid_eqb n m); reflexivity.
  - destruct (nid_eqb x n) eqn:E; cbn [tget].
    + apply nid_eqb_eq in E; subst x. destruct (nid_eqb n m); reflexivity.
    + destruct (nid_eqb x m) eqn:E2.
      * apply nid_eqb_eq in E2; subst x. destruct (nid_eqb n m) eqn:E3; auto.
        apply nid_eqb_eq in E3; subst n. rewrite nid_eqb_refl in E; discriminate.
      * exact IH.
Qed.
Lemma bget_tset_eq t n b : bget (tset t n b) n = b.
Proof. rewrite bget_tset, nid_eqb_refl; auto. Qed.
Lemma bget_tset_ne t n b m : n <> m -> bget (tset t n b) m = bget t m.
Proof. intros H. rewrite bget_tset. apply nid_eqb_neq in H; rewrite H; auto. Qed.

Lemma nid_eq_dec (a b : nid) : {a = b} + {a <> b}.
Proof. decide equality; apply Z.eq_dec. Qed.

(** * Interval sizes *)
(** number of positions below a node of level l *)
Definition sz (l : Z) : Z := 16 ^ (16 - l).
Lemma sz_pos l : l <= 16 -> 0 < sz l.
Proof. intros. unfold sz. apply Z.pow_pos_nonneg; lia. Qed.
Lemma sz_step l : l <= 15 -> sz l = 16 * sz (l + 1).
Proof.
  intros. unfold sz. replace (16 - l) with (Z.succ (16 - (l + 1))) by lia.
  rewrite Z.pow_succ_r by lia. reflexivity.
Qed.
Lemma sz_16 : sz 16 = 1. Proof. reflexivity. Qed.
Lemma sz_1 : sz 1 = 16 ^ 15. Proof. reflexivity. Qed.
Lemma sz_0 : sz 0 = W64. Proof. reflexivity. Qed.
Lemma sz_pow2 l : l <= 16 -> sz l = 2 ^ (64 - 4 * l).
Proof.
  intros. unfold sz. replace 16 with (2 ^ 4) at 1 by reflexivity.
  rewrite <- Z.pow_mul_r by lia. f_equal; lia.
Qed.
Lemma sz_le l l' : l <= l' -> l' <= 16 -> (sz l' | sz l).
Proof.
  intros. unfold sz. exists (16 ^ (l' - l)). rewrite <- Z.pow_add_r by lia. f_equal; lia.
Qed.

Definition trunc (l v : Z) : Z := sz l * (v / sz l).
Lemma trunc_le l v : l <= 16 -> 0 <= v -> 0 <= trunc l v <= v /\ v < trunc l v + sz l.
Proof.
  intros Hl Hv. unfold trunc. pose proof (sz_pos l Hl).
  pose proof (Z.div_mod v (sz l) ltac:(lia)). pose proof (Z.mod_pos_bound v (sz l) ltac:(lia)).
  pose proof (Z.div_pos v (sz l) ltac:(lia) ltac:(lia)). nia.
Qed.
Lemma trunc_div l v : (sz l | trunc l v).
Proof. exists (v / sz l). unfold trunc. ring. Qed.
Lemma trunc_id l v : l <= 16 -> (sz l | v) -> trunc l v = v.
Proof.
  intros Hl [q ->]. unfold trunc. pose proof (sz_pos l Hl). rewrite Z.div_mul by lia. ring.
Qed.
(** uniqueness: the multiple of sz l in whose interval v lies *)
Lemma trunc_unique l v w : l <= 16 -> (sz l | w) -> w <= v < w + sz l -> trunc l v = w.
Proof.
  intros Hl [q ->] H. unfold trunc. pose proof (sz_pos l Hl).
  rewrite <- (Z.div_unique v (sz l) q (v - q * sz l)); lia.
Qed.

Lemma nib_eq v l : 0 <= v -> l <= 16 -> nib v l = (v / sz l) mod 16.
Proof.
  intros Hv Hl. unfold nib. rewrite Z.shiftr_div_pow2 by lia.
  rewrite sz_pow2 by lia. replace (4 * (16 - l)) with (64 - 4 * l) by lia.
  change 15 with (Z.ones 4). rewrite Z.land_ones by lia. reflexivity.
Qed.
Lemma nib_range v l : 0 <= v -> l <= 16 -> 0 <= nib v l < 16.
Proof. intros. rewrite nib_eq by lia. apply Z.mod_pos_bound; lia. Qed.
Lemma trunc_step l v : 0 <= v -> l <= 15 -> trunc (l + 1) v = trunc l v + nib v (l + 1) * sz (l + 1).
Proof.
  intros Hv Hl. rewrite nib_eq by lia. unfold trunc.
  pose proof (sz_pos (l + 1) ltac:(lia)). rewrite (sz_step l Hl).
  rewrite (Z.mul_comm 16 (sz (l + 1))) at 2. rewrite <- Z.div_div by lia.
  pose proof (Z.div_mod (v / sz (l + 1)) 16 ltac:(lia)). nia.
Qed.
Lemma trunc_0 v : 0 <= v < W64 -> trunc 0 v = 0.
Proof. intros. unfold trunc. rewrite sz_0, Z.div_small by lia. ring. Qed.
Lemma nib_0 l v : 0 <= v -> l <= 15 -> (nib v (l + 1) = 0 <-> trunc (l + 1) v = trunc l v).
Proof.
  intros Hv Hl. rewrite trunc_step by lia. pose proof (sz_pos (l + 1) ltac:(lia)). nia.
Qed.
Lemma trunc_trunc l l' v : l <= l' <= 16 -> 0 <= v -> trunc l (trunc l' v) = trunc l v.
Proof.
  intros Hl Hv. pose proof (trunc_le l v ltac:(lia) Hv). pose proof (trunc_le l' v ltac:(lia) Hv).
  apply trunc_unique; try lia. { apply trunc_div. }
  split; [|lia].
  (* trunc l v is a multiple of sz l' below v *)
  assert (D : (sz l' | trunc l v)).
  { apply (Z.divide_trans _ (sz l)); [apply sz_le; lia|apply trunc_div]. }
  destruct D as [q Hq]. destruct (trunc_div l' v) as [q' Hq'].
  pose proof (sz_pos l' ltac:(lia)). assert (q < q' + 1) by (apply (Z.mul_lt_mono_pos_r (sz l')); lia). rewrite Hq, Hq'. apply Z.mul_le_mono_nonneg_r; lia.
Qed.
Lemma nib_trunc l l' v : l <= l' <= 16 -> 0 <= v -> nib (trunc l' v) l = nib v l.
Proof.
  intros Hl Hv. pose proof (trunc_le l' v ltac:(lia) Hv). rewrite !nib_eq by lia.
  assert (E : trunc l' v / sz l = v / sz l); [|rewrite E; auto].
  assert (T : sz l * (trunc l' v / sz l) = sz l * (v / sz l)) by exact (trunc_trunc l l' v Hl Hv).
  pose proof (sz_pos l ltac:(lia)). apply Z.mul_reg_l in T; auto; lia.
Qed.

(** * Names *)
Lemma child_eq l v i : child (l, v) i = (l + 1, v + i * sz (l + 1)).
Proof. unfold child, sz; cbn [fst snd]. replace (16 - (l + 1)) with (15 - l) by lia. reflexivity. Qed.
Lemma top_eq i : top i = (1, i * sz 1).
Proof. reflexivity. Qed.
Lemma top_of_eq v : 0 <= v -> top_of v = (1, trunc 1 v).
Proof.
  intros. unfold top_of, top, trunc. rewrite Z.shiftr_div_pow2 by lia.
  change (2 ^ (4 * 15)) with (sz 1). rewrite sz_1. f_equal. ring.
Qed.

(** * Level of a position *)
Lemma hex_digits_spec n : forall x, 0 <= x < 16 ^ Z.of_nat n ->
  (x = 0 -> hex_digits n x = 0) /\
  (0 < x -> 1 <= hex_digits n x <= Z.of_nat n /\ 16 ^ (hex_digits n x - 1) <= x < 16 ^ hex_digits n x).
Proof.
  induction n as [|n IH]; intros x Hx.
  - simpl in Hx. rewrite Z.pow_0_r in Hx. split; [auto|lia].
  - cbn [hex_digits]. destruct (Z.eqb_spec x 0) as [->|Hn]; [split; [auto|lia]|].
    split; [lia|intros Hp]. rewrite Z.shiftr_div_pow2 by lia. change (2 ^ 4) with 16.
    rewrite Nat2Z.inj_succ, Z.pow_succ_r in Hx by lia.
    pose proof (Z.div_mod x 16 ltac:(lia)). pose proof (Z.mod_pos_bound x 16 ltac:(lia)).
    assert (Hd : 0 <= x / 16 < 16 ^ Z.of_nat n) by (split; [apply Z.div_pos; lia|apply Z.div_lt_upper_bound; lia]).
    destruct (IH _ Hd) as [I0 I1].
    destruct (Z.eq_dec (x / 16) 0) as [E|E].
    + rewrite I0 by auto. rewrite Nat2Z.inj_succ. replace (1 + 0 - 1) with 0 by lia.
      replace (1 + 0) with 1 by lia. rewrite Z.pow_0_r, Z.pow_1_r. lia.
    + specialize (I1 ltac:(lia)). set (k := hex_digits n (x / 16)) in *.
      rewrite Nat2Z.inj_succ. split; [lia|].
      replace (1 + k - 1) with (Z.succ (k - 1)) by lia. replace (1 + k) with (Z.succ k) by lia.
      rewrite !Z.pow_succ_r by lia. lia.
Qed.

(** divisibility by a power of two as low bits *)
Lemma divide_pow2_bits x k : 0 <= k -> ((2 ^ k | x) <-> forall i, 0 <= i < k -> Z.testbit x i = false).
Proof.
  intros Hk. split.
  - intros [q ->] i Hi. apply Z.mul_pow2_bits_low; lia.
  - intros H. apply Z.mod_divide; [apply Z.pow_nonzero; lia|].
    apply Z.bits_inj'. intros i Hi. rewrite Z.bits_0.
    destruct (Z_lt_ge_dec i k).
    + rewrite Z.mod_pow2_bits_low by lia. auto.
    + apply Z.mod_pow2_bits_high; lia.
Qed.
(** x < 2^k as high bits *)
Lemma lt_pow2_bits x k : 0 <= k -> 0 <= x -> (x < 2 ^ k <-> forall i, k <= i -> Z.testbit x i = false).
Proof.
  intros Hk Hx. split.
  - intros H i Hi. destruct (Z.eq_dec x 0) as [->|]; [apply Z.bits_0|].
    apply Z.bits_above_log2; [lia|]. assert (Z.log2 x < k) by (apply Z.log2_lt_pow2; lia). lia.
  - intros H. destruct (Z.eq_dec x 0) as [->|]; [apply Z.pow_pos_nonneg; lia|].
    apply Z.log2_lt_pow2; [lia|]. destruct (Z_lt_ge_dec (Z.log2 x) k); auto.
    exfalso. pose proof (Z.bit_log2 x ltac:(lia)) as B. rewrite (H (Z.log2 x)) in B by lia. discriminate.
Qed.

Lemma reverse_lt_divide v k : 0 <= v < W64 -> 0 <= k <= 64 ->
  (reverse64 v < 2 ^ k <-> (2 ^ (64 - k) | v)).
Proof.
  intros Hv Hk. pose proof (reverse64_range v).
  rewrite lt_pow2_bits, divide_pow2_bits by lia. split; intros H1 i Hi.
  - specialize (H1 (63 - i) ltac:(lia)). rewrite reverse64_testbit in H1 by lia.
    replace (63 - (63 - i)) with i in H1 by lia. auto.
  - destruct (Z_lt_ge_dec i 64).
    + rewrite reverse64_testbit by lia. apply H1; lia.
    + apply testbit_high; auto; lia.
Qed.

Lemma level_of_spec v : 0 < v < W64 ->
  1 <= level_of v <= 16 /\ (sz (level_of v) | v) /\ ~ (sz (level_of v - 1) | v).
Proof.
  intros Hv. unfold level_of.
  assert (Hr : 0 < reverse64 v).
  { pose proof (reverse64_range v). destruct (Z.eq_dec (reverse64 v) 0) as [E|]; [|lia].
    rewrite <- (reverse64_involutive v) in Hv by lia. rewrite E in Hv.
    change (reverse64 0) with 0 in Hv. lia. }
  pose proof (reverse64_range v) as HR.
  change W64 with (16 ^ Z.of_nat 16) in HR.
  destruct (hex_digits_spec 16 _ HR) as [_ H]. specialize (H Hr).
  set (k := hex_digits 16 (reverse64 v)) in *. change (Z.of_nat 16) with 16 in H.
  assert (P : forall j, 0 <= j -> 16 ^ j = 2 ^ (4 * j)).
  { intros j Hj. change 16 with (2 ^ 4). rewrite <- Z.pow_mul_r by lia. reflexivity. }
  rewrite !P in H by lia.
  split; [lia|]. rewrite !sz_pow2 by lia. split.
  - replace (64 - 4 * k) with (64 - (4 * k)) by lia. apply reverse_lt_divide; lia.
  - replace (64 - 4 * (k - 1)) with (64 - (4 * (k - 1))) by lia.
    rewrite <- reverse_lt_divide by lia. lia.
Qed.

Lemma level_of_unique v l : 0 < v < W64 -> 1 <= l <= 16 -> (sz l | v) -> ~ (sz (l - 1) | v) -> level_of v = l.
Proof.
  intros Hv Hl H1 H2. destruct (level_of_spec v Hv) as (H3 & H4 & H5).
  set (k := level_of v) in *.
  destruct (Z_lt_ge_dec k l); [|destruct (Z_lt_ge_dec l k); [|lia]]; exfalso.
  - apply H2. eapply Z.divide_trans; [|exact H4]. apply sz_le; lia.
  - apply H5. eapply Z.divide_trans; [|exact H1]. apply sz_le; lia.
Qed.
