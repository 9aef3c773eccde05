(** Facts about 64-bit words and bit reversal. *)
From Verif Require Import Base.
Local Open Scope Z_scope.

Lemma W64_pos : 0 < W64. Proof. reflexivity. Qed.
Lemma W64_val : W64 = 18446744073709551616. Proof. reflexivity. Qed.
Lemma MAX64_val : MAX64 = 18446744073709551615. Proof. reflexivity. Qed.

Lemma nid_eqb_eq a b : nid_eqb a b = true <-> a = b.
Proof.
  destruct a as [a1 a2], b as [b1 b2]; unfold nid_eqb; simpl.
  rewrite andb_true_iff, !Z.eqb_eq. split; [intros [-> ->]; auto|intros H; inversion H; auto].
Qed.
Lemma nid_eqb_refl a : nid_eqb a a = true.
Proof. apply nid_eqb_eq; auto. Qed.
Lemma nid_eqb_neq a b : nid_eqb a b = false <-> a <> b.
Proof.
  rewrite <- not_true_iff_false, nid_eqb_eq. tauto.
Qed.

(** [rev_bits n x acc] = acc * 2^n + (n low bits of x reversed). *)
Lemma rev_bits_acc n : forall x acc,
  rev_bits n x acc = acc * 2 ^ Z.of_nat n + rev_bits n x 0.
Proof.
  induction n as [|n IH]; intros x acc.
  - simpl rev_bits. rewrite Z.pow_0_r. lia.
  - cbn [rev_bits]. rewrite IH. rewrite (IH (x/2) (2*0 + x mod 2)).
    rewrite Nat2Z.inj_succ, Z.pow_succ_r by lia. ring.
Qed.

Lemma rev_bits_range n : forall x, 0 <= rev_bits n x 0 < 2 ^ Z.of_nat n.
Proof.
  induction n as [|n IH]; intros x.
  - simpl. lia.
  - cbn [rev_bits]. rewrite rev_bits_acc.
    pose proof (IH (x/2)) as H. pose proof (Z.mod_pos_bound x 2 ltac:(lia)).
    rewrite Nat2Z.inj_succ, Z.pow_succ_r by lia. nia.
Qed.

Lemma reverse64_range x : 0 <= reverse64 x < W64.
Proof.
  unfold reverse64. generalize (rev_bits_range 64 x). generalize (rev_bits 64 x 0).
  intros z Hz. change (2 ^ Z.of_nat 64) with W64 in Hz. exact Hz.
Qed.

Lemma rev_bits_testbit n : forall x i, 0 <= i < Z.of_nat n ->
  Z.testbit (rev_bits n x 0) i = Z.testbit x (Z.of_nat n - 1 - i).
Proof.
  induction n as [|n IH]; intros x i Hi; [simpl in Hi; lia|].
  cbn [rev_bits]. rewrite rev_bits_acc.
  replace (2 * 0 + x mod 2) with (x mod 2) by lia.
  pose proof (rev_bits_range n (x/2)) as HR.
  destruct (Z.eq_dec i (Z.of_nat n)) as [->|Hne].
  - rewrite Nat2Z.inj_succ. replace (Z.succ (Z.of_nat n) - 1 - Z.of_nat n) with 0 by lia.
    apply Z.b2z_inj. rewrite Z.bit0_mod. rewrite Z.testbit_spec' by lia.
    rewrite Z.add_comm, Z.div_add by (apply Z.pow_nonzero; lia).
    rewrite Z.div_small by lia. simpl Z.add.
    rewrite Z.mod_mod by lia.
    pose proof (Z.mod_pos_bound x 2 ltac:(lia)).
    assert (x mod 2 = 0 \/ x mod 2 = 1) as [E|E] by lia; rewrite E; reflexivity.
  - replace (Z.testbit (x mod 2 * 2 ^ Z.of_nat n + rev_bits n (x / 2) 0) i)
      with (Z.testbit (rev_bits n (x/2) 0) i).
    + rewrite IH by lia. rewrite Z.div2_bits by lia. f_equal; lia.
    + rewrite <- (Z.mod_pow2_bits_low (x mod 2 * 2 ^ Z.of_nat n + rev_bits n (x / 2) 0) (Z.of_nat n)) by lia.
      rewrite Z.add_comm, Z.mod_add by (apply Z.pow_nonzero; lia).
      rewrite Z.mod_small by lia. reflexivity.
Qed.

Lemma reverse64_testbit x i : 0 <= i < 64 ->
  Z.testbit (reverse64 x) i = Z.testbit x (63 - i).
Proof.
  intros H. unfold reverse64. rewrite rev_bits_testbit by (change (Z.of_nat 64) with 64; lia).
  change (Z.of_nat 64) with 64. f_equal; lia.
Qed.

Lemma testbit_high x i : 0 <= x < W64 -> 64 <= i -> Z.testbit x i = false.
Proof.
  intros Hx Hi. destruct (Z.eq_dec x 0) as [->|Hn]; [apply Z.bits_0|].
  apply Z.bits_above_log2; [lia|].
  assert (Z.log2 x < 64); [|lia]. apply Z.log2_lt_pow2; [lia|]. unfold W64 in Hx; lia.
Qed.

Lemma reverse64_involutive x : 0 <= x < W64 -> reverse64 (reverse64 x) = x.
Proof.
  intros Hx. apply Z.bits_inj'. intros i Hi.
  destruct (Z_lt_ge_dec i 64) as [Hlt|Hge].
  - rewrite !reverse64_testbit by lia. f_equal; lia.
  - rewrite !testbit_high; auto using reverse64_range; lia.
Qed.

Lemma reverse64_inj x y : 0 <= x < W64 -> 0 <= y < W64 ->
  reverse64 x = reverse64 y -> x = y.
Proof.
  intros Hx Hy H. rewrite <- (reverse64_involutive x), <- (reverse64_involutive y), H; auto.
Qed.
