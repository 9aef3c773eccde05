(** Proofs about Util.v. *)
From Verif Require Import Base BaseProofs Util SpecUtil.
From Coq Require Import ZifyBool.
Local Open Scope Z_scope.

(** * util.go arithmetic *)

Lemma abs_diff_spec x y : abs_diff x y = Z.abs (x - y).
Proof. unfold abs_diff. destruct (Z.ltb_spec x y); lia. Qed.

Lemma near_spec a b d :
  (near a b d = a \/ near a b d = b) /\
  Z.abs (near a b d - d) <= Z.abs (a - d) /\
  Z.abs (near a b d - d) <= Z.abs (b - d) /\
  (Z.abs (a - d) = Z.abs (b - d) -> near a b d = a).
Proof.
  unfold near. rewrite !abs_diff_spec. destruct (Z.ltb_spec (Z.abs (b - d)) (Z.abs (a - d))); lia.
Qed.

Lemma half_eq a b : 0 <= a < W64 -> 0 <= b < W64 ->
  half a b = Z.min a b + (Z.max a b - Z.min a b) / 2.
Proof.
  intros Ha Hb. unfold half, u64. rewrite W64_val in *.
  destruct (Z.ltb_spec b a).
  - rewrite Z.min_r, Z.max_l by lia. rewrite (Z.mod_small (a - b)) by lia.
    apply Z.mod_small. pose proof (Z.div_mod (a - b) 2 ltac:(lia)).
    pose proof (Z.mod_pos_bound (a-b) 2 ltac:(lia)). lia.
  - rewrite Z.min_l, Z.max_r by lia. rewrite (Z.mod_small (b - a)) by lia.
    apply Z.mod_small. pose proof (Z.div_mod (b - a) 2 ltac:(lia)).
    pose proof (Z.mod_pos_bound (b-a) 2 ltac:(lia)). lia.
Qed.

Lemma half_spec a b : 0 <= a < W64 -> 0 <= b < W64 ->
  half a b = half b a /\
  Z.min a b <= half a b <= Z.max a b /\
  0 <= (Z.max a b - half a b) - (half a b - Z.min a b) <= 1.
Proof.
  intros Ha Hb. rewrite !half_eq by auto. rewrite (Z.min_comm b a), (Z.max_comm b a).
  pose proof (Z.div_mod (Z.max a b - Z.min a b) 2 ltac:(lia)).
  pose proof (Z.mod_pos_bound (Z.max a b - Z.min a b) 2 ltac:(lia)). lia.
Qed.

(** * PoolCap *)

Lemma int_pow_spec a n : int_pow a n = a ^ Z.of_nat n.
Proof.
  induction n as [|n IH]; [reflexivity|].
  cbn [int_pow]. rewrite IH, Nat2Z.inj_succ, Z.pow_succ_r by lia. ring.
Qed.

(** The loop of PoolCap finds the number of binary digits. *)
Lemma first_zero_shift_spec n : forall i len,
  0 <= len -> (forall j, (j < i)%nat -> 2 ^ Z.of_nat j <= len) ->
  len < 2 ^ Z.of_nat (i + n) -> (0 < n)%nat ->
  len < 2 ^ Z.of_nat (i + n - 1) ->
  exists k, first_zero_shift n i len = Some k /\
    len < 2 ^ Z.of_nat k /\ (forall j, (j < k)%nat -> 2 ^ Z.of_nat j <= len).
Proof.
  induction n as [|n IH]; intros i len Hl Hlow Hup Hn Hs; [lia|].
  cbn [first_zero_shift]. rewrite Z.shiftr_div_pow2 by lia.
  assert (Hp : 0 < 2 ^ Z.of_nat i) by (apply Z.pow_pos_nonneg; lia).
  destruct (Z.eqb_spec (len / 2 ^ Z.of_nat i) 0) as [E|E].
  - exists i. split; auto. split; [|exact Hlow].
    apply Z.div_small_iff in E; [|lia]. lia.
  - assert (Hge : 2 ^ Z.of_nat i <= len).
    { destruct (Z_lt_ge_dec len (2 ^ Z.of_nat i)); [|lia].
      exfalso; apply E. apply Z.div_small; lia. }
    destruct n as [|n].
    { replace (i + 1 - 1)%nat with i in Hs by lia. lia. }
    apply IH; auto; try lia.
    + intros j Hj. destruct (Nat.eq_dec j i) as [->|]; auto. apply Hlow; lia.
    + replace (S i + S n)%nat with (i + S (S n))%nat by lia; auto.
    + replace (S i + S n - 1)%nat with (i + S (S n) - 1)%nat by lia; auto.
Qed.

Lemma pool_cap_mid len : 2 <= len < 256 ->
  exists k, pool_cap len = 2 ^ k /\ 0 <= k /\ len < 2 ^ k /\ 2 ^ k <= 2 * len.
Proof.
  intros H. unfold pool_cap, minCapItem, thresholdCapItem.
  destruct (Z.ltb_spec len 2); [lia|]. destruct (Z.leb_spec 256 len); [lia|].
  assert (H60 : len < 2 ^ 60) by (assert (256 < 2 ^ 60) by reflexivity; lia).
  assert (H59 : len < 2 ^ 59) by (assert (256 < 2 ^ 59) by reflexivity; lia).
  destruct (first_zero_shift_spec 60 0 len ltac:(lia) ltac:(intros; lia) H60 ltac:(lia) H59)
    as (k & E & Hk & Hj).
  rewrite E. exists (Z.of_nat k). rewrite int_pow_spec. split; auto. split; [lia|]. split; auto.
  destruct k as [|k]; [simpl in Hk; lia|].
  specialize (Hj k ltac:(lia)). rewrite Nat2Z.inj_succ, Z.pow_succ_r by lia. lia.
Qed.

Lemma pool_cap_spec len : 0 <= len -> len < pool_cap len <= 2 * len + 2.
Proof.
  intros H. destruct (Z_lt_ge_dec len 2).
  - unfold pool_cap, minCapItem. destruct (Z.ltb_spec len 2); lia.
  - destruct (Z_lt_ge_dec len 256).
    + destruct (pool_cap_mid len) as (k & -> & ?); lia.
    + unfold pool_cap, minCapItem, thresholdCapItem.
      destruct (Z.ltb_spec len 2); [lia|]. destruct (Z.leb_spec 256 len); [|lia].
      change (256 / 4) with 64.
      pose proof (Z.div_mod len 64 ltac:(lia)). pose proof (Z.mod_pos_bound len 64 ltac:(lia)). lia.
Qed.

Lemma pool_cap_mono a b : 0 <= a <= b -> pool_cap a <= pool_cap b.
Proof.
  intros H.
  destruct (Z_lt_ge_dec a 2) as [Ha|Ha].
  { unfold pool_cap at 1, minCapItem. destruct (Z.ltb_spec a 2); [|lia].
    pose proof (pool_cap_spec b ltac:(lia)). 
    destruct (Z_lt_ge_dec b 2); [|lia]. unfold pool_cap, minCapItem. destruct (Z.ltb_spec b 2); lia. }
  destruct (Z_lt_ge_dec b 256) as [Hb|Hb].
  - destruct (pool_cap_mid a) as (k & -> & Hk0 & Hk1 & Hk2); [lia|].
    destruct (pool_cap_mid b) as (m & -> & Hm0 & Hm1 & Hm2); [lia|].
    apply Z.pow_le_mono_r; [lia|].
    destruct (Z_lt_ge_dec m k); [|lia]. exfalso.
    assert (2 ^ m * 2 <= 2 ^ k).
    { replace (2 ^ m * 2) with (2 ^ (m + 1)) by (rewrite Z.pow_add_r by lia; lia).
      apply Z.pow_le_mono_r; lia. }
    lia.
  - assert (Eb : pool_cap b = 64 * (1 + b / 64)).
    { unfold pool_cap, minCapItem, thresholdCapItem.
      destruct (Z.ltb_spec b 2); [lia|]. destruct (Z.leb_spec 256 b); [reflexivity|lia]. }
    rewrite Eb.
    destruct (Z_lt_ge_dec a 256).
    + destruct (pool_cap_mid a) as (k & -> & Hk0 & Hk1 & Hk2); [lia|].
      assert (k <= 8).
      { destruct (Z_lt_ge_dec 8 k); [|lia]. exfalso.
        assert (2 ^ 9 <= 2 ^ k) by (apply Z.pow_le_mono_r; lia).
        change (2 ^ 9) with 512 in *. lia. }
      assert (2 ^ k <= 2 ^ 8) by (apply Z.pow_le_mono_r; lia).
      change (2 ^ 8) with 256 in *.
      pose proof (Z.div_le_mono 256 b 64 ltac:(lia) ltac:(lia)). change (256/64) with 4 in *. lia.
    + unfold pool_cap, minCapItem, thresholdCapItem.
      destruct (Z.ltb_spec a 2); [lia|]. destruct (Z.leb_spec 256 a); [|lia].
      change (256 / 4) with 64.
      pose proof (Z.div_le_mono a b 64 ltac:(lia) ltac:(lia)). lia.
Qed.

Lemma max_ints_fold l : forall m,
  let r := fold_left (fun m y => if m <? y then y else m) l m in
  (r = m \/ In r l) /\ m <= r /\ forall y, In y l -> y <= r.
Proof.
  induction l as [|x l IH]; intros m; cbn [fold_left].
  - simpl. repeat split; auto; try lia; try (intros y []).
  - destruct (IH (if m <? x then x else m)) as (A & B & C).
    set (r := fold_left _ l _) in *. destruct (Z.ltb_spec m x).
    + repeat split; try lia.
      * destruct A as [->|A]; [right; left; auto|right; right; auto].
      * intros y [<-|Hy]; auto.
    + repeat split; try lia.
      * destruct A as [->|A]; [left; auto|right; right; auto].
      * intros y [<-|Hy]; [lia|auto].
Qed.

Lemma max_ints_spec l : l <> [] -> In (max_ints l) l /\ forall y, In y l -> y <= max_ints l.
Proof.
  destruct l as [|x l]; [congruence|intros _]. cbn [max_ints].
  destruct (max_ints_fold l x) as (A & B & C). split.
  - destruct A as [->|A]; [left; auto|right; auto].
  - intros y [<-|Hy]; auto.
Qed.

(** * KeyToHash *)

Lemma key_to_hash_range h k p : key_to_hash h k = Some p ->
  0 <= fst p < W64 /\ 0 <= snd p < W64.
Proof.
  assert (Hu : forall x, 0 <= u64 x < W64) by (intros; apply Z.mod_pos_bound; reflexivity).
  intros H. destruct k; simpl in H; inversion H; subst; cbn [fst snd]; split; auto;
    rewrite W64_val; lia.
Qed.

Lemma u64_eq_mod x y : u64 x = u64 y <-> (x - y) mod 2 ^ 64 = 0.
Proof.
  unfold u64. change (2^64) with W64. rewrite W64_val. split; intros H.
  - rewrite Zminus_mod, H, Z.sub_diag. reflexivity.
  - pose proof (Z.div_mod (x - y) 18446744073709551616 ltac:(lia)) as E. rewrite H in E.
    replace x with (y + ((x - y) / 18446744073709551616) * 18446744073709551616) by lia.
    apply Z.mod_add. lia.
Qed.

Lemma key_int_hash h k z : key_int k = Some z -> key_to_hash h k = Some (u64 z, 0).
Proof. destruct k; simpl; intros H; inversion H; subst; reflexivity. Qed.

(** Two integer keys (or nil, counting as 0) alias iff they agree modulo 2^64. *)
Lemma int_keys_alias h k1 k2 z1 z2 :
  key_int k1 = Some z1 -> key_int k2 = Some z2 ->
  (key_to_hash h k1 = key_to_hash h k2 <-> (z1 - z2) mod 2 ^ 64 = 0).
Proof.
  intros H1 H2. rewrite (key_int_hash h k1 z1), (key_int_hash h k2 z2) by auto.
  rewrite <- u64_eq_mod. split; [intros E; inversion E; auto|intros ->; auto].
Qed.

Lemma same_type_no_alias h k1 k2 :
  same_int_type k1 k2 = true -> key_in_type k1 -> key_in_type k2 ->
  key_to_hash h k1 = key_to_hash h k2 -> k1 = k2.
Proof.
  intros Hs H1 H2 E.
  destruct k1, k2; try discriminate Hs;
    eapply int_keys_alias in E; try reflexivity; cbn [key_in_type] in *;
    f_equal; change (2^64) with 18446744073709551616 in *;
    change (2^63) with 9223372036854775808 in *; change (2^31) with 2147483648 in *;
    change (2^32) with 4294967296 in *; change (2^8) with 256 in *;
    match type of E with ?d mod ?m = 0 =>
      pose proof (Z.div_mod d m ltac:(lia)) as Q; rewrite E in Q end;
    lia.
Qed.

(** * Log *)
Lemma log_emits_spec l : 0 <= l <= 4 ->
  (log_emits l = Pan <-> l = LogFatal) /\
  (log_emits l = Ret true <-> (l = LogDebug \/ l = LogInfo)) /\
  (log_emits l = Ret false <-> (l = LogWarn \/ l = LogError)).
Proof.
  intros H. unfold log_emits, LogFatal, CurrentLogLevel, LogInfo, LogDebug, LogWarn, LogError.
  destruct (Z.eqb_spec l 4).
  - repeat split; intros; try discriminate; try reflexivity; lia.
  - destruct (Z.leb_spec l 1); repeat split; intros; try discriminate; try reflexivity; lia.
Qed.

(** * Options: undo *)
Lemma options_app os1 : forall os2 c,
  options (os1 ++ os2) c =
  ('(c1, p1) <- options os1 c ;; '(c2, p2) <- options os2 c1 ;; Ret (c2, p1 ++ p2)).
Proof.
  induction os1 as [|o os1 IH]; intros os2 c.
  - simpl. destruct (options os2 c) as [[c2 p2]| | |]; reflexivity.
  - cbn [options app]. destruct (apply_opt o c) as [[c1 p]| | |]; cbn [rbind]; auto.
    rewrite IH. destruct (options os1 c1) as [[c2 p1]| | |]; cbn [rbind]; auto.
    destruct (options os2 c2) as [[c3 p2]| | |]; cbn [rbind]; auto.
Qed.

Lemma apply_plain o c : plain o = true -> c_itemfn c <> None ->
  exists c1 p q, apply_opt o c = Ret (c1, p) /\ apply_opt p c1 = Ret (c, q) /\ c_itemfn c1 <> None.
Proof.
  intros Hp Hn. destruct c as [a b f d e]; cbn in Hn. destruct f as [g|]; [|congruence].
  destruct o as [n|m|[f|]| | |]; try discriminate Hp; do 3 eexists; cbn;
    (split; [reflexivity|]); (split; [reflexivity|]); discriminate.
Qed.

(** Undoing in reverse order restores every configuration. *)
Lemma options_undo_rev os : forall c,
  forallb plain os = true -> c_itemfn c <> None ->
  exists c1 ps qs, options os c = Ret (c1, ps) /\ options (rev ps) c1 = Ret (c, qs) /\ c_itemfn c1 <> None.
Proof.
  induction os as [|o os IH]; intros c Hp Hn.
  - do 3 eexists. repeat split; auto.
  - cbn [forallb] in Hp. apply andb_true_iff in Hp as [Hp Hps].
    destruct (apply_plain o c Hp Hn) as (c1 & p & q & E1 & E2 & N1).
    destruct (IH c1 Hps N1) as (c2 & ps & qs & E3 & E4 & N2).
    exists c2, (p :: ps), (qs ++ [q]). cbn [options rev]. rewrite E1. cbn [rbind]. rewrite E3. cbn [rbind].
    split; auto. split; auto.
    rewrite options_app, E4. cbn [rbind options]. rewrite E2. reflexivity.
Qed.

(** Undoing in the order in which Options returned them works when no kind of option is repeated. *)
Lemma options_undo os c :
  forallb plain os = true -> kinds_distinct os = true -> c_itemfn c <> None ->
  exists c1 ps qs, options os c = Ret (c1, ps) /\ options ps c1 = Ret (c, qs).
Proof.
  intros Hp Hk Hn. destruct c as [a b f d e]; cbn in Hn. destruct f as [g|]; [|congruence].
  destruct os as [|o1 os]; [do 3 eexists; split; reflexivity|].
  destruct os as [|o2 os].
  { destruct o1 as [?|?|[?|]| | |]; try discriminate Hp; do 3 eexists; split; reflexivity. }
  destruct os as [|o3 os].
  { destruct o1 as [?|?|[?|]| | |], o2 as [?|?|[?|]| | |]; try discriminate Hp; try discriminate Hk;
      do 3 eexists; split; reflexivity. }
  destruct os as [|o4 os].
  { destruct o1 as [?|?|[?|]| | |], o2 as [?|?|[?|]| | |], o3 as [?|?|[?|]| | |]; 
      try discriminate Hp; try discriminate Hk;
      do 3 eexists; split; reflexivity. }
  destruct o1 as [?|?|[?|]| | |]; try discriminate Hp; destruct o2 as [?|?|[?|]| | |];
    try discriminate Hp; try discriminate Hk; destruct o3 as [?|?|[?|]| | |];
    try discriminate Hp; try discriminate Hk; destruct o4 as [?|?|[?|]| | |];
    try discriminate Hp; try discriminate Hk.
  all: exfalso; cbn in Hk; repeat (apply andb_prop in Hk; destruct Hk as [? Hk]); discriminate.
Qed.
