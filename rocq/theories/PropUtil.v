(** Property theorems about pure functions: C01-C04, C18, C41. *)
From Verif Require Import Base BaseProofs Util SpecUtil UtilProofs.
Local Open Scope Z_scope.

(** * C01: hash order is a bijection *)
Theorem C01_position_roundtrip : forall k, 0 <= k < 2 ^ 64 ->
  0 <= reverse64 k < 2 ^ 64 /\ key_in_hmap (reverse64 k) = k.
Proof. exact (fun k H => conj (reverse64_range k) (reverse64_involutive k H)). Qed.
Print Assumptions C01_position_roundtrip.

Theorem C01_position_injective : forall k1 k2, 0 <= k1 < 2 ^ 64 -> 0 <= k2 < 2 ^ 64 ->
  reverse64 k1 = reverse64 k2 -> k1 = k2.
Proof. exact reverse64_inj. Qed.
Print Assumptions C01_position_injective.

Theorem C01_position_bits : forall k i, 0 <= i < 64 ->
  Z.testbit (reverse64 k) i = Z.testbit k (63 - i).
Proof. exact reverse64_testbit. Qed.
Print Assumptions C01_position_bits.

Example C01_case : reverse64 6 = 0x6000000000000000 /\ reverse64 0x12345 = 0xa2c4800000000000.
Proof. vm_compute. auto. Qed.

(** * C02: key aliasing is hash-pair equality *)
Theorem C02_integer_keys_alias_iff : forall h k1 k2 z1 z2,
  key_int k1 = Some z1 -> key_int k2 = Some z2 ->
  (key_to_hash h k1 = key_to_hash h k2 <-> (z1 - z2) mod 2 ^ 64 = 0).
Proof. exact int_keys_alias. Qed.
Print Assumptions C02_integer_keys_alias_iff.

Theorem C02_same_type_integers_distinct : forall h k1 k2,
  same_int_type k1 k2 = true -> key_in_type k1 -> key_in_type k2 ->
  key_to_hash h k1 = key_to_hash h k2 -> k1 = k2.
Proof. exact same_type_no_alias. Qed.
Print Assumptions C02_same_type_integers_distinct.

Theorem C02_panics_iff_unsupported : forall h k, key_to_hash h k = None <-> k = KOther.
Proof. intros h k; destruct k; simpl; split; intro H; try discriminate; reflexivity. Qed.
Print Assumptions C02_panics_iff_unsupported.

(** string and []byte keys (same bytes, same key) alias exactly when both of their hashes agree, as 64-bit values; a string
    aliases an integer exactly when its first hash is that integer's 64 bits and its second is 0 *)
Definition bytes_of (k : gkey) : option String.string := match k with KStr s | KBytes s => Some s | _ => None end.
Theorem C02_string_keys_alias_iff : forall h k1 k2 s1 s2, bytes_of k1 = Some s1 -> bytes_of k2 = Some s2 ->
  (key_to_hash h k1 = key_to_hash h k2 <->
   (memhash h s1 - memhash h s2) mod 2 ^ 64 = 0 /\ (xxhash h s1 - xxhash h s2) mod 2 ^ 64 = 0).
Proof.
  assert (M : forall a b, u64 a = u64 b <-> (a - b) mod 2 ^ 64 = 0).
  { intros a b. unfold u64. change W64 with (2 ^ 64). split; intros H.
    - rewrite Zminus_mod, H, Z.sub_diag. reflexivity.
    - apply Z.mod_divide in H; [|lia]. destruct H as [q H]. replace a with (b + q * 2 ^ 64) by (rewrite <- H; ring). apply Z_mod_plus_full. }
  assert (G : forall h k s, bytes_of k = Some s -> key_to_hash h k = Some (u64 (memhash h s), u64 (xxhash h s))).
  { intros h k s H. destruct k; try discriminate H; injection H as ->; reflexivity. }
  intros h k1 k2 s1 s2 H1 H2. rewrite (G _ _ _ H1), (G _ _ _ H2), <- !M. split; [intros E; injection E; auto|intros [-> ->]; reflexivity].
Qed.
Print Assumptions C02_string_keys_alias_iff.
Theorem C02_string_integer_alias_iff : forall h k1 k2 s z, bytes_of k1 = Some s -> key_int k2 = Some z ->
  (key_to_hash h k1 = key_to_hash h k2 <-> u64 (memhash h s) = u64 z /\ u64 (xxhash h s) = 0).
Proof.
  intros h k1 k2 s z H1 H2. assert (E1 : key_to_hash h k1 = Some (u64 (memhash h s), u64 (xxhash h s))) by (destruct k1; try discriminate H1; injection H1 as ->; reflexivity).
  assert (E2 : key_to_hash h k2 = Some (u64 z, 0)) by (destruct k2; try discriminate H2; injection H2 as <-; reflexivity).
  rewrite E1, E2. split; [intros E; injection E; auto|intros [-> ->]; reflexivity].
Qed.
Print Assumptions C02_string_integer_alias_iff.

(** different Go keys need not be different map keys *)
Theorem C02_distinct_keys_distinct_hashes_refuted : forall h, exists k1 k2,
  k1 <> k2 /\ key_in_type k1 /\ key_in_type k2 /\ key_to_hash h k1 = key_to_hash h k2.
Proof.
  intros h. exists (KInt (-1)), (KU64 (2 ^ 64 - 1)). repeat split; try discriminate; cbn; lia.
Qed.
Print Assumptions C02_distinct_keys_distinct_hashes_refuted.

Example C02_case : forall h,
  same_int_type (KI32 (-5)) (KI32 7) = true /\ key_in_type (KI32 (-5)) /\ key_in_type (KI32 7) /\
  key_to_hash h (KI32 (-5)) <> key_to_hash h (KI32 7) /\ key_to_hash h KNil = key_to_hash h (KU8 0).
Proof. intros h. repeat split; try (cbn; lia); discriminate. Qed.

(** * C03: PoolCap *)
Theorem C03_pool_cap_grows : forall n, 0 <= n -> n < pool_cap n /\ pool_cap n <= 2 * n + 2.
Proof. exact (fun n H => pool_cap_spec n H). Qed.
Print Assumptions C03_pool_cap_grows.

Theorem C03_pool_cap_monotone : forall a b, 0 <= a <= b -> pool_cap a <= pool_cap b.
Proof. exact pool_cap_mono. Qed.
Print Assumptions C03_pool_cap_monotone.

Example C03_case : map pool_cap [0; 1; 2; 3; 48; 255; 256; 300; 1000]
                   = [2; 2; 4; 4; 64; 256; 320; 320; 1024].
Proof. vm_compute. reflexivity. Qed.

(** * C04: midpoint, nearest, distance *)
Theorem C04_half : forall a b, 0 <= a < 2 ^ 64 -> 0 <= b < 2 ^ 64 ->
  half a b = half b a /\
  Z.min a b <= half a b <= Z.max a b /\
  0 <= (Z.max a b - half a b) - (half a b - Z.min a b) <= 1.
Proof. exact half_spec. Qed.
Print Assumptions C04_half.

Theorem C04_near : forall a b d,
  (near a b d = a \/ near a b d = b) /\
  Z.abs (near a b d - d) <= Z.abs (a - d) /\
  Z.abs (near a b d - d) <= Z.abs (b - d) /\
  (Z.abs (a - d) = Z.abs (b - d) -> near a b d = a).
Proof. exact near_spec. Qed.
Print Assumptions C04_near.

Theorem C04_abs_diff : forall x y, abs_diff x y = Z.abs (x - y).
Proof. exact abs_diff_spec. Qed.
Print Assumptions C04_abs_diff.

Example C04_case : half (2 ^ 64 - 1) (2 ^ 64 - 4) = 2 ^ 64 - 3 /\ near 10 20 15 = 10 /\ near 10 20 16 = 20.
Proof. vm_compute. auto. Qed.

(** * C18: Options returns its own undo *)
(** MaxPefBucket, BucketMode and ItemFn (with a non-nil function): the returned options, applied last first,
    restore the configuration, for every list of options ... *)
Theorem C18_undo_last_first : forall os c,
  forallb plain os = true -> c_itemfn c <> None ->
  exists c1 ps qs, options os c = Ret (c1, ps) /\ options (rev ps) c1 = Ret (c, qs) /\ c_itemfn c1 <> None.
Proof. exact options_undo_rev. Qed.
Print Assumptions C18_undo_last_first.

(** ... and in the order in which they were returned if no option is repeated. *)
Theorem C18_undo_in_order : forall os c,
  forallb plain os = true -> kinds_distinct os = true -> c_itemfn c <> None ->
  exists c1 ps qs, options os c = Ret (c1, ps) /\ options ps c1 = Ret (c, qs).
Proof. exact options_undo. Qed.
Print Assumptions C18_undo_in_order.

(** UsePool and UseEmbeddedPool: the undo fails. *)
Theorem C18_undo_use_pool_refuted : forall c, c_pool c = true ->
  exists c1 p q c2, apply_opt (OPool true) c = Ret (c1, p) /\ c1 = c /\
    apply_opt p c1 = Ret (c2, q) /\ c_pool c2 = false.
Proof.
  intros [a b f d e] H. cbn in H; subst d. do 4 eexists. cbn. repeat split; reflexivity.
Qed.
Print Assumptions C18_undo_use_pool_refuted.

Theorem C18_undo_embedded_refuted : forall c,
  exists c1 p q c2, apply_opt (OEmb true) c = Ret (c1, p) /\
    apply_opt p c1 = Ret (c2, q) /\ c_emb c2 = true.
Proof. intros [a b f d e]. do 4 eexists. cbn. repeat split; reflexivity. Qed.
Print Assumptions C18_undo_embedded_refuted.

(** repeating one option: the in-order undo leaves the first new value. *)
Theorem C18_undo_repeated_refuted : forall c x y,
  exists c1 ps c2 qs, options [OMax x; OMax y] c = Ret (c1, ps) /\
    options ps c1 = Ret (c2, qs) /\ c_max c2 = x.
Proof. intros [a b f d e] x y. do 4 eexists. cbn. repeat split; reflexivity. Qed.
Print Assumptions C18_undo_repeated_refuted.

Example C18_case : exists c1 ps,
  options [OMax 12; OMode 3; OItem (Some 1)] (mkC 32 1 (Some 0) false false) = Ret (c1, ps) /\
  c1 = mkC 12 3 (Some 1) false false /\
  exists qs, options ps c1 = Ret (mkC 32 1 (Some 0) false false, qs).
Proof. do 2 eexists. cbn. repeat split. eexists; reflexivity. Qed.

(** * C41: log levels *)
Theorem C41_written_levels : forall l, 0 <= l <= 4 ->
  (log_emits l = Pan <-> l = LogFatal) /\
  (log_emits l = Ret true <-> (l = LogDebug \/ l = LogInfo)) /\
  (log_emits l = Ret false <-> (l = LogWarn \/ l = LogError)).
Proof. exact log_emits_spec. Qed.
Print Assumptions C41_written_levels.

Theorem C41_warn_written_refuted :
  log_emits LogWarn <> Ret true /\ log_emits LogError <> Ret true.
Proof. split; discriminate. Qed.
Print Assumptions C41_warn_written_refuted.
