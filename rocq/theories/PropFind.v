(** C81: FindBucket. *)
From Verif Require Import Base BaseProofs Util UtilProofs Bucket TrieProofs TrieInv TrieGrow LevelList MapModel ItemProofs MapInv MapSplit MapStep
  MapInit Spec MapRefine MapAny MapSafe MapMore Checks MapDump PropMap PropLevel EmbModel EmbPool EmbTrie EmbInv EmbSplit EmbSpec EmbRefine EmbDel EmbLevel PropEmb PropEmbLevel.
From Coq Require Import ZifyBool Sorted Ascii String.
Local Open Scope Z_scope.
Local Open Scope list_scope.
Local Opaque reverse64 level_of base find_bucket.

(** map.go:1664-1763 FindBucket, _findBucket(reverse, false, false) (find_bucket of Bucket.v): the reverse of the bucket it returns, as
    DumpBucket prints it *)
Definition found_reverse (s : mstate) (reverse : Z) : Z := brev (m_trie s) (find_bucket (m_trie s) reverse).
Definition efound_reverse (s : estate) (reverse : Z) : Z := brev (x_trie s) (find_bucket (x_trie s) reverse).

(** The bucket FindBucket returns has a line in DumpBucket with its reverse r, r is not greater than the position asked for, and no other line
    (but the one of the last bucket) has a reverse between the two, unless all three are the same up to the last four bits. *)
Theorem C81_find_bucket : forall h view max mode pool os rv, Forall (safe_op h) os -> 0 <= rv < 2 ^ 64 ->
  let s := run h (new_map view max mode pool) os in
  let r := found_reverse s rv in
  In r (dump_bucket s) /\ 0 <= r <= rv /\
  forall d, In d (dump_bucket s) -> d <> 2 ^ 64 - 1 -> d <= rv -> d <= r \/ (d / 16 = rv / 16 /\ r / 16 = rv / 16).
Proof.
  intros h view max mode pool os rv F Hrv s r.
  assert (I : sinv s) by (apply run_sinv; auto; apply new_map_sinv). unfold r, found_reverse, dump_bucket. clear r. clearbody s.
  pose proof (sv_trie _ I) as K. set (t := m_trie s) in *. change (2 ^ 64) with W64 in *. change (W64 - 1) with MAX64.
  destruct (find_bucket_spec t _ rv K Hrv) as (l & v & E & [P N] & L & B).
  destruct (tk_node _ _ K _ _ P N) as (_ & HV & _).
  destruct (base_anchor _ _ _ K P) as [B1 B2]. rewrite E, B.
  split; [rewrite <- B, <- B2; apply in_map; auto|]. split; [lia|]. intros d Hd ND Ld.
  apply in_map_iff in Hd as ([a w] & Ed & Hn).
  assert (Nn : (a, w) <> bmax) by (intros X; rewrite X in Ed; destruct (tk_bmax _ _ K) as (_ & Y & _); congruence).
  pose proof (proj1 (tk_bl _ _ K _ Hn)) as Pn. destruct (tk_node _ _ K _ _ Pn Nn) as (Ha & Hw & Dw & _ & Bw & _). rewrite Bw in Ed. subst w.
  pose proof (find_bucket_near t _ rv K Hrv (a, d) Hn Nn ltac:(lia)) as X. rewrite Bw, E, B in X.
  destruct (Z.eq_dec (d mod 16) 0) as [Z0|Z0]; [left; apply X; left; apply Z.mod_divide; [lia|auto]|].
  destruct (Z.eq_dec (d / 16) (rv / 16)) as [Q|Q]; [|left; apply X; right; auto]. right. split; auto.
  assert (a = 16).
  { destruct (Z.eq_dec a 16); auto. exfalso. apply Z0. apply Z.mod_divide; [lia|]. change 16 with (sz 15). apply (Z.divide_trans _ (sz a)); auto. apply sz_le; lia. }
  subst a. pose proof (prefixes_present t _ K 16 d Pn Nn 15 ltac:(lia)) as P15. set (f := trunc 15 d) in *.
  assert (N15 : (15, f) <> bmax) by (intros Y; injection Y; lia).
  destruct (tk_node _ _ K _ _ P15 N15) as (_ & Hf & Df & _ & Bf & _). change (sz 15) with 16 in Df.
  destruct (base_anchor _ _ _ K P15) as [C1 C2]. rewrite Bf in C2.
  assert (Ff : f = 16 * (d / 16)) by (unfold f, trunc; change (sz 15) with 16; lia).
  pose proof (Z.div_mod rv 16 ltac:(lia)). pose proof (Z.mod_pos_bound rv 16 ltac:(lia)).
  assert (Nb : base t (15, f) <> bmax).
  { intros Y. rewrite Y in C2. destruct (tk_bmax _ _ K) as (_ & Y2 & _). fold t in Y2. rewrite Y2 in C2. destruct Df as [z Hz]. rewrite MAX64_val in C2. lia. }
  pose proof (find_bucket_near t _ rv K Hrv (base t (15, f)) C1 Nb ltac:(lia)) as Y. rewrite C2, E, B in Y.
  specialize (Y (or_introl Df)). symmetry.
  apply (Z.div_unique v 16 (rv / 16) (v - 16 * (rv / 16))); lia.
Qed.
Print Assumptions C81_find_bucket.

(** So FindBucket does not always return the nearest bucket below a position: it misses boundaries that differ from the position in the last four
    bits only (Set finds its place in the item list all the same, C07). *)
Definition finds_nearest : Prop := forall h view max mode pool os rv, Forall (safe_op h) os -> 0 <= rv < 2 ^ 64 ->
  let s := run h (new_map view max mode pool) os in
  forall d, In d (dump_bucket s) -> d <> 2 ^ 64 - 1 -> d <= rv -> d <= found_reverse s rv.
(** eighty keys at consecutive positions *)
Definition dense : list (string * Z) := map (fun i => (str i, 2 ^ 63 + 5 + Z.of_nat i)) (seq 0 80).
Lemma dense_safe : Forall (safe_op (hpos dense)) (fill dense).
Proof. safe_tac. Qed.
Definition dense_map : mstate := run (hpos dense) (new_map KEntry 1 CombineSearch2 false) (fill dense).
Lemma dense_found : found_reverse dense_map (2 ^ 63 + 73) = 2 ^ 63 + 64 /\ existsb (Z.eqb (2 ^ 63 + 72)) (dump_bucket dense_map) = true.
Proof. vm_compute. split; reflexivity. Qed.
Lemma nearest_at : finds_nearest -> forall h os rv s, Forall (safe_op h) os -> 0 <= rv < 2 ^ 64 -> s = run h (new_map KEntry 1 CombineSearch2 false) os ->
  forall d, In d (dump_bucket s) -> d <> 2 ^ 64 - 1 -> d <= rv -> d <= found_reverse s rv.
Proof. intros H h os rv s F R ->. exact (H h KEntry 1 CombineSearch2 false os rv F R). Qed.
Lemma dense_eq : dense_map = run (hpos dense) (new_map KEntry 1 CombineSearch2 false) (fill dense).
Proof. unfold dense_map. reflexivity. Qed.
Lemma nearest_absurd s : found_reverse s (2 ^ 63 + 73) = 2 ^ 63 + 64 -> existsb (Z.eqb (2 ^ 63 + 72)) (dump_bucket s) = true ->
  (forall d, In d (dump_bucket s) -> d <> 2 ^ 64 - 1 -> d <= 2 ^ 63 + 73 -> d <= found_reverse s (2 ^ 63 + 73)) -> False.
Proof.
  intros F1 F2 H. apply existsb_exists in F2 as (d & Hd & E). apply Z.eqb_eq in E. subst d.
  specialize (H (2 ^ 63 + 72) Hd ltac:(lia) ltac:(lia)). lia.
Qed.
Lemma in_64 : 0 <= 2 ^ 63 + 73 < 2 ^ 64.
Proof. lia. Qed.
Theorem C81_find_nearest_refuted : ~ finds_nearest.
Proof.
  intros H. exact (nearest_absurd dense_map (proj1 dense_found) (proj2 dense_found) (nearest_at H (hpos dense) (fill dense) (2 ^ 63 + 73) dense_map dense_safe in_64 dense_eq)).
Qed.
Print Assumptions C81_find_nearest_refuted.

(** In the embedded mode the reverse of the bucket is the greatest in DumpBucket up to the position (that of the last bucket apart), if it is in
    DumpBucket at all; it is exactly if the lookup of that position comes back (C21). *)
Lemma sorted_same t l a b : StronglySorted (fun a b => brev t b < brev t a) l -> In a l -> In b l -> brev t a = brev t b -> a = b.
Proof.
  induction 1 as [|x l S IH F]; [intros []|]. rewrite Forall_forall in F. intros [->|A] [->|B] E; auto.
  - specialize (F _ B). lia.
  - specialize (F _ A). lia.
Qed.
Theorem C81_find_bucket_embedded : forall h max os rv, 16 <= max -> Forall store_or_read os -> no_collision h os -> 0 <= rv < 2 ^ 64 ->
  let s := erun h (new_emb max) os in
  let r := efound_reverse s rv in
  0 <= r <= rv /\
  (In r (edump s) <-> forall c, snd (estep h s (OpGetByHash (reverse64 rv) c)) <> Div) /\
  (In r (edump s) -> forall d, In d (edump s) -> d <> 2 ^ 64 - 1 -> d <= rv -> d <= r).
Proof.
  intros h max os rv HM HF HN Hrv s r. destruct (run_el h max os HM HF HN) as [[xl I] _]. fold s in I. unfold r, efound_reverse. clear r. clearbody s.
  pose proof (ei_trie _ _ I) as K. set (t := x_trie s) in *. change (2 ^ 64) with W64 in *. change (W64 - 1) with MAX64.
  destruct (find_bucket_spec t _ rv K Hrv) as (l & v & E & [P N] & L & B).
  destruct (tk_node _ _ K _ _ P N) as (_ & HV & _).
  destruct (base_anchor _ _ _ K P) as [B1 B2].
  assert (DIV : forall c, snd (estep h s (OpGetByHash (reverse64 rv) c)) = Div <-> pool_of t (find_bucket t rv) = None).
  { intros c. cbn [estep]. unfold eget. assert (EU : u64 (reverse64 rv) = reverse64 rv) by (apply Z.mod_small; apply reverse64_range). rewrite EU.
    assert (RR : reverse64 (reverse64 rv) = rv) by (apply reverse64_involutive; auto).
    unfold eload. rewrite RR. fold t. destruct (pool_of t (find_bucket t rv)) as [p|]; [|cbn [snd]; tauto].
    destruct (emb_search p _) as [j|]; [destruct (_ && _)|]; cbn [snd]; split; intros Y; discriminate. }
  split; [rewrite E, B; lia|]. split.
  - split.
    + intros H c D. apply DIV in D. apply in_map_iff in H as (b & Eb & Hb). fold t in Eb. unfold pool_of in D. rewrite E in D, Eb.
      assert (b = base t (l, v)).
      { apply (sorted_same t xl); auto; [apply (tk_sorted _ _ K)|apply (ext_in _ _ _ (ei_ext _ _ I)); auto|congruence]. }
      subst b.
      assert (Nb : base t (l, v) <> bmax).
      { destruct (base_ok t xl l v K P N) as (l' & El & _ & NE). rewrite El. exact NE. }
      destruct (ei_pred s xl I _ Hb Nb) as (y & Hy). destruct (ei_pool _ _ I _ _ Hy) as (p & HP & _). fold t in HP. congruence.
    + intros H. specialize (H 0). rewrite DIV in H. destruct (pool_of t (find_bucket t rv)) as [p|] eqn:HP; [|congruence].
      destruct (ei_route s xl I rv p Hrv HP) as (y & Hy & _). apply adj_in in Hy as [_ Hy]. fold t in Hy. rewrite E in Hy. unfold edump. fold t. rewrite E, <- B2. apply in_map. exact Hy.
  - intros _ d Hd ND Ld. apply in_map_iff in Hd as (n & Ed & Hn). fold t in Ed. rewrite <- Ed.
    assert (Nn : n <> bmax) by (intros X; rewrite X in Ed; destruct (tk_bmax _ _ K) as (_ & Y & _); congruence).
    apply (find_bucket_max t xl rv K Hrv (ei_16 _ _ I)); auto; [|lia]. apply (ext_in _ _ _ (ei_ext _ _ I)); auto.
Qed.
Print Assumptions C81_find_bucket_embedded.

Example C81_case : Forall (safe_op (hpos dense)) (fill dense) /\ found_reverse dense_map (2 ^ 63 + 85) = 2 ^ 63 + 80 /\
  List.length (dump_bucket dense_map) = 82%nat.
Proof. split; [exact dense_safe|]. vm_compute. split; reflexivity. Qed.
(** a bucket that is in DumpBucket, and one that is not: the lookup does not come back *)
Example C81_embedded_case : Forall store_or_read (fill hot) /\ no_collision (hpos hot) (fill hot) /\
  let s := erun (hpos hot) (new_emb 16) (fill hot) in
  efound_reverse s (2 ^ 62 + 1) = 2 ^ 62 /\ existsb (Z.eqb (2 ^ 62)) (edump s) = true /\
  efound_reverse s (2 ^ 59 + 1) = 2 ^ 59 /\ existsb (Z.eqb (2 ^ 59)) (edump s) = false.
Proof.
  split; [|split].
  - apply sor_ok. vm_compute. reflexivity.
  - apply nocol_ok. vm_compute. reflexivity.
  - vm_compute. repeat split.
Qed.
