(** C80: the level lists DumpBucketPerLevel prints, in the embedded mode. *)
From Verif Require Import Base BaseProofs Util UtilProofs Bucket TrieProofs TrieInv TrieGrow LevelList MapModel ItemProofs MapInv MapSplit
  MapInit Spec MapRefine EmbModel EmbPool EmbTrie EmbInv EmbSplit EmbSpec EmbRefine EmbDel EmbLevel PropLevel PropEmb.
From Coq Require Import ZifyBool Sorted Ascii String.
Local Open Scope Z_scope.
Local Open Scope list_scope.
Local Opaque reverse64 level_of base find_bucket.

(** map.go:1060-1074 DumpBucket, the reverse and level columns *)
Definition edump_cols (s : estate) : list (Z * Z) := map (fun n => (brev (x_trie s) n, lvl (x_trie s) n)) (x_bl s).
(** map.go:1076-1102 DumpBucketPerLevel: the reverse column of what it prints under "bucket level=l", from the front of the list.
    isEmptyBylevel (map.go:1268-1285) only leaves out the heading of a level with an empty list. *)
Definition edump_level (s : estate) (l : Z) : list Z := map (brev (x_trie s)) (lv_get (x_lv s) l).

(** the base of a bucket that is shown is in the bucket list *)
Lemma shown_base s xl : einv s xl -> el s -> forall n, shown (x_trie s) (x_bl s) n -> exists b, In b (x_bl s) /\ brev (x_trie s) b = brev (x_trie s) n.
Proof.
  intros I V. pose proof (ei_trie _ _ I) as K.
  assert (G : forall f l v, (Z.to_nat l <= f)%nat -> shown (x_trie s) (x_bl s) (l, v) -> exists b, In b (x_bl s) /\ brev (x_trie s) b = brev (x_trie s) (l, v)).
  { induction f as [|f IH]; intros l v Hf [P S];
    (destruct (nid_eq_dec (l, v) bmax) as [->|N];
      [exists bmax; split; auto; destruct (ei_bl_head s xl I) as (b & ->); left; auto|]);
    destruct (tk_node _ _ K _ _ P N) as (Hl & Hv & Hd & A1 & A2 & _).
    { exfalso. lia. }
    destruct S as [S|S]; [|exists (l, v); auto].
    destruct (tk_link _ _ K _ _ P N) as [(H2 & Z0 & _)|(_ & PN & _)]; [|contradiction].
    destruct (tk_up _ _ K _ _ P N H2) as [Pp Hdn].
    assert (TV : trunc (l - 1) v = v).
    { replace l with (l - 1 + 1) in Z0, Hd by lia. apply nib_0 in Z0; try lia. rewrite <- Z0 at 1. apply trunc_id; auto. lia. }
    rewrite TV in Pp, Hdn. pose proof (nib_range v l ltac:(lia) ltac:(lia)) as NR.
    destruct (IH (l - 1) v ltac:(lia) (el_down _ _ _ V _ Pp ltac:(lia))) as (b & B1 & B2). exists b. split; auto.
    assert (Np : (l - 1, v) <> bmax).
    { intros B. unfold bmax in B. injection B as B3 _. lia. }
    destruct (tk_node _ _ K _ _ Pp Np) as (_ & _ & _ & _ & A3 & _). congruence. }
  intros [l v]. apply (G (Z.to_nat l)). lia.
Qed.

(** The histories store with Set (string keys) and read. For every level: no bucket is listed twice; the buckets DumpBucket shows with
    that level are listed; everything listed has a line in DumpBucket with the same reverse, so a bucket that a split made without
    using it is not listed; its reverse is the boundary of a block of the level; and the enclosing block of the level above is listed
    there, and its first block in this level. *)
Theorem C80_level_lists : forall h max os l, 16 <= max -> Forall store_or_read os -> no_collision h os -> 1 <= l <= 16 ->
  let s := erun h (new_emb max) os in
  NoDup (edump_level s l) /\
  (forall r, In (r, l) (edump_cols s) -> In r (edump_level s l)) /\
  (forall r, In r (edump_level s l) -> In r (edump s)) /\
  (forall r, In r (edump_level s l) -> r <> 2 ^ 64 - 1 ->
     (16 ^ (16 - l) | r) /\
     (2 <= l -> let p := r - r mod 16 ^ (17 - l) in In p (edump_level s (l - 1)) /\ In p (edump_level s l))).
Proof.
  intros h max os l HM HF HN Hl s. destruct (run_el h max os HM HF HN) as [[xl I] V]. fold s in I, V. clearbody s.
  pose proof (ei_trie _ _ I) as K. destruct (el_lists _ _ _ V) as [LEN LV]. destruct (LV l Hl) as [ND IN].
  assert (IO : forall n, In n (lv_get (x_lv s) l) -> present (x_trie s) n /\ lvl (x_trie s) n = l) by (intros n H; apply IN in H as [[H _] H']; auto).
  assert (BX : forall n, In n (x_bl s) -> In n xl) by (apply (ext_in _ _ _ (ei_ext _ _ I))).
  split; [|split; [|split]].
  - unfold edump_level. clear IN. revert ND IO. generalize (lv_get (x_lv s) l) as L.
    induction L as [|n L IH]; intros ND IO; cbn [map]; constructor.
    + intros H. apply in_map_iff in H as (m & E & Hm). inversion ND as [|x y Hx Hy]; subst x y. apply Hx.
      replace n with m; auto. destruct (IO n) as [Pn Ln]; [left; auto|]. destruct (IO m) as [Pm Lm]; [right; auto|].
      destruct (nid_eq_dec n bmax) as [->|Nn].
      * destruct (tk_bmax _ _ K) as (_ & Eb & _). apply (MAX_only _ _ _ K); auto. congruence.
      * destruct (nid_eq_dec m bmax) as [->|Nm].
        -- destruct (tk_bmax _ _ K) as (_ & Eb & _). symmetry. apply (MAX_only _ _ _ K); auto. congruence.
        -- destruct n as [a b], m as [c d]. destruct (tk_node _ _ K _ _ Pn Nn) as (_ & _ & _ & A1 & A2 & _).
           destruct (tk_node _ _ K _ _ Pm Nm) as (_ & _ & _ & B1 & B2 & _). f_equal; congruence.
    + apply IH; [inversion ND; auto|intros; apply IO; right; auto].
  - intros r H. unfold edump_cols in H. apply in_map_iff in H as (n & E & Hn). injection E as <- EL.
    unfold edump_level. apply in_map. apply IN. split; auto. split; [apply (tk_bl _ _ K); auto|auto].
  - intros r H. unfold edump_level in H. apply in_map_iff in H as (n & <- & Hn). apply IN in Hn as [SH _].
    destruct (shown_base s xl I V n SH) as (b & B1 & B2). unfold edump. rewrite <- B2. apply in_map; auto.
  - intros r H NM. unfold edump_level in H. apply in_map_iff in H as (n & <- & Hn). destruct (IO n Hn) as [P L].
    destruct (nid_eq_dec n bmax) as [->|Nn]; [exfalso; apply NM; destruct (tk_bmax _ _ K) as (_ & -> & _); reflexivity|].
    destruct n as [a v]. destruct (tk_node _ _ K _ _ P Nn) as (Ha & Hv & Hd & A1 & A2 & _). assert (a = l) by congruence. subst a.
    rewrite A2 in *. split; [exact Hd|]. intros H2. cbv zeta.
    replace (v - v mod 16 ^ (17 - l)) with (trunc (l - 1) v).
    2:{ unfold trunc, sz. replace (16 - (l - 1)) with (17 - l) by lia. pose proof (Z.pow_pos_nonneg 16 (17 - l) ltac:(lia) ltac:(lia)).
        pose proof (Z.div_mod v (16 ^ (17 - l)) ltac:(lia)). lia. }
    destruct (tk_up _ _ K _ _ P Nn H2) as [Pp Hdn].
    assert (Np : (l - 1, trunc (l - 1) v) <> bmax) by (intros B; injection B; lia).
    destruct (tk_node _ _ K _ _ Pp Np) as (_ & HVp & _ & C1 & C2 & _).
    pose proof (nib_range v l ltac:(lia) ltac:(lia)) as Hnib.
    pose proof (tk_down _ _ K _ _ Pp Np ltac:(lia)) as Pz. replace (l - 1 + 1) with l in Pz by lia.
    assert (Nz : (l, trunc (l - 1) v) <> bmax) by (intros B; injection B; lia).
    destruct (tk_node _ _ K _ _ Pz Nz) as (_ & _ & _ & D1 & D2 & _).
    pose proof (el_down _ _ _ V _ Pp ltac:(lia)) as SP.
    assert (SZ : shown (x_trie s) (x_bl s) (l, trunc (l - 1) v)).
    { split; auto. left. destruct (tk_link _ _ K _ _ Pz Nz) as [(_ & _ & PE)|([H|H] & _ & _)]; [intros E; rewrite PE in E; discriminate|lia|].
      exfalso. apply H. assert (Dr : (sz (l - 1) | trunc (l - 1) v)) by apply trunc_div.
      assert (X : nib (trunc (l - 1) v) (l - 1 + 1) = 0).
      { apply (nib_0 (l - 1) (trunc (l - 1) v)); try lia. rewrite (trunc_id (l - 1) (trunc (l - 1) v)) by (auto; lia). apply trunc_id; [lia|].
        apply (Z.divide_trans _ (sz (l - 1))); auto. apply sz_le; lia. }
      replace (l - 1 + 1) with l in X by lia. exact X. }
    split.
    + unfold edump_level. rewrite <- C2 at 1. apply in_map. apply (LV (l - 1) ltac:(lia)). auto.
    + unfold edump_level. rewrite <- D2 at 1. apply in_map. apply IN. auto.
Qed.
Print Assumptions C80_level_lists.

(** the history of C20_case: two new buckets of level 2, and the first block of their table, which is only in the level list *)
Example C80_case : let l := spread 40 in let os := fill l in
  Forall store_or_read os /\ no_collision (hpos l) os /\
  let s := erun (hpos l) (new_emb 16) os in
  map (edump_level s) [1; 2; 3; 16] = [rev (map (fun i => i * 2 ^ 60) idx16); [3 * 2 ^ 58; 2 ^ 59; 0]; []; [2 ^ 64 - 1]] /\
  List.length (edump_cols s) = 19%nat.
Proof.
  cbv zeta. split; [|split].
  - apply sor_ok. vm_compute. reflexivity.
  - apply nocol_ok. vm_compute. reflexivity.
  - vm_compute. split; reflexivity.
Qed.

(** The claim that each list goes down by reverse from the front, as the list of C20 does: it fails, as in the default mode (C69). *)
Definition level_lists_descend : Prop := forall h max os l, 16 <= max -> Forall store_or_read os -> no_collision h os -> 1 <= l <= 16 ->
  StronglySorted (fun a b => b < a) (edump_level (erun h (new_emb max) os) l).
(** three groups of twenty keys, in the ranges that start at 5, 9 and 2 times 2^60, stored in this order *)
Definition groups : list (string * Z) := map (fun i => (str i, (5 + 4 * (Z.of_nat i / 20) + (if Nat.leb 40 i then -11 else 0)) * 2 ^ 60 + (Z.of_nat i mod 20) * 2 ^ 55 + 7)) (seq 0 60).
Lemma groups_ok : Forall store_or_read (fill groups) /\ no_collision (hpos groups) (fill groups).
Proof. split; [apply sor_ok|apply nocol_ok]; vm_compute; reflexivity. Qed.
Theorem C80_level_lists_descend_refuted : ~ level_lists_descend.
Proof.
  intros H. destruct groups_ok as [G1 G2]. specialize (H (hpos groups) 16 (fill groups) 2 ltac:(lia) G1 G2 ltac:(lia)).
  revert H. refine (not_sorted _ 2305843009213693952 5764607523034234880 [10952754293765046272; 10376293541461622784; 6341068275337658368; 2882303761517117440] _ _);
  vm_compute; reflexivity.
Qed.
Print Assumptions C80_level_lists_descend_refuted.

(** twenty keys at positions next to each other: the tree grows to nineteen nodes, and the buckets the splits could not use are in
    neither dump *)
Definition hot : list (string * Z) := map (fun i => (str i, Z.of_nat i + 3)) (seq 1 20).
Example C80_unused_case : Forall store_or_read (fill hot) /\ no_collision (hpos hot) (fill hot) /\
  let s := erun (hpos hot) (new_emb 16) (fill hot) in
  List.length (edump s) = 17%nat /\ List.length (x_trie s) = 19%nat /\ map (edump_level s) [2; 3] = [[0]; []].
Proof.
  split; [|split].
  - apply sor_ok. vm_compute. reflexivity.
  - apply nocol_ok. vm_compute. reflexivity.
  - vm_compute. repeat split.
Qed.
