(** Property theorems about the level lists DumpBucketPerLevel prints: C69. *)
From Verif Require Import Base BaseProofs Util UtilProofs Bucket TrieProofs TrieInv TrieGrow LevelList MapModel ItemProofs
  MapInv MapSplit MapStep MapInit Spec MapRefine MapAny MapSafe MapMore Checks MapDump PropMap.
From Coq Require Import ZifyBool Sorted.
Local Open Scope Z_scope.
Local Opaque reverse64 level_of base find_bucket.

Lemma MAX_only t bl n : trie_ok t bl -> present t n -> brev t n = MAX64 -> n = bmax.
Proof.
  intros K P E. destruct (nid_eq_dec n bmax) as [|N]; auto. exfalso.
  destruct n as [l v]. destruct (tk_node _ _ K l v P N) as (Hl & Hv & Hd & Hlv & Hb & _).
  rewrite Hb in E. subst v.
  destruct (tk_link _ _ K l MAX64 P N) as [(H2 & Hn & _)|(_ & _ & HI)].
  - unfold nib in Hn. revert Hn. assert (C : l = 2 \/ l = 3 \/ l = 4 \/ l = 5 \/ l = 6 \/ l = 7 \/ l = 8 \/ l = 9 \/ l = 10 \/ l = 11 \/ l = 12 \/ l = 13 \/ l = 14 \/ l = 15 \/ l = 16) by lia.
    decompose [or] C; subst l; vm_compute; discriminate.
  - destruct (tk_head _ _ K) as (bl' & E & NI). pose proof (tk_sorted _ _ K) as S. rewrite E in S, HI.
    destruct HI as [HI|HI]; [congruence|]. inversion S as [|x y _ F]; subst.
    rewrite Forall_forall in F. specialize (F _ HI). destruct (tk_bmax _ _ K) as (_ & Hm & _). lia.
Qed.

(** The condition is [safe_op]: no call that stores at the two topmost positions.
    For every level: no bucket is listed twice; the buckets DumpBucket shows with that level are
    listed; everything listed has a line in DumpBucket with the same reverse; its reverse is the
    boundary of a block of the level; and the enclosing block of the level above is listed there,
    and its first block in this level. *)
Theorem C69_level_lists : forall h view max mode pool os l, Forall (safe_op h) os -> 1 <= l <= 16 ->
  let s := run h (new_map view max mode pool) os in
  NoDup (dump_level s l) /\
  (forall r, In (r, l) (dump_cols s) -> In r (dump_level s l)) /\
  (forall r, In r (dump_level s l) -> In r (dump_bucket s)) /\
  (forall r, In r (dump_level s l) -> r <> 2 ^ 64 - 1 ->
     (16 ^ (16 - l) | r) /\
     (2 <= l -> let p := r - r mod 16 ^ (17 - l) in In p (dump_level s (l - 1)) /\ In p (dump_level s l))).
Proof.
  intros h view max mode pool os l F Hl s.
  assert (I : sinv s) by (apply run_sinv; auto; apply new_map_sinv). clearbody s.
  pose proof (sv_trie _ I) as K. destruct (sv_lv _ I) as [LEN LV]. destruct (LV l Hl) as [ND IN].
  assert (IO : forall n, In n (lv_get (m_lv s) l) -> present (m_trie s) n /\ lvl (m_trie s) n = l) by (intros; apply IN; auto).
  split; [|split; [|split]].
  - unfold dump_level. clear IN. revert ND IO. generalize (lv_get (m_lv s) l) as L.
    induction L as [|n L IH]; intros ND IO; cbn [map]; constructor.
    + intros H. apply in_map_iff in H as (m & E & Hm). inversion ND as [|x y Hx Hy]; subst x y. apply Hx.
      replace n with m; auto. destruct (IO n) as [Pn Ln]; [left; auto|]. destruct (IO m) as [Pm Lm]; [right; auto|].
      destruct (nid_eq_dec n bmax) as [->|Nn].
      * destruct (tk_bmax _ _ K) as (_ & Eb & _). apply (MAX_only _ _ _ K); auto. congruence.
      * destruct (nid_eq_dec m bmax) as [->|Nm].
        -- destruct (tk_bmax _ _ K) as (_ & Eb & _). symmetry. apply (MAX_only _ _ _ K); auto. congruence.
        -- destruct n as [a b], m as [c d]. destruct (tk_node _ _ K _ _ Pn Nn) as (_ & _ & _ & A1 & A2 & _).
           destruct (tk_node _ _ K _ _ Pm Nm) as (_ & _ & _ & B1 & B2 & _). f_equal; congruence.
    + apply IH; [inversion ND; auto|intros; apply IO; right; auto].
  - intros r H. unfold dump_cols in H. apply in_map_iff in H as (n & E & Hn). injection E as <- EL.
    unfold dump_level. apply in_map. apply IN. split; auto. apply (tk_bl _ _ K); auto.
  - intros r H. unfold dump_level in H. apply in_map_iff in H as (n & <- & Hn). destruct (IO n Hn) as [P _].
    destruct (base_anchor _ _ _ K P) as [B1 B2]. unfold dump_bucket. rewrite <- B2. apply in_map; auto.
  - intros r H NM. unfold dump_level in H. apply in_map_iff in H as (n & <- & Hn). destruct (IO n Hn) as [P L].
    destruct (nid_eq_dec n bmax) as [->|Nn]; [exfalso; apply NM; destruct (tk_bmax _ _ K) as (_ & -> & _); reflexivity|].
    destruct n as [a v]. destruct (tk_node _ _ K _ _ P Nn) as (Ha & Hv & Hd & A1 & A2 & _). assert (a = l) by congruence. subst a.
    rewrite A2 in *. split; [exact Hd|]. intros H2. cbv zeta.
    replace (v - v mod 16 ^ (17 - l)) with (trunc (l - 1) v).
    2:{ unfold trunc, sz. replace (16 - (l - 1)) with (17 - l) by lia. pose proof (Z.pow_pos_nonneg 16 (17 - l) ltac:(lia) ltac:(lia)).
        pose proof (Z.div_mod v (16 ^ (17 - l)) ltac:(lia)). lia. }
    destruct (tk_up _ _ K _ _ P Nn H2) as [Pp Hdn].
    assert (Np : (l - 1, trunc (l - 1) v) <> bmax) by (intros B; injection B; lia).
    destruct (tk_node _ _ K _ _ Pp Np) as (_ & _ & _ & C1 & C2 & _).
    pose proof (nib_range v l ltac:(lia) ltac:(lia)) as Hnib.
    pose proof (tk_down _ _ K _ _ Pp Np ltac:(lia)) as Pz. replace (l - 1 + 1) with l in Pz by lia.
    assert (Nz : (l, trunc (l - 1) v) <> bmax) by (intros B; injection B; lia).
    destruct (tk_node _ _ K _ _ Pz Nz) as (_ & _ & _ & D1 & D2 & _).
    split.
    + unfold dump_level. rewrite <- C2 at 1. apply in_map. apply (LV (l - 1) ltac:(lia)). auto.
    + unfold dump_level. rewrite <- D2 at 1. apply in_map. apply IN. auto.
Qed.
Print Assumptions C69_level_lists.

(** DumpBucket shows its lines in descending order of the reverse; the lists of the levels are in
    the order the buckets were made: the natural claim that they are sorted too is false. *)
Definition level_lists_descend : Prop := forall h view max mode pool os l,
  Forall (safe_op h) os -> 1 <= l <= 16 ->
  StronglySorted (fun a b => b < a) (dump_level (run h (new_map view max mode pool) os) l).
Definition at_ (z : Z) : op := st (reverse64 z) 1.
(** three keys in each of the sixteenths 5, 9 and 2: three splits *)
Definition three_splits : list op :=
  [at_ (5 * 2 ^ 60 + 1); at_ (5 * 2 ^ 60 + 2 ^ 59 + 5); at_ (5 * 2 ^ 60 + 2 ^ 58 + 5);
   at_ (9 * 2 ^ 60 + 1); at_ (9 * 2 ^ 60 + 2 ^ 59 + 5); at_ (9 * 2 ^ 60 + 2 ^ 58 + 5);
   at_ (2 * 2 ^ 60 + 1); at_ (2 * 2 ^ 60 + 2 ^ 59 + 5); at_ (2 * 2 ^ 60 + 2 ^ 58 + 5)].
Lemma not_sorted (L : list Z) (x y : Z) (a : list Z) : L = a ++ [x; y] -> x < y -> ~ StronglySorted (fun a b => b < a) L.
Proof.
  intros -> H. induction a as [|z a IH]; cbn [app]; intros S.
  - inversion S as [|? ? _ F]; subst. inversion F; subst. lia.
  - inversion S; auto.
Qed.
Lemma three_splits_safe : Forall (safe_op hx) three_splits.
Proof. unfold three_splits, at_. safe_tac. Qed.
Theorem C69_level_lists_descend_refuted : ~ level_lists_descend.
Proof.
  intros H. specialize (H hx KEntry 1 CombineSearch2 false three_splits 2 three_splits_safe ltac:(lia)).
  revert H. refine (not_sorted _ 2305843009213693952 5764607523034234880 [10952754293765046272; 10376293541461622784; 6341068275337658368; 2882303761517117440] _ _);
  vm_compute; reflexivity.
Qed.
Print Assumptions C69_level_lists_descend_refuted.

(** the lists of that map *)
Example C69_case : Forall (safe_op hx) three_splits /\
  let s := run hx (new_map KEntry 1 CombineSearch2 false) three_splits in
  map (dump_level s) [2; 3; 16] =
    [[9 * 2 ^ 60 + 2 ^ 59; 9 * 2 ^ 60; 5 * 2 ^ 60 + 2 ^ 59; 2 * 2 ^ 60 + 2 ^ 59; 2 * 2 ^ 60; 5 * 2 ^ 60]; []; [2 ^ 64 - 1]] /\
  List.length (dump_cols s) = 20%nat.
Proof. split; [exact three_splits_safe|]. vm_compute. split; reflexivity. Qed.
