(** The positions stored, bucket by bucket: when an over-full bucket can be divided. *)
From Verif Require Import Base BaseProofs Util UtilProofs Bucket TrieProofs TrieInv TrieGrow MapModel ItemProofs MapInv MapSplit
  MapInit Spec MapRefine EmbModel EmbPool EmbTrie EmbInv EmbSplit EmbSpec EmbRefine EmbDel EmbTop EmbHang.
From Coq Require Import ZifyBool Sorted.
Local Open Scope Z_scope.
Local Opaque reverse64 level_of base find_bucket.

(** * Counting positions *)
Definition cnt (m q : Z) (P : list Z) : Z := Z.of_nat (List.length (nodup Z.eq_dec (in_block m q P))).
Lemma in_block_in m q P r : In r (in_block m q P) <-> In r P /\ r / 2 ^ m = q.
Proof. unfold in_block. rewrite filter_In, Z.eqb_eq. tauto. Qed.
Lemma in_block_nil m q P : in_block m q P = [] <-> forall r, In r P -> r / 2 ^ m <> q.
Proof.
  split.
  - intros E r Hr Hq. assert (X : In r (in_block m q P)) by (apply in_block_in; auto). rewrite E in X. destruct X.
  - intros H. destruct (in_block m q P) as [|r l] eqn:E; auto. exfalso.
    assert (X : In r (in_block m q P)) by (rewrite E; left; auto). apply in_block_in in X as [X1 X2]. apply (H r X1 X2).
Qed.
Lemma cnt_le m1 q1 P1 m2 q2 P2 : (forall r, In r P1 -> r / 2 ^ m1 = q1 -> In r P2 /\ r / 2 ^ m2 = q2) -> cnt m1 q1 P1 <= cnt m2 q2 P2.
Proof.
  intros H. unfold cnt. apply Nat2Z.inj_le, NoDup_incl_length; [apply NoDup_nodup|].
  intros r Hr. apply nodup_In, in_block_in in Hr. apply nodup_In, in_block_in. apply H; tauto.
Qed.
(** if nothing outside the smaller interval is missing, the counts differ *)
Lemma cnt_lt m1 q1 P1 m2 q2 P2 z : (forall r, In r P1 -> r / 2 ^ m1 = q1 -> In r P2 /\ r / 2 ^ m2 = q2) ->
  In z P2 -> z / 2 ^ m2 = q2 -> ~ (In z P1 /\ z / 2 ^ m1 = q1) -> cnt m1 q1 P1 < cnt m2 q2 P2.
Proof.
  intros H Hz Hq NZ. unfold cnt. apply Nat2Z.inj_lt.
  assert (X : (List.length (z :: nodup Z.eq_dec (in_block m1 q1 P1)) <= List.length (nodup Z.eq_dec (in_block m2 q2 P2)))%nat).
  { apply NoDup_incl_length.
    - constructor; [|apply NoDup_nodup]. intros Hin. apply nodup_In, in_block_in in Hin. auto.
    - intros r [<-|Hr]; apply nodup_In, in_block_in; auto. apply nodup_In, in_block_in in Hr. apply H; tauto. }
  cbn [List.length] in X. lia.
Qed.
Lemma cnt_snoc m q P r : cnt m q (P ++ [r]) <= cnt m q P + 1.
Proof.
  unfold cnt.
  assert (X : (List.length (nodup Z.eq_dec (in_block m q (P ++ [r]))) <= List.length (r :: nodup Z.eq_dec (in_block m q P)))%nat).
  { apply NoDup_incl_length; [apply NoDup_nodup|]. intros z Hz. apply nodup_In, in_block_in in Hz as [Hz Hq].
    apply in_app_or in Hz as [Hz|[<-|[]]]; [right|left; auto]. apply nodup_In, in_block_in. auto. }
  cbn [List.length] in X. lia.
Qed.
Lemma block_up r m m' : 0 <= m' <= m -> r / 2 ^ m = r / 2 ^ m' / 2 ^ (m - m').
Proof.
  intros H. rewrite Z.div_div; [|apply Z.pow_nonzero; lia|apply Z.pow_pos_nonneg; lia].
  rewrite <- Z.pow_add_r by lia. f_equal. f_equal. lia.
Qed.
Lemma halves r m q : 1 <= m -> r / 2 ^ m = q -> r / 2 ^ (m - 1) = 2 * q \/ r / 2 ^ (m - 1) = 2 * q + 1.
Proof.
  intros Hm E. rewrite (block_up r m (m - 1)) in E by lia. replace (m - (m - 1)) with 1 in E by lia. change (2 ^ 1) with 2 in E.
  pose proof (Z.div_mod (r / 2 ^ (m - 1)) 2 ltac:(lia)). pose proof (Z.mod_pos_bound (r / 2 ^ (m - 1)) 2 ltac:(lia)). lia.
Qed.
Lemma halves_up r m q d : 1 <= m -> 0 <= d <= 1 -> r / 2 ^ (m - 1) = 2 * q + d -> r / 2 ^ m = q.
Proof.
  intros Hm Hd E. rewrite (block_up r m (m - 1)) by lia. replace (m - (m - 1)) with 1 by lia. change (2 ^ 1) with 2.
  rewrite E. symmetry. apply Z.div_unique with (r := d); lia.
Qed.
Lemma block_iff r m lo : 0 <= m -> (2 ^ m | lo) -> (lo <= r < lo + 2 ^ m <-> r / 2 ^ m = lo / 2 ^ m).
Proof.
  intros Hm [q ->]. pose proof (Z.pow_pos_nonneg 2 m ltac:(lia) Hm) as P. rewrite Z.div_mul by lia. split.
  - intros H. symmetry. apply Z.div_unique with (r := r - q * 2 ^ m); lia.
  - intros <-. pose proof (Z.div_mod r (2 ^ m) ltac:(lia)). pose proof (Z.mod_pos_bound r (2 ^ m) ltac:(lia)). lia.
Qed.
Lemma half_iff r m lo d : 1 <= m -> (2 ^ m | lo) -> 0 <= d <= 1 ->
  (lo + d * 2 ^ (m - 1) <= r < lo + (d + 1) * 2 ^ (m - 1) <-> r / 2 ^ (m - 1) = 2 * (lo / 2 ^ m) + d).
Proof.
  intros Hm [q ->] Hd. pose proof (Z.pow_pos_nonneg 2 (m - 1) ltac:(lia) ltac:(lia)) as P.
  assert (PW : 2 ^ m = 2 * 2 ^ (m - 1)) by (replace m with (Z.succ (m - 1)) at 1 by lia; apply Z.pow_succ_r; lia).
  rewrite Z.div_mul by lia.
  pose proof (block_iff r (m - 1) ((2 * q + d) * 2 ^ (m - 1)) ltac:(lia) ltac:(exists (2 * q + d); auto)) as B.
  rewrite Z.div_mul in B by lia. rewrite <- B. rewrite PW. lia.
Qed.

(** * A new position *)
(** P' = P and r; the bucket of r is the q-th interval of 2^m positions *)
Section New.
Variables (P : list Z) (r m q max : Z).
Hypotheses (Hm : 0 <= m <= 60) (Hq : r / 2 ^ m = q) (Hr : ~ In r P)
  (Hfull : cnt m q P <= max) (Hpar : m = 60 \/ max < cnt (m + 1) (q / 2) P).
Let P' := P ++ [r].
Lemma In_P' z : In z P' <-> In z P \/ z = r.
Proof. unfold P'. rewrite in_app_iff. cbn [In]. intuition congruence. Qed.
(** the only intervals that become lopsided are inside the bucket, and the bucket is full *)
Lemma lop_new m' q' : lopsided max P' m' q' -> lopsided max P m' q' \/
  (m' <= m /\ r / 2 ^ m' = q' /\ cnt m q P = max /\ cnt m' q' P' = cnt m q P').
Proof.
  intros (M' & C' & H'). fold (cnt m' q' P') in C'.
  destruct (Z_lt_ge_dec max (cnt m' q' P)) as [C|C].
  { left. split; [auto|]. split; [exact C|]. rewrite !in_block_nil in *. destruct H' as [H'|H']; [left|right]; intros z Hz; apply H'; apply In_P'; auto. }
  right. pose proof (cnt_snoc m' q' P r) as SN. fold P' in SN.
  assert (J : r / 2 ^ m' = q').
  { destruct (Z.eq_dec (r / 2 ^ m') q') as [|N]; auto. exfalso.
    assert (cnt m' q' P' <= cnt m' q' P); [|lia]. apply cnt_le. intros z Hz Ez. apply In_P' in Hz as [Hz| ->]; [auto|contradiction]. }
  assert (LE : m' <= m).
  { destruct (Z_le_gt_dec m' m) as [|G]; auto. exfalso. destruct Hpar as [->|HP]; [lia|].
    assert (cnt (m + 1) (q / 2) P <= cnt m' q' P); [|lia]. apply cnt_le. intros z Hz Ez. split; auto.
    rewrite <- J. rewrite (block_up z m' (m + 1)), (block_up r m' (m + 1)) by lia. f_equal. rewrite Ez.
    rewrite (block_up r (m + 1) m) by lia. rewrite Hq. replace (m + 1 - m) with 1 by lia. auto. }
  assert (SUB : forall z, z / 2 ^ m' = q' -> z / 2 ^ m = q).
  { intros z Ez. rewrite (block_up z m m') by lia. rewrite Ez, <- J, <- (block_up r m m') by lia. auto. }
  assert (S1 : cnt m' q' P <= cnt m q P) by (apply cnt_le; auto).
  assert (S2 : cnt m' q' P' <= cnt m q P') by (apply cnt_le; auto).
  pose proof (cnt_snoc m q P r) as SN2. fold P' in SN2.
  split; auto. split; auto. split; lia.
Qed.
(** so a bucket that divides leaves nothing newly lopsided *)
Lemma lop_even m' q' : 1 <= m -> lopsided max P' m' q' -> in_block (m - 1) (2 * q) P' <> [] -> in_block (m - 1) (2 * q + 1) P' <> [] ->
  lopsided max P m' q'.
Proof.
  intros Hm1 L E1 E2. destruct (lop_new m' q' L) as [|(LE & J & F & EQ)]; auto. exfalso.
  assert (IN : forall z, In z P' -> z / 2 ^ m = q -> z / 2 ^ m' = q').
  { intros z Hz Ez. destruct (Z.eq_dec (z / 2 ^ m') q') as [|N]; auto. exfalso.
    assert (cnt m' q' P' < cnt m q P'); [|lia]. apply (cnt_lt _ _ _ _ _ _ z); auto; [|tauto].
    intros w Hw Ew. split; auto. rewrite (block_up w m m') by (destruct L; lia). rewrite Ew, <- J, <- (block_up r m m') by (destruct L; lia). auto. }
  destruct L as (M' & C' & H').
  destruct (Z.eq_dec m' m) as [->|NE].
  { assert (q' = q) as Eq by congruence. rewrite Eq in H'. destruct H' as [H'|H']; [apply E1|apply E2]; exact H'. }
  (* the smaller interval is in one half *)
  assert (EX : forall d, 0 <= d <= 1 -> in_block (m - 1) (2 * q + d) P' <> [] -> exists z, In z P' /\ z / 2 ^ (m - 1) = 2 * q + d).
  { intros d _ N. destruct (in_block (m - 1) (2 * q + d) P') as [|z l] eqn:E; [congruence|].
    assert (X : In z (in_block (m - 1) (2 * q + d) P')) by (rewrite E; left; auto). apply in_block_in in X. eauto. }
  destruct (EX 0 ltac:(lia)) as (z0 & Z0 & Q0); [rewrite Z.add_0_r; auto|].
  destruct (EX 1 ltac:(lia)) as (z1 & Z1 & Q1); auto.
  pose proof (IN z0 Z0 (halves_up z0 m q 0 ltac:(lia) ltac:(lia) Q0)) as I0.
  pose proof (IN z1 Z1 (halves_up z1 m q 1 ltac:(lia) ltac:(lia) Q1)) as I1.
  assert (z0 / 2 ^ (m - 1) = z1 / 2 ^ (m - 1)); [|lia].
  rewrite (block_up z0 (m - 1) m'), (block_up z1 (m - 1) m') by lia. congruence.
Qed.
End New.

(** * The relation *)
Record brel (s : estate) (mp : smap) (P : list Z) : Prop := {
  br_rel : erel s mp;
  br_inv : einv s (x_bl s);
  br_fits : fits s;
  br_pos : forall r, In r P <-> exists z, cont s z /\ pr_rev z = r;
  br_str : forall lo w, stripe s lo w -> w <= 60 /\ (w = 60 \/ x_max s < cnt (w + 1) (lo / 2 ^ w / 2) P) }.

Lemma bucket_cnt s mp P y b p m : brel s mp P -> adj (x_bl s) y b -> b_pool (bget (x_trie s) b) = Some p ->
  up (x_trie s) y = brev (x_trie s) b + 2 ^ m -> 0 <= m -> (2 ^ m | brev (x_trie s) b) ->
  cnt m (brev (x_trie s) b / 2 ^ m) P = p_len p.
Proof.
  intros B Hy HP HU Hm HD. pose proof (br_inv _ _ _ B) as I.
  destruct (ei_pool _ _ I _ _ Hy) as (q & Eq & K). rewrite HP in Eq. injection Eq as <-.
  set (L := map sl_rev (live p)).
  assert (NL : NoDup L).
  { pose proof (po_sorted _ _ _ K) as SO. unfold L. clear -SO. induction SO as [|x l S IH F]; constructor; auto.
    intros H. rewrite Forall_forall in F. specialize (F x H). lia. }
  assert (LL : p_len p = Z.of_nat (List.length L)).
  { unfold L. rewrite map_length, (live_length _ _ _ K). unfold p_n. pose proof (po_len _ _ _ K). lia. }
  assert (EQ : forall r, In r L <-> In r (nodup Z.eq_dec (in_block m (brev (x_trie s) b / 2 ^ m) P))).
  { intros r. rewrite nodup_In, in_block_in, (br_pos _ _ _ B), <- block_iff by auto. rewrite <- HU. split.
    - intros H. apply in_map_iff in H as (sl & <- & Hs). split; [|apply (po_rng _ _ _ K sl Hs)].
      exists (pr sl). split; auto. exists y, b, p. split; auto. split; auto. apply in_map; auto.
    - intros ((z & Cz & Ez) & R). apply (cont_here s _ I r y b p z) in Cz; auto.
      apply in_map_iff in Cz as (sl & <- & Hs). subst r. apply in_map_iff. exists sl; auto. }
  rewrite LL. unfold cnt. apply Nat2Z.inj_iff. apply Nat.le_antisymm; apply NoDup_incl_length; auto using NoDup_nodup; intros r Hr; apply EQ; auto.
Qed.

Lemma new_brel max : 16 <= max -> brel (new_emb max) (sm_empty KSample) [].
Proof.
  intros HM. destruct (new_emb_inv max ltac:(lia)) as (I & N & C). constructor; auto.
  - apply new_emb_rel; auto.
  - intros y b p H HP. change (x_bl (new_emb max)) with init_bl in H.
    destruct (Z_le_gt_dec (p_len p) (x_max (new_emb max))) as [|G]; auto. exfalso.
    destruct (ei_pool _ _ I y b H) as (p' & E' & K). rewrite HP in E'. injection E' as <-.
    pose proof (live_length _ _ _ K) as LL. pose proof (po_len _ _ _ K). unfold p_n in LL. cbn [new_emb x_max] in G.
    destruct (live p) as [|z l] eqn:E; cbn [List.length] in LL; [lia|]. apply (C (pr z)). exists y, b, p. split; auto. split; auto.
    rewrite E. left; auto.
  - intros r. split; [intros []|]. intros (z & Cz & _). exfalso. apply (C z Cz).
  - intros lo w (y & b & H & E1 & E2 & Hw & HD). change (x_bl (new_emb max)) with init_bl in H.
    assert (HB : forall n, brev (x_trie (new_emb max)) n = brev init_trie n) by (intros; symmetry; apply same_shape_brev, emb_trie_shape).
    unfold up in E2. rewrite HB in E1, E2. fold (up init_trie y) in E2.
    assert (E : up init_trie y = brev init_trie b + 2 ^ 60).
    { apply init_pairs in H. clear -H. cbn in H. each H; injection H as <- <-; vm_compute; reflexivity. }
    assert (2 ^ w = 2 ^ 60) by lia. apply Z.pow_inj_r in H0; lia.
Qed.

Lemma brel_step h s mp P o : brel s mp P -> store_or_read o ->
  (forall k c c', writes h o = Some (k, c) -> c' <> c -> sm_map mp (k, c') = None) ->
  (forall k c, writes h o = Some (k, c) -> reverse64 k < MAX64) ->
  let P' := P ++ positions h [o] in
  let s' := fst (estep h s o) in
  seen (snd (estep h s o)) = Some (snd (sm_step h mp o)) /\ x_max s' = x_max s /\
  ((brel s' (fst (sm_step h mp o)) P' /\ forall m q, lopsided (x_max s) P' m q -> lopsided (x_max s) P m q) \/
   (exists m q, lopsided (x_max s) P' m q /\
      forall rv, 0 <= rv < W64 -> (pool_of (x_trie s') (find_bucket (x_trie s') rv) = None <-> rv / 2 ^ (m - 1) = 2 * q + 1))).
Proof.
  intros B HO HC HX P' s'. pose proof (br_rel _ _ _ B) as H. pose proof (br_inv _ _ _ B) as I.
  pose proof (estep_agrees h s mp o H HO HC) as AG.
  assert (NDV : forall k c, eload s k c <> Div) by (intros; apply eload_returns; auto).
  assert (RDO : forall (f : Z -> Z -> estate * res out), (forall k c, snd (f k c) <> Div /\ fst (f k c) = s) ->
     forall key, snd (ewith h s key f) <> Div /\ fst (ewith h s key f) = s).
  { intros f Hf key. unfold ewith. destruct (key_to_hash h key) as [[k c]|]; auto. split; [discriminate|auto]. }
  assert (G1 : forall k c, snd (eget s k c) <> Div /\ fst (eget s k c) = s).
  { intros k c. unfold eget. destruct (eload s k c) as [[[n i]|]| | |] eqn:E; cbn [fst snd]; split; auto; try discriminate.
    exfalso. apply (NDV k c E). }
  assert (G2 : forall k c, snd (eget_item s k c) <> Div /\ fst (eget_item s k c) = s).
  { intros k c. unfold eget_item. destruct (eload s k c) as [[[n i]|]| | |] eqn:E; cbn [fst snd]; split; auto; try discriminate.
    exfalso. apply (NDV k c E). }
  assert (KEEP : snd (estep h s o) <> Div /\ fst (estep h s o) = s -> (fst (sm_step h mp o)) = mp -> positions h [o] = [] ->
    seen (snd (estep h s o)) = Some (snd (sm_step h mp o)) /\ x_max s' = x_max s /\
    ((brel s' (fst (sm_step h mp o)) P' /\ forall m q, lopsided (x_max s) P' m q -> lopsided (x_max s) P m q) \/
     (exists m q, lopsided (x_max s) P' m q /\
      forall rv, 0 <= rv < W64 -> (pool_of (x_trie s') (find_bucket (x_trie s') rv) = None <-> rv / 2 ^ (m - 1) = 2 * q + 1)))).
  { intros [ND1 ES] EM EP. destruct AG as [[E _]|[E _]]; [contradiction|]. split; auto. unfold s', P'. rewrite ES, EM, EP, app_nil_r. auto. }
  destruct o as [key v|i|key|k c|key|k c|key|key|]; try contradiction;
  try (apply KEEP; [cbn [estep]; auto; fail|reflexivity|reflexivity]); [|apply KEEP; [split; [discriminate|reflexivity]|reflexivity|reflexivity]].
  clear KEEP RDO G1 G2.
  destruct HO as (x & ->). cbn [estep writes positions flat_map] in *. unfold P', s' in *. clear P' s'.
  destruct (key_to_hash h (KStr x)) as [[k c]|] eqn:EK; [|discriminate].
  destruct (key_range _ _ _ _ EK) as [Hk _]. cbn [app]. set (P' := P ++ [reverse64 k]).
  assert (INP : forall z, In z P' <-> In z P \/ z = reverse64 k).
  { intros z. unfold P'. rewrite in_app_iff. cbn [In]. intuition congruence. }
  destruct (eload_rel s mp k c H Hk) as [E|[(n & j & p & E & HT & HI & EM)|(E & EM)]]; [exfalso; apply (NDV k c E)| |].
  - assert (RP : In (reverse64 k) P).
    { apply (br_pos _ _ _ B). destruct (hit_at _ _ _ _ _ _ HT) as [HX1 _]. eexists. split; [exact HX1|reflexivity]. }
    assert (PE : forall z, In z P' <-> In z P) by (intros z; rewrite INP; intuition congruence).
    assert (CE : forall a q, cnt a q P' = cnt a q P) by (intros a q; apply Z.le_antisymm; apply cnt_le; intros z Hz Ez; split; auto; apply PE; auto).
    assert (LE : forall a q, lopsided (x_max s) P' a q -> lopsided (x_max s) P a q).
    { intros a q (L1 & L2 & L3). fold (cnt a q P') in L2. rewrite CE in L2. split; auto. split; auto.
      rewrite !in_block_nil in *. destruct L3 as [L3|L3]; [left|right]; intros z Hz; apply L3; apply PE; auto. }
    assert (ES : eset h s (KStr x) v = eupdate s n j v) by (unfold eset; rewrite EK, E; auto).
    rewrite ES in *. unfold eupdate in *. rewrite HI in *.
    destruct (set_value KSample (sl_val (slot_at p j)) v) as [[v' ok]|].
    + cbn [fst snd] in *. destruct AG as [[AG _]|[AG1 AG2]]; [discriminate|]. split; auto.
      destruct (upd_item_spec s _ k c n j p (set_sval v') I HT ltac:(reflexivity)) as (I' & M' & L' & B' & R' & P1 & P2 & C' & N').
      split; [auto|]. left. split; auto. constructor; auto.
      * rewrite B'. auto.
      * intros y0 b0 p0 A0 Q0. rewrite B' in A0. rewrite M'.
        destruct (nid_eq_dec b0 n) as [->|Nb]; [|rewrite P2 in Q0 by auto; apply (br_fits _ _ _ B y0 b0 p0 A0 Q0)].
        rewrite P1 in Q0. injection Q0 as <-. destruct HT as (y & Hy & HP & K & Hj & _).
        cbn [upd_slot p_len]. apply (br_fits _ _ _ B y n p Hy HP).
      * intros r. rewrite PE, (br_pos _ _ _ B). split; intros (z & Cz & Ez).
        -- destruct (Z.eq_dec (pr_rev z) (reverse64 k)) as [EQ|NE]; [|exists z; split; auto; apply C'; auto].
           exists (pr (set_sval v' (slot_at p j))). split; [apply C'; auto|]. destruct HT as (_ & _ & _ & _ & _ & Hr & _).
           cbn [pr_rev pr fst set_sval sl_rev]. congruence.
        -- apply C' in Cz as [->|[Cz _]]; [|eauto]. destruct (hit_at _ _ _ _ _ _ HT) as [HX1 _]. eexists. split; [exact HX1|].
           destruct HT as (_ & _ & _ & _ & _ & Hr & _). cbn [pr_rev pr fst set_sval sl_rev] in *. congruence.
      * intros lo w (y0 & b0 & Q1 & Q2 & Q3 & Q4). rewrite B' in Q1. unfold up in Q3. rewrite R' in Q2, Q3. fold (up (x_trie s) y0) in Q3.
        rewrite CE, M'. apply (br_str _ _ _ B). exists y0, b0. auto.
    + cbn [fst snd] in *. destruct AG as [[AG _]|[AG1 AG2]]; [discriminate|]. split; auto. split; auto. left. split; auto.
      constructor; auto; try apply B.
      * intros r. rewrite PE. apply B.
      * intros lo w. rewrite CE. apply B.
  - assert (NC : forall c', sm_map mp (k, c') = None).
    { intros c'. destruct (Z.eq_dec c' c) as [->|N]; auto. apply (HC k c); auto. }
    assert (FR : forall z, cont s z -> pr_rev z <> reverse64 k).
    { intros [[[[r cf] d] ky] vl] HZ Er. cbn [pr_rev fst] in Er. subst r.
      assert (D0 : d = false).
      { destruct HZ as (y & b & p & Hy & HP & Hin). apply in_map_iff in Hin as (sl & Es & Hs).
        pose proof (er_nd _ _ H y b p Hy HP sl Hs) as D. unfold pr in Es. congruence. }
      subst d. assert (EX' : sm_map mp (k, cf) = Some (mkBd KSample ky vl)) by (apply (er_at _ _ H); eauto).
      rewrite NC in EX'. discriminate. }
    destruct (eset_bal h s x v k c I (er_nd _ _ H) (er_max _ _ H) (br_fits _ _ _ B) EK E FR (HX k c eq_refl))
      as (s' & y & b & p & m & ES & N' & M' & L' & C' & Hy & HP & R & HU & Hm & HD & CASES).
    rewrite ES in *. cbn [fst snd] in *. destruct AG as [[AG _]|[AG1 AG2]]; [discriminate|]. split; auto. split; auto.
    set (r := reverse64 k) in *. set (lo := brev (x_trie s) b) in *. set (q := lo / 2 ^ m).
    assert (RQ : r / 2 ^ m = q) by (apply block_iff; auto; lia).
    assert (NR : ~ In r P) by (intros Hin; apply (br_pos _ _ _ B) in Hin as (z & Cz & Ez); apply (FR z Cz Ez)).
    pose proof (bucket_cnt s mp P y b p m B Hy HP HU Hm HD) as CN. fold lo in CN. fold q in CN.
    destruct (br_str _ _ _ B lo m) as [M60 PAR]; [exists y, b; auto|]. fold q in PAR.
    pose proof (br_fits _ _ _ B y b p Hy HP) as FT.
    assert (CN' : cnt m q P' = p_len p + 1).
    { pose proof (cnt_snoc m q P r). fold P' in H0. assert (cnt m q P < cnt m q P'); [|lia].
      apply (cnt_lt _ _ _ _ _ _ r); auto; [intros z Hz Ez; split; auto; apply INP; auto|apply INP; auto|tauto]. }
    assert (POS : forall z0, In z0 P' <-> exists z, cont s' z /\ pr_rev z = z0).
    { intros z0. rewrite INP, (br_pos _ _ _ B). split.
      - intros [(z & Cz & Ez)| ->]; [exists z; split; auto; apply C'; auto|]. eexists. split; [apply C'; left; reflexivity|reflexivity].
      - intros (z & Cz & Ez). apply C' in Cz as [->|Cz]; [right; auto|left; eauto]. }
    assert (MONO : forall a u, cnt a u P <= cnt a u P') by (intros; apply cnt_le; intros z Hz Ez; split; auto; apply INP; auto).
    assert (PW : 1 <= m -> 2 ^ m = 2 * 2 ^ (m - 1)) by (intros; replace m with (Z.succ (m - 1)) at 1 by lia; apply Z.pow_succ_r; lia).
    assert (BLW : 1 <= m -> (exists r0, lo <= r0 < lo + 2 ^ (m - 1) /\ (r0 = r \/ exists z, cont s z /\ pr_rev z = r0)) <-> in_block (m - 1) (2 * q) P' <> []).
    { intros Hm1. pose proof (half_iff) as HI. split.
      - intros (r0 & R0 & Z0) E0. rewrite in_block_nil in E0. apply (E0 r0).
        + apply INP. rewrite (br_pos _ _ _ B). tauto.
        + rewrite <- (Z.add_0_r (2 * q)). apply half_iff; auto; lia.
      - intros NE. destruct (in_block (m - 1) (2 * q) P') as [|r0 l0] eqn:E0; [congruence|].
        assert (X : In r0 (in_block (m - 1) (2 * q) P')) by (rewrite E0; left; auto). apply in_block_in in X as [X1 X2].
        exists r0. rewrite <- (Z.add_0_r (2 * q)) in X2. apply half_iff in X2; auto; try lia.
        split; [lia|]. apply INP in X1. rewrite (br_pos _ _ _ B) in X1. tauto. }
    assert (ABV : 1 <= m -> (exists r0, lo + 2 ^ (m - 1) <= r0 < up (x_trie s) y /\ (r0 = r \/ exists z, cont s z /\ pr_rev z = r0)) <-> in_block (m - 1) (2 * q + 1) P' <> []).
    { intros Hm1. specialize (PW Hm1). split.
      - intros (r0 & R0 & Z0) E0. rewrite in_block_nil in E0. apply (E0 r0).
        + apply INP. rewrite (br_pos _ _ _ B). tauto.
        + apply half_iff; auto; lia.
      - intros NE. destruct (in_block (m - 1) (2 * q + 1) P') as [|r0 l0] eqn:E0; [congruence|].
        assert (X : In r0 (in_block (m - 1) (2 * q + 1) P')) by (rewrite E0; left; auto). apply in_block_in in X as [X1 X2].
        exists r0. apply half_iff in X2; auto; try lia.
        split; [lia|]. apply INP in X1. rewrite (br_pos _ _ _ B) in X1. tauto. }
    cbv zeta in CASES. destruct CASES as [(LT & I' & F' & S')|[(EQ & M5 & BE & AB & I' & F' & S')|(EQ & M5 & ODD & DEAD)]].
    + left. split.
      * constructor; auto. intros l w Q. apply S' in Q. destruct (br_str _ _ _ B l w Q) as [W1 W2]. split; auto. rewrite M'.
        destruct W2 as [W2|W2]; [left; auto|right]. specialize (MONO (w + 1) (l / 2 ^ w / 2)). lia.
      * intros m' q' L. destruct (lop_new P r m q (x_max s) ltac:(lia) RQ ltac:(lia) PAR m' q' L) as [|(_ & _ & Q & _)]; auto. lia.
    + apply BLW in BE; [|lia]. apply ABV in AB; [|lia]. left. split.
      * constructor; auto. intros l w Q. rewrite M'. destruct (S' l w Q) as [Q'|(-> & Q')].
        -- destruct (br_str _ _ _ B l w Q') as [W1 W2]. split; auto.
           destruct W2 as [W2|W2]; [left; auto|right]. specialize (MONO (w + 1) (l / 2 ^ w / 2)). lia.
        -- split; [lia|]. right. replace (m - 1 + 1) with m by lia.
           assert (l / 2 ^ (m - 1) / 2 = q); [|rewrite H0, CN'; lia].
           assert (PP : 0 < 2 ^ (m - 1)) by (apply Z.pow_pos_nonneg; lia). specialize (PW ltac:(lia)).
           assert (l / 2 ^ m = q). { apply block_iff; auto. destruct Q' as [->| ->]; lia. }
           rewrite (block_up l m (m - 1)) in H0 by lia. replace (m - (m - 1)) with 1 in H0 by lia. auto.
      * intros m' q' L. apply (lop_even P r m q (x_max s) ltac:(lia) RQ ltac:(lia) PAR m' q' ltac:(lia) L BE AB).
    + right. exists m, q. split.
      * split; [lia|]. split; [fold (cnt m q P'); lia|].
        destruct ODD as [ODD|ODD].
        -- left. destruct (list_eq_dec Z.eq_dec (in_block (m - 1) (2 * q) P') []) as [|NE]; auto. exfalso. apply ODD, BLW; auto; lia.
        -- right. destruct (list_eq_dec Z.eq_dec (in_block (m - 1) (2 * q + 1) P') []) as [|NE]; auto. exfalso. apply ODD, ABV; auto; lia.
      * intros rv Hrv. rewrite (DEAD rv Hrv). rewrite HU. specialize (PW ltac:(lia)).
        pose proof (half_iff rv m lo 1 ltac:(lia) HD ltac:(lia)) as HI. fold q in HI. rewrite <- HI. lia.
Qed.
