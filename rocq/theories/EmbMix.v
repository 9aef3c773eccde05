(** Sets between Deletes and Purges in the embedded mode: a new key in a bucket in which nothing was deleted. *)
From Verif Require Import Base BaseProofs Util UtilProofs Bucket TrieProofs TrieInv TrieGrow MapModel ItemProofs MapInv MapSplit
  MapInit Spec MapRefine EmbModel EmbPool EmbTrie EmbInv EmbSplit EmbSpec EmbRefine EmbDel EmbFull PurgeSpec EmbPurge MixSpec.
From Coq Require Import ZifyBool Sorted.
Local Open Scope Z_scope.
Local Open Scope list_scope.
Local Opaque reverse64 level_of base find_bucket.

(** * A new key, when its bucket holds no marked slot *)
Lemma eset_loc h s xl x v k conf : einv s xl -> 16 <= x_max s -> key_to_hash h (KStr x) = Some (k, conf) ->
  eload s k conf = Ret None -> (forall z, cont s z -> pr_rev z <> reverse64 k) ->
  (forall y b p, adj (x_bl s) y b -> b_pool (bget (x_trie s) b) = Some p -> brev (x_trie s) b <= reverse64 k < up (x_trie s) y -> nodel p) ->
  exists s' xl' A y b B N, eset h s (KStr x) v = (s', Ret (RBool true)) /\ einv s' xl' /\
    x_max s' = x_max s /\ x_len s' = x_len s + 1 /\
    (forall z, cont s' z <-> (z = (reverse64 k, conf, false, KStr x, v) \/ cont s z)) /\
    x_bl s = A ++ y :: b :: B /\ x_bl s' = A ++ y :: N ++ b :: B /\ brev (x_trie s) b <= reverse64 k < up (x_trie s) y /\
    (forall n, In n (x_bl s) -> brev (x_trie s') n = brev (x_trie s) n) /\
    (forall n, In n N -> brev (x_trie s) b < brev (x_trie s') n < up (x_trie s) y).
Proof.
  intros I HM HK EL HF HND. pose proof (reverse64_range k) as R.
  destruct (eload_spec s xl k conf I) as [E|[(n & j & p & E & _)|(_ & y & b & p & Hy & Eb & Ri & HP & K & _)]];
    [congruence|congruence|].
  unfold eset. rewrite HK, EL. cbv zeta. unfold pool_of.
  assert (BB : base (x_trie s) (base (x_trie s) (find_bucket (x_trie s) (reverse64 k))) = b).
  { rewrite <- Eb. apply (base_linked _ xl); [apply (ei_trie _ _ I)|]. apply (ei_adj_x s xl I _ _ Hy). }
  rewrite BB, HP. rewrite <- Eb.
  assert (NP : forall sl, In sl (live p) -> sl_rev sl <> reverse64 k).
  { intros sl Hs E. apply (HF (pr sl)); [|exact E]. exists y, b, p. split; auto. split; auto. apply in_map; auto. }
  pose proof (HND y b p Hy HP Ri) as ND.
  destruct (get_with_fn_ok p _ _ (reverse64 k) K ND Ri NP) as (p1 & i & l1 & l2 & EG & ES & EM & EN & HL1 & HL2 & HU).
  rewrite EG, ES. cbn [zero_slot sl_rev sl_conf sl_val sl_del sl_linked negb andb]. rewrite !Z.eqb_refl.
  destruct (set_value_zero v) as (ok & ->).
  set (fl := fun z : slot => mkS (reverse64 k) conf (sl_del z) (KStr x) v true).
  destruct (HU fl eq_refl) as (K1 & EM1 & ND1). specialize (ND1 ND eq_refl).
  set (p2 := upd_slot p1 i fl) in *.
  unfold set_bpool, set_xtrie. cbn [x_trie x_bl x_lv x_len x_max].
  set (t' := tupd (x_trie s) b (fun z => set_pool z (Some p2))).
  assert (SS : same_shape (x_trie s) t') by (apply same_shape_tupd; intros; reflexivity).
  assert (GN : b_pool (bget t' b) = Some p2) by (unfold t', tupd; rewrite bget_tset, nid_eqb_refl; reflexivity).
  assert (GO : forall m, m <> b -> b_pool (bget t' m) = b_pool (bget (x_trie s) m)).
  { intros m Hm. unfold t', tupd. rewrite bget_tset. destruct (nid_eqb b m) eqn:E; auto.
    apply nid_eqb_eq in E. congruence. }
  assert (HB : forall m, brev t' m = brev (x_trie s) m) by (intros; symmetry; apply same_shape_brev; auto).
  destruct (einv_pool s xl t' y b p p2 I SS Hy HP GN GO K1 (x_lv s) (x_len s + 1)) as (I' & C' & D').
  set (s2 := mkX t' (x_bl s) (x_lv s) (x_len s + 1) (x_max s)) in *.
  assert (CC : forall z, cont s2 z <-> (z = (reverse64 k, conf, false, KStr x, v) \/ cont s z)).
  { intros z. rewrite C', EM1, EM, !in_app_iff. cbn [In].
    assert (PC : In z l1 \/ In z l2 -> cont s z).
    { intros H. exists y, b, p. split; auto. split; auto. rewrite EM. apply in_or_app; auto. }
    change (pr (fl zero_slot)) with (reverse64 k, conf, false, KStr x, v).
    split.
    - intros [[H|[<-|H]]|[H _]]; auto.
    - intros [->|H]; auto. destruct (in_dec prj_dec z l1); auto. destruct (in_dec prj_dec z l2); auto. right. tauto. }
  destruct Hy as (A & B & EAB). assert (Hy : adj (x_bl s) y b) by (exists A, B; auto).
  assert (UY : up t' y = up (x_trie s) y) by (unfold up; rewrite HB; auto).
  assert (FIN : exists s3 xl' N, (if (reverse64 k <? MAX64) && (x_max s <? p_len p1) then make_bucket2 64 s2 b else Ret s2) = Ret s3 /\
    einv s3 xl' /\ (forall z, cont s3 z <-> cont s2 z) /\ x_len s3 = x_len s2 /\ x_max s3 = x_max s2 /\
    x_bl s3 = A ++ y :: N ++ b :: B /\ (forall n, In n (x_bl s) -> brev (x_trie s3) n = brev (x_trie s) n) /\
    (forall n, In n N -> brev (x_trie s) b < brev (x_trie s3) n < up (x_trie s) y)).
  { destruct ((reverse64 k <? MAX64) && (x_max s <? p_len p1)) eqn:EC.
    - apply andb_true_iff in EC as [_ EC]. apply Z.ltb_lt in EC.
      assert (Hy2 : adj (x_bl s2) y b) by exact Hy.
      destruct (gap_pow s2 xl y b I' Hy2) as (m & MU & M0).
      destruct (make_bucket2_loc 64 s2 xl A y b B p2 m I' ND1 (narrow_strict _ _ _ _ K1 HM) EAB GN EC MU M0)
        as (s3 & xl' & N & E3 & I3 & _ & C3 & L3 & M3 & _ & B3 & R3 & _ & R4).
      cbn [s2 x_trie] in R3, R4. rewrite HB, UY in R4.
      exists s3, xl', N. split; auto. split; auto. split; auto. split; auto. split; auto. split; auto. split; auto.
      intros n Hn. rewrite R3 by exact Hn. apply HB.
    - exists s2, xl, []. split; auto. split; auto. split; [tauto|]. split; auto. split; auto. split; [exact EAB|]. split; [intros; apply HB|intros n []]. }
  destruct FIN as (s3 & xl' & N & E3 & I3 & C3 & L3 & M3 & B3 & R3 & R4).
  rewrite E3.
  assert (SS4 : same_shape (x_trie s3) (tupd (x_trie s3) b (fun z => set_blen z (b_len z + 1)))) by (apply same_shape_tupd; intros; reflexivity).
  destruct (einv_same s3 xl' (tupd (x_trie s3) b (fun z => set_blen z (b_len z + 1))) (x_lv s3) (x_len s3) I3 SS4) as (I4 & C4 & _).
  { intros m. unfold tupd. rewrite bget_tset. destruct (nid_eqb b m) eqn:E; auto. apply nid_eqb_eq in E. subst; auto. }
  eexists _, xl', A, y, b, B, N. split; [reflexivity|]. split; [exact I4|]. split; [exact M3|]. split; [exact L3|].
  split; [intros z; rewrite C4, C3; apply CC|]. cbn [x_bl x_trie]. split; auto. split; auto. split; auto.
  split; intros n Hn; rewrite <- (same_shape_brev _ _ n SS4); auto.
Qed.

(** * Two states whose pools agree on what is used *)
Definition fits (p : pool) : Prop := (p_n p <= List.length (p_slots p))%nat.
Definition osame (e : Prop) (a b : option pool) : Prop :=
  match a, b with
  | Some p, Some q => used p q /\ fits p /\ (e -> p = q)
  | None, None => True
  | _, _ => False
  end.
Definition tq (E : nid -> Prop) (t t' : trie) : Prop := same_shape t t' /\ forall n, osame (E n) (b_pool (bget t n)) (b_pool (bget t' n)).
Definition sq (E : nid -> Prop) (s s' : estate) : Prop := tq E (x_trie s) (x_trie s') /\ x_bl s = x_bl s' /\ x_len s = x_len s' /\ x_max s = x_max s'.
Lemma osame_refl e p : fits p -> osame e (Some p) (Some p).
Proof. intros H. split; [apply used_refl|auto]. Qed.
Lemma tq_tset E t t' n b b' : tq E t t' -> shape b = shape b' -> osame (E n) (b_pool b) (b_pool b') -> tq E (tset t n b) (tset t' n b').
Proof. intros [S P] HS HP. split; intros m; rewrite !bget_tset; destruct (nid_eqb n m) eqn:EQ; auto. apply nid_eqb_eq in EQ. subst m. auto. Qed.
Lemma tq_shape E t t' n : tq E t t' -> shape (bget t n) = shape (bget t' n).
Proof. intros [S _]. apply S. Qed.
Lemma tq_down E t t' lv lv' l n : tq E t t' -> tq E (fst (ensure_down t lv l n)) (fst (ensure_down t' lv' l n)).
Proof.
  intros T. unfold ensure_down. rewrite <- (shape_down _ _ (tq_shape E _ _ n T)). destruct (_ =? 0); cbn [fst]; auto.
  apply tq_tset.
  - apply tq_tset; auto; [|exact I]. unfold new_child0, shape. cbn [b_level b_rev b_down b_parent].
    rewrite (shape_level _ _ (tq_shape E _ _ n T)). unfold brev. rewrite (shape_rev _ _ (tq_shape E _ _ n T)). auto.
  - unfold set_down, shape. cbn [b_level b_rev b_down b_parent]. rewrite (shape_level _ _ (tq_shape E _ _ n T)), (shape_rev _ _ (tq_shape E _ _ n T)), (shape_parent _ _ (tq_shape E _ _ n T)). auto.
  - apply T.
Qed.
Lemma tq_bfpe E : forall f t t' lv lv' l lev r n, tq E t t' ->
  tq E (fst (fst (bfpe_loop f t lv l lev r n))) (fst (fst (bfpe_loop f t' lv' l lev r n))) /\ snd (bfpe_loop f t lv l lev r n) = snd (bfpe_loop f t' lv' l lev r n).
Proof.
  induction f as [|f IH]; intros t t' lv lv' l lev r n T; cbn [bfpe_loop]; auto. destruct (lev <? l); auto.
  pose proof (tq_down E t t' lv lv' l n T) as TD. destruct (ensure_down t lv l n) as [t1 lv1], (ensure_down t' lv' l n) as [t1' lv1']. cbn [fst] in TD.
  cbv zeta. rewrite <- (shape_down _ _ (tq_shape E _ _ n TD)).
  set (t2 := if b_down (bget t1 n) <=? nib r l then tupd t1 n (fun b => set_down b (nib r l + 1)) else t1).
  set (t2' := if b_down (bget t1 n) <=? nib r l then tupd t1' n (fun b => set_down b (nib r l + 1)) else t1').
  assert (T2 : tq E t2 t2').
  { unfold t2, t2'. destruct (_ <=? _); auto. apply tq_tset; auto; [|apply TD]. unfold set_down, shape. cbn [b_level b_rev b_down b_parent].
    rewrite (shape_level _ _ (tq_shape E _ _ n TD)), (shape_rev _ _ (tq_shape E _ _ n TD)), (shape_parent _ _ (tq_shape E _ _ n TD)). auto. }
  unfold lvl. rewrite <- (shape_level _ _ (tq_shape E _ _ (child n (nib r l)) T2)). destruct (_ =? 0); cbn [fst snd]; [|apply IH; auto].
  split; auto. apply tq_tset; auto; [|exact I]. unfold new_child, shape. cbn [b_level b_rev b_down b_parent].
  unfold brev. rewrite (shape_level _ _ (tq_shape E _ _ n T2)), (shape_rev _ _ (tq_shape E _ _ n T2)). auto.
Qed.
Lemma tq_bfpe2 E t t' lv lv' r : tq E t t' ->
  match bucket_from_pool_embedded t lv r, bucket_from_pool_embedded t' lv' r with
  | Some (t1, _, n), Some (t1', _, n') => tq E t1 t1' /\ n = n'
  | None, None => True
  | _, _ => False
  end.
Proof.
  intros T. unfold bucket_from_pool_embedded. cbv zeta. destruct (_ =? 0); auto.
  match goal with |- context [bfpe_loop ?f t lv ?l ?lev ?rr ?n] => pose proof (tq_bfpe E f t t' lv lv' l lev rr n T) as [A B] end.
  destruct (bfpe_loop _ t lv _ _ _ _) as [[t1 lv1] n1], (bfpe_loop _ t' lv' _ _ _ _) as [[t1' lv1'] n1']. cbn [fst snd] in *. auto.
Qed.
Lemma tq_weaken (E E' : nid -> Prop) t t' : (forall n, E' n -> E n) -> tq E t t' -> tq E' t t'.
Proof.
  intros H [S P]. split; auto. intros n. specialize (P n). unfold osame in *. destruct (b_pool (bget t n)), (b_pool (bget t' n)); auto. destruct P as (A & B & C). auto.
Qed.
Lemma tq_blen E t t' n g g' : tq E t t' -> tq E (tupd t n (fun b => set_blen b (g b))) (tupd t' n (fun b => set_blen b (g' b))).
Proof.
  intros T. unfold tupd. apply tq_tset; auto; [|apply T]. unfold set_blen, shape. cbn [b_level b_rev b_down b_parent].
  rewrite (shape_level _ _ (tq_shape E _ _ n T)), (shape_rev _ _ (tq_shape E _ _ n T)), (shape_parent _ _ (tq_shape E _ _ n T)), (shape_down _ _ (tq_shape E _ _ n T)). auto.
Qed.
Lemma tq_pool (E E' : nid -> Prop) t t' n (fb fb' : bucket -> bucket) q : tq E t t' -> (forall m, m <> n -> E' m -> E m) -> fits q ->
  (forall b, shape (fb b) = shape b) -> (forall b, shape (fb' b) = shape b) -> (forall b, b_pool (fb b) = Some q) -> (forall b, b_pool (fb' b) = Some q) ->
  tq E' (tupd t n fb) (tupd t' n fb').
Proof.
  intros T HE F S1 S2 P1 P2. split.
  - intros m. unfold tupd. rewrite !bget_tset. destruct (nid_eqb n m); [rewrite S1, S2|]; apply T.
  - intros m. unfold tupd. rewrite !bget_tset. destruct (nid_eqb n m) eqn:EQ.
    + rewrite P1, P2. apply osame_refl. auto.
    + pose proof (proj2 T m) as X. unfold osame in *. destruct (b_pool (bget t m)), (b_pool (bget t' m)); auto. destruct X as (A & B & C). split; auto. split; auto. intros H. apply C, HE; auto. intros ->. rewrite nid_eqb_refl in EQ. discriminate.
Qed.
Lemma fits_lo p i : (i <= List.length (p_slots p))%nat -> fits (split_lo p i).
Proof. intros H. unfold fits, split_lo, p_n. cbn [p_len p_slots]. rewrite firstn_length. lia. Qed.
Lemma fits_hi p i : fits p -> fits (split_hi p i).
Proof. unfold fits, split_hi, p_n. cbn [p_len p_slots]. intros H. rewrite skipn_length. lia. Qed.
Lemma find_idx_le p r i : fits p -> find_idx p r = Some i -> (i <= List.length (p_slots p))%nat.
Proof. intros F E. unfold find_idx in E. apply first_ge_range in E. rewrite firstn_length in E. unfold fits in F. lia. Qed.

Definition rsim (E : nid -> Prop) (r r' : res estate) : Prop :=
  match r, r' with
  | Ret s, Ret s' => sq E s s'
  | Div, Div | Undef, Undef | Pan, Pan => True
  | _, _ => False
  end.
Lemma make_sim : forall f (E : nid -> Prop) s s' b, sq E s s' -> E b -> rsim E (make_bucket2 f s b) (make_bucket2 f s' b).
Proof.
  induction f as [|f IH]; intros E s s' b SQ Eb; [exact I|]. rewrite !find_idx_shape. cbv zeta. destruct SQ as (T & BL & LN & MX).
  assert (MR : mid_rev (x_trie s) (prev_as_b (x_bl s) b) b = mid_rev (x_trie s') (prev_as_b (x_bl s') b) b).
  { unfold mid_rev. rewrite <- BL, !(same_shape_brev _ _ _ (proj1 T)). auto. }
  rewrite <- MR. set (nr := mid_rev _ _ _). pose proof (tq_bfpe2 E _ _ (x_lv s) (x_lv s') nr T) as TB.
  destruct (bucket_from_pool_embedded (x_trie s) (x_lv s) nr) as [[[t1 lv1] nb]|], (bucket_from_pool_embedded (x_trie s') (x_lv s') nr) as [[[t1' lv1'] nb']|]; try contradiction; [|split; auto].
  destruct TB as [T1 <-]. rewrite <- BL, <- LN, <- MX. destruct (in_blist (x_bl s) nb); [exact I|].
  rewrite <- (same_shape_brev _ _ nb (proj1 T1)). assert (LV : lvl t1' nb = lvl t1 nb) by (unfold lvl; rewrite (shape_level _ _ (tq_shape E _ _ nb T1)); auto). rewrite LV.
  assert (S1 : sq E (mkX t1 (x_bl s) lv1 (x_len s) (x_max s)) (mkX t1' (x_bl s) lv1' (x_len s) (x_max s))) by (split; [exact T1|auto]).
  destruct ((brev t1 nb =? 0) && (1 <? lvl t1 nb)); [exact S1|].
  pose proof (proj2 T1 b) as PB. unfold osame in PB. destruct (b_pool (bget t1 b)) as [p|], (b_pool (bget t1' b)) as [p'|]; try contradiction; [|exact I].
  destruct PB as (_ & FP & EP). specialize (EP Eb). subst p'.
  destruct (find_idx p nr) as [[|i]|] eqn:FI; try exact S1. pose proof (find_idx_le p nr (S i) FP FI) as LI.
  set (j := S i) in *.
  set (t2 := tupd t1 nb (fun x => set_blen (set_pool x (Some (split_hi p j))) (p_len p - Z.of_nat j))).
  set (t2' := tupd t1' nb (fun x => set_blen (set_pool x (Some (split_hi p j))) (p_len p - Z.of_nat j))).
  set (E2 := fun n => E n \/ n = nb).
  assert (T2 : tq E2 t2 t2'). { apply (tq_pool E E2 t1 t1' nb _ _ (split_hi p j)); auto. intros m Hm [H|H]; [auto|contradiction]. apply fits_hi; auto. }
  set (t3 := tupd t2 b (fun x => set_blen (set_pool x (Some (split_lo p j))) (Z.of_nat j))).
  set (t3' := tupd t2' b (fun x => set_blen (set_pool x (Some (split_lo p j))) (Z.of_nat j))).
  assert (T3 : tq E2 t3 t3'). { apply (tq_pool E2 E2 t2 t2' b _ _ (split_lo p j)); auto. apply fits_lo; auto. }
  rewrite <- (below_shape t3 t3' _ (proj1 T3)), <- (same_shape_brev _ _ nb (proj1 T3)).
  set (bl := match bucket_below t3 (brev t3 nb) (x_bl s) with Some n => ins_before n nb (x_bl s) | None => x_bl s end).
  match goal with |- context [mkX t3 bl ?a _ _] => set (lva := a) end. match goal with |- context [mkX t3' bl ?a _ _] => set (lvb := a) end.
  assert (S3 : sq E2 (mkX t3 bl lva (x_len s) (x_max s)) (mkX t3' bl lvb (x_len s) (x_max s))) by (split; [exact T3|auto]).
  assert (W : forall r r', rsim E2 r r' -> rsim E r r').
  { intros [?| | |] [?| | |] H; auto. destruct H as (H & H'). split; auto. apply (tq_weaken E2); auto. intros n Hn. left. auto. }
  destruct (x_max s <? p_len p - Z.of_nat j); [apply W, IH; auto; right; auto|]. destruct (x_max s <? Z.of_nat j); [apply W, IH; auto; left; auto|].
  apply (W (Ret _) (Ret _)). exact S3.
Qed.

(** * Positions and buckets *)
Lemma ext_floor t bl xl : ext t bl xl -> forall n, In n xl -> exists c, In c bl /\ brev t c <= brev t n.
Proof.
  induction 1 as [c|x c m ds bl xl M E IH]; intros n Hn; [exists n; split; auto; lia|]. destruct Hn as [<-|Hn]; [exists x; split; [left; auto|lia]|].
  apply in_app_or in Hn as [Hn|Hn].
  - destruct M as (_ & _ & _ & [->|(d & -> & _ & D & M1)]); [destruct Hn|]. destruct Hn as [<-|[]]. exists c. split; [right; left; auto|]. pose proof (Z.pow_pos_nonneg 2 (m - 1)). lia.
  - destruct (IH n Hn) as (c' & Hc & L). exists c'. split; [right; auto|auto].
Qed.
Lemma covered_list t r : forall l x, r < up t x -> (forall c, In c l -> c <> bmax) -> (exists c, In c l /\ brev t c <= r) -> exists y c, adj (x :: l) y c /\ brev t c <= r < up t y.
Proof.
  induction l as [|z l IH]; intros x Hx NB (c & Hc & L); [destruct Hc|]. destruct (Z_le_gt_dec (brev t z) r) as [Z1|Z1].
  - exists x, z. split; [exists [], l; auto|lia].
  - destruct (IH z) as (y & c' & A & B).
    + unfold up. destruct (nid_eqb z bmax) eqn:Ez; [apply nid_eqb_eq in Ez; exfalso; apply (NB z); auto; left; auto|lia].
    + intros c' Hc'. apply NB. right; auto.
    + destruct Hc as [->|Hc]; [lia|]. eauto.
    + exists y, c'. split; auto. apply adj_cons. auto.
Qed.
Lemma in_some_bucket s xl r : einv s xl -> 0 <= r < W64 -> exists y c p, adj (x_bl s) y c /\ brev (x_trie s) c <= r < up (x_trie s) y /\ b_pool (bget (x_trie s) c) = Some p /\ pool_ok p (brev (x_trie s) c) (up (x_trie s) y).
Proof.
  intros I Hr. destruct (ei_bl_head s xl I) as (b & E).
  assert (P0 : TrieInv.present (x_trie s) (1, 0)) by (pose proof (tk_top _ _ (ei_trie _ _ I) 0 ltac:(lia)) as T; rewrite top_eq in T; exact T).
  assert (N0 : (1, 0) <> bmax) by (unfold bmax; congruence).
  assert (X0 : In (1, 0) xl) by (destruct (tk_link _ _ (ei_trie _ _ I) 1 0 P0 N0) as [(H & _)|(_ & _ & H)]; [lia|auto]).
  destruct (tk_node _ _ (ei_trie _ _ I) 1 0 P0 N0) as (_ & _ & _ & _ & R0 & _).
  destruct (ext_floor _ _ _ (ei_ext _ _ I) (1, 0) X0) as (c0 & Hc0 & L0). rewrite R0 in L0.
  pose proof (ei_nodup s xl I) as ND. rewrite E in ND, Hc0. apply NoDup_cons_iff in ND as [NB _].
  destruct (covered_list (x_trie s) r b bmax) as (y & c & A & B).
  - unfold up. rewrite nid_eqb_refl. lia.
  - intros c Hc ->. contradiction.
  - destruct Hc0 as [<-|Hc0]; [|exists c0; split; auto; lia]. exfalso. destruct (tk_bmax _ _ (ei_trie _ _ I)) as (_ & BM & _). rewrite BM, MAX64_val in L0. lia.
  - rewrite <- E in A. destruct (ei_pool _ _ I y c A) as (p & HP & K). exists y, c, p. auto.
Qed.

(** * The list and the contents *)
Definition holds (s : estate) (l : list ent) : Prop :=
  forall k c b d, 0 <= k < W64 -> (In (mkE (k, c) b d) l <-> exists key v, b = mkBd KSample key v /\ cont s (reverse64 k, c, d, key, v)).
Lemma prel_holds bs n s s2 xl l : prel bs n s s2 xl l -> holds s2 l.
Proof.
  intros R k c b d Hk. pose proof (pl_inv _ _ _ _ _ _ R) as I. pose proof (reverse64_range k) as RK.
  destruct (in_some_bucket s2 xl (reverse64 k) I RK) as (y & nn & p & Hy & Rg & HP & K).
  pose proof (pl_bk _ _ _ _ _ _ R y nn p (reverse64 k) Hy HP Rg) as BK.
  assert (X : In (mkE (k, c) b d) l <-> In (mkE (k, c) b d) (map ent_of (live p))).
  { rewrite <- BK. unfold bucket_of. rewrite filter_In. unfold e_pos. cbn [e_hash fst]. rewrite together_refl. tauto. }
  rewrite X. clear X. split.
  - intros H. apply in_map_iff in H as (sl & E & Hs). destruct (in_live _ _ _ _ K Hs) as (j & Hj & <-).
    destruct (slot_range s2 xl y nn p j I Hy HP Hj) as [RR _]. unfold ent_of in E. injection E as E1 E2 E3 E4.
    exists (sl_key (slot_at p j)), (sl_val (slot_at p j)). split; auto. exists y, nn, p. split; auto. split; auto. apply in_map_iff. exists (slot_at p j). split; auto.
    unfold pr. rewrite <- E1, reverse64_involutive by auto. rewrite E2, E4. auto.
  - intros (key & v & -> & HC). apply (cont_here s2 xl I (reverse64 k) y nn p) in HC; auto. apply in_map_iff in HC as (sl & E & Hs). apply in_map_iff. exists sl. split; auto.
    unfold pr in E. injection E as E1 E2 E3 E4 E5. unfold ent_of. rewrite E1, E2, E3, E4, E5, reverse64_involutive by auto. auto.
Qed.
Lemma holds_prel n s s2 xl l : einv s2 xl -> pools_eq s s2 -> x_len s = n -> StronglySorted Z.lt (map e_pos l) -> holds s2 l -> (forall e, In e l -> 0 <= fst (e_hash e) < W64) ->
  (forall y c p, adj (x_bl s2) y c -> b_pool (bget (x_trie s) c) = Some p -> fits p) -> prel (edump s2) n s s2 xl l.
Proof.
  intros I PE LN SO HL HH CAP. constructor; auto.
  - intros y c p r Hy HP Hr. destruct (ei_pool _ _ I y c Hy) as (q & EQ & K). rewrite HP in EQ. injection EQ as <-.
    assert (LP : forall sl, In sl (live p) -> 0 <= sl_rev sl < W64 /\ e_pos (ent_of sl) = sl_rev sl).
    { intros sl Hs. destruct (in_live _ _ _ _ K Hs) as (j & Hj & <-). apply (slot_range s2 xl y c p j I Hy HP Hj). }
    apply sorted_same.
    + apply filter_sorted. auto.
    + rewrite map_map. rewrite (map_ext_in _ sl_rev) by (intros sl Hs; apply LP; auto). apply (po_sorted _ _ _ K).
    + intros e. unfold bucket_of. rewrite filter_In. rewrite (together_bucket s2 xl y c r (e_pos e) I Hy Hr (pos_range e)). split.
      * intros [He Rg]. pose proof (HH e He) as Hk. destruct e as [[k cf] bd dd]. cbn [e_hash fst] in *.
        apply (HL k cf bd dd Hk) in He as (key & v & -> & HC).
        apply (cont_here s2 xl I (reverse64 k) y c p) in HC; auto. apply in_map_iff in HC as (sl & E & Hs). apply in_map_iff. exists sl. split; auto.
        unfold pr in E. unfold ent_of. injection E as E1 E2 E3 E4 E5. rewrite E1, E2, E3, E4, E5. rewrite reverse64_involutive by auto. auto.
      * intros He. apply in_map_iff in He as (sl & <- & Hs). destruct (LP sl Hs) as [A B]. rewrite B. split; [|apply (po_rng _ _ _ K); auto].
        unfold ent_of. pose proof (reverse64_range (sl_rev sl)) as RR. apply (HL _ _ _ _ RR).
        exists (sl_key sl), (sl_val sl). split; auto. rewrite reverse64_involutive by auto. exists y, c, p. split; auto. split; auto. apply in_map_iff. exists sl. split; auto.
Qed.
Lemma used_live p q : used p q -> fits p -> fits q -> live p = live q.
Proof. intros [A B] F G. rewrite !live_seq by auto. rewrite <- A. apply map_ext_in. intros i Hi. apply in_seq in Hi. apply B. lia. Qed.
Lemma prel_other bs n s sa sb xl l : prel bs n s sa xl l -> einv sb xl -> pools_eq s sb -> prel bs n s sb xl l.
Proof.
  intros R I PE. destruct (pl_eq _ _ _ _ _ _ R) as [S1 S2 S3]. destruct PE as [U1 U2 U3].
  assert (BE : x_bl sb = x_bl sa) by congruence. assert (HB : forall c, brev (x_trie sb) c = brev (x_trie sa) c) by (intros; rewrite <- (same_shape_brev _ _ _ U1), <- (same_shape_brev _ _ _ S1); auto).
  assert (HU : forall c, up (x_trie sb) c = up (x_trie sa) c) by (intros; unfold up; rewrite HB; auto).
  constructor; auto.
  - constructor; auto.
  - rewrite <- (pl_bs _ _ _ _ _ _ R). unfold edump. rewrite BE. apply map_ext. auto.
  - apply (pl_len _ _ _ _ _ _ R).
  - intros y c p r Hy HP Hr. rewrite BE in Hy. rewrite HB, HU in Hr. destruct (ei_pool _ _ (pl_inv _ _ _ _ _ _ R) y c Hy) as (pa & HA & KA).
    rewrite (pl_bk _ _ _ _ _ _ R y c pa r Hy HA Hr). f_equal.
    rewrite <- BE in Hy. destruct (ei_pool _ _ I y c Hy) as (pb & HB' & KB). rewrite HP in HB'. injection HB' as <-.
    specialize (S3 c). specialize (U3 c). rewrite HA in S3. rewrite HP in U3. destruct (b_pool (bget (x_trie s) c)) as [q|] eqn:EQ; [|contradiction].
    assert (FQ : fits q) by (rewrite BE in Hy; apply (pl_cap _ _ _ _ _ _ R y c q Hy EQ)).
    rewrite <- (used_live q pa S3 FQ (po_n _ _ _ KA)). apply (used_live q p U3 FQ (po_n _ _ _ KB)).
  - apply (pl_hash _ _ _ _ _ _ R).
  - intros y c p Hy HP. rewrite BE in Hy. apply (pl_cap _ _ _ _ _ _ R y c p Hy HP).
Qed.
Lemma sq_eq E s s2 : sq E s s2 -> pools_eq s s2.
Proof.
  intros ([S P] & B & _). constructor; auto. intros n. specialize (P n). unfold osame in P. destruct (b_pool (bget (x_trie s) n)), (b_pool (bget (x_trie s2) n)); auto. tauto.
Qed.
Lemma sq_fits E s s2 : sq E s s2 -> forall c p, b_pool (bget (x_trie s) c) = Some p -> fits p.
Proof. intros ([_ P] & _) c p HP. specialize (P c). rewrite HP in P. unfold osame in P. destruct (b_pool (bget (x_trie s2) c)); [tauto|contradiction]. Qed.

(** * The relation *)
Definition clean (s : estate) (ts : list Z) (c : nid) : Prop :=
  ~ In c (x_bl s) \/ exists y, adj (x_bl s) y c /\ forall z, In z ts -> ~ (brev (x_trie s) c <= z < up (x_trie s) y).
Record drel (m : mst) (s s2 : estate) (xl : list nid) : Prop := {
  dr_rel : prel (edump s2) (m_n m) s s2 xl (m_l m);
  dr_sq : sq (clean s2 (m_touched m)) s s2;
  dr_max : 16 <= x_max s2;
  dr_sorted : StronglySorted Z.lt (map e_pos (m_l m));
  dr_dead : forall e, In e (m_l m) -> e_dead e = true -> In (e_pos e) (m_touched m) }.
Lemma clean_shape s s' ts : x_bl s' = x_bl s -> same_shape (x_trie s) (x_trie s') -> forall c, clean s' ts c <-> clean s ts c.
Proof.
  intros B S c. unfold clean. rewrite B. assert (HB : forall n, brev (x_trie s') n = brev (x_trie s) n) by (intros; symmetry; apply same_shape_brev; auto).
  split; intros [H|(y & Hy & H)]; auto; right; exists y; (split; [auto|]); intros z Hz; specialize (H z Hz); unfold up in *; rewrite !HB in *; auto.
Qed.
Lemma set_bpool_at s n q m : b_pool (bget (x_trie (set_bpool s n q)) m) = if nid_eqb n m then Some q else b_pool (bget (x_trie s) m).
Proof. unfold set_bpool, set_xtrie. cbn [x_trie]. unfold tupd. rewrite bget_tset. destruct (nid_eqb n m); auto. Qed.
Lemma set_bpool_shape s n q : same_shape (x_trie s) (x_trie (set_bpool s n q)).
Proof. unfold set_bpool, set_xtrie. cbn [x_trie]. apply same_shape_tupd. intros; reflexivity. Qed.
Lemma edump_shape s s' : x_bl s' = x_bl s -> same_shape (x_trie s) (x_trie s') -> edump s' = edump s.
Proof. intros B S. unfold edump. rewrite B. apply map_ext. intros n. symmetry. apply same_shape_brev. auto. Qed.

(** a value changed: the same on both sides *)
Lemma drel_upd m s s2 xl k c n j p f g : drel m s s2 xl -> 0 <= k < W64 -> hit s2 k c n j p ->
  (forall sl, sl_rev (f sl) = sl_rev sl) -> ent_of (f (slot_at p j)) = g (ent_of (slot_at p j)) -> (forall e, e_hash (g e) = e_hash e) -> (forall e, e_dead (g e) = e_dead e) ->
  drel (mkM (m_n m) (change g (k, c) (m_l m)) (m_touched m)) (upd_item s n j f) (upd_item s2 n j f) xl.
Proof.
  intros [R Q M SO DD] Hk HT Hf Hg Gh Gd.
  destruct (prel_upd _ _ _ _ _ _ k c n j p f g R Hk HT Hf Hg Gh) as (q' & R').
  destruct (upd_item_spec s2 xl k c n j p f (pl_inv _ _ _ _ _ _ R) HT Hf) as (I' & MX & LN & BL & HB & _).
  destruct HT as (y & Hy & HP & K & Hj & _). destruct (own_pool _ _ _ _ _ _ y n p R Hy HP) as (q & Q1 & Q2 & Q3 & Q4).
  assert (U2 : upd_item s2 n j f = set_bpool s2 n (upd_slot p j f)) by (unfold upd_item; rewrite HP; auto).
  assert (U1 : upd_item s n j f = set_bpool s n (upd_slot q j f)) by (unfold upd_item; rewrite Q1; auto).
  assert (S2 : same_shape (x_trie s2) (x_trie (upd_item s2 n j f))) by (rewrite U2; apply set_bpool_shape).
  assert (SQ : sq (clean (upd_item s2 n j f) (m_touched m)) (upd_item s n j f) (upd_item s2 n j f)).
  { destruct Q as ([T1 T2] & QB & QL & QM). rewrite U1, U2. split; [|split; [exact QB|split; [exact QL|exact QM]]]. split.
    - eapply same_shape_trans; [|apply set_bpool_shape]. eapply same_shape_trans; [|exact T1]. intros z. symmetry. apply set_bpool_shape.
    - intros z. rewrite !set_bpool_at. specialize (T2 z). destruct (nid_eqb n z) eqn:EZ.
      + apply nid_eqb_eq in EZ. subst z. rewrite Q1, HP in T2. destruct T2 as (T2 & F & EQ). split; [|split].
        * split; [exact Q2|]. intros i Hi. change (p_n (upd_slot q j f)) with (p_n q) in Hi. rewrite !upd_at; [| |lia].
          -- rewrite (Q4 j) by lia. destruct (Nat.eqb j i); auto.
          -- pose proof (po_n _ _ _ K). lia.
        * unfold fits. change (p_n (upd_slot q j f)) with (p_n q). unfold upd_slot. cbn [p_slots]. rewrite upd_nth_length. auto.
        * intros HC. rewrite EQ; auto. rewrite <- U2 in HC. apply (clean_shape s2 _ _ BL S2) in HC. auto.
      + unfold osame in *. destruct (b_pool (bget (x_trie s) z)), (b_pool (bget (x_trie s2) z)); auto. destruct T2 as (A & B & C). split; auto. split; auto.
        intros HC. apply C. rewrite <- U2 in HC. apply (clean_shape s2 _ _ BL S2) in HC. auto. }
  constructor; cbn [m_n m_l m_touched]; auto.
  - rewrite (edump_shape s2 _ BL S2). apply (prel_other _ _ _ _ _ _ _ R' I'). exact (sq_eq _ _ _ SQ).
  - rewrite MX. auto.
  - unfold change. rewrite map_map. rewrite (map_ext _ e_pos); auto. intros e. unfold e_pos. destruct (pair_eqb _ _); [rewrite Gh|]; auto.
  - intros e He D. unfold change in He. apply in_map_iff in He as (e0 & <- & He). unfold e_pos. destruct (pair_eqb _ _); [rewrite Gh; rewrite Gd in D|]; apply (DD e0); auto.
Qed.
(** a key deleted or purged: its bucket is touched *)
Lemma drel_touch m s s2 xl y n r q q' l' : drel m s s2 xl -> adj (x_bl s2) y n -> brev (x_trie s2) n <= r < up (x_trie s2) y ->
  prel (edump s2) (m_n m) (set_bpool s n q) (set_bpool s2 n q') xl l' -> StronglySorted Z.lt (map e_pos l') ->
  (forall e, In e l' -> e_dead e = true -> In (e_pos e) (r :: m_touched m)) ->
  drel (mkM (m_n m) l' (r :: m_touched m)) (set_bpool s n q) (set_bpool s2 n q') xl.
Proof.
  intros [R Q M SO DD] Hy Hr R' SO' DD'. pose proof (set_bpool_shape s2 n q') as S2. pose proof (pl_inv _ _ _ _ _ _ R) as I.
  constructor; cbn [m_n m_l m_touched]; auto.
  - rewrite (edump_shape s2 (set_bpool s2 n q') eq_refl S2). auto.
  - destruct (pl_eq _ _ _ _ _ _ R') as [E1 E2 E3]. destruct Q as ([T1 T2] & QB & QL & QM). split; [|split; [exact QB|split; [exact QL|exact QM]]]. split; auto.
    intros z. specialize (E3 z). specialize (T2 z). pose proof (pl_cap _ _ _ _ _ _ R' y n q) as CAP. rewrite !set_bpool_at in *. destruct (nid_eqb n z) eqn:EZ.
    + apply nid_eqb_eq in EZ. subst z. split; auto. split; [apply CAP; auto; rewrite nid_eqb_refl; auto|]. intros HC. exfalso.
      apply (clean_shape s2 (set_bpool s2 n q') _ eq_refl S2) in HC. destruct HC as [HC|(y1 & H1 & HC)]; [apply HC; apply adj_in in Hy; tauto|].
      assert (y1 = y) by (exact (adj_uniq_l _ _ _ _ (ei_nodup s2 xl I) H1 Hy)). subst y1. apply (HC r); auto. left; auto.
    + unfold osame in *. destruct (b_pool (bget (x_trie s) z)), (b_pool (bget (x_trie s2) z)); auto. destruct T2 as (A & B & C). split; auto. split; auto. intros HC. apply C.
      apply (clean_shape s2 (set_bpool s2 n q') _ eq_refl S2) in HC. destruct HC as [HC|(y1 & H1 & HC)]; [left; auto|right; exists y1; split; auto]. intros z' Hz'. apply HC. right; auto.
Qed.

(** * A new key *)
Lemma eset_sim E h s s2 x v k c b s2' : sq E s s2 -> key_to_hash h (KStr x) = Some (k, c) -> eload s k c = Ret None -> eload s2 k c = Ret None ->
  base (x_trie s2) (find_bucket (x_trie s2) (reverse64 k)) = b -> base (x_trie s2) b = b -> E b -> (forall p p1 i, b_pool (bget (x_trie s) b) = Some p -> get_with_fn 4 p (reverse64 k) = GSlot p1 i -> fits p1) ->
  eset h s2 (KStr x) v = (s2', Ret (RBool true)) -> exists s', eset h s (KStr x) v = (s', Ret (RBool true)) /\ sq E s' s2'.
Proof.
  intros (T & BL & LN & MX) EK L1 L2 Hb Hbb EB FG. unfold eset. rewrite EK, L1, L2. cbv zeta. unfold pool_of. rewrite (find_bucket_shape _ _ (proj1 T)), !(base_shape _ _ (proj1 T)). rewrite Hb, Hbb.
  pose proof (proj2 T b) as PB. unfold osame in PB. destruct (b_pool (bget (x_trie s) b)) as [p|] eqn:EP, (b_pool (bget (x_trie s2) b)) as [p'|]; try contradiction; [|discriminate].
  destruct PB as (_ & FP & EQ). specialize (EQ EB). subst p'. destruct (get_with_fn 4 p (reverse64 k)) as [p1 i| |] eqn:EG; try discriminate. specialize (FG p p1 i eq_refl EG).
  destruct (set_value KSample (sl_val (slot_at p1 i)) v) as [[v' ok]|]; [|discriminate].
  set (rv' := if sl_rev (slot_at p1 i) =? 0 then reverse64 k else sl_rev (slot_at p1 i)). set (cf' := if sl_conf (slot_at p1 i) =? 0 then c else sl_conf (slot_at p1 i)).
  set (q := upd_slot p1 i (fun z => mkS rv' cf' (sl_del z) (KStr x) v' true)).
  unfold set_bpool, set_xtrie. cbn [x_trie x_bl x_lv x_len x_max]. rewrite <- BL, <- LN, <- MX.
  set (u := mkX (tupd (x_trie s) b (fun z => set_pool z (Some q))) (x_bl s) (x_lv s) (x_len s + 1) (x_max s)).
  set (u2 := mkX (tupd (x_trie s2) b (fun z => set_pool z (Some q))) (x_bl s) (x_lv s2) (x_len s + 1) (x_max s)).
  assert (SU : sq E u u2).
  { split; [|auto]. cbn [u u2 x_trie]. apply (tq_pool E E _ _ b _ _ q); auto. unfold q, fits, upd_slot. cbn [p_slots]. rewrite upd_nth_length. exact FG. }
  assert (RS : rsim E (if negb (sl_del (slot_at p1 i)) && (rv' <? MAX64) && (x_max s <? p_len p1) then make_bucket2 64 u b else Ret u)
                     (if negb (sl_del (slot_at p1 i)) && (rv' <? MAX64) && (x_max s <? p_len p1) then make_bucket2 64 u2 b else Ret u2)).
  { destruct (_ && _ && _); [apply make_sim; auto|exact SU]. }
  destruct (if negb (sl_del (slot_at p1 i)) && (rv' <? MAX64) && (x_max s <? p_len p1) then make_bucket2 64 u b else Ret u) as [w| | |],
    (if negb (sl_del (slot_at p1 i)) && (rv' <? MAX64) && (x_max s <? p_len p1) then make_bucket2 64 u2 b else Ret u2) as [w2| | |]; try contradiction; try discriminate.
  intros E2. injection E2 as <-. eexists. split; [reflexivity|]. destruct RS as (W1 & W2 & W3 & W4). split; [|auto]. cbn [x_trie]. apply tq_blen. auto.
Qed.

Lemma put_in e l : forall x, In x (put e l) <-> x = e \/ In x l.
Proof. induction l as [|a l IH]; intros x; cbn [put In]; [intuition congruence|]. destruct (e_pos e <? e_pos a); cbn [In]; [intuition congruence|]. rewrite IH. tauto. Qed.
Lemma put_sorted e l : StronglySorted Z.lt (map e_pos l) -> (forall x, In x l -> e_pos x <> e_pos e) -> StronglySorted Z.lt (map e_pos (put e l)).
Proof.
  induction l as [|a l IH]; intros S H; cbn [put map]; [repeat constructor|]. cbn [map] in S. inversion S as [|? ? S1 S2]; subst. destruct (Z.ltb_spec (e_pos e) (e_pos a)); cbn [map].
  - constructor; auto. constructor; auto. eapply Forall_impl; [|exact S2]. cbn. intros; lia.
  - constructor; [apply IH; auto; intros x Hx; apply H; cbn; auto|]. apply Forall_forall. intros z Hz. apply in_map_iff in Hz as (x & <- & Hx). apply put_in in Hx as [->|Hx].
    + specialize (H a (or_introl eq_refl)). lia.
    + rewrite Forall_forall in S2. apply S2. apply in_map. auto.
Qed.
Lemma adj_widen {A} (a : list A) y N b B u w : adj (a ++ y :: b :: B) u w -> w <> b -> adj (a ++ y :: N ++ b :: B) u w.
Proof.
  intros (a0 & b0 & E0) Nw. revert a0 E0. induction a as [|z a IH]; intros a0 E0; cbn [app] in *.
  - destruct a0 as [|q a0]; cbn [app] in E0; [exfalso; apply Nw; congruence|]. injection E0 as -> E0. destruct a0 as [|q2 a0]; cbn [app] in E0.
    + injection E0 as -> ->. exists (q :: N), b0. auto.
    + injection E0 as -> ->. exists (q :: N ++ q2 :: a0), b0. cbn [app]. rewrite <- app_assoc. auto.
  - destruct a0 as [|q a0]; cbn [app] in E0.
    + injection E0 as -> E0. destruct a as [|z' a']; cbn [app] in *; [injection E0 as -> <-|injection E0 as -> <-]; eexists [], _; reflexivity.
    + injection E0 as -> E0. destruct (IH a0 E0) as (a1 & b1 & ->). exists (q :: a1), b1. auto.
Qed.
Lemma drel_new m s s2 xl h x v k c : drel m s s2 xl -> key_to_hash h (KStr x) = Some (k, c) -> eload s k c = Ret None -> untouched (edump s2) m (k, c) ->
  exists s' s2' xl', eset h s (KStr x) v = (s', Ret (RBool true)) /\
    drel (mkM (m_n m + 1) (put (mkE (k, c) (mkBd KSample (KStr x) v) false) (m_l m)) (m_touched m)) s' s2' xl' /\
    exists A y b B N, x_bl s2 = A ++ y :: b :: B /\ x_bl s2' = A ++ y :: N ++ b :: B /\ brev (x_trie s2) b <= reverse64 k < up (x_trie s2) y /\
      (forall n, In n (x_bl s2) -> brev (x_trie s2') n = brev (x_trie s2) n) /\ (forall n, In n N -> brev (x_trie s2) b < brev (x_trie s2') n < up (x_trie s2) y).
Proof.
  intros [R Q M SO DD] EK EL [U1 U2]. pose proof (pl_inv _ _ _ _ _ _ R) as I. pose proof (proj1 (key_range _ _ _ _ EK)) as Hk. pose proof (reverse64_range k) as RK.
  unfold pos_of in U1, U2. cbn [fst] in U1, U2.
  destruct (eload_used s s2 k c (sq_eq _ _ _ Q)) as [EE _]. assert (EL2 : eload s2 k c = Ret None) by congruence.
  pose proof (prel_holds _ _ _ _ _ _ R) as HL.
  assert (TO : forall y b z, adj (x_bl s2) y b -> brev (x_trie s2) b <= reverse64 k < up (x_trie s2) y -> In z (m_touched m) -> ~ (brev (x_trie s2) b <= z < up (x_trie s2) y)).
  { intros y b z Hy Rg Hz Rz. specialize (U1 z Hz). rewrite (proj2 (together_bucket s2 xl y b z (reverse64 k) I Hy Rz RK) Rg) in U1. discriminate. }
  assert (NP : forall z, cont s2 z -> pr_rev z <> reverse64 k).
  { intros [[[[r0 c0] d0] k0] v0] HC E. cbn [pr_rev fst] in E. unfold pr_rev in E. cbn [fst] in E. subst r0.
    apply (U2 (mkE (k, c0) (mkBd KSample k0 v0) d0)); [|reflexivity]. apply (HL k c0 _ d0 Hk). eauto. }
  assert (ND : forall y b p, adj (x_bl s2) y b -> b_pool (bget (x_trie s2) b) = Some p -> brev (x_trie s2) b <= reverse64 k < up (x_trie s2) y -> nodel p).
  { intros y b p Hy HP Rg sl Hs. destruct (sl_del sl) eqn:D; auto. exfalso.
    assert (HE : In (ent_of sl) (m_l m)). { assert (X : In (ent_of sl) (bucket_of (edump s2) (m_l m) (reverse64 k))) by (rewrite (pl_bk _ _ _ _ _ _ R y b p _ Hy HP Rg); apply in_map; auto). apply filter_In in X. tauto. }
    pose proof (DD _ HE D) as HT. destruct (live_rev _ _ _ _ _ _ y b p R Hy HP sl Hs) as (_ & EP & RG). rewrite EP in HT. exact (TO y b _ Hy Rg HT RG). }
  destruct (eset_loc h s2 xl x v k c I M EK EL2 NP ND) as (s2' & xl' & A & y & b & B & N & ES & I' & MX & LN & CO & EA & EA' & Rg & BR & NR).
  assert (Hy : adj (x_bl s2) y b) by (exists A, B; auto).
  assert (CB : clean s2 (m_touched m) b) by (right; exists y; split; auto; intros z Hz; apply (TO y b z); auto).
  assert (HBB : base (x_trie s2) (find_bucket (x_trie s2) (reverse64 k)) = b /\ base (x_trie s2) b = b).
  { destruct (eload_spec s2 xl k c I) as [E|[(n & j & p & E & _)|(_ & y0 & b0 & p & Hy0 & Eb & Ri & _)]]; [congruence|congruence|].
    destruct (ei_disjoint s2 xl I y b y0 b0 _ Hy Hy0 Rg Ri) as [-> _]. split; auto. apply (base_linked _ xl); [apply (ei_trie _ _ I)|]. apply (ei_adj_x s2 xl I _ _ Hy). }
  assert (FG : forall p p1 i, b_pool (bget (x_trie s) b) = Some p -> get_with_fn 4 p (reverse64 k) = GSlot p1 i -> fits p1).
  { intros p p1 i HP EG. destruct Q as ([_ T2] & _). specialize (T2 b). rewrite HP in T2. unfold osame in T2. destruct (b_pool (bget (x_trie s2) b)) as [p'|] eqn:HP2; [|contradiction].
    destruct T2 as (_ & _ & EQ). specialize (EQ CB). subst p'. destruct (ei_pool _ _ I y b Hy) as (p' & E' & K). rewrite HP2 in E'. injection E' as <-.
    assert (NP2 : forall sl, In sl (live p) -> sl_rev sl <> reverse64 k). { intros sl Hs E. apply (NP (pr sl)); [|exact E]. exists y, b, p. split; auto. split; auto. apply in_map; auto. }
    destruct (get_with_fn_ok p _ _ (reverse64 k) K (ND y b p Hy HP2 Rg) Rg NP2) as (p2 & i2 & l1 & l2 & EG2 & _ & _ & _ & _ & _ & HU). rewrite EG in EG2. injection EG2 as <- <-.
    destruct (HU (fun z => mkS (reverse64 k) c (sl_del z) (KStr x) v true) eq_refl) as (K1 & _). pose proof (po_n _ _ _ K1) as X. unfold upd_slot in X. cbn [p_slots] in X. rewrite upd_nth_length in X. exact X. }
  destruct (eset_sim _ h s s2 x v k c b s2' Q EK EL EL2 (proj1 HBB) (proj2 HBB) CB FG ES) as (s' & ES' & Q').
  exists s', s2', xl'. split; auto. split; [|exists A, y, b, B, N; auto 8].
  assert (HE : forall e, In e (m_l m) -> 0 <= fst (e_hash e) < W64) by apply (pl_hash _ _ _ _ _ _ R).
  assert (SP : StronglySorted Z.lt (map e_pos (put (mkE (k, c) (mkBd KSample (KStr x) v) false) (m_l m)))) by (apply put_sorted; auto).
  constructor; cbn [m_n m_l m_touched]; auto.
  - apply holds_prel; auto.
    + exact (sq_eq _ _ _ Q').
    + destruct Q' as (_ & _ & QL & _). rewrite QL, LN. pose proof (pl_len _ _ _ _ _ _ R) as X. destruct Q as (_ & _ & QL2 & _). lia.
    + intros k1 c1 b1 d1 Hk1. rewrite put_in. split.
      * intros [E|H]; [injection E as -> -> -> ->; exists (KStr x), v; split; auto; apply CO; auto|]. apply (HL k1 c1 b1 d1 Hk1) in H as (key & v1 & -> & HC). exists key, v1. split; auto. apply CO. auto.
      * intros (key & v1 & -> & HC). apply CO in HC as [E|HC]; [|right; apply (HL k1 c1 _ d1 Hk1); eauto]. left. injection E as E1 -> -> -> ->. apply reverse64_inj in E1; auto. subst. auto.
    + intros e He. apply put_in in He as [->|He]; auto.
    + intros y0 c0 p0 _. exact (sq_fits _ _ _ Q' c0 p0).
  - destruct Q' as (Q1 & Q2). split; auto. apply (tq_weaken (clean s2 (m_touched m))); auto. intros z [HZ|(y1 & Hy1 & HZ)].
    + left. intros H. apply HZ. rewrite EA'. rewrite EA in H. apply in_app_or in H as [H|[H|H]]; apply in_or_app; [left; auto|right; left; auto|right; right; apply in_or_app; auto].
    + pose proof (ei_nodup s2' xl' I') as NDB. destruct (in_dec nid_eq_dec z (x_bl s2)) as [Hz|Hz]; [|left; auto]. destruct (nid_eq_dec z b) as [->|Nz]; auto.
      right. assert (Nzb : z <> bmax) by (exact (ei_adj_ne s2' xl' I' _ _ Hy1)). destruct (ei_pred s2 xl I z Hz Nzb) as (y0 & Hy0). exists y0. split; auto.
      assert (X : adj (x_bl s2') y0 z) by (rewrite EA'; rewrite EA in Hy0; apply adj_widen; auto).
      assert (y0 = y1) by (exact (adj_uniq_l _ _ _ _ NDB X Hy1)). subst y1. intros r Hr. specialize (HZ r Hr). unfold up in *. destruct (adj_in _ _ _ Hy0) as [HA HB]. rewrite !BR in HZ by auto. exact HZ.
  - rewrite MX. auto.
  - intros e He D. apply put_in in He as [->|He]; [discriminate|]. auto.
Qed.

(** * One call *)
Definition dagrees (s2 : estate) (r : res out) (e : out) (s' : estate) (m' : mst) : Prop :=
  r = Div \/ (seen r = Some e /\ exists s2' xl', drel m' s' s2' xl' /\ incl (edump s2) (edump s2')).
Local Hint Resolve incl_refl : core.
Lemma dump_bpool s n q : edump (set_bpool s n q) = edump s.
Proof. apply edump_shape; auto. cbn [set_bpool set_xtrie x_trie]. apply same_shape_tupd. intros; reflexivity. Qed.
Lemma dump_upd s n j f : edump (upd_item s n j f) = edump s.
Proof. unfold upd_item. destruct (b_pool _); auto. apply dump_bpool. Qed.
Lemma dump_same m s s2 xl : drel m s s2 xl -> edump s = edump s2.
Proof. intros H. destruct (dr_sq _ _ _ _ H) as ([S _] & B & _). symmetry. apply edump_shape; auto. Qed.
Lemma sorted_change g p l : (forall e, e_hash (g e) = e_hash e) -> StronglySorted Z.lt (map e_pos l) -> StronglySorted Z.lt (map e_pos (change g p l)).
Proof. intros G S. unfold change. rewrite map_map. rewrite (map_ext _ e_pos); auto. intros e. unfold e_pos. destruct (pair_eqb _ _); [rewrite G|]; auto. Qed.
Lemma dstep m h s s2 xl o : drel m s s2 xl -> mix_call h (edump s) m o ->
  dagrees s2 (snd (estep h s o)) (mix_out h (edump s) m o) (fst (estep h s o)) (mix_next h (edump s) m o).
Proof.
  intros D HO. pose proof (dr_rel _ _ _ _ D) as R. rewrite (dump_same _ _ _ _ D) in *. set (bs := edump s2) in *. set (l := m_l m) in *. set (len := m_n m) in *.
  assert (ME : mkM len l (m_touched m) = m) by (destruct m; reflexivity).
  assert (UPD : forall k c v, 0 <= k < W64 -> PurgeSpec.present bs l (k, c) = true -> exists b, visible bs l (k, c) = Some b /\ (eload s k c = Div \/ exists n j,
     eload s k c = Ret (Some (n, j)) /\
     dagrees s2 (snd (eupdate s n j v)) (snd (sm_update (the_map bs len l) (k, c) b v)) (fst (eupdate s n j v))
      (mkM len (match sm_map (fst (sm_update (the_map bs len l) (k, c) b v)) (k, c) with Some b' => change (set_bd b') (k, c) l | None => l end) (m_touched m)))).
  { intros k c v Hk PR. unfold PurgeSpec.present in PR. destruct (visible bs l (k, c)) as [b|] eqn:EV; [|discriminate]. exists b. split; auto.
    destruct (eload_view bs len s s2 xl l k c R Hk) as [E|[(n & j & p & E & HT & HI & EV')|(_ & EV')]]; [left; auto| |congruence].
    right. exists n, j. split; auto. rewrite EV in EV'. injection EV' as ->. right.
    unfold eupdate, sm_update. rewrite HI, set_value_assign. cbn [the_map sm_view bd_val bd_kind bd_key].
    destruct (assign KSample (sl_val (slot_at p j)) v) as [[v' ok]|]; cbn [fst snd].
    - split; [reflexivity|]. cbn [sm_map]. unfold sm_put. rewrite pair_eqb_refl. exists (upd_item s2 n j (set_sval v')), xl. split; [|rewrite dump_upd; auto]. apply (drel_upd m s s2 xl k c n j p); auto.
    - split; [reflexivity|]. cbn [sm_map the_map]. rewrite EV. rewrite change_id; [rewrite ME; eauto|]. intros e He E'. destruct (hit_entry bs len s s2 xl l k c n j p R Hk HT) as (_ & _ & U). rewrite (U e He E'). reflexivity. }
  assert (GET : forall k c, 0 <= k < W64 -> dagrees s2 (snd (eget s k c)) (sm_get (the_map bs len l) (k, c)) (fst (eget s k c)) m).
  { intros k c Hk. unfold eget, sm_get. cbn [sm_map the_map]. destruct (eload_view bs len s s2 xl l k c R Hk) as [->|[(n & j & p & -> & HT & HI & ->)|(-> & ->)]]; [left; auto|right; cbn [fst snd seen]; rewrite HI; eauto|right; cbn [fst snd seen]; eauto]. }
  assert (LOAD : forall k c, 0 <= k < W64 -> dagrees s2 (snd (eget_item s k c)) (sm_load (the_map bs len l) (k, c)) (fst (eget_item s k c)) m).
  { intros k c Hk. unfold eget_item, sm_load. cbn [sm_map the_map]. destruct (eload_view bs len s s2 xl l k c R Hk) as [->|[(n & j & p & -> & HT & HI & ->)|(-> & ->)]]; [left; auto|right; cbn [fst snd seen]; rewrite HI; eauto|right; cbn [fst snd seen]; eauto]. }
  unfold mix_out, mix_next. fold l len.
  destruct o as [key v|i|key|k c|key|k c|key|key|]; cbn [estep next_entries mix_call] in *; rewrite ?ME.
  - destruct HO as ((k & c) & EK & HO). pose proof (proj1 (key_range _ _ _ _ EK)) as Hk. cbn [sm_step]. rewrite EK. destruct (PurgeSpec.present bs l (k, c)) eqn:PR.
    + unfold eset. rewrite EK. destruct (UPD k c v Hk PR) as (b & EV & [->|(n & j & -> & H)]); [left; auto|]. cbn [sm_map the_map]. rewrite EV. exact H.
    + destruct HO as [HO|((x & ->) & HO)]; [fold l in HO; congruence|]. unfold PurgeSpec.present in PR. destruct (visible bs l (k, c)) eqn:EV; [discriminate|]. cbn [sm_map the_map]. rewrite EV.
      destruct (eload_view bs len s s2 xl l k c R Hk) as [EL|[(n & j & p & EL & HT & HI & EV')|(EL & _)]]; [left; unfold eset; rewrite EK, EL; auto|congruence|].
      destruct (drel_new m s s2 xl h x v k c D EK EL HO) as (s' & s2' & xl' & ES & D' & A & y & b & B & N & EA & EB & _ & BR & _). rewrite ES. right. cbn [fst snd seen]. split; auto. exists s2', xl'. split; [exact D'|].
      intros z Hz. unfold edump in *. apply in_map_iff in Hz as (q & <- & Hq). rewrite <- BR by auto. apply in_map. rewrite EB. rewrite EA in Hq. apply in_app_or in Hq as [Hq|[Hq|Hq]]; apply in_or_app; [left; auto|right; left; auto|right; right; apply in_or_app; auto].
  - destruct HO as ((k & c) & EK & PR). fold l in PR. pose proof (proj1 (key_range _ _ _ _ EK)) as Hk. unfold estore, item_hash. cbn [sm_step]. rewrite EK. destruct (UPD k c (i_val i) Hk PR) as (b & EV & [->|(n & j & -> & H)]); [left; auto|]. cbn [sm_map the_map]. rewrite EV. exact H.
  - cbn [sm_step snd]. unfold ewith. destruct (key_to_hash h key) as [[k c]|] eqn:EK; [|right; cbn [fst snd seen]; eauto]. apply GET. apply (proj1 (key_range _ _ _ _ EK)).
  - cbn [sm_step snd]. apply GET. apply u64_range.
  - cbn [sm_step snd]. unfold ewith. destruct (key_to_hash h key) as [[k c]|] eqn:EK; [|right; cbn [fst snd seen]; eauto]. apply LOAD. apply (proj1 (key_range _ _ _ _ EK)).
  - cbn [sm_step snd]. apply LOAD. apply u64_range.
  - cbn [sm_step]. unfold ewith. destruct (key_to_hash h key) as [[k c]|] eqn:EK; [|right; cbn [fst snd seen]; rewrite ME; eauto]. pose proof (proj1 (key_range _ _ _ _ EK)) as Hk. unfold edelete, PurgeSpec.present. cbn [sm_map the_map].
    destruct (eload_view bs len s s2 xl l k c R Hk) as [->|[(n & j & p & -> & HT & HI & ->)|(-> & ->)]]; [left; auto|right; cbn [fst snd seen]; split; auto|right; cbn [fst snd seen]; rewrite ME; eauto].
    destruct (edelete_pagrees bs len s s2 xl l k c n j p R Hk HT) as (q' & H). pose proof HT as (y & Hy & HP & K & Hj & Hr & _). destruct (own_pool bs len s s2 xl l y n p R Hy HP) as (q & Q1 & _).
    unfold upd_item in *. rewrite Q1 in *. exists (set_bpool s2 n q'), xl. split; [|rewrite dump_bpool; auto]. unfold pos_of. cbn [fst]. apply (drel_touch m s s2 xl y n); auto.
    + rewrite <- Hr. apply (po_rng _ _ _ K). eapply live_in; eauto.
    + apply sorted_change; auto. apply (dr_sorted _ _ _ _ D).
    + intros e He DD. unfold change in He. apply in_map_iff in He as (e0 & <- & He). destruct (pair_eqb (e_hash e0) (k, c)) eqn:Q; [left; apply same_hash in Q; unfold e_pos, kill; cbn [e_hash]; rewrite Q; auto|right; apply (dr_dead _ _ _ _ D); auto].
  - cbn [sm_step]. unfold ewith. destruct (key_to_hash h key) as [[k c]|] eqn:EK; [|right; cbn [fst snd seen]; rewrite ME; eauto]. pose proof (proj1 (key_range _ _ _ _ EK)) as Hk. unfold epurge, PurgeSpec.present. cbn [sm_map the_map].
    destruct (eload_view bs len s s2 xl l k c R Hk) as [->|[(n & j & p & -> & HT & HI & ->)|(-> & ->)]]; [left; auto| |right; cbn [fst snd seen]; destruct (entry l (k, c)); rewrite ME; eauto].
    destruct (hit_entry bs len s s2 xl l k c n j p R Hk HT) as (-> & HH & _). pose proof HT as (y & Hy & HP & K & Hj & Hr & _).
    destruct (own_pool bs len s s2 xl l y n p R Hy HP) as (q & Q1 & _). rewrite Q1. right. cbn [fst snd seen]. split; auto. destruct (epurge_pagrees bs len s s2 xl l k c n j p q R Hk HT Q1) as (q' & H).
    exists (set_bpool s2 n q'), xl. split; [|rewrite dump_bpool; auto]. unfold pos_of. cbn [fst]. apply (drel_touch m s s2 xl y n); auto.
    + rewrite <- Hr. apply (po_rng _ _ _ K). eapply live_in; eauto.
    + unfold purged. destruct (is_last _ _ _); [apply filter_sorted|apply sorted_change; auto]; apply (dr_sorted _ _ _ _ D).
    + intros e He DD. unfold purged in He. destruct (is_last _ _ _).
      * unfold without in He. apply filter_In in He as [He _]. right. apply (dr_dead _ _ _ _ D); auto.
      * unfold change in He. apply in_map_iff in He as (e0 & <- & He). destruct (pair_eqb (e_hash e0) _) eqn:Q; [left; apply same_hash in Q; unfold e_pos, kill; cbn [e_hash]; rewrite Q, HH; auto|right; apply (dr_dead _ _ _ _ D); auto].
  - right. cbn [fst snd seen sm_step sm_created the_map]. rewrite (pl_len _ _ _ _ _ _ R). split; auto. rewrite ?ME. eauto.
Qed.

(** * The empty map *)
Lemma emb_fits max n p : b_pool (bget (emb_trie max) n) = Some p -> fits p.
Proof.
  unfold emb_trie, bget. cbn [tget]. destruct (nid_eqb bmax n).
  { cbn [b_pool]. intros E. injection E as <-. unfold fits, p_n. cbn [p_len p_slots List.length]. lia. }
  generalize idx16. intros li. induction li as [|i l IH]; cbn [map tget]; [unfold zero_bucket; cbn [b_pool]; discriminate|]. destruct (nid_eqb (top i) n); auto.
  cbn [b_pool]. intros E. injection E as <-. unfold fits, p_n. cbn [p_len]. lia.
Qed.
Lemma new_emb_drel max : 16 <= max -> exists xl, drel m_empty (new_emb max) (new_emb max) xl.
Proof.
  intros HM. destruct (new_emb_inv max ltac:(lia)) as (I & N & C). exists init_bl.
  assert (FT : forall c p, b_pool (bget (x_trie (new_emb max)) c) = Some p -> fits p) by (intros c p; apply emb_fits).
  constructor; cbn [m_empty m_n m_l m_touched].
  - apply holds_prel; auto.
    + constructor; auto. { intros n. reflexivity. } intros n. destruct (b_pool _); auto. apply used_refl.
    + constructor.
    + intros k c b d _. split; [intros []|]. intros (key & v & _ & H). exfalso. apply (C _ H).
    + intros e [].
    + intros y0 c0 p0 _. apply FT.
  - split; [|auto]. split; [intros n; reflexivity|]. intros n. unfold osame. destruct (b_pool _) eqn:E; auto. split; [apply used_refl|split; [apply (FT n); auto|auto]].
  - exact HM.
  - constructor.
  - intros e [].
Qed.
