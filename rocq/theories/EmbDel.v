(** Deleting in the embedded mode; histories that never stop. *)
From Verif Require Import Base BaseProofs Util UtilProofs Bucket TrieProofs TrieInv TrieGrow MapModel ItemProofs MapInv MapSplit
  MapInit Spec MapRefine EmbModel EmbPool EmbTrie EmbInv EmbSplit EmbSpec EmbRefine.
From Coq Require Import ZifyBool Sorted.
Local Open Scope Z_scope.
Local Opaque reverse64 level_of base find_bucket.

(** slot j of bucket n holds (k, c) *)
Definition occ (s : estate) (k c : Z) (n : nid) (j : nat) (sl : slot) : Prop :=
  exists y p, adj (x_bl s) y n /\ b_pool (bget (x_trie s) n) = Some p /\ (j < p_n p)%nat /\ sl = slot_at p j /\
    sl_rev sl = reverse64 k /\ sl_conf sl = c.
Definition vis (j : nat) (sl : slot) : Prop := sl_del sl = false \/ j = 0%nat.

Lemma occ_hit s xl k c n j sl : einv s xl -> occ s k c n j sl -> vis j sl -> exists p, hit s k c n j p /\ sl = slot_at p j.
Proof.
  intros I (y & p & Hy & HP & Hj & -> & Hr & Hc) V. exists p. split; auto. exists y.
  destruct (ei_pool _ _ I _ _ Hy) as (p' & E & K). rewrite HP in E. injection E as <-. auto 8.
Qed.
Lemma hit_occ s k c n j p : hit s k c n j p -> occ s k c n j (slot_at p j) /\ vis j (slot_at p j).
Proof.
  intros (y & Hy & HP & K & Hj & Hr & Hc & Hv). split; auto. exists y, p. auto 8.
Qed.
Lemma occ_uniq s xl k k' c c' n n' j j' sl sl' : einv s xl -> reverse64 k = reverse64 k' -> occ s k c n j sl -> occ s k' c' n' j' sl' ->
  n = n' /\ j = j' /\ sl = sl' /\ c = c'.
Proof.
  intros I ER (y & p & Hy & HP & Hj & -> & Hr & Hc) (y' & p' & Hy' & HP' & Hj' & -> & Hr' & Hc').
  destruct (ei_pool _ _ I _ _ Hy) as (q & E & K). rewrite HP in E. injection E as <-.
  destruct (ei_pool _ _ I _ _ Hy') as (q & E & K'). rewrite HP' in E. injection E as <-.
  pose proof (po_rng _ _ _ K _ (live_in _ _ _ _ K Hj)) as R. pose proof (po_rng _ _ _ K' _ (live_in _ _ _ _ K' Hj')) as R'.
  rewrite Hr in R. rewrite Hr', <- ER in R'.
  destruct (ei_disjoint s xl I _ _ _ _ _ Hy Hy' R R') as [-> ->]. rewrite HP in HP'. injection HP' as <-.
  assert (j = j') by (apply (slot_inj _ _ _ j j' K); auto; congruence). subst. auto.
Qed.

Record srel (st : Z * Z -> bool) (s : estate) (m : smap) : Prop := {
  sr_inv : exists xl, einv s xl;
  sr_view : sm_view m = KSample;
  sr_len : x_len s = sm_created m;
  sr_at : forall k c bd, 0 <= k < W64 -> (sm_map m (k, c) = Some bd <->
     exists n j sl, occ s k c n j sl /\ vis j sl /\ bd = mkBd KSample (sl_key sl) (sl_val sl));
  sr_st : forall k c n j sl, 0 <= k < W64 -> occ s k c n j sl -> vis j sl -> (st (k, c) = true <-> j = 0%nat) }.

Lemma eload_srel st s m k c : srel st s m -> 0 <= k < W64 ->
  eload s k c = Div \/
  (exists n j p, eload s k c = Ret (Some (n, j)) /\ hit s k c n j p /\ item_at s n j = slot_at p j /\
     sm_map m (k, c) = Some (mkBd KSample (sl_key (slot_at p j)) (sl_val (slot_at p j)))) \/
  (eload s k c = Ret None /\ sm_map m (k, c) = None).
Proof.
  intros H Hk. destruct (sr_inv _ _ _ H) as (xl & I).
  destruct (eload_spec s xl k c I) as [E|[(n & j & p & E & HT)|(E & y & b & p & Hy & Eb & Ri & HP & K & HN)]]; auto.
  - right. left. exists n, j, p. destruct (hit_at _ _ _ _ _ _ HT) as [HC HI]. split; auto. split; auto. split; auto.
    apply (sr_at _ _ _ H); auto. destruct (hit_occ _ _ _ _ _ _ HT) as [HO HV]. exists n, j, (slot_at p j). auto.
  - right. right. split; auto. destruct (sm_map m (k, c)) as [bd|] eqn:EM; auto. exfalso.
    apply (sr_at _ _ _ H) in EM as (n & j & sl & HO & HV & ->); auto.
    destruct HO as (y' & p' & Hy' & HP' & Hj & -> & Hr & Hc).
    destruct (ei_pool _ _ I _ _ Hy') as (q & E' & K'). rewrite HP' in E'. injection E' as <-.
    pose proof (po_rng _ _ _ K' _ (live_in _ _ _ _ K' Hj)) as R'. rewrite Hr in R'.
    destruct (ei_disjoint s xl I _ _ _ _ _ Hy Hy' Ri R') as [-> ->]. rewrite HP in HP'. injection HP' as <-.
    destruct (HN j Hj Hr) as [N|[D J]]; [congruence|]. destruct HV as [V|V]; [congruence|lia].
Qed.

Definition sagrees st (r : res out) (e : out) (s' : estate) (m' : smap) : Prop :=
  r = Div \/ (seen r = Some e /\ srel st s' m').
Lemma eget_sagrees st s m k c : srel st s m -> 0 <= k < W64 ->
  sagrees st (snd (eget s k c)) (sm_get m (k, c)) (fst (eget s k c)) m.
Proof.
  intros H Hk. unfold eget, sm_get.
  destruct (eload_srel st s m k c H Hk) as [->|[(n & j & p & -> & HT & HI & ->)|(-> & ->)]]; cbn [fst snd]; [left; auto|right|right].
  - rewrite HI. auto.
  - auto.
Qed.
Lemma eget_item_sagrees st s m k c : srel st s m -> 0 <= k < W64 ->
  sagrees st (snd (eget_item s k c)) (sm_load m (k, c)) (fst (eget_item s k c)) m.
Proof.
  intros H Hk. unfold eget_item, sm_load.
  destruct (eload_srel st s m k c H Hk) as [->|[(n & j & p & -> & HT & HI & ->)|(-> & ->)]]; cbn [fst snd]; [left; auto|right|right].
  - rewrite HI, (sr_view _ _ _ H). auto.
  - auto.
Qed.

(** what updating one slot does to the others *)
Lemma occ_upd s xl k c n j p f : einv s xl -> hit s k c n j p -> (forall sl, sl_rev (f sl) = sl_rev sl) ->
  (forall sl, sl_conf (f sl) = sl_conf sl) ->
  forall k' c' n' j' sl', occ (upd_item s n j f) k' c' n' j' sl' <->
    ((n', j') = (n, j) /\ sl' = f (slot_at p j) /\ occ s k' c' n j (slot_at p j)) \/
    ((n', j') <> (n, j) /\ occ s k' c' n' j' sl').
Proof.
  intros I HT Hf Hg k' c' n' j' sl'.
  destruct (upd_item_spec s xl k c n j p f I HT Hf) as (I' & M' & L' & B' & R' & P' & O' & _ & _).
  destruct HT as (y & Hy & HP & K & Hj & Hr & Hc & Hv).
  destruct (upd_slot_ok p _ _ j f K Hj (Hf _)) as (K2 & L2 & N2 & S2).
  unfold occ. rewrite B'. split.
  - intros (y1 & p1 & Hy1 & HP1 & Hj1 & -> & Hr1 & Hc1).
    destruct (nid_eqb n n') eqn:En.
    + apply nid_eqb_eq in En. subst n'. rewrite P' in HP1. injection HP1 as <-. rewrite N2 in Hj1.
      rewrite (S2 _ Hj1) in *. destruct (Nat.eqb_spec j j') as [<-|Nj].
      * left. split; auto. split; auto. exists y1, p. rewrite Hf in Hr1. rewrite Hg in Hc1. auto 8.
      * right. split; [congruence|]. exists y1, p. auto 8.
    + apply nid_eqb_neq in En. rewrite O' in HP1 by congruence. right. split; [congruence|]. exists y1, p1. auto 8.
  - intros [(E & -> & y1 & p1 & Hy1 & HP1 & Hj1 & E1 & Hr1 & Hc1)|(NE & y1 & p1 & Hy1 & HP1 & Hj1 & -> & Hr1 & Hc1)].
    + injection E as -> ->. rewrite HP in HP1. injection HP1 as <-.
      exists y1, (upd_slot p j f). rewrite N2, (S2 _ Hj), Nat.eqb_refl, Hf, Hg. auto 8.
    + destruct (nid_eqb n n') eqn:En.
      * apply nid_eqb_eq in En. subst n'. rewrite HP in HP1. injection HP1 as <-.
        exists y1, (upd_slot p j f). rewrite N2, (S2 _ Hj1). destruct (Nat.eqb_spec j j') as [<-|Nj]; [congruence|]. auto 8.
      * apply nid_eqb_neq in En. exists y1, p1. rewrite O' by congruence. auto 8.
Qed.

Lemma srel_update st s m k c n j p v : srel st s m -> 0 <= k < W64 -> hit s k c n j p ->
  srel st (upd_item s n j (set_sval v)) (mkSM (sm_put m (k, c) (Some (mkBd KSample (sl_key (slot_at p j)) v))) KSample (sm_created m)).
Proof.
  intros H Hk HT. destruct (sr_inv _ _ _ H) as (xl & I).
  destruct (upd_item_spec s xl k c n j p (set_sval v) I HT ltac:(reflexivity)) as (I' & M' & L' & B' & R' & P' & O' & _ & _).
  pose proof (occ_upd s xl k c n j p (set_sval v) I HT ltac:(reflexivity) ltac:(reflexivity)) as OU.
  destruct (hit_occ _ _ _ _ _ _ HT) as [HO HV].
  constructor; cbn [sm_view sm_created sm_map]; auto.
  - exists xl; auto.
  - rewrite L'. apply (sr_len _ _ _ H).
  - intros k' c' bd Hk'. rewrite sm_put_eq. destruct (pair_eqb_spec (k, c) (k', c')) as [Ep|Np].
    + injection Ep as <- <-. split.
      * intros E. injection E as <-. exists n, j, (set_sval v (slot_at p j)). split; [apply OU; left; auto|]. split; auto.
      * intros (n1 & j1 & sl & HO1 & HV1 & ->). apply OU in HO1 as [(E & -> & _)|(NE & HO1)]; [reflexivity|].
        destruct (occ_uniq s xl k k c c n1 n j1 j _ _ I eq_refl HO1 HO) as (-> & -> & _). congruence.
    + rewrite (sr_at _ _ _ H k' c' bd Hk'). split; intros (n1 & j1 & sl & HO1 & HV1 & ->); exists n1, j1, sl.
      * split; auto. apply OU. right. split; auto. intros E. injection E as -> ->.
        destruct HO as (y1 & p1 & A1 & A2 & A3 & A4 & A5 & A6). destruct HO1 as (y2 & p2 & B1 & B2 & B3 & B4 & B5 & B6).
        rewrite A2 in B2. injection B2 as <-. rewrite A4, <- B4, B5 in A5. apply reverse64_inj in A5; auto. congruence.
      * apply OU in HO1 as [(E & -> & HO1)|(NE & HO1)]; auto. exfalso. apply Np.
        destruct HO as (y1 & p1 & A1 & A2 & A3 & A4 & A5 & A6). destruct HO1 as (y2 & p2 & B1 & B2 & B3 & B4 & B5 & B6).
        rewrite B5 in A5. apply reverse64_inj in A5; auto. congruence.
  - intros k' c' n1 j1 sl Hk' HO1 HV1. apply OU in HO1 as [(E & -> & HO1)|(NE & HO1)].
    + injection E as -> ->. apply (sr_st _ _ _ H k' c' n j (slot_at p j)); auto.
    + apply (sr_st _ _ _ H k' c' n1 j1 sl); auto.
Qed.

Definition marks (f : slot -> slot) : Prop := forall sl, sl_rev (f sl) = sl_rev sl /\ sl_conf (f sl) = sl_conf sl /\
  sl_key (f sl) = sl_key sl /\ sl_val (f sl) = sl_val sl /\ sl_del (f sl) = true.
Lemma srel_delete f st s m k c n j p : marks f -> srel st s m -> 0 <= k < W64 -> hit s k c n j p ->
  srel st (upd_item s n j f)
    (if st (k, c) then m else mkSM (sm_put m (k, c) None) (sm_view m) (sm_created m)).
Proof.
  intros HF H Hk HT. destruct (sr_inv _ _ _ H) as (xl & I).
  destruct (upd_item_spec s xl k c n j p f I HT (fun z => proj1 (HF z))) as (I' & M' & L' & B' & R' & P' & O' & _ & _).
  pose proof (occ_upd s xl k c n j p f I HT (fun z => proj1 (HF z)) (fun z => proj1 (proj2 (HF z)))) as OU.
  destruct (hit_occ _ _ _ _ _ _ HT) as [HO HV].
  pose proof (sr_st _ _ _ H k c n j _ Hk HO HV) as ST.
  assert (SAME : forall k' c', 0 <= k' < W64 -> occ s k' c' n j (slot_at p j) -> (k', c') = (k, c)).
  { intros k' c' Hk' HO1. destruct HO as (y1 & p1 & A1 & A2 & A3 & A4 & A5 & A6). destruct HO1 as (y2 & p2 & B1 & B2 & B3 & B4 & B5 & B6).
    rewrite B5 in A5. apply reverse64_inj in A5; auto. congruence. }
  constructor.
  - exists xl; auto.
  - destruct (st (k, c)); apply (sr_view _ _ _ H).
  - rewrite L'. destruct (st (k, c)); apply (sr_len _ _ _ H).
  - intros k' c' bd Hk'. destruct (st (k, c)) eqn:ES.
    + assert (j = 0%nat) by (apply ST; auto). subst j.
      rewrite (sr_at _ _ _ H k' c' bd Hk'). split; intros (n1 & j1 & sl & HO1 & HV1 & ->).
      * destruct (nid_eq_dec n1 n) as [->|Nn]; [destruct (Nat.eq_dec j1 0) as [->|Nj]|].
        -- exists n, 0%nat, (f sl). assert (sl = slot_at p 0) as ->.
           { destruct HO as (y1 & p1 & A1 & A2 & A3 & A4 & A5 & A6). destruct HO1 as (y2 & p2 & B1 & B2 & B3 & B4 & B5 & B6). congruence. }
           split; [apply OU; left; auto|]. split; [right; auto|].
           destruct (HF (slot_at p 0)) as (_ & _ & -> & -> & _). reflexivity.
        -- exists n, j1, sl. split; auto. apply OU. right. split; auto. congruence.
        -- exists n1, j1, sl. split; auto. apply OU. right. split; auto. congruence.
      * apply OU in HO1 as [(E & -> & HO1)|(NE & HO1)].
        -- injection E as -> ->. exists n, 0%nat, (slot_at p 0). split; [exact HO1|split; [right; auto|]].
           destruct (HF (slot_at p 0)) as (_ & _ & -> & -> & _). reflexivity.
        -- exists n1, j1, sl. auto.
    + assert (j <> 0%nat) by (intros E; apply ST in E; congruence). cbn [sm_map]. rewrite sm_put_eq.
      destruct (pair_eqb_spec (k, c) (k', c')) as [Ep|Np].
      * injection Ep as <- <-. split; [discriminate|]. intros (n1 & j1 & sl & HO1 & HV1 & ->). exfalso.
        apply OU in HO1 as [(E & -> & HO1)|(NE & HO1)].
        -- injection E as -> ->. destruct HV1 as [V|V]; [|congruence].
           destruct (HF (slot_at p j)) as (_ & _ & _ & _ & D). congruence.
        -- destruct (occ_uniq s xl k k c c n1 n j1 j _ _ I eq_refl HO1 HO) as (-> & -> & _). congruence.
      * rewrite (sr_at _ _ _ H k' c' bd Hk'). split; intros (n1 & j1 & sl & HO1 & HV1 & ->); exists n1, j1, sl.
        -- split; auto. apply OU. right. split; auto. intros E. injection E as -> ->.
           assert (sl = slot_at p j) as ->.
           { destruct HO as (y1 & p1 & A1 & A2 & A3 & A4 & A5 & A6). destruct HO1 as (y2 & p2 & B1 & B2 & B3 & B4 & B5 & B6). congruence. }
           apply Np. symmetry. apply SAME; auto.
        -- apply OU in HO1 as [(E & -> & HO1)|(NE & HO1)]; auto. exfalso. apply Np. symmetry. apply SAME; auto.
  - intros k' c' n1 j1 sl Hk' HO1 HV1. apply OU in HO1 as [(E & -> & HO1)|(NE & HO1)].
    + injection E as -> ->. rewrite (SAME k' c' Hk' HO1). exact ST.
    + apply (sr_st _ _ _ H k' c' n1 j1 sl); auto.
Qed.

Lemma eupdate_sagrees st s m k c n j p v : srel st s m -> 0 <= k < W64 -> hit s k c n j p -> item_at s n j = slot_at p j ->
  let b := mkBd KSample (sl_key (slot_at p j)) (sl_val (slot_at p j)) in
  sagrees st (snd (eupdate s n j v)) (snd (sm_update m (k, c) b v)) (fst (eupdate s n j v)) (fst (sm_update m (k, c) b v)).
Proof.
  intros H Hk HT HI b. right. unfold eupdate, sm_update. rewrite HI, (sr_view _ _ _ H), set_value_assign.
  cbn [b bd_val bd_kind bd_key]. destruct (assign KSample (sl_val (slot_at p j)) v) as [[v' ok]|]; cbn [fst snd]; [|auto].
  split; [reflexivity|]. apply srel_update; auto.
Qed.

Definition creates_nothing (h : hashes) (m : smap) (o : op) : Prop :=
  match o with
  | OpPurge _ => False
  | OpSet key _ => exists p, key_to_hash h key = Some p /\ sm_map m p <> None
  | OpStore i => exists p, key_to_hash h (i_key i) = Some p /\ sm_map m p <> None
  | _ => True
  end.
Lemma estep_sagrees st h s m o : srel st s m -> creates_nothing h m o ->
  sagrees st (snd (estep h s o)) (snd (sticky_step st h m o)) (fst (estep h s o)) (fst (sticky_step st h m o)).
Proof.
  intros H HO. destruct o as [key v|i|key|k c|key|k c|key|key|]; try contradiction; cbn [estep sticky_step creates_nothing] in *.
  - destruct HO as ((k & c) & EK & EM). pose proof (proj1 (key_range _ _ _ _ EK)) as Hk. cbn [sm_step]. rewrite EK. unfold eset. rewrite EK.
    destruct (eload_srel st s m k c H Hk) as [->|[(n & j & p & -> & HT & HI & EM')|(_ & EM')]]; [left; auto| |congruence].
    rewrite EM'. apply eupdate_sagrees; auto.
  - destruct HO as ((k & c) & EK & EM). pose proof (proj1 (key_range _ _ _ _ EK)) as Hk. cbn [sm_step]. rewrite EK. unfold estore, item_hash. rewrite EK.
    destruct (eload_srel st s m k c H Hk) as [->|[(n & j & p & -> & HT & HI & EM')|(_ & EM')]]; [left; auto| |congruence].
    rewrite EM'. apply eupdate_sagrees; auto.
  - cbn [sm_step fst snd]. unfold ewith. destruct (key_to_hash h key) as [[k c]|] eqn:EK; [|right; auto].
    apply eget_sagrees; auto. apply (proj1 (key_range _ _ _ _ EK)).
  - cbn [sm_step fst snd]. apply eget_sagrees; auto using u64_range.
  - cbn [sm_step fst snd]. unfold ewith. destruct (key_to_hash h key) as [[k c]|] eqn:EK; [|right; auto].
    apply eget_item_sagrees; auto. apply (proj1 (key_range _ _ _ _ EK)).
  - cbn [sm_step fst snd]. apply eget_item_sagrees; auto using u64_range.
  - unfold ewith. destruct (key_to_hash h key) as [[k c]|] eqn:EK; [|right; cbn [sm_step]; rewrite EK; auto].
    pose proof (proj1 (key_range _ _ _ _ EK)) as Hk. unfold edelete.
    destruct (eload_srel st s m k c H Hk) as [->|[(n & j & p & -> & HT & HI & EM')|(-> & EM')]]; [left; auto|right|right].
    + cbn [fst snd]. pose proof (srel_delete set_sdel st s m k c n j p ltac:(repeat split) H Hk HT) as HD.
      destruct (st (k, c)); cbn [fst snd sm_step]; rewrite ?EK, ?EM'; cbn [fst snd]; auto.
    + cbn [fst snd]. destruct (st (k, c)); cbn [fst snd sm_step]; rewrite ?EK, ?EM'; cbn [fst snd]; auto.
  - cbn [sm_step fst snd]. right. cbn [seen]. rewrite (sr_len _ _ _ H). auto.
Qed.
Lemma srun_agrees st h : forall os s m, srel st s m -> no_create st h m os ->
  agree (eouts h s os) (sticky_outs st h m os).
Proof.
  induction os as [|o os IH]; intros s m H HN; cbn [eouts sticky_outs agree no_create] in *; [auto|].
  destruct HN as [HO HN]. pose proof (estep_sagrees st h s m o H HO) as A.
  destruct (estep h s o) as [s' r]. cbn [fst snd] in A. destruct A as [->|[E A]]; [left; auto|right].
  assert (ST : stops r = false) by (destruct r; cbn in *; congruence). rewrite ST. split; auto.
Qed.

(** * Reads depend on the shape of the trie and on the used part of the pools only *)
Section Shape.
Variables t t' : trie.
Hypothesis SS : same_shape t t'.
Let HL n : lvl t n = lvl t' n := same_shape_lvl t t' n SS.
Let HB n : brev t n = brev t' n := same_shape_brev t t' n SS.
Lemma lower_slot_shape n k : lower_slot t n k = lower_slot t' n k.
Proof. induction k as [|k IH]; cbn [lower_slot]; auto. rewrite HL, IH. auto. Qed.
Lemma largest_slot_shape n k : largest_slot t n k = largest_slot t' n k.
Proof. induction k as [|k IH]; cbn [largest_slot]; auto. rewrite HL, HB, IH. auto. Qed.
Lemma largest_down_shape f : forall n, largest_down f t n = largest_down f t' n.
Proof.
  induction f as [|f IH]; intros n; cbn [largest_down]; auto.
  rewrite <- largest_slot_shape, <- (shape_down _ _ (SS n)). destruct (largest_slot _ _ _); auto.
Qed.
Lemma find_loop_shape rv f : forall l n, find_loop f t l rv n = find_loop f t' l rv n.
Proof.
  induction f as [|f IH]; intros l n; cbn [find_loop]; auto. cbv zeta.
  rewrite <- !(shape_down _ _ (SS n)), <- !HL, <- lower_slot_shape, IH.
  destruct (b_down (bget t n) =? 0); auto.
  destruct (lower_slot _ _ _) as [z|]; auto. rewrite largest_down_shape. auto.
Qed.
Lemma to_base_shape f : forall n, to_base f t n = to_base f t' n.
Proof.
  induction f as [|f IH]; intros n; cbn [to_base]; auto. rewrite <- (shape_parent _ _ (SS n)).
  destruct (b_parent _); auto.
Qed.
Local Transparent base find_bucket.
Lemma find_bucket_shape rv : find_bucket t rv = find_bucket t' rv.
Proof. apply find_loop_shape. Qed.
Lemma base_shape n : base t n = base t' n.
Proof. apply to_base_shape. Qed.
End Shape.

Lemma sort_search_ext f g : forall fuel i j, (forall x, (x < j)%nat -> f x = g x) ->
  sort_search fuel i j f = sort_search fuel i j g.
Proof.
  induction fuel as [|fuel IH]; intros i j H; cbn [sort_search]; auto.
  destruct (Nat.leb_spec j i); auto.
  assert (Nat.div2 (i + j) < j)%nat by (rewrite Nat.div2_div; apply Nat.div_lt_upper_bound; lia).
  rewrite (H _ H1), !IH; auto. intros x Hx. apply H. lia.
Qed.
Lemma skip_left_ext l l' i : (forall x, (x <= i)%nat -> nth x l zero_slot = nth x l' zero_slot) -> skip_left l i = skip_left l' i.
Proof.
  induction i as [|i IH]; intros H; cbn [skip_left]; auto. rewrite (H (S i)) by lia.
  rewrite IH; auto.
Qed.
Definition same_used (p p' : pool) : Prop := p_len p = p_len p' /\ forall i, (i < p_n p)%nat -> slot_at p i = slot_at p' i.
Lemma emb_search_ext p p' rv : same_used p p' -> emb_search p rv = emb_search p' rv.
Proof.
  intros [HL HS]. unfold emb_search, p_n in *. rewrite <- HL.
  assert (SK : forall i, (i < Z.to_nat (p_len p))%nat -> skip_left (p_slots p) i = skip_left (p_slots p') i).
  { intros i Hi. apply skip_left_ext. intros x Hx. apply (HS x). lia. }
  assert (SL : forall i, (i < Z.to_nat (p_len p))%nat -> slot_at p (skip_left (p_slots p) i) = slot_at p' (skip_left (p_slots p') i)).
  { intros i Hi. rewrite <- SK by auto. apply HS. pose proof (skip_left_le (p_slots p) i). lia. }
  rewrite (sort_search_ext _ (fun i => rv <=? sl_rev (slot_at p' (skip_left (p_slots p') i)))).
  - cbv zeta. set (idx := sort_search _ _ _ _). destruct (Nat.ltb_spec idx (Z.to_nat (p_len p))); cbn [andb]; auto.
    rewrite (HS idx), (SK idx) by auto. auto.
  - intros x Hx. rewrite SL; auto.
Qed.

Definition pools_same (s s' : estate) : Prop := same_shape (x_trie s) (x_trie s') /\ x_len s = x_len s' /\
  forall n, match b_pool (bget (x_trie s) n), b_pool (bget (x_trie s') n) with
            | Some p, Some p' => same_used p p'
            | None, None => True
            | _, _ => False
            end.
Lemma eload_same s s' k c : pools_same s s' -> eload s k c = eload s' k c /\
  forall n i, eload s k c = Ret (Some (n, i)) -> item_at s n i = item_at s' n i.
Proof.
  intros (SS & _ & HP). unfold eload, pool_of, item_at. rewrite <- (find_bucket_shape _ _ SS), <- (base_shape _ _ SS).
  set (n := base _ _). pose proof (HP n) as Hn.
  destruct (b_pool (bget (x_trie s) n)) as [p|] eqn:E1; destruct (b_pool (bget (x_trie s') n)) as [p'|] eqn:E2; try contradiction; [|split; [auto|discriminate]].
  rewrite <- (emb_search_ext _ _ _ Hn). destruct (emb_search p (reverse64 k)) as [i|] eqn:ES; [|split; [auto|discriminate]].
  assert (Hi : (i < p_n p)%nat).
  { unfold emb_search in ES. cbv zeta in ES. match type of ES with (if ?c then _ else _) = _ => destruct c eqn:EC; [|discriminate] end.
    injection ES as <-. apply andb_true_iff in EC as [EC _]. apply Nat.ltb_lt in EC.
    eapply Nat.le_lt_trans; [apply skip_left_le|exact EC]. }
  rewrite <- (proj2 Hn i Hi). split; auto.
  destruct ((sl_rev (slot_at p i) =? reverse64 k) && (sl_conf (slot_at p i) =? c)); [|discriminate].
  intros n1 i1 E. injection E as <- <-. rewrite E1, E2. apply (proj2 Hn i Hi).
Qed.
Lemma reads_same h : forall os s s', pools_same s s' -> Forall read_only os -> eouts h s os = eouts h s' os.
Proof.
  induction os as [|o os IH]; intros s s' HS HF; cbn [eouts]; auto. apply Forall_cons_iff in HF as [HO HF].
  assert (G : forall k c, (fst (eget s k c) = s /\ fst (eget s' k c) = s') /\ snd (eget s k c) = snd (eget s' k c)).
  { intros k c. destruct (eload_same s s' k c HS) as [E EI]. unfold eget. rewrite <- E.
    destruct (eload s k c) as [[[n i]|]| | |]; cbn [fst snd]; auto. rewrite (EI n i eq_refl). auto. }
  assert (GI : forall k c, (fst (eget_item s k c) = s /\ fst (eget_item s' k c) = s') /\ snd (eget_item s k c) = snd (eget_item s' k c)).
  { intros k c. destruct (eload_same s s' k c HS) as [E EI]. unfold eget_item. rewrite <- E.
    destruct (eload s k c) as [[[n i]|]| | |]; cbn [fst snd]; auto. rewrite (EI n i eq_refl). auto. }
  assert (ST : (fst (estep h s o) = s /\ fst (estep h s' o) = s') /\ snd (estep h s o) = snd (estep h s' o)).
  { destruct o as [key v|i|key|k c|key|k c|key|key|]; try contradiction; cbn [estep]; unfold ewith; auto.
    - destruct (key_to_hash h key) as [[k c]|]; auto.
    - destruct (key_to_hash h key) as [[k c]|]; auto.
    - cbn [fst snd]. destruct HS as (_ & -> & _). auto. }
  destruct (estep h s o) as [s1 r], (estep h s' o) as [s1' r']. cbn [fst snd] in ST. destruct ST as [[-> ->] ->].
  f_equal. destruct (stops r'); auto.
Qed.

(** * First and last of a bucket *)
Lemma edump_boundary s xl b : einv s xl -> In b (edump s) -> b <> 2 ^ 64 - 1 ->
  exists y n, adj (x_bl s) y n /\ brev (x_trie s) n = b.
Proof.
  intros I H N. unfold edump in H. apply in_map_iff in H as (n & <- & Hn).
  destruct (nid_eq_dec n bmax) as [->|Nn].
  - exfalso. apply N. destruct (tk_bmax _ _ (ei_trie _ _ I)) as (_ & -> & _). reflexivity.
  - destruct (ei_pred s xl I n Hn Nn) as (y & Hy). exists y, n. auto.
Qed.
Lemma place_order s xl k c n j sl k' c' n' j' sl' : einv s xl -> occ s k c n j sl -> occ s k' c' n' j' sl' ->
  reverse64 k' < reverse64 k ->
  (n = n' /\ (j' < j)%nat /\ ~ separated (edump s) (reverse64 k') (reverse64 k)) \/
  (n <> n' /\ separated (edump s) (reverse64 k') (reverse64 k)).
Proof.
  intros I (y & p & Hy & HP & Hj & -> & Hr & Hc) (y' & p' & Hy' & HP' & Hj' & -> & Hr' & Hc') LT.
  destruct (ei_pool _ _ I _ _ Hy) as (q & E & K). rewrite HP in E. injection E as <-.
  destruct (ei_pool _ _ I _ _ Hy') as (q & E & K'). rewrite HP' in E. injection E as <-.
  pose proof (po_rng _ _ _ K _ (live_in _ _ _ _ K Hj)) as R. pose proof (po_rng _ _ _ K' _ (live_in _ _ _ _ K' Hj')) as R'.
  rewrite Hr in R. rewrite Hr' in R'.
  destruct (nid_eq_dec n n') as [<-|Nn].
  - left. rewrite HP in HP'. injection HP' as <-. split; auto. split.
    + destruct (Nat.lt_ge_cases j' j); auto. pose proof (slot_le _ _ _ j j' K ltac:(lia)). lia.
    + intros (b & Hb & Nb & Rb). destruct (edump_boundary s xl b I Hb Nb) as (y1 & n1 & Hy1 & <-).
      pose proof (ei_nodup s xl I) as ND.
      assert (y = y') by (eapply adj_uniq_l; eauto). subst y'.
      assert (L1 : brev (x_trie s) n1 < up (x_trie s) y1).
      { destruct (ei_pool _ _ I _ _ Hy1) as (q & Eq & Kq). destruct (gap_pow s xl _ _ I Hy1) as (mm & -> & ?).
        pose proof (Z.pow_pos_nonneg 2 mm). lia. }
      destruct (ei_disjoint s xl I y n y1 n1 (brev (x_trie s) n1) Hy Hy1) as [<- _]; lia.
  - right. split; auto.
    destruct (nid_eq_dec y' bmax) as [->|Ny'].
    + exfalso. apply Nn. unfold up in R'. rewrite nid_eqb_refl in R'.
      destruct (ei_disjoint s xl I y n bmax n' (reverse64 k) Hy Hy'); auto.
      unfold up. rewrite nid_eqb_refl. pose proof (reverse64_range k). lia.
    + assert (U : up (x_trie s) y' = brev (x_trie s) y').
      { unfold up. destruct (nid_eqb y' bmax) eqn:Ey; auto. apply nid_eqb_eq in Ey. congruence. }
      destruct (adj_in _ _ _ Hy') as [Hin _].
      exists (brev (x_trie s) y'). split; [unfold edump; apply in_map; auto|]. split.
      * pose proof (reverse64_range k).
        destruct (ei_adj_x s xl I _ _ Hy') as [Hx _].
        destruct (ei_16 _ _ I y' Hx Ny') as (z & Hz). rewrite Hz. change (2 ^ 64) with (2 ^ 60 * 16). lia.
      * rewrite U in R'. split; [lia|].
        destruct (Z_le_gt_dec (brev (x_trie s) y') (reverse64 k)); auto. exfalso. apply Nn.
        destruct (ei_disjoint s xl I y n y' n' (reverse64 k) Hy Hy'); auto. lia.
Qed.

(** * From storing to deleting *)
Lemma erel_occ s m k c bd : erel s m -> 0 <= k < W64 -> (sm_map m (k, c) = Some bd <->
  exists n j sl, occ s k c n j sl /\ bd = mkBd KSample (sl_key sl) (sl_val sl)).
Proof.
  intros H Hk. destruct (er_inv _ _ H) as (xl & I). rewrite (er_at _ _ H k c bd Hk). split.
  - intros (key & v & -> & y & n & p & Hy & HP & Hin). apply in_map_iff in Hin as (sl & Es & Hs).
    destruct (ei_pool _ _ I _ _ Hy) as (q & Eq & K). rewrite HP in Eq. injection Eq as <-.
    destruct (in_live _ _ _ _ K Hs) as (j & Hj & <-). unfold pr in Es. injection Es as E1 E2 E3 E4 E5.
    exists n, j, (slot_at p j). rewrite E4, E5. split; auto. exists y, p. auto 8.
  - intros (n & j & sl & (y & p & Hy & HP & Hj & -> & Hr & Hc) & ->).
    destruct (ei_pool _ _ I _ _ Hy) as (q & Eq & K). rewrite HP in Eq. injection Eq as <-.
    eexists _, _. split; [reflexivity|]. exists y, n, p. split; auto. split; auto. apply in_map_iff.
    exists (slot_at p j). split; [|eapply live_in; eauto]. unfold pr. rewrite Hr, Hc.
    rewrite (er_nd _ _ H _ _ _ Hy HP _ (live_in _ _ _ _ K Hj)). auto.
Qed.
Lemma erel_nodel s m k c n j sl : erel s m -> occ s k c n j sl -> sl_del sl = false.
Proof.
  intros H (y & p & Hy & HP & Hj & -> & Hr & Hc). destruct (er_inv _ _ H) as (xl & I).
  destruct (ei_pool _ _ I _ _ Hy) as (q & Eq & K). rewrite HP in Eq. injection Eq as <-.
  apply (er_nd _ _ H _ _ _ Hy HP). eapply live_in; eauto.
Qed.
Lemma occ_some s m k c n j sl : erel s m -> 0 <= k < W64 -> occ s k c n j sl -> sm_map m (k, c) <> None.
Proof.
  intros H Hk HO. assert (E : sm_map m (k, c) = Some (mkBd KSample (sl_key sl) (sl_val sl))) by (apply (erel_occ s); eauto).
  congruence.
Qed.
(** the slot at index i of a bucket's pool holds some key *)
Lemma slot_occ s xl y n p i : einv s xl -> adj (x_bl s) y n -> b_pool (bget (x_trie s) n) = Some p -> (i < p_n p)%nat ->
  exists k, 0 <= k < W64 /\ reverse64 k = sl_rev (slot_at p i) /\ occ s k (sl_conf (slot_at p i)) n i (slot_at p i).
Proof.
  intros I Hy HP Hi. destruct (ei_pool _ _ I _ _ Hy) as (q & Eq & K). rewrite HP in Eq. injection Eq as <-.
  assert (R : 0 <= sl_rev (slot_at p i) < W64).
  { apply (cont_rev s xl I (pr (slot_at p i))). exists y, n, p. split; auto. split; auto. apply in_map. eapply live_in; eauto. }
  exists (reverse64 (sl_rev (slot_at p i))). split; [apply reverse64_range|].
  rewrite reverse64_involutive by auto. split; auto. exists y, p. rewrite reverse64_involutive by auto. auto 8.
Qed.
Lemma first_zero s m k c n j sl : erel s m -> 0 <= k < W64 -> occ s k c n j sl ->
  (first_of_bucket (edump s) m k c <-> j = 0%nat).
Proof.
  intros H Hk HO. destruct (er_inv _ _ H) as (xl & I). split.
  - intros [_ F]. destruct j as [|j]; auto. exfalso.
    destruct HO as (y & p & Hy & HP & Hj & Es & Hr & Hc).
    destruct (slot_occ s xl y n p 0%nat I Hy HP ltac:(lia)) as (k0 & Hk0 & E0 & O0).
    assert (HO : occ s k c n (S j) sl) by (exists y, p; auto 8).
    destruct (ei_pool _ _ I _ _ Hy) as (q & Eq & K). rewrite HP in Eq. injection Eq as <-.
    assert (LT : reverse64 k0 < reverse64 k).
    { rewrite E0, <- Hr, Es. apply (slot_lt _ _ _ 0 (S j) K). lia. }
    pose proof (F k0 (sl_conf (slot_at p 0)) Hk0 (occ_some s m _ _ _ _ _ H Hk0 O0) LT) as SP.
    destruct (place_order s xl k c n (S j) sl k0 _ n 0%nat _ I HO O0 LT) as [(_ & _ & NS)|(NE & _)]; auto.
  - intros ->. split; [eapply occ_some; eauto|]. intros k' c' Hk' HM LT.
    destruct (sm_map m (k', c')) as [bd|] eqn:EM; [|congruence].
    apply (erel_occ s m k' c' bd H Hk') in EM as (n' & j' & sl' & HO' & _).
    destruct (place_order s xl k c n 0%nat sl k' c' n' j' sl' I HO HO' LT) as [(_ & J & _)|(_ & SP)]; [lia|auto].
Qed.
Lemma last_end s m k c n j p : erel s m -> 0 <= k < W64 -> hit s k c n j p ->
  (last_of_bucket (edump s) m k c <-> p_len p - 1 = Z.of_nat j).
Proof.
  intros H Hk HT. destruct (er_inv _ _ H) as (xl & I). destruct (hit_occ _ _ _ _ _ _ HT) as [HO _].
  destruct HT as (y & Hy & HP & K & Hj & Hr & Hc & Hv). pose proof (po_len _ _ _ K) as PL. split.
  - intros [_ F]. destruct (Z.eq_dec (p_len p - 1) (Z.of_nat j)) as [|NL]; auto. exfalso.
    assert (HS : (S j < p_n p)%nat) by (unfold p_n in *; lia).
    destruct (slot_occ s xl y n p (S j) I Hy HP HS) as (k0 & Hk0 & E0 & O0).
    assert (LT : reverse64 k < reverse64 k0).
    { rewrite E0, <- Hr. apply (slot_lt _ _ _ j (S j) K). lia. }
    pose proof (F k0 _ Hk0 (occ_some s m _ _ _ _ _ H Hk0 O0) LT) as SP.
    destruct (place_order s xl k0 _ n (S j) _ k c n j _ I O0 HO LT) as [(_ & _ & NS)|(NE & _)]; auto.
  - intros EJ. split; [eapply occ_some; eauto|]. intros k' c' Hk' HM LT.
    destruct (sm_map m (k', c')) as [bd|] eqn:EM; [|congruence].
    apply (erel_occ s m k' c' bd H Hk') in EM as (n' & j' & sl' & HO' & _).
    destruct (place_order s xl k' c' n' j' sl' k c n j _ I HO' HO LT) as [(<- & J & _)|(_ & SP)]; [|auto].
    destruct HO' as (y' & p' & Hy' & HP' & Hj' & _). rewrite HP in HP'. injection HP' as <-. unfold p_n in *. lia.
Qed.

Lemma erel_srel st s m : erel s m ->
  (forall k c, 0 <= k < W64 -> (st (k, c) = true <-> first_of_bucket (edump s) m k c)) -> srel st s m.
Proof.
  intros H HS. constructor.
  - apply (er_inv _ _ H).
  - apply (er_view _ _ H).
  - apply (er_len _ _ H).
  - intros k c bd Hk. rewrite (erel_occ s m k c bd H Hk). split; intros (n & j & sl & HO & HX); exists n, j, sl.
    + split; auto. split; auto. left. eapply erel_nodel; eauto.
    + destruct HX. auto.
  - intros k c n j sl Hk HO HV. rewrite (HS k c Hk). eapply first_zero; eauto.
Qed.

(** * Purge of one key *)
Lemma same_used_refl p : same_used p p.
Proof. split; auto. Qed.
Lemma pools_same_refl s : pools_same s s.
Proof. split; [intros n; auto|]. split; auto. intros n. destruct (b_pool _); auto using same_used_refl. Qed.

Lemma nth_upd_nth_other {A} k j (x d : A) : forall l, k <> j -> nth j (upd_nth k x l) d = nth j l d.
Proof.
  revert j. induction k as [|k IH]; intros [|j] [|y l] H; cbn [upd_nth nth]; auto; try congruence.
Qed.
Lemma firstn_S_nth {A} j (l : list A) d : (j < List.length l)%nat -> firstn (S j) l = firstn j l ++ [nth j l d].
Proof.
  revert l. induction j as [|j IH]; intros [|y l] H; cbn [List.length] in H; try lia; [reflexivity|].
  cbn [firstn nth app]. f_equal. apply IH. lia.
Qed.
Lemma nth_firstn_lt {A} i j (l : list A) d : (i < j)%nat -> nth i (firstn j l) d = nth i l d.
Proof.
  revert j l. induction i as [|i IH]; intros [|j] [|y l] H; cbn [firstn nth]; auto; try lia. apply IH. lia.
Qed.
(** which keys are in the first slot of a bucket *)
Definition in_first (s : estate) (q : Z * Z) : bool :=
  existsb (fun n => negb (nid_eqb n bmax) &&
    match b_pool (bget (x_trie s) n) with
    | Some p => (0 <? p_n p)%nat && (sl_rev (slot_at p 0) =? reverse64 (fst q)) && (sl_conf (slot_at p 0) =? snd q)
    | None => false
    end) (x_bl s).
Lemma in_first_spec s xl k c n j sl : einv s xl -> occ s k c n j sl -> (in_first s (k, c) = true <-> j = 0%nat).
Proof.
  intros I HO. unfold in_first. rewrite existsb_exists. split.
  - intros (n' & Hn & E). apply andb_true_iff in E as [E1 E2].
    assert (Nn : n' <> bmax) by (apply nid_eqb_neq; destruct (nid_eqb n' bmax); auto; discriminate).
    destruct (ei_pred s xl I n' Hn Nn) as (y & Hy).
    destruct (b_pool (bget (x_trie s) n')) as [p|] eqn:EP; [|discriminate].
    apply andb_true_iff in E2 as [E2 E4]. apply andb_true_iff in E2 as [E2 E3].
    apply Nat.ltb_lt in E2. apply Z.eqb_eq in E3, E4. cbn [fst snd] in *.
    assert (HO' : occ s k c n' 0 (slot_at p 0)) by (exists y, p; auto 8).
    destruct (occ_uniq s xl k k c c _ _ _ _ _ _ I eq_refl HO HO') as (_ & -> & _). auto.
  - intros ->. destruct HO as (y & p & Hy & HP & Hj & -> & Hr & Hc). exists n. split; [apply (adj_in _ _ _ Hy)|].
    pose proof (ei_adj_ne s xl I _ _ Hy) as Nn. apply nid_eqb_neq in Nn. rewrite Nn, HP. cbn [negb andb fst snd].
    rewrite Hr, Hc, !Z.eqb_refl. apply Nat.ltb_lt in Hj. rewrite Hj. auto.
Qed.
Lemma reads_sticky st h : forall os m, Forall read_only os -> sticky_outs st h m os = sm_outs h m os /\ no_create st h m os.
Proof.
  induction os as [|o os IH]; intros m HF; cbn [sticky_outs sm_outs no_create]; auto. apply Forall_cons_iff in HF as [HO HF].
  destruct (IH m HF) as [E1 E2]. destruct o; try contradiction; cbn [sticky_step sm_step fst snd]; rewrite E1; auto.
Qed.

Lemma epurge_agrees st h s m key os : erel s m ->
  (forall k c, 0 <= k < W64 -> (st (k, c) = true <-> first_of_bucket (edump s) m k c /\ ~ last_of_bucket (edump s) m k c)) ->
  Forall read_only os ->
  agree (eouts h s (OpPurge key :: os)) (sticky_outs st h m (OpPurge key :: os)).
Proof.
  intros H HS HF.
  assert (RD : forall st' s m, srel st' s m -> agree (eouts h s os) (sticky_outs st h m os)).
  { clear -HF. intros st' s m HR. destruct (reads_sticky st h os m HF) as [E1 _]. destruct (reads_sticky st' h os m HF) as [E2 N2].
    rewrite E1, <- E2. apply srun_agrees; auto. }
  assert (RE : forall s m, erel s m -> agree (eouts h s os) (sticky_outs st h m os)).
  { clear -HF. intros s m HR. destruct (reads_sticky st h os m HF) as [EQ _].
    rewrite EQ. apply erun_agrees; auto.
    - eapply Forall_impl; [|exact HF]. intros o. destruct o; cbn; tauto.
    - intros o k c c' Hin HW. rewrite Forall_forall in HF. specialize (HF o Hin). destruct o; try contradiction; discriminate.
    - intros o o' k c c' Hin _ HW. rewrite Forall_forall in HF. specialize (HF o Hin). destruct o; try contradiction; discriminate. }
  cbn [eouts sticky_outs estep sticky_step]. unfold ewith.
  destruct (key_to_hash h key) as [[k c]|] eqn:EK.
  2:{ cbn [sm_step]. rewrite EK. cbn [fst snd seen stops agree]. right. auto. }
  pose proof (proj1 (key_range _ _ _ _ EK)) as Hk. unfold epurge.
  destruct (eload_rel s m k c H Hk) as [->|[(n & j & p & -> & HT & HI & EM)|(-> & EM)]].
  { cbn [stops agree]. left; auto. }
  2:{ cbn [seen stops agree]. right. destruct (st (k, c)); cbn [fst snd sm_step]; rewrite ?EK, ?EM; cbn [fst snd]; auto. }
  pose proof (last_end s m k c n j p H Hk HT) as LE.
  destruct (hit_occ _ _ _ _ _ _ HT) as [HO _]. pose proof (first_zero s m k c n j _ H Hk HO) as FZ.
  pose proof HT as HT'. destruct HT' as (y & Hy & HP & K & Hj & Hr & Hc & Hv). rewrite HP. pose proof (po_len _ _ _ K) as PL.
  destruct (er_inv _ _ H) as (xl & I).
  cbv zeta. destruct (Z.eqb_spec (p_len p - 1) (Z.of_nat j)) as [EJ|NJ].
  - (* the last one: really removed *)
    assert (SF : st (k, c) = false).
    { destruct (st (k, c)) eqn:E; auto. apply (HS k c Hk) in E as [_ E]. exfalso. tauto. }
    rewrite SF. cbn [fst snd sm_step seen stops agree]. rewrite EK, EM. cbn [fst snd]. right. split; auto.
    cbn [negb].
    set (f := fun sl => set_slink false (set_sdel sl)).
    set (q := mkP (p_slots (upd_slot p j f)) (p_len (upd_slot p j f) - 1)).
    assert (LJ : p_n q = j) by (unfold p_n, q; cbn [p_len upd_slot]; lia).
    assert (SQ : shrink_len q = q).
    { unfold shrink_len. rewrite LJ. destruct j as [|j']; auto.
      assert (D : sl_del (slot_at q j') = false).
      { unfold slot_at, q. cbn [p_slots upd_slot].
        rewrite nth_upd_nth_other by lia.
        apply (nodel_at _ _ _ j' K); [apply (er_nd _ _ H _ _ _ Hy HP)|lia]. }
      rewrite D. auto. }
    rewrite SQ.
    (* the same state without the dead slot *)
    set (q' := mkP (firstn j (p_slots p) ++ repeat zero_slot (List.length (p_slots p) - j)) (Z.of_nat j)).
    assert (LV : live p = firstn j (p_slots p) ++ [slot_at p j]).
    { unfold live, slot_at. replace (p_n p) with (S j) by (unfold p_n; lia).
      apply firstn_S_nth. pose proof (po_n _ _ _ K). unfold p_n in *. lia. }
    pose proof (po_n _ _ _ K) as PN.
    assert (JL : List.length (firstn j (p_slots p)) = j) by (rewrite firstn_length; unfold p_n in *; lia).
    destruct (pool_make (st := true) (firstn j (p_slots p)) (List.length (p_slots p) - j) (Z.of_nat j)
                (brev (x_trie s) n) (up (x_trie s) y)) as [KQ LQ].
    { rewrite JL. auto. }
    { rewrite JL. unfold p_n in *. lia. }
    { pose proof (po_sorted _ _ _ K) as SO. rewrite LV, map_app in SO. apply sorted_app in SO as (SO & _). exact SO. }
    { intros sl Hs. apply (po_rng _ _ _ K). rewrite LV. apply in_or_app; auto. }
    fold q' in KQ, LQ.
    set (t2 := tupd (x_trie s) n (fun b => set_pool b (Some q'))).
    assert (SS : same_shape (x_trie s) t2) by (apply same_shape_tupd; intros; reflexivity).
    assert (GN : b_pool (bget t2 n) = Some q') by (unfold t2, tupd; rewrite bget_tset, nid_eqb_refl; reflexivity).
    assert (GO : forall m, m <> n -> b_pool (bget t2 m) = b_pool (bget (x_trie s) m)).
    { intros z Hz. unfold t2, tupd. rewrite bget_tset. destruct (nid_eqb n z) eqn:E; auto.
      apply nid_eqb_eq in E. congruence. }
    destruct (einv_pool s xl t2 y n p q' I SS Hy HP GN GO KQ (x_lv s) (x_len s)) as (I2 & C2 & D2).
    set (s2 := mkX t2 (x_bl s) (x_lv s) (x_len s) (x_max s)) in *.
    assert (NDQ : nodel q').
    { intros sl Hs. rewrite LQ in Hs. apply (er_nd _ _ H _ _ _ Hy HP). rewrite LV. apply in_or_app; auto. }
    rewrite (reads_same h os _ s2).
    + apply RE. constructor; cbn [sm_view sm_created sm_map].
      * exists xl; auto.
      * apply D2; auto. apply (er_nd _ _ H).
      * apply (er_max _ _ H).
      * apply (er_view _ _ H).
      * apply (er_len _ _ H).
      * intros k' c' bd Hk'. rewrite sm_put_eq.
        assert (PJ : pr (slot_at p j) = (reverse64 k, c, false, sl_key (slot_at p j), sl_val (slot_at p j))).
        { unfold pr. rewrite Hr, Hc, (erel_nodel s m k c n j _ H HO). auto. }
        assert (CX : forall x, cont s2 x <-> cont s x /\ pr_rev x <> reverse64 k).
        { intros x. rewrite C2, LQ.
          assert (IL : In x (map pr (live p)) <-> In x (map pr (firstn j (p_slots p))) \/ x = pr (slot_at p j)).
          { rewrite LV, map_app, in_app_iff. cbn [map In]. intuition congruence. }
          assert (CI : In x (map pr (live p)) -> cont s x) by (intros; exists y, n, p; auto).
          split.
          - intros [Hx|[Hx Nx]].
            + split; [apply CI, IL; auto|]. apply in_map_iff in Hx as (sl & <- & Hs). cbn [pr_rev pr fst]. rewrite <- Hr.
              pose proof (po_sorted _ _ _ K) as SO. rewrite LV, map_app in SO. apply sorted_app in SO as (_ & _ & SO).
              assert (sl_rev sl < sl_rev (slot_at p j)); [|lia]. apply SO; [apply in_map; auto|left; auto].
            + split; auto. intros E. apply Nx. apply (cont_here s xl I (reverse64 k) y n p x Hy); auto.
              rewrite <- Hr. apply (po_rng _ _ _ K). eapply live_in; eauto.
          - intros [Hx Nx]. destruct (in_dec prj_dec x (map pr (live p))) as [Hin|]; auto.
            apply IL in Hin as [Hin| ->]; auto. }
        destruct (pair_eqb_spec (k, c) (k', c')) as [Ep|Np].
        -- injection Ep as <- <-. split; [discriminate|]. intros (ky & v & -> & HC). apply CX in HC as [_ HC]. exfalso. apply HC. auto.
        -- rewrite (er_at _ _ H k' c' bd Hk'). split; intros (ky & v & -> & HC); eexists _, _; (split; [reflexivity|]).
           ++ apply CX. split; auto. cbn [pr_rev fst]. intros E. apply reverse64_inj in E; auto. subst k'.
              assert (CK : cont s (pr (slot_at p j))) by (exists y, n, p; split; auto; split; auto; apply in_map; eapply live_in; eauto).
              pose proof (cont_uniq s xl I _ _ HC CK ltac:(rewrite PJ; reflexivity)) as E. rewrite PJ in E. congruence.
           ++ apply CX in HC as [HC _]. auto.
    + split; [|split].
      * unfold set_bpool, set_xtrie. cbn [x_trie]. eapply same_shape_trans; [|exact SS].
        intros z. symmetry. apply same_shape_tupd. intros; reflexivity.
      * reflexivity.
      * intros z. unfold set_bpool, set_xtrie. cbn [x_trie]. unfold s2, t2, tupd. cbn [x_trie]. rewrite !bget_tset.
        destruct (nid_eqb n z); cbn [set_pool b_pool].
        -- split; [unfold q, q'; cbn [p_len upd_slot]; lia|]. intros i Hi. rewrite LJ in Hi.
           unfold slot_at, q, q'. cbn [p_slots upd_slot]. rewrite app_nth1 by lia.
           rewrite nth_upd_nth_other by lia. rewrite nth_firstn_lt by lia. auto.
        -- destruct (b_pool (bget (x_trie s) z)); auto using same_used_refl.
    + auto.
  - (* not the last one: only marked *)
    assert (SF : st (k, c) = true <-> j = 0%nat).
    { rewrite (HS k c Hk). rewrite FZ. rewrite LE. tauto. }
    cbn [negb].
    set (f := fun sl => set_slink true (set_sdel sl)).
    assert (EU : set_bpool s n (upd_slot p j f) = upd_item s n j f) by (unfold upd_item; rewrite HP; reflexivity).
    rewrite EU.
    assert (MF : marks f) by (intros z; repeat split).
    assert (SR : srel (in_first s) s m).
    { constructor; [apply (er_inv _ _ H)|apply (er_view _ _ H)|apply (er_len _ _ H)| |].
      - intros k' c' bd Hk'. rewrite (erel_occ s m k' c' bd H Hk'). split; intros (n' & j' & sl & HO' & HX); exists n', j', sl.
        + split; auto. split; auto. left. eapply erel_nodel; eauto.
        + destruct HX. auto.
      - intros k' c' n' j' sl Hk' HO' HV'. eapply in_first_spec; eauto. }
    pose proof (srel_delete f (in_first s) s m k c n j p MF SR Hk HT) as SD.
    pose proof (in_first_spec s xl k c n j _ I HO) as IFS.
    cbn [seen stops agree]. right.
    destruct (st (k, c)) eqn:ES.
    + assert (J0 : j = 0%nat) by (apply SF; auto). apply IFS in J0. rewrite J0 in SD.
      cbn [fst snd sm_step]. rewrite EK, EM. cbn [fst snd]. split; auto. apply (RD (in_first s)). exact SD.
    + assert (J0 : in_first s (k, c) = false).
      { destruct (in_first s (k, c)); auto. assert (j = 0%nat) by (apply IFS; auto). apply SF in H0. congruence. }
      rewrite J0 in SD. cbn [fst snd sm_step]. rewrite EK, EM. cbn [fst snd]. split; auto. apply (RD (in_first s)). exact SD.
Qed.
