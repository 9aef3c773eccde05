(** Embedded mode: Set of a key after its Purge or Delete (slots used again). *)
From Verif Require Import Base BaseProofs Util UtilProofs Bucket TrieProofs TrieInv TrieGrow MapModel ItemProofs MapInv MapSplit
  MapInit Spec MapRefine EmbModel EmbPool EmbTrie EmbInv EmbSplit EmbSpec EmbRefine EmbDel.
From Coq Require Import ZifyBool Sorted.
Local Open Scope Z_scope.
Local Opaque reverse64 level_of base find_bucket.

(** a slot rewritten in place: same position and conflict code *)
Definition rewrite_slot (d : bool) (ky : gkey) (vl : gval) (lk : bool) (sl : slot) : slot := mkS (sl_rev sl) (sl_conf sl) d ky vl lk.

Lemma in_first_srel s m : erel s m -> srel (in_first s) s m.
Proof.
  intros H. destruct (er_inv _ _ H) as (xl & I). constructor; [apply (er_inv _ _ H)|apply (er_view _ _ H)|apply (er_len _ _ H)| |].
  - intros k' c' bd Hk'. rewrite (erel_occ s m k' c' bd H Hk'). split; intros (n' & j' & sl & HO' & HX); exists n', j', sl.
    + split; auto. split; auto. left. eapply erel_nodel; eauto.
    + destruct HX. auto.
  - intros k' c' n' j' sl Hk' HO' HV'. eapply in_first_spec; eauto.
Qed.

Lemma srel_rewrite st s m k c n j p d ky vl lk : srel st s m -> 0 <= k < W64 -> hit s k c n j p ->
  srel st (upd_item s n j (rewrite_slot d ky vl lk))
    (mkSM (sm_put m (k, c) (if d && negb (Nat.eqb j 0) then None else Some (mkBd KSample ky vl))) KSample (sm_created m)).
Proof.
  intros H Hk HT. destruct (sr_inv _ _ _ H) as (xl & I). set (f := rewrite_slot d ky vl lk).
  destruct (upd_item_spec s xl k c n j p f I HT ltac:(reflexivity)) as (I' & M' & L' & B' & R' & P' & O' & _ & _).
  pose proof (occ_upd s xl k c n j p f I HT ltac:(reflexivity) ltac:(reflexivity)) as OU.
  destruct (hit_occ _ _ _ _ _ _ HT) as [HO HV].
  assert (SAME : forall k' c', 0 <= k' < W64 -> occ s k' c' n j (slot_at p j) -> (k', c') = (k, c)).
  { intros k' c' Hk' HO1. destruct HO as (y1 & p1 & A1 & A2 & A3 & A4 & A5 & A6). destruct HO1 as (y2 & p2 & B1 & B2 & B3 & B4 & B5 & B6).
    rewrite B5 in A5. apply reverse64_inj in A5; auto. congruence. }
  assert (VF : vis j (f (slot_at p j)) <-> d && negb (Nat.eqb j 0) = false).
  { unfold vis, f, rewrite_slot. cbn [sl_del]. destruct d, (Nat.eqb_spec j 0); cbn; intuition congruence. }
  constructor; cbn [sm_view sm_created sm_map]; auto.
  - exists xl; auto.
  - rewrite L'. apply (sr_len _ _ _ H).
  - intros k' c' bd Hk'. rewrite sm_put_eq. destruct (pair_eqb_spec (k, c) (k', c')) as [Ep|Np].
    + injection Ep as <- <-. split.
      * intros E. destruct (d && negb (Nat.eqb j 0)) eqn:ED; [discriminate|]. injection E as <-.
        exists n, j, (f (slot_at p j)). split; [apply OU; left; auto|]. split; [apply VF; auto|reflexivity].
      * intros (n1 & j1 & sl & HO1 & HV1 & ->). apply OU in HO1 as [(E & -> & _)|(NE & HO1)].
        -- injection E as -> ->. apply VF in HV1. rewrite HV1. reflexivity.
        -- destruct (occ_uniq s xl k k c c n1 n j1 j _ _ I eq_refl HO1 HO) as (-> & -> & _). congruence.
    + rewrite (sr_at _ _ _ H k' c' bd Hk'). split; intros (n1 & j1 & sl & HO1 & HV1 & ->); exists n1, j1, sl.
      * split; auto. apply OU. right. split; auto. intros E. injection E as -> ->.
        assert (sl = slot_at p j) as ->.
        { destruct HO as (y1 & p1 & A1 & A2 & A3 & A4 & A5 & A6). destruct HO1 as (y2 & p2 & B1 & B2 & B3 & B4 & B5 & B6). congruence. }
        apply Np. symmetry. apply SAME; auto.
      * apply OU in HO1 as [(E & -> & HO1)|(NE & HO1)]; auto. exfalso. apply Np. symmetry. apply SAME; auto.
  - intros k' c' n1 j1 sl Hk' HO1 HV1. apply OU in HO1 as [(E & -> & HO1)|(NE & HO1)].
    + injection E as -> ->. rewrite (SAME k' c' Hk' HO1). apply (sr_st _ _ _ H k c n j (slot_at p j)); auto.
    + apply (sr_st _ _ _ H k' c' n1 j1 sl); auto.
Qed.

(** only pools and shape matter; the count is free *)
Lemma srel_same st s s' m z : srel st s m -> same_shape (x_trie s) (x_trie s') -> x_bl s' = x_bl s -> x_max s' = x_max s -> x_len s' = z ->
  (forall n, b_pool (bget (x_trie s') n) = b_pool (bget (x_trie s) n)) -> srel st s' (mkSM (sm_map m) (sm_view m) z).
Proof.
  intros H SS HB HM HL HP. destruct (sr_inv _ _ _ H) as (xl & I).
  destruct (einv_same s xl (x_trie s') (x_lv s') (x_len s') I SS HP) as (I' & _).
  assert (E : s' = mkX (x_trie s') (x_bl s) (x_lv s') (x_len s') (x_max s)) by (destruct s'; cbn in *; congruence). rewrite <- E in I'.
  assert (OC : forall k c n j sl, occ s' k c n j sl <-> occ s k c n j sl).
  { intros k c n j sl. unfold occ. rewrite HB. split; intros (y & p & A1 & A2 & A3); exists y, p; rewrite HP in *; auto. }
  constructor; cbn [sm_view sm_created sm_map]; auto.
  - exists xl; auto.
  - apply (sr_view _ _ _ H).
  - intros k c bd Hk. rewrite (sr_at _ _ _ H k c bd Hk). split; intros (n & j & sl & HO & HX); exists n, j, sl; split; auto; apply OC; auto.
  - intros k c n j sl Hk HO. apply OC in HO. apply (sr_st _ _ _ H k c n j sl Hk HO).
Qed.

(** reads of a state in [srel] *)
Lemma srel_reads st h s m reads : srel st s m -> Forall read_only reads -> agree (eouts h s reads) (sm_outs h m reads).
Proof.
  intros H HF. destruct (reads_sticky st h reads m HF) as [E N]. rewrite <- E. apply srun_agrees; auto.
Qed.
Lemma erel_reads h s m reads : erel s m -> Forall read_only reads -> agree (eouts h s reads) (sm_outs h m reads).
Proof. intros H HF. apply (srel_reads (in_first s)); auto. apply in_first_srel; auto. Qed.

Lemma agree_cons h s o os e es : (snd (estep h s o) = Div \/ (seen (snd (estep h s o)) = Some e /\ agree (eouts h (fst (estep h s o)) os) es)) ->
  agree (eouts h s (o :: os)) (e :: es).
Proof.
  intros A. cbn [eouts]. destruct (estep h s o) as [s' r]. cbn [fst snd] in A. cbn [agree]. destruct A as [->|[E A]]; [left; auto|right].
  assert (ST : stops r = false) by (destruct r; cbn in *; congruence). rewrite ST. auto.
Qed.

(** updating the same slot twice *)
Lemma upd_nth_twice {A} k (x y : A) : forall l, upd_nth k x (upd_nth k y l) = upd_nth k x l.
Proof. revert k. intros k l. revert k. induction l as [|z l IH]; intros [|k]; cbn [upd_nth]; auto. f_equal. apply IH. Qed.
Lemma nth_upd_nth_same {A} k (x d : A) : forall l, (k < List.length l)%nat -> nth k (upd_nth k x l) d = x.
Proof. intros l. revert k. induction l as [|z l IH]; intros [|k]; cbn [upd_nth List.length nth]; intros H; try lia; auto. apply IH. lia. Qed.

(** the state of a map in which one bucket's pool has been replaced *)
Lemma pool_of_replaced s n q rv : b_pool (bget (x_trie s) n) <> None -> base (x_trie s) (find_bucket (x_trie s) rv) = n ->
  let t := x_trie (set_bpool s n q) in base t (find_bucket t rv) = n /\ b_pool (bget t n) = Some q.
Proof.
  intros HP HB t. assert (SS : same_shape (x_trie s) t) by (apply same_shape_tupd; intros; reflexivity).
  rewrite <- (find_bucket_shape _ _ SS), <- (base_shape _ _ SS). split; auto.
  unfold t, set_bpool, set_xtrie, tupd. cbn [x_trie]. rewrite bget_tset, nid_eqb_refl. reflexivity.
Qed.
Lemma load_hit_base s k c n j : eload s k c = Ret (Some (n, j)) -> n = base (x_trie s) (find_bucket (x_trie s) (reverse64 k)).
Proof.
  unfold eload. destruct (pool_of _ _); [|discriminate]. destruct (emb_search _ _); [|discriminate]. destruct (_ && _); [|discriminate].
  intros E. injection E as <- _. reflexivity.
Qed.

(** s' is s with the pool of bucket n replaced by q and the count set to z *)
Definition moved (s s' : estate) (n : nid) (q : pool) (z : Z) : Prop :=
  same_shape (x_trie s) (x_trie s') /\ x_bl s' = x_bl s /\ x_max s' = x_max s /\ x_len s' = z /\
  b_pool (bget (x_trie s') n) = Some q /\ forall m, m <> n -> b_pool (bget (x_trie s') m) = b_pool (bget (x_trie s) m).
Lemma moved_set s n q : moved s (set_bpool s n q) n q (x_len s).
Proof.
  unfold moved, set_bpool, set_xtrie. cbn [x_trie x_bl x_max x_len]. split; [apply same_shape_tupd; intros; reflexivity|].
  do 3 (split; [reflexivity|]). unfold tupd. split; [rewrite bget_tset, nid_eqb_refl; reflexivity|].
  intros m Hm. rewrite bget_tset. destruct (nid_eqb n m) eqn:E; auto. apply nid_eqb_eq in E. congruence.
Qed.
Lemma moved_trans s s' s'' n q q' z z' : moved s s' n q z -> moved s' s'' n q' z' -> moved s s'' n q' z'.
Proof.
  intros (A1 & A2 & A3 & A4 & A5 & A6) (B1 & B2 & B3 & B4 & B5 & B6). split; [eapply same_shape_trans; eauto|].
  split; [congruence|]. split; [congruence|]. split; auto. split; auto. intros m Hm. rewrite B6, A6; auto.
Qed.
Lemma moved_blen s n q z g : moved s s n q z -> moved s (set_xtrie s (tupd (x_trie s) n (fun b => set_blen b (g b)))) n q z.
Proof.
  intros (A1 & A2 & A3 & A4 & A5 & A6). unfold moved, set_xtrie. cbn [x_trie x_bl x_max x_len].
  split; [apply same_shape_tupd; intros; reflexivity|]. do 3 (split; [auto|]). unfold tupd.
  split; [rewrite bget_tset, nid_eqb_refl; exact A5|].
  intros m Hm. rewrite bget_tset. destruct (nid_eqb n m) eqn:E; auto. apply nid_eqb_eq in E. congruence.
Qed.

Definition filled (q : pool) (i : nat) (rv c : Z) (ky : gkey) (vl : gval) (lk : bool) : pool :=
  upd_slot q i (fun z => mkS (if sl_rev (slot_at q i) =? 0 then rv else sl_rev (slot_at q i))
                             (if sl_conf (slot_at q i) =? 0 then c else sl_conf (slot_at q i)) (sl_del z) ky vl lk).
Lemma eset_slot h s x v k c n q q1 i : key_to_hash h (KStr x) = Some (k, c) -> base (x_trie s) (find_bucket (x_trie s) (reverse64 k)) = n ->
  base (x_trie s) n = n -> b_pool (bget (x_trie s) n) = Some q ->
  eload s k c = Ret None -> get_with_fn 4 q (reverse64 k) = GSlot q1 i ->
  match set_value KSample (sl_val (slot_at q1 i)) v with
  | None => exists s', eset h s (KStr x) v = (s', Pan) /\
              moved s s' n (filled q1 i (reverse64 k) c (KStr x) (sl_val (slot_at q1 i)) (sl_linked (slot_at q1 i))) (x_len s)
  | Some (v', _) => exists s2, moved s s2 n (filled q1 i (reverse64 k) c (KStr x) v' true) (x_len s + 1) /\
      ((sl_del (slot_at q1 i) = true \/ p_len q1 <= x_max s) ->
        exists s', eset h s (KStr x) v = (s', Ret (RBool true)) /\
          moved s s' n (filled q1 i (reverse64 k) c (KStr x) v' true) (x_len s + 1)) /\
      (forall s3, x_max s < p_len q1 -> make_bucket2 64 s2 n = Ret s3 ->
        exists s4, (s4 = s2 \/ s4 = s3) /\
          eset h s (KStr x) v = (set_xtrie s4 (tupd (x_trie s4) n (fun b => set_blen b (b_len b + 1))), Ret (RBool true))) /\
      (forall s', eset h s (KStr x) v = (s', Ret (RBool true)) -> exists s4, (s4 = s2 \/ make_bucket2 64 s2 n = Ret s4) /\
          s' = set_xtrie s4 (tupd (x_trie s4) n (fun b => set_blen b (b_len b + 1))))
  end.
Proof.
  intros EK EB BB EP EL EG. unfold eset. rewrite EK, EL. cbv zeta. rewrite EB. unfold pool_of. rewrite BB, EP, EG.
  unfold filled. set (sl := slot_at q1 i). set (rv := reverse64 k).
  set (rv' := if sl_rev sl =? 0 then rv else sl_rev sl). set (cf' := if sl_conf sl =? 0 then c else sl_conf sl).
  destruct (set_value KSample (sl_val sl) v) as [[v' ok]|].
  - set (s1 := set_bpool s n (upd_slot q1 i (fun z => mkS rv' cf' (sl_del z) (KStr x) v' true))).
    pose proof (moved_set s n (upd_slot q1 i (fun z => mkS rv' cf' (sl_del z) (KStr x) v' true))) as M1. fold s1 in M1.
    exists (mkX (x_trie s1) (x_bl s1) (x_lv s1) (x_len s1 + 1) (x_max s1)).
    assert (M2 : moved s (mkX (x_trie s1) (x_bl s1) (x_lv s1) (x_len s1 + 1) (x_max s1)) n (upd_slot q1 i (fun z => mkS rv' cf' (sl_del z) (KStr x) v' true)) (x_len s + 1)).
    { destruct M1 as (A1 & A2 & A3 & A4 & A5 & A6). unfold moved. cbn [x_trie x_bl x_max x_len]. do 3 (split; [assumption|]). split; [lia|]. split; assumption. }
    set (s2 := mkX (x_trie s1) (x_bl s1) (x_lv s1) (x_len s1 + 1) (x_max s1)) in *.
    assert (XM : x_max s2 = x_max s) by apply M2.
    split; auto. split; [|split].
    + intros HD. assert (C : negb (sl_del sl) && (rv' <? MAX64) && (x_max s2 <? p_len q1) = false).
      { destruct HD as [->|HD]; auto. rewrite XM. destruct (Z.ltb_spec (x_max s) (p_len q1)); [lia|]. apply andb_false_r. }
      rewrite C. eexists. split; [reflexivity|]. eapply moved_trans; [exact M2|]. apply moved_blen.
      split; [intros z; reflexivity|]. do 3 (split; [apply M2 || reflexivity|]). split; [apply M2|auto].
    + intros s3 HL HM. destruct (negb (sl_del sl) && (rv' <? MAX64) && (x_max s2 <? p_len q1)).
      * rewrite HM. exists s3. auto.
      * exists s2. auto.
    + intros s' E. destruct (negb (sl_del sl) && (rv' <? MAX64) && (x_max s2 <? p_len q1)).
      * destruct (make_bucket2 64 s2 n) as [s3| | |]; try discriminate E. injection E as <-. exists s3. auto.
      * injection E as <-. exists s2. auto.
  - eexists. split; [reflexivity|]. apply moved_set.
Qed.

Lemma srel_put st s m k c b z : srel st s (mkSM (sm_put m (k, c) b) KSample z) -> sm_view m = KSample -> srel st s (mkSM (sm_put m (k, c) b) (sm_view m) z).
Proof. intros H ->. exact H. Qed.
Lemma reuse_srel s m k c n j p s' d ky vl lk z : erel s m -> 0 <= k < W64 -> hit s k c n j p ->
  moved s s' n (upd_slot p j (rewrite_slot d ky vl lk)) z ->
  srel (in_first s) s' (mkSM (sm_put m (k, c) (if d && negb (Nat.eqb j 0) then None else Some (mkBd KSample ky vl))) KSample z).
Proof.
  intros H Hk HT (A1 & A2 & A3 & A4 & A5 & A6).
  pose proof (srel_rewrite (in_first s) s m k c n j p d ky vl lk (in_first_srel s m H) Hk HT) as R.
  destruct HT as (y & Hy & HP & _).
  assert (U : upd_item s n j (rewrite_slot d ky vl lk) = set_bpool s n (upd_slot p j (rewrite_slot d ky vl lk))) by (unfold upd_item; rewrite HP; reflexivity).
  rewrite U in R. set (s1 := set_bpool s n (upd_slot p j (rewrite_slot d ky vl lk))) in *.
  pose proof (moved_set s n (upd_slot p j (rewrite_slot d ky vl lk))) as (B1 & B2 & B3 & B4 & B5 & B6). fold s1 in B1, B2, B3, B4, B5, B6.
  refine (srel_same (in_first s) s1 s' _ z R _ _ _ A4 _).
  - intros w. rewrite <- (B1 w). apply A1.
  - congruence.
  - congruence.
  - intros w. destruct (nid_eq_dec w n) as [->|N]; [congruence|]. rewrite A6, B6; auto.
Qed.
Lemma cont_occ s xl k c ky vl d : einv s xl -> 0 <= k < W64 -> (cont s (reverse64 k, c, d, ky, vl) <->
  exists n j sl, occ s k c n j sl /\ sl_del sl = d /\ sl_key sl = ky /\ sl_val sl = vl).
Proof.
  intros I Hk. split.
  - intros (y & n & p & Hy & HP & Hin). apply in_map_iff in Hin as (sl & E & Hs).
    destruct (ei_pool _ _ I _ _ Hy) as (q & Eq & K). rewrite HP in Eq. injection Eq as <-.
    destruct (in_live _ _ _ _ K Hs) as (j & Hj & Ej). unfold pr in E. injection E as E1 E2 E3 E4 E5.
    exists n, j, sl. split; auto. exists y, p. auto 8.
  - intros (n & j & sl & (y & p & Hy & HP & Hj & -> & Hr & Hc) & <- & <- & <-).
    destruct (ei_pool _ _ I _ _ Hy) as (q & Eq & K). rewrite HP in Eq. injection Eq as <-.
    exists y, n, p. split; auto. split; auto. apply in_map_iff. exists (slot_at p j). split; [unfold pr; rewrite Hr, Hc; auto|]. eapply live_in; eauto.
Qed.
Lemma occ_nodel s xl k c n j sl : einv s xl -> enodel s -> occ s k c n j sl -> sl_del sl = false.
Proof.
  intros I N (y & p & Hy & HP & Hj & -> & _). destruct (ei_pool _ _ I _ _ Hy) as (q & Eq & K). rewrite HP in Eq. injection Eq as <-.
  apply (N _ _ _ Hy HP). eapply live_in; eauto.
Qed.
Lemma srel_erel st s m : srel st s m -> enodel s -> 16 <= x_max s -> erel s m.
Proof.
  intros H N M. destruct (sr_inv _ _ _ H) as (xl & I). constructor; auto.
  - exists xl; auto.
  - apply (sr_view _ _ _ H).
  - apply (sr_len _ _ _ H).
  - intros k c bd Hk. rewrite (sr_at _ _ _ H k c bd Hk). split.
    + intros (n & j & sl & HO & _ & ->). eexists _, _. split; [reflexivity|]. apply (cont_occ s xl); auto.
      exists n, j, sl. split; auto. split; auto. eapply occ_nodel; eauto.
    + intros (ky & vl & -> & HC). apply (cont_occ s xl) in HC as (n & j & sl & HO & HD & <- & <-); auto.
      exists n, j, sl. split; auto. split; [left; auto|auto].
Qed.
Lemma erel_cont s s' xl m : erel s m -> einv s' xl -> enodel s' -> x_max s' = x_max s -> x_len s' = x_len s -> (forall x, cont s' x <-> cont s x) -> erel s' m.
Proof.
  intros H I N M L C. constructor.
  - exists xl; auto.
  - auto.
  - rewrite M. apply (er_max _ _ H).
  - apply (er_view _ _ H).
  - rewrite L. apply (er_len _ _ H).
  - intros k c bd Hk. rewrite (er_at _ _ H k c bd Hk). split; intros (ky & vl & E & HC); exists ky, vl; split; auto; apply C; auto.
Qed.

(** [reuse]: the value is assigned over the one left in the slot; [shown]: whether the key is then found. *)
Definition reuse (m : smap) (q : Z * Z) (x : String.string) (old v : gval) (shown : bool) : smap * out :=
  let '(v', r, n) := match assign KSample old v with Some (v', _) => (v', RBool true, 1) | None => (old, RPanic, 0) end in
  (mkSM (sm_put m q (if shown then Some (mkBd KSample (KStr x) v') else None)) (sm_view m) (sm_created m + n), r).

Section Reuse.
Variables (h : hashes) (s : estate) (m : smap) (x : String.string) (v : gval) (k c : Z) (n : nid) (j : nat) (p : pool) (reads : list op).
Hypothesis H : erel s m.
Hypothesis EK : key_to_hash h (KStr x) = Some (k, c).
Hypothesis EL : eload s k c = Ret (Some (n, j)).
Hypothesis HT : hit s k c n j p.
Hypothesis RO : Forall read_only reads.
Let old := sl_val (slot_at p j).
Let rv := reverse64 k.
Let Hk : 0 <= k < W64 := proj1 (key_range _ _ _ _ EK).

Lemma ru_pool : b_pool (bget (x_trie s) n) = Some p.
Proof. destruct HT as (y & Hy & HP & _). exact HP. Qed.
Lemma ru_base q z s1 : moved s s1 n q z -> base (x_trie s1) (find_bucket (x_trie s1) rv) = n /\ base (x_trie s1) n = n.
Proof.
  intros (SS & _). rewrite <- (find_bucket_shape _ _ SS), <- !(base_shape _ _ SS). unfold rv. rewrite <- (load_hit_base _ _ _ _ _ EL). split; auto.
  destruct (er_inv _ _ H) as (xl & I). destruct HT as (y & Hy & _). apply (base_linked _ xl); [apply (ei_trie _ _ I)|]. apply (ei_adj_x s xl I _ _ Hy).
Qed.
Lemma ru_absent q z s1 : moved s s1 n q z -> emb_search q rv = None -> eload s1 k c = Ret None.
Proof.
  intros M ES. destruct (ru_base _ _ _ M) as [B1 B2]. destruct M as (_ & _ & _ & _ & HP & _). unfold eload, pool_of. fold rv. rewrite B1, HP, ES. reflexivity.
Qed.
Lemma ru_ok : exists lo hi, pool_ok p lo hi /\ nodel p /\ (j < p_n p)%nat /\ sl_rev (slot_at p j) = rv /\ sl_conf (slot_at p j) = c /\ (j < List.length (p_slots p))%nat.
Proof.
  destruct HT as (y & Hy & HP & K & Hj & Hr & Hc & _). exists (brev (x_trie s) n), (up (x_trie s) y). split; auto. split; [apply (er_nd _ _ H _ _ _ Hy HP)|].
  pose proof (po_n _ _ _ K). repeat (split; auto). lia.
Qed.
(** the result, from the slot that is taken and the pool it leads to *)
Lemma ru_result s1 q q1 d z : moved s s1 n q z -> emb_search q rv = None -> get_with_fn 4 q rv = GSlot q1 j ->
  sl_val (slot_at q1 j) = old -> sl_del (slot_at q1 j) = d -> p_len q1 = p_len p ->
  (forall ky vl lk, filled q1 j rv c ky vl lk = upd_slot p j (rewrite_slot d ky vl lk)) ->
  z = x_len s ->
  let e := reuse m (k, c) x old v (negb (d && negb (Nat.eqb j 0))) in
  agree (eouts h s1 (OpSet (KStr x) v :: reads)) (snd e :: sm_outs h (fst e) reads).
Proof.
  intros M ES EG EV ED ELN EF Ez e. destruct (ru_base _ _ _ M) as [B1 B2].
  assert (HP1 : b_pool (bget (x_trie s1) n) = Some q) by apply M.
  pose proof (eset_slot h s1 x v k c n q q1 j EK B1 B2 HP1 (ru_absent _ _ _ M ES) EG) as SL.
  rewrite EV in SL. fold rv in SL. apply agree_cons. cbn [estep]. right. unfold e, reuse. rewrite set_value_assign in SL.
  assert (XL : x_len s1 = x_len s) by (rewrite <- Ez; apply M). assert (XM : x_max s1 = x_max s) by apply M.
  destruct (assign KSample old v) as [[v' ok]|]; cbn [fst snd].
  - destruct SL as (s2 & M2 & NS & SP & _). rewrite EF in M2, NS.
    assert (M2' : forall s2, moved s1 s2 n (upd_slot p j (rewrite_slot d (KStr x) v' true)) (x_len s1 + 1) -> moved s s2 n (upd_slot p j (rewrite_slot d (KStr x) v' true)) (sm_created m + 1)).
    { intros s0 M0. rewrite XL, (er_len _ _ H) in M0. eapply moved_trans; eauto. }
    assert (PUT : forall s0, moved s1 s0 n (upd_slot p j (rewrite_slot d (KStr x) v' true)) (x_len s1 + 1) ->
      srel (in_first s) s0 (mkSM (sm_put m (k, c) (if negb (d && negb (Nat.eqb j 0)) then Some (mkBd KSample (KStr x) v') else None)) (sm_view m) (sm_created m + 1))).
    { intros s0 M0. apply srel_put; [|apply (er_view _ _ H)]. pose proof (reuse_srel s m k c n j p s0 d (KStr x) v' true _ H Hk HT (M2' _ M0)) as R.
      destruct (d && negb (Nat.eqb j 0)); exact R. }
    destruct (sl_del (slot_at q1 j)) eqn:DD.
    + destruct NS as (s' & -> & M'); [left; auto|]. cbn [fst snd seen]. split; auto. apply (srel_reads (in_first s)); auto.
    + destruct (Z_le_gt_dec (p_len q1) (x_max s1)) as [LE|GT].
      * destruct NS as (s' & -> & M'); [right; auto|]. cbn [fst snd seen]. split; auto. apply (srel_reads (in_first s)); auto.
      * subst d. pose proof (PUT s2 M2) as R2. cbn [andb negb] in R2 |- *. destruct ru_ok as (lo & hi & K & ND & Hj & Hr & Hc & HL).
        assert (N2 : enodel s2).
        { intros u w q0 Hu Hq sl Hs. destruct M2 as (C1 & C2 & C3 & C4 & C5 & C6). destruct M as (D1 & D2 & D3 & D4 & D5 & D6). rewrite C2, D2 in Hu.
          destruct (nid_eq_dec w n) as [->|NE].
          - rewrite C5 in Hq. injection Hq as <-. destruct (upd_slot_ok p lo hi j (rewrite_slot false (KStr x) v' true) K Hj eq_refl) as (K' & _ & N' & S').
            destruct (in_live _ _ _ _ K' Hs) as (i & Hi & <-). rewrite N' in Hi. rewrite S' by auto. destruct (Nat.eqb j i); [reflexivity|]. eapply nodel_at; eauto.
          - rewrite C6, D6 in Hq by auto. apply (er_nd _ _ H _ _ _ Hu Hq sl Hs). }
        assert (X2 : x_max s2 = x_max s) by (rewrite <- XM; apply M2).
        assert (E2 : erel s2 (mkSM (sm_put m (k, c) (Some (mkBd KSample (KStr x) v'))) (sm_view m) (sm_created m + 1))).
        { apply (srel_erel (in_first s)); auto. rewrite X2. apply (er_max _ _ H). }
        destruct (er_inv _ _ E2) as (xl & I2). destruct HT as (y & Hy & _).
        assert (Hy2 : adj (x_bl s2) y n). { destruct M2 as (_ & -> & _). destruct M as (_ & -> & _). exact Hy. }
        destruct (gap_pow s2 xl y n I2 Hy2) as (mm & MU & M0). destruct Hy2 as (A & B & EAB).
        assert (HP2 : b_pool (bget (x_trie s2) n) = Some (upd_slot p j (rewrite_slot false (KStr x) v' true))) by apply M2.
        destruct (make_bucket2_spec 64 s2 xl A y n B _ mm I2 N2 ltac:(rewrite X2; apply (er_max _ _ H)) EAB HP2 ltac:(cbn [upd_slot p_len]; lia) MU M0)
          as (s3 & xl' & E3 & I3 & N3 & C3 & L3 & M3).
        destruct (SP s3 ltac:(lia) E3) as (s4 & H4 & ->). cbn [fst snd seen]. split; auto.
        assert (R4 : erel s4 (mkSM (sm_put m (k, c) (Some (mkBd KSample (KStr x) v'))) (sm_view m) (sm_created m + 1))).
        { destruct H4 as [->| ->]; [exact E2|]. apply (erel_cont s2 s3 xl'); auto. }
        apply erel_reads; auto. destruct (er_inv _ _ R4) as (xl4 & I4).
        destruct (einv_same s4 xl4 (tupd (x_trie s4) n (fun z => set_blen z (b_len z + 1))) (x_lv s4) (x_len s4) I4) as (I5 & C5 & N5).
        { apply same_shape_tupd; intros; reflexivity. }
        { intros w. unfold tupd. rewrite bget_tset. destruct (nid_eqb n w) eqn:E; auto. apply nid_eqb_eq in E. subst; auto. }
        refine (erel_cont s4 _ xl4 _ R4 I5 _ eq_refl eq_refl C5). apply N5. apply (er_nd _ _ R4).
  - destruct SL as (s' & -> & M'). rewrite EF in M'. cbn [fst snd seen]. split; auto. rewrite Z.add_0_r.
    apply (srel_reads (in_first s)); auto. apply srel_put; [|apply (er_view _ _ H)].
    assert (MM : moved s s' n (upd_slot p j (rewrite_slot d (KStr x) old (sl_linked (slot_at q1 j)))) (sm_created m)).
    { rewrite XL, (er_len _ _ H) in M'. eapply moved_trans; eauto. }
    pose proof (reuse_srel s m k c n j p s' d (KStr x) old _ _ H Hk HT MM) as R. destruct (d && negb (Nat.eqb j 0)); exact R.
Qed.

(** deleted but still linked, neither first nor last: the slot is used again *)
Lemma ru_middle s1 f : moved s s1 n (upd_slot p j f) (x_len s) -> f (slot_at p j) = rewrite_slot true (sl_key (slot_at p j)) old true (slot_at p j) ->
  (0 < j)%nat -> (S j < p_n p)%nat ->
  let e := reuse m (k, c) x old v true in
  agree (eouts h s1 (OpSet (KStr x) v :: reads)) (snd e :: sm_outs h (fst e) reads).
Proof.
  intros M Ef J0 JL. destruct ru_ok as (lo & hi & K & ND & Hj & Hr & Hc & HL).
  destruct (upd_slot_ok p lo hi j f K Hj ltac:(rewrite Ef; reflexivity)) as (K' & _ & N' & S').
  set (q := upd_slot p j f) in *.
  assert (Sj : slot_at q j = rewrite_slot true (sl_key (slot_at p j)) old true (slot_at p j)) by (rewrite S', Nat.eqb_refl by auto; exact Ef).
  assert (ES : emb_search q rv = None).
  { apply (search_hidden q lo hi rv K' j); [lia| | |auto]; rewrite Sj; cbn [rewrite_slot sl_rev sl_del]; auto. }
  assert (LA : last_active (p_slots q) (p_n q) = Some (p_n p - 1)%nat).
  { rewrite N'. destruct (p_n p) as [|np] eqn:EN; [lia|]. cbn [last_active]. fold (slot_at q np). rewrite S' by lia.
    destruct (Nat.eqb_spec j np); [lia|]. rewrite (nodel_at p lo hi np K ND) by lia. f_equal. lia. }
  assert (FI : free_idx q rv (Some (p_n p - 1)%nat) = Some j).
  { cbn [free_idx]. set (g := fun i => rv <? sl_rev (slot_at q i)).
    assert (G : forall i, (i < p_n p)%nat -> g i = (j <? i)%nat).
    { intros i Hi. unfold g. assert (R : sl_rev (slot_at q i) = sl_rev (slot_at p i)).
      { rewrite S' by auto. destruct (Nat.eqb_spec j i) as [<-|]; auto. rewrite Ef. reflexivity. }
      rewrite R. destruct (Nat.ltb_spec j i) as [LT|GE].
      - apply Z.ltb_lt. rewrite <- Hr. apply (slot_lt p lo hi j i K). lia.
      - apply Z.ltb_ge. rewrite <- Hr. apply (slot_le p lo hi i j K). lia. }
    destruct (sort_search_spec g (p_n p - 1) 0 (p_n p - 1)) as (A & B & C); try lia.
    { intros a b Hab Hb Ha. rewrite G in * by lia. apply Nat.ltb_lt in Ha. apply Nat.ltb_lt. lia. }
    set (idx := sort_search (p_n p - 1) 0 (p_n p - 1) g) in *.
    assert (EI : idx = S j).
    { destruct (Nat.lt_trichotomy idx (S j)) as [LT|[E|GT]]; auto; exfalso.
      - destruct (Nat.eq_dec idx (p_n p - 1)) as [E|NE]; [lia|]. assert (X : g idx = true) by (apply C; lia). rewrite G in X by lia. apply Nat.ltb_lt in X. lia.
      - assert (X : g (S j) = false) by (apply B; lia). rewrite G in X by lia. apply Nat.ltb_ge in X. lia. }
    rewrite EI. destruct (Nat.leb_spec (S j) 1); [lia|]. destruct (Nat.ltb_spec (p_n p - 1) (S j)); [lia|]. cbn [orb].
    replace (S j - 1)%nat with j by lia. rewrite Sj. cbn [rewrite_slot sl_del sl_linked andb]. reflexivity. }
  assert (EG : get_with_fn 4 q rv = GSlot (upd_slot q j recycle) j).
  { cbn [get_with_fn]. assert (PL : p_len q <> 0) by (unfold p_n in N', Hj; lia).
    destruct (Z.eqb_spec (p_len q) 0); [contradiction|]. rewrite LA, FI. reflexivity. }
  assert (HLq : (j < List.length (p_slots q))%nat) by (unfold q, upd_slot; cbn [p_slots]; rewrite upd_nth_length; auto).
  assert (SQ : slot_at (upd_slot q j recycle) j = mkS 0 0 false (sl_key (slot_at p j)) old false).
  { unfold slot_at at 1, upd_slot. cbn [p_slots]. rewrite nth_upd_nth_same by auto. rewrite Sj. reflexivity. }
  assert (RES := ru_result s1 q (upd_slot q j recycle) false (x_len s) M ES EG). apply RES.
  - rewrite SQ. reflexivity.
  - rewrite SQ. reflexivity.
  - reflexivity.
  - intros ky vl lk. unfold filled. rewrite SQ. unfold upd_slot, rewrite_slot. cbn [p_slots p_len sl_rev sl_conf]. unfold q, upd_slot. cbn [p_slots p_len].
    rewrite !upd_nth_twice. f_equal. rewrite Hr, Hc. f_equal. unfold slot_at at 1. cbn [p_slots]. rewrite nth_upd_nth_same by (rewrite ?upd_nth_length; auto). reflexivity.
  - reflexivity.
Qed.

(** the last slot, given back by Purge, is taken again as it is: marked deleted *)
Lemma ru_purged_last : p_len p - 1 = Z.of_nat j ->
  let dead := set_slink false (set_sdel (slot_at p j)) in
  let q := mkP (upd_nth j dead (p_slots p)) (p_len p - 1) in
  shrink_len q = q /\
  let e := reuse m (k, c) x old v (Nat.eqb j 0) in
  agree (eouts h (set_bpool s n q) (OpSet (KStr x) v :: reads)) (snd e :: sm_outs h (fst e) reads).
Proof.
  intros EJ dead q. destruct ru_ok as (lo & hi & K & ND & Hj & Hr & Hc & HL). pose proof (po_len _ _ _ K) as PL.
  assert (LJ : p_n q = j) by (unfold p_n, q; cbn [p_len]; lia).
  assert (SO : forall i, i <> j -> slot_at q i = slot_at p i).
  { intros i Hi. unfold slot_at, q. cbn [p_slots]. apply nth_upd_nth_other. auto. }
  assert (NDq : forall i, (i < j)%nat -> sl_del (slot_at q i) = false).
  { intros i Hi. rewrite SO by lia. apply (nodel_at p lo hi i K ND). unfold p_n in *. lia. }
  split.
  { unfold shrink_len. rewrite LJ. destruct j as [|j'] eqn:Ej; auto. rewrite NDq by lia. auto. }
  intros e.
  assert (ES : emb_search q rv = None).
  { unfold emb_search. cbv zeta. rewrite LJ. set (idx := sort_search _ _ _ _). destruct (Nat.ltb_spec idx j) as [LT|]; cbn [andb]; auto.
    destruct (Z.eqb_spec (sl_rev (slot_at q idx)) rv) as [E|]; auto. exfalso. rewrite SO in E by lia.
    pose proof (slot_lt p lo hi idx j K ltac:(unfold p_n in *; lia)). rewrite Hr in *. lia. }
  assert (Sq : forall ln, slot_at (mkP (p_slots q) ln) j = dead).
  { intros ln. unfold slot_at, q. cbn [p_slots]. apply nth_upd_nth_same. auto. }
  assert (CAP : p_cap q = p_cap p) by (unfold p_cap, q; cbn [p_slots]; rewrite upd_nth_length; auto).
  assert (EG : get_with_fn 4 q rv = GSlot (mkP (p_slots q) (p_len p)) j).
  { cbn [get_with_fn]. destruct (Z.eqb_spec (p_len q) 0) as [E0|N0].
    - rewrite CAP. pose proof (po_cap _ _ _ K). destruct (Z.leb_spec (p_cap p) 0); [lia|].
      assert (j = 0%nat) by (unfold q in E0; cbn [p_len] in E0; lia). f_equal; [f_equal|auto]; unfold q in E0; cbn [p_len] in E0; lia.
    - assert (J0 : (0 < j)%nat) by (unfold q in N0; cbn [p_len] in N0; lia).
      rewrite LJ. rewrite (last_active_live (p_slots q) j NDq J0).
      assert (FI : free_idx q rv (Some (j - 1)%nat) = None).
      { cbn [free_idx]. set (idx := sort_search _ _ _ _). destruct (_ || _) eqn:E; auto. apply orb_false_iff in E as [E1 E2]. apply Nat.leb_gt in E1. apply Nat.ltb_ge in E2.
        rewrite NDq by lia. auto. }
      rewrite FI, CAP. assert (PLQ : p_len q = p_len p - 1) by reflexivity. destruct (Z.eqb_spec (p_cap p) (p_len q)); [lia|].
      assert (LT : sl_rev (slot_at q (j - 1)) < rv).
      { rewrite SO by lia. rewrite <- Hr. apply (slot_lt p lo hi (j - 1) j K). lia. }
      destruct (Z.ltb_spec (sl_rev (slot_at q (j - 1))) rv); [|lia]. destruct (Z.leb_spec (p_cap p) (p_len q)); [lia|].
      f_equal. rewrite PLQ. f_equal. lia. }
  assert (B : negb (true && negb (Nat.eqb j 0)) = Nat.eqb j 0) by (destruct (Nat.eqb j 0); auto).
  pose proof (ru_result (set_bpool s n q) q _ true (x_len s) (moved_set s n q) ES EG) as RES. cbv zeta in RES. rewrite B in RES. apply RES.
  - rewrite Sq. reflexivity.
  - rewrite Sq. reflexivity.
  - reflexivity.
  - intros ky vl lk. unfold filled. rewrite Sq. unfold upd_slot, rewrite_slot. rewrite Sq. cbn [p_slots p_len dead set_slink set_sdel sl_rev sl_conf sl_del].
    unfold q. cbn [p_slots]. rewrite upd_nth_twice. f_equal. f_equal. rewrite Hr, Hc. f_equal; [destruct (rv =? 0) eqn:E; auto|destruct (c =? 0) eqn:E; auto].
  - reflexivity.
Qed.
End Reuse.
