(** More properties of the embedded mode: C42-C46. *)
From Verif Require Import Base BaseProofs Util UtilProofs Bucket TrieProofs TrieInv TrieGrow MapModel ItemProofs MapInv MapSplit
  MapInit Spec MapRefine EmbModel EmbPool EmbTrie EmbInv EmbSplit EmbSpec EmbRefine EmbDel EmbTop PropEmb.
From Coq Require Import ZifyBool Sorted Ascii String.
Local Open Scope Z_scope.
Local Open Scope list_scope.
Local Opaque reverse64 level_of base find_bucket.

(** * C42: Set after Delete keeps the other keys *)
Definition set_keeps_others : Prop := forall h max os key v key', 16 <= max ->
  no_collision h (os ++ [OpSet key v]) -> key_to_hash h key <> key_to_hash h key' ->
  let s := erun h (new_emb max) os in
  existsb stops (eouts h (new_emb max) os) = false ->
  snd (estep h s (OpSet key v)) = Ret (RBool true) ->
  snd (estep h (fst (estep h s (OpSet key v))) (OpGet key')) = snd (estep h s (OpGet key')).
Theorem C42_set_keeps_others_refuted : ~ set_keeps_others.
Proof.
  intros H. specialize (H (hpos five) 32 [set_ "a" 1; set_ "b" 2; set_ "c" 3; del_ "b"] (KStr "d") (GV 1 4) (KStr "c") ltac:(lia)). cbv zeta in H.
  set (s := erun (hpos five) (new_emb 32) [set_ "a" 1; set_ "b" 2; set_ "c" 3; del_ "b"]) in *.
  assert (A : snd (estep (hpos five) (fst (estep (hpos five) s (set_ "d" 4))) (get_ "c")) = snd (estep (hpos five) s (get_ "c"))).
  { apply H.
    - apply nocol_ok. vm_compute. reflexivity.
    - vm_compute. discriminate.
    - vm_compute. reflexivity.
    - vm_compute. reflexivity. }
  clear H. vm_compute in A. discriminate A.
Qed.
Print Assumptions C42_set_keeps_others_refuted.
(** What holds: without Delete and Purge before it, Set leaves every other key alone (a consequence of C20). *)
Theorem C42_set_keeps_others_partial : forall h max os x v key' k c k' c', 16 <= max ->
  Forall store_or_read os -> no_collision h (os ++ [OpSet (KStr x) v]) ->
  key_to_hash h (KStr x) = Some (k, c) -> key_to_hash h key' = Some (k', c') -> (k, c) <> (k', c') ->
  agree (eouts h (new_emb max) (os ++ [OpSet (KStr x) v; OpGet key']))
    (sm_outs h (sm_empty KSample) os ++
      [snd (sm_step h (sm_run h (sm_empty KSample) os) (OpSet (KStr x) v)); sm_get (sm_run h (sm_empty KSample) os) (k', c')]).
Proof.
  intros h max os x v key' k c k' c' HM HF HN EK EK' NE.
  assert (A : agree (eouts h (new_emb max) (os ++ [OpSet (KStr x) v; OpGet key'])) (sm_outs h (sm_empty KSample) (os ++ [OpSet (KStr x) v; OpGet key']))).
  { apply C20_embedded_map_is_a_map; auto.
    - apply Forall_app. split; auto. repeat constructor. cbn. eauto.
    - intros o o' a b b' Ho Ho' W W'. apply (HN o o' a b b'); auto.
      + apply in_app_or in Ho as [Ho|[<-|[<-|[]]]]; [apply in_or_app; auto|apply in_or_app; right; left; auto|discriminate].
      + apply in_app_or in Ho' as [Ho'|[<-|[<-|[]]]]; [apply in_or_app; auto|apply in_or_app; right; left; auto|discriminate]. }
  assert (E : forall os m, sm_outs h m (os ++ [OpSet (KStr x) v; OpGet key']) = sm_outs h m os ++
      [snd (sm_step h (sm_run h m os) (OpSet (KStr x) v)); sm_get (sm_run h m os) (k', c')]).
  { clear -EK EK' NE. induction os as [|o os IH]; intros m; cbn [app sm_outs sm_run]; [|rewrite IH; auto].
    f_equal. f_equal. cbn [sm_step snd]. rewrite EK', EK. unfold sm_get.
    assert (NP : forall b, sm_put m (k, c) b (k', c') = sm_map m (k', c')).
    { intros b. rewrite sm_put_eq. destruct (pair_eqb_spec (k, c) (k', c')); congruence. }
    destruct (sm_map m (k, c)) as [b|]; [|cbn [fst sm_map]; rewrite NP; auto].
    unfold sm_update. destruct (assign _ _ _) as [[v' ok]|]; cbn [fst sm_map]; rewrite ?NP; auto. }
  rewrite E in A. exact A.
Qed.
Print Assumptions C42_set_keeps_others_partial.

(** * C43: Set with a key that is not a string *)
Definition failed_set_leaves_no_trace : Prop := forall h max os key v, 16 <= max ->
  Forall store_or_read os ->
  let s := erun h (new_emb max) os in
  snd (estep h s (OpSet key v)) = Pan ->
  snd (estep h (fst (estep h s (OpSet key v))) (OpGet key)) = snd (estep h s (OpGet key)).
Theorem C43_failed_set_refuted : ~ failed_set_leaves_no_trace.
Proof.
  intros H. specialize (H (hpos five) 32 [set_ "a" 1] (KInt 5) (GV 1 4) ltac:(lia)). cbv zeta in H.
  set (s := erun (hpos five) (new_emb 32) [set_ "a" 1]) in *.
  assert (A : snd (estep (hpos five) (fst (estep (hpos five) s (OpSet (KInt 5) (GV 1 4)))) (OpGet (KInt 5))) = snd (estep (hpos five) s (OpGet (KInt 5)))).
  { apply H.
    - apply sor_ok. reflexivity.
    - vm_compute. reflexivity. }
  clear H. vm_compute in A. discriminate A.
Qed.
Print Assumptions C43_failed_set_refuted.
(** In general: after any history of Set and reads, Set of a new key that is not a string panics, and the key is then
    found with the value nil. *)
Theorem C43_phantom : forall h max os key v k c, 16 <= max ->
  Forall store_or_read os -> no_collision h os -> existsb stops (eouts h (new_emb max) os) = false ->
  (forall x, key <> KStr x) -> key_to_hash h key = Some (k, c) ->
  (forall c', sm_map (sm_run h (sm_empty KSample) os) (k, c') = None) ->
  let s := erun h (new_emb max) os in
  snd (estep h s (OpGet key)) = Ret (RVal GNil false) ->
  snd (estep h s (OpSet key v)) = Pan /\
  snd (estep h (fst (estep h s (OpSet key v))) (OpGet key)) = Ret (RVal GNil true).
Proof.
  intros h max os key v k c HM HF HN HS HK EK NC s HG.
  destruct (erun_agrees h os _ _ (new_emb_rel max HM) HF) as (_ & A2 & _); auto.
  destruct A2 as [A2|H]; [unfold stopped in A2; congruence|]. fold s in H.
  set (m := sm_run h (sm_empty KSample) os) in *.
  destruct (key_range _ _ _ _ EK) as [Hk Hc]. destruct (er_inv _ _ H) as (xl & I).
  assert (FR : forall z, cont s z -> pr_rev z <> reverse64 k).
  { intros [[[[r cf] d] ky] vl] HZ Er. cbn [pr_rev fst] in Er. subst r.
    assert (D0 : d = false).
    { destruct HZ as (y & b & p & Hy & HP & Hin). apply in_map_iff in Hin as (sl & Es & Hs).
      pose proof (er_nd _ _ H y b p Hy HP sl Hs) as D. unfold pr in Es. congruence. }
    subst d. assert (EX : sm_map m (k, cf) = Some (mkBd KSample ky vl)) by (apply (er_at _ _ H); eauto).
    rewrite NC in EX. discriminate. }
  cbn [estep] in *. unfold ewith in *. rewrite EK in *.
  assert (EL : eload s k c = Ret None).
  { unfold eget in HG. destruct (eload_rel s m k c H Hk) as [E|[(n & j & p & E & _ & _ & EM)|(E & _)]]; auto.
    - rewrite E in HG. discriminate.
    - rewrite NC in EM. discriminate. }
  destruct (eload_spec s xl k c I) as [E|[(n & j & p & E & _)|(_ & y & b & p & Hy & Eb & Ri & HP & K & _)]];
    [congruence|congruence|].
  assert (BB : base (x_trie s) (base (x_trie s) (find_bucket (x_trie s) (reverse64 k))) = b).
  { rewrite <- Eb. apply (base_linked _ xl); [apply (ei_trie _ _ I)|]. apply (ei_adj_x s xl I _ _ Hy). }
  assert (NP : forall sl, In sl (live p) -> sl_rev sl <> reverse64 k).
  { intros sl Hs E. apply (FR (pr sl)); [|exact E]. exists y, b, p. split; auto. split; auto. apply in_map; auto. }
  destruct (get_with_fn_ok p _ _ (reverse64 k) K (er_nd _ _ H _ _ _ Hy HP) Ri NP) as (p1 & i & l1 & l2 & EG & ES & EM & EN & HL1 & HL2 & HU).
  set (s' := set_bpool s b (upd_slot p1 i (fun x => mkS (reverse64 k) c (sl_del x) (KStr "") GNil false))).
  assert (EE : eset h s key v = (s', Pan)).
  { unfold eset. rewrite EK, EL. cbv zeta. unfold pool_of. rewrite BB, HP, EG, ES.
    cbn [zero_slot sl_rev sl_conf sl_val sl_del sl_linked sl_key]. rewrite !Z.eqb_refl.
    rewrite <- Eb. destruct key; try reflexivity. exfalso. apply (HK s0). reflexivity. }
  rewrite EE. cbn [fst snd]. split; auto.
  set (fl := fun x : slot => mkS (reverse64 k) c (sl_del x) (KStr "") GNil false).
  destruct (HU fl eq_refl) as (K1 & EM1 & ND1).
  set (p2 := upd_slot p1 i fl) in *.
  set (t' := x_trie s').
  assert (SS : same_shape (x_trie s) t') by (apply same_shape_tupd; intros; reflexivity).
  assert (GN : b_pool (bget t' b) = Some p2) by (unfold t', s', set_bpool, set_xtrie, tupd; cbn [x_trie]; rewrite bget_tset, nid_eqb_refl; reflexivity).
  assert (GO : forall m, m <> b -> b_pool (bget t' m) = b_pool (bget (x_trie s) m)).
  { intros q Hq. unfold t', s', set_bpool, set_xtrie, tupd; cbn [x_trie]. rewrite bget_tset. destruct (nid_eqb b q) eqn:E; auto.
    apply nid_eqb_eq in E. congruence. }
  destruct (einv_pool s xl t' y b p p2 I SS Hy HP GN GO K1 (x_lv s) (x_len s)) as (I' & C' & D').
  change (mkX t' (x_bl s) (x_lv s) (x_len s) (x_max s)) with s' in *.
  unfold eget.
  assert (EB : base (x_trie s') (find_bucket (x_trie s') (reverse64 k)) = b).
  { fold t'. rewrite <- (find_bucket_shape _ _ SS), <- (base_shape _ _ SS). auto. }
  destruct (eload_spec s' xl k c I') as [E|[(n & j & p' & E & HT)|(E & y2 & b2 & pp & Hy2 & Eb2 & Ri2 & HP2 & K2 & HN2)]].
  - exfalso. unfold eload, pool_of in E. rewrite EB in E. fold t' in E. rewrite GN in E.
    destruct (emb_search p2 (reverse64 k)); [|discriminate]. destruct (_ && _); discriminate.
  - rewrite E. destruct (hit_at _ _ _ _ _ _ HT) as [HX ->]. cbn [snd]. do 2 f_equal.
    assert (CX : cont s' (pr (fl zero_slot))).
    { apply C'. left. rewrite EM1. apply in_or_app. right. left. auto. }
    pose proof (cont_uniq s' xl I' _ _ HX CX eq_refl) as EQ. unfold pr, fl in EQ. cbn [sl_val] in EQ. congruence.
  - exfalso. rewrite EB in Eb2. subst b2. fold t' in HP2. rewrite GN in HP2. injection HP2 as <-.
    assert (IN : In (pr (fl zero_slot)) (map pr (live p2))) by (rewrite EM1; apply in_or_app; right; left; auto).
    apply in_map_iff in IN as (sl & Es & Hs). destruct (in_live _ _ _ _ K2 Hs) as (j & Hj & <-).
    unfold pr, fl in Es. cbn [sl_rev sl_conf sl_del] in Es. injection Es as E1 E2 E3 E4 E5.
    destruct (HN2 j Hj E1) as [N|[D _]]; [congruence|]. rewrite D in E3. discriminate E3.
Qed.
Print Assumptions C43_phantom.
Example C43_case :
  let os := [set_ "a" 1; set_ "b" 2] in
  Forall store_or_read os /\ no_collision (hpos five) os /\ existsb stops (eouts (hpos five) (new_emb 32) os) = false /\
  key_to_hash (hpos five) (KInt 5) = Some (5, 0) /\
  snd (estep (hpos five) (erun (hpos five) (new_emb 32) os) (OpGet (KInt 5))) = Ret (RVal GNil false).
Proof.
  cbv zeta. split; [|split; [|split; [|split]]].
  - apply sor_ok. reflexivity.
  - apply nocol_ok. vm_compute. reflexivity.
  - vm_compute. reflexivity.
  - reflexivity.
  - vm_compute. reflexivity.
Qed.

(** * C44: StoreItem *)
(** No key first stored with StoreItem becomes readable, although the call returns true. *)
Theorem C44_store_item_unreadable : forall h max os i k c, 16 <= max ->
  Forall store_or_read os -> no_collision h os -> existsb stops (eouts h (new_emb max) os) = false ->
  key_to_hash h (i_key i) = Some (k, c) -> sm_map (sm_run h (sm_empty KSample) os) (k, c) = None ->
  let s := erun h (new_emb max) os in
  snd (estep h s (OpStore i)) = Ret (RBool true) ->
  let g := snd (estep h (fst (estep h s (OpStore i))) (OpGet (i_key i))) in
  g = Ret (RVal GNil false) \/ g = Div.
Proof.
  intros h max os i k c HM HF HN HS EK NC s HR g.
  destruct (erun_agrees h os _ _ (new_emb_rel max HM) HF) as (_ & A2 & _); auto.
  destruct A2 as [A2|H]; [unfold stopped in A2; congruence|]. fold s in H.
  set (m := sm_run h (sm_empty KSample) os) in *.
  destruct (key_range _ _ _ _ EK) as [Hk Hc]. destruct (er_inv _ _ H) as (xl & I).
  assert (FIN : exists s2, fst (estep h s (OpStore i)) = s2 /\ erel s2 (mkSM (sm_map m) KSample (sm_created m + 1))).
  { cbn [estep] in *. unfold estore, item_hash in *. rewrite EK in *.
    destruct (eload_rel s m k c H Hk) as [E|[(n & j & p & E & _ & _ & EM)|(E & _)]]; rewrite E in *; [discriminate|congruence|].
    cbv zeta in *. set (b := find_bucket (x_trie s) (reverse64 k)) in *.
    set (s1 := mkX (x_trie s) (x_bl s) (x_lv s) (x_len s + 1) (x_max s)) in *.
    destruct (einv_same s xl (x_trie s) (x_lv s) (x_len s + 1) I (same_shape_refl _) ltac:(reflexivity)) as (I1 & C1 & N1).
    change (mkX (x_trie s) (x_bl s) (x_lv s) (x_len s + 1) (x_max s)) with s1 in I1, C1, N1.
    set (r := if negb (i_del i) && (i_rev i <? MAX64) && _ then _ else _) in *.
    assert (RR : forall s2, r = Ret s2 -> exists xl2, einv s2 xl2 /\ enodel s2 /\ (forall x, cont s2 x <-> cont s x) /\ x_len s2 = x_len s + 1 /\ x_max s2 = x_max s).
    { intros s2. unfold r.
      destruct (negb (i_del i) && (i_rev i <? MAX64) && _) eqn:EC.
      - destruct (in_blist (x_bl s) b) eqn:EB; [|discriminate]. intros EM2.
        apply andb_true_iff in EC as [_ EC]. apply Z.ltb_lt in EC.
        unfold in_blist in EB. apply existsb_exists in EB as (b' & Hb & Eb'). apply nid_eqb_eq in Eb'. subst b'.
        destruct (find_bucket_spec (x_trie s) xl (reverse64 k) (ei_trie _ _ I) (reverse64_range k)) as (l & w & Efb & Nfb & _).
        assert (Nb : b <> bmax) by (unfold b; rewrite Efb; apply Nfb).
        destruct (ei_pred s xl I b Hb Nb) as (y & Hy).
        destruct (ei_pool _ _ I _ _ Hy) as (p & HP & K). rewrite HP in EC.
        assert (Hy1 : adj (x_bl s1) y b) by exact Hy.
        destruct (gap_pow s1 xl y b I1 Hy1) as (mm & MU & M0). destruct Hy1 as (A & B & EAB).
        destruct (make_bucket2_spec 64 s1 xl A y b B p mm I1 (N1 (er_nd _ _ H)) (er_max _ _ H) EAB HP EC MU M0) as (s3 & xl' & E3 & I3 & N3 & C3 & L3 & M3).
        rewrite E3 in EM2. injection EM2 as <-. exists xl'. split; [exact I3|]. split; [exact N3|].
        split; [|split; [exact L3|exact M3]]. intros x. rewrite C3. apply C1.
      - intros E2. injection E2 as <-. exists xl. split; [exact I1|]. split; [apply N1, (er_nd _ _ H)|]. split; [exact C1|]. split; reflexivity. }
    destruct r as [s2| | |] eqn:ER; try discriminate. eexists. split; [reflexivity|]. cbn [fst].
    destruct (RR s2 eq_refl) as (xl2 & I2 & N2 & C2 & L2 & M2).
    destruct (einv_same s2 xl2 (tupd (x_trie s2) b (fun x => set_blen x (b_len x + 1))) (x_lv s2) (x_len s2) I2) as (I4 & C4 & N4).
    { apply same_shape_tupd; intros; reflexivity. }
    { intros q. unfold tupd. rewrite bget_tset. destruct (nid_eqb b q) eqn:Eq; auto. apply nid_eqb_eq in Eq. subst; auto. }
    constructor; cbn [sm_view sm_created sm_map].
    - exists xl2; exact I4.
    - apply N4; auto.
    - unfold set_xtrie. cbn [x_max]. rewrite M2. apply (er_max _ _ H).
    - reflexivity.
    - unfold set_xtrie. cbn [x_len]. rewrite L2, (er_len _ _ H). auto.
    - intros k' c' bd Hk'. rewrite (er_at _ _ H k' c' bd Hk').
      split; intros (ky & vv & -> & HC); exists ky, vv; (split; [reflexivity|]); [apply C4, C2; exact HC|apply C2, C4; exact HC]. }
  destruct FIN as (s2 & E2 & H2). unfold g. rewrite E2. cbn [estep]. unfold ewith. rewrite EK.
  destruct (eget_agrees s2 _ k c H2 Hk) as [[G _]|[G _]]; [auto|left].
  unfold sm_get in G. cbn [sm_map] in G. rewrite NC in G.
  destruct (snd (eget s2 k c)); cbn [seen] in G; congruence.
Qed.
Print Assumptions C44_store_item_unreadable.
Definition store_item_readable : Prop := forall h max os i, 16 <= max -> Forall store_or_read os ->
  let s := erun h (new_emb max) os in
  snd (estep h s (OpStore i)) = Ret (RBool true) ->
  snd (estep h (fst (estep h s (OpStore i))) (OpGet (i_key i))) = Ret (RVal (i_val i) true).
Theorem C44_store_item_refuted : ~ store_item_readable.
Proof.
  intros H. specialize (H (hpos five) 32 [set_ "a" 1] (mkI KSample (KStr "b") (GV 1 2) 0 0 false) ltac:(lia) ltac:(apply sor_ok; reflexivity)).
  cbv zeta in H.
  assert (A : snd (estep (hpos five) (erun (hpos five) (new_emb 32) [set_ "a" 1]) (OpStore (mkI KSample (KStr "b") (GV 1 2) 0 0 false))) = Ret (RBool true)) by (vm_compute; reflexivity).
  specialize (H A). clear A. vm_compute in H. discriminate H.
Qed.
Print Assumptions C44_store_item_refuted.

(** * C45: Set(k, nil) *)
Definition set_nil_stores_nil : Prop := forall h max os key, 16 <= max ->
  no_collision h (os ++ [OpSet key GNil]) -> existsb stops (eouts h (new_emb max) os) = false ->
  let s := erun h (new_emb max) os in
  snd (estep h s (OpGet key)) = Ret (RVal GNil false) ->
  snd (estep h s (OpSet key GNil)) = Ret (RBool true) ->
  snd (estep h (fst (estep h s (OpSet key GNil))) (OpGet key)) = Ret (RVal GNil true).
Definition five' : list (string * Z) := [("a", 10); ("b", 20); ("c", 30); ("d", 40); ("x", 35)]%string.
Theorem C45_set_nil_refuted : ~ set_nil_stores_nil.
Proof.
  intros H. specialize (H (hpos five') 32 [set_ "a" 1; set_ "b" 2; set_ "c" 3; set_ "d" 4; del_ "c"] (KStr "x") ltac:(lia)). cbv zeta in H.
  set (s := erun (hpos five') (new_emb 32) [set_ "a" 1; set_ "b" 2; set_ "c" 3; set_ "d" 4; del_ "c"]) in *.
  assert (A : snd (estep (hpos five') (fst (estep (hpos five') s (OpSet (KStr "x") GNil))) (get_ "x")) = Ret (RVal GNil true)).
  { apply H.
    - apply nocol_ok. vm_compute. reflexivity.
    - vm_compute. reflexivity.
    - vm_compute. reflexivity.
    - vm_compute. reflexivity. }
  clear H. vm_compute in A. discriminate A.
Qed.
Print Assumptions C45_set_nil_refuted.

(** * C46: keys with the same 64-bit hash *)
Definition colliding_keys_coexist : Prop := forall h max os x y v k c c', 16 <= max ->
  Forall store_or_read os -> existsb stops (eouts h (new_emb max) os) = false ->
  key_to_hash h (KStr x) = Some (k, c) -> key_to_hash h (KStr y) = Some (k, c') -> c <> c' ->
  let s := erun h (new_emb max) os in
  forall w, snd (estep h s (OpGet (KStr x))) = Ret (RVal w true) ->
  snd (estep h (fst (estep h s (OpSet (KStr y) v))) (OpGet (KStr x))) = Ret (RVal w true).
Theorem C46_colliding_keys_refuted : ~ colliding_keys_coexist.
Proof.
  intros H. specialize (H (hpos [("a", 10); ("bb", 10)]%string) 32 [set_ "a" 1] "a"%string "bb"%string (GV 1 2) (reverse64 10) 1 2
    ltac:(lia) ltac:(apply sor_ok; reflexivity)). cbv zeta in H.
  set (h := hpos [("a", 10); ("bb", 10)]%string) in *.
  set (s := erun h (new_emb 32) [set_ "a" 1]) in *.
  assert (A : snd (estep h (fst (estep h s (set_ "bb" 2))) (get_ "a")) = Ret (RVal (GV 1 1) true)).
  { apply H.
    - vm_compute. reflexivity.
    - vm_compute. reflexivity.
    - vm_compute. reflexivity.
    - discriminate.
    - vm_compute. reflexivity. }
  clear H. vm_compute in A. discriminate A.
Qed.
Print Assumptions C46_colliding_keys_refuted.
