(** C42 and C76: a Set of a new key into a bucket of the embedded mode in which keys were deleted. Specification: AfterSpec.v. *)
From Verif Require Import Base BaseProofs Util UtilProofs Bucket TrieProofs TrieInv TrieGrow MapModel ItemProofs MapInv MapSplit
  MapInit Spec MapRefine EmbModel EmbPool EmbTrie EmbInv EmbSplit EmbSpec EmbRefine EmbDel EmbTop EmbReuse EmbLinked PurgeSpec EmbPurge MixSpec EmbMix EmbAfter AfterSpec EmbCalm
  PropEmb PropHang PropPurge.
From Coq Require Import ZifyBool Sorted Ascii String.
Local Open Scope Z_scope.
Local Open Scope list_scope.
Local Opaque reverse64 level_of base find_bucket.

(** * The state before *)
Lemma prel_self bs n s s2 xl l : prel bs n s s2 xl l -> einv s xl -> prel bs n s s xl l.
Proof.
  intros [P1 P2 P3 P4 P5 P6 P7] I. destruct P1 as [S1 S2 S3].
  assert (HB : forall m, brev (x_trie s) m = brev (x_trie s2) m) by (intros; apply same_shape_brev; auto).
  assert (HU : forall m, up (x_trie s) m = up (x_trie s2) m) by (intros; unfold up; rewrite HB; auto).
  constructor; auto.
  - constructor; [intros z; auto|auto|]. intros m. destruct (b_pool (bget (x_trie s) m)); auto. apply used_refl.
  - rewrite <- P3. unfold edump. rewrite S2. apply map_ext. auto.
  - intros y c p r A1 A2 A3. rewrite S2 in A1. rewrite HB, HU in A3. pose proof (S3 c) as U. rewrite A2 in U. destruct (b_pool (bget (x_trie s2) c)) as [p'|] eqn:E; [|contradiction].
    rewrite (P5 y c p' r A1 E A3). f_equal. destruct U as [U1 U2].
    destruct (ei_pool _ _ P2 y c A1) as (p2 & E2 & K2). rewrite E in E2. injection E2 as <-.
    pose proof (P7 y c p A1 A2) as PN. apply (nth_ext _ _ zero_slot zero_slot).
    + rewrite (live_length _ _ _ K2). unfold live. rewrite firstn_length_le by auto. auto.
    + intros i Hi. rewrite (live_length _ _ _ K2) in Hi. rewrite !live_nth by lia. symmetry. apply U2. lia.
  - intros y c p A1 A2. rewrite S2 in A1. exact (P7 y c p A1 A2).
Qed.
Lemma arel_upd bs n s xl l k c b j p f l' s2 : arel bs n s xl l -> hit s k c b j p ->
  (forall sl, sl_rev (f sl) = sl_rev sl) -> (forall sl, sl_linked (f sl) = sl_linked sl) ->
  asc l' -> prel bs n (upd_item s b j f) s2 xl l' -> arel bs n (upd_item s b j f) xl l'.
Proof.
  intros [R L S] HT F1 F2 S' R'. destruct (upd_item_spec s xl k c b j p f (pl_inv _ _ _ _ _ _ R) HT F1) as (I' & _).
  constructor; [eapply prel_self; eauto|apply linked_upd; auto|auto].
Qed.
Lemma next_asc h bs n l o : asc l -> match o with OpPurge _ => False | _ => True end -> asc (next_entries h bs n l o).
Proof.
  intros S H. unfold next_entries. destruct o as [key v|i|key|k c|key|k c|key|key|]; try contradiction; auto; destruct (key_to_hash h _) as [p|]; auto; cbv zeta;
    try (destruct (sm_map _ p); auto); try (destruct (present bs l p); auto); apply sorted_change; auto.
Qed.
Lemma astep bs n h s xl l o : arel bs n s xl l -> match o with OpPurge _ => False | _ => True end ->
  match o with
  | OpSet key _ => exists p, key_to_hash h key = Some p /\ present bs l p = true
  | OpStore i => exists p, key_to_hash h (i_key i) = Some p /\ present bs l p = true
  | _ => True
  end -> stops (snd (estep h s o)) = false -> arel bs n (fst (estep h s o)) xl (next_entries h bs n l o).
Proof.
  intros A KO HO NS. pose proof A as [R L S]. pose proof (next_asc h bs n l o S KO) as S'. pose proof (pl_inv _ _ _ _ _ _ R) as I.
  pose proof (pstep bs n h s s xl l o R HO) as PS. destruct PS as [PS|[_ (s2 & R')]]; [rewrite PS in NS; discriminate|].
  assert (UP : forall k c, 0 <= k < W64 -> present bs l (k, c) = true -> eload s k c = Div \/ exists b j p, eload s k c = Ret (Some (b, j)) /\ hit s k c b j p).
  { intros k c Hk PR. destruct (eload_view bs n s s xl l k c R Hk) as [E|[(b & j & p & E & HT & _)|(_ & E)]]; [auto|eauto 10|]. unfold present in PR. rewrite E in PR. discriminate. }
  assert (EU : forall k c b j p v l', hit s k c b j p -> asc l' -> prel bs n (fst (eupdate s b j v)) s2 xl l' -> arel bs n (fst (eupdate s b j v)) xl l').
  { intros k c b j p v l' HT SL. unfold eupdate. destruct (set_value _ _ _) as [[v' ok]|]; cbn [fst].
    - intros H. eapply arel_upd; eauto.
    - intros H. constructor; auto. eapply prel_self; eauto. }
  assert (SAME : forall l', fst (estep h s o) = s -> asc l' -> prel bs n (fst (estep h s o)) s2 xl l' -> arel bs n (fst (estep h s o)) xl l').
  { intros l' -> SL H. constructor; auto. eapply prel_self; eauto. }
  assert (G : forall k c, fst (eget s k c) = s) by (intros k c; unfold eget; destruct (eload s k c) as [[[b i]|]| | |]; auto).
  assert (GI : forall k c, fst (eget_item s k c) = s) by (intros k c; unfold eget_item; destruct (eload s k c) as [[[b i]|]| | |]; auto).
  destruct o as [key v|i|key|k c|key|k c|key|key|]; try contradiction; try (solve [apply SAME; auto; cbn [estep]; unfold ewith; try destruct (key_to_hash h key) as [[? ?]|]; auto]).
  - destruct HO as ((k & c) & EK & PR). pose proof (proj1 (key_range _ _ _ _ EK)) as Hk. cbn [estep] in *. unfold eset in *. rewrite EK in *.
    destruct (UP k c Hk PR) as [E|(b & j & p & E & HT)]; rewrite E in *; [discriminate|]. eapply EU; eauto.
  - destruct HO as ((k & c) & EK & PR). pose proof (proj1 (key_range _ _ _ _ EK)) as Hk. cbn [estep] in *. unfold estore, item_hash in *. rewrite EK in *.
    destruct (UP k c Hk PR) as [E|(b & j & p & E & HT)]; rewrite E in *; [discriminate|]. eapply EU; eauto.
  - cbn [estep] in *. unfold ewith in *. destruct (key_to_hash h key) as [[k c]|] eqn:EK; [|constructor; auto; eapply prel_self; eauto].
    pose proof (proj1 (key_range _ _ _ _ EK)) as Hk. unfold edelete in *.
    destruct (eload_view bs n s s xl l k c R Hk) as [E|[(b & j & p & E & HT & _)|(E & _)]]; rewrite E in *; [discriminate| |constructor; auto; eapply prel_self; eauto].
    cbn [fst] in *. eapply arel_upd; eauto.
Qed.
(** * The Set *)
Lemma set_slot h bs n s xl l x v k c : arel bs n s xl l -> key_to_hash h (KStr x) = Some (k, c) -> (forall e, In e l -> e_pos e <> reverse64 k) ->
  Z.of_nat (List.length (bucket_of bs l (reverse64 k))) < x_max s -> stops (snd (estep h s (OpSet (KStr x) v))) = false ->
  let r := reverse64 k in let s' := fst (estep h s (OpSet (KStr x) v)) in
  exists y b P q i, adj (x_bl s) y b /\ b = base (x_trie s) (find_bucket (x_trie s) r) /\ brev (x_trie s) b <= r < up (x_trie s) y /\
  b_pool (bget (x_trie s) b) = Some P /\ pool_ok P (brev (x_trie s) b) (up (x_trie s) y) /\ bucket_of bs l r = map ent_of (live P) /\
  (forall sl, In sl (live P) -> sl_rev sl <> r) /\ taken P r q i /\ get_with_fn 4 P r = GSlot q i /\
  match set_value KSample (sl_val (slot_at q i)) v with
  | Some (v', ok) => snd (estep h s (OpSet (KStr x) v)) = Ret (RBool true) /\ moved s s' b (filled q i r c (KStr x) v' true) (n + 1)
  | None => snd (estep h s (OpSet (KStr x) v)) = Pan
  end.
Proof.
  intros [R L _] EK NEW ROOM OK r s'. pose proof (pl_inv _ _ _ _ _ _ R) as I. pose proof (proj1 (key_range _ _ _ _ EK)) as Hk.
  cbn [estep] in OK. unfold s'. cbn [estep].
  destruct (eload_spec s xl k c I) as [E|[(b & j & P & E & HT)|(E & y & b & P & Hy & Eb & Ri & HP & K & _)]].
  - exfalso. unfold eset in OK. rewrite EK, E in OK. discriminate.
  - exfalso. destruct HT as (y & Hy & HP & K & Hj & Hr & _). pose proof (bk_pos bs n s s xl l R y b P Hy HP j Hj) as (E1 & E2 & _).
    apply (NEW (ent_of (slot_at P j))); [|rewrite E1; exact Hr].
    assert (In (ent_of (slot_at P j)) (bucket_of bs l r)) as X.
    { rewrite (pl_bk _ _ _ _ _ _ R y b P r Hy HP) by (unfold r; rewrite <- Hr; exact E2). apply in_map. eapply live_in; eauto. }
    apply filter_In in X. tauto.
  - pose proof (pl_bk _ _ _ _ _ _ R y b P r Hy HP Ri) as BK.
    assert (NR : forall sl, In sl (live P) -> sl_rev sl <> r).
    { intros sl Hs. destruct (in_live _ _ _ _ K Hs) as (j & Hj & <-). pose proof (bk_pos bs n s s xl l R y b P Hy HP j Hj) as (E1 & E2 & _). rewrite <- E1. apply NEW.
      assert (In (ent_of (slot_at P j)) (bucket_of bs l r)) as X by (rewrite BK; apply in_map; auto). apply filter_In in X. tauto. }
    assert (BB : base (x_trie s) b = b) by (apply (base_linked _ xl); [apply (ei_trie _ _ I)|]; apply (ei_adj_x s xl I _ _ Hy)).
    pose proof (live_length _ _ _ K) as LL. fold r in ROOM. rewrite BK, map_length, LL in ROOM.
    destruct (get_with_fn 4 P r) as [q i| |] eqn:EG.
    2,3: exfalso; clear -OK EK E EG Eb HP BB; unfold r in EG; unfold eset in OK; rewrite EK, E in OK; cbv zeta in OK; rewrite <- Eb in OK; unfold pool_of in OK; rewrite BB, HP, EG in OK; discriminate.
    pose proof (taken_all P _ _ r q i K (L b P HP) NR EG) as T.
    pose proof (eset_slot h s x v k c b P q i EK (eq_sym Eb) BB HP E EG) as SL.
    exists y, b, P, q, i. do 9 (split; [assumption|]).
    destruct (set_value KSample (sl_val (slot_at q i)) v) as [[v' ok]|] eqn:SV.
    + destruct SL as (s2 & _ & GO & _). destruct GO as (s3 & E3 & M3).
      { right. pose proof (po_len _ _ _ K). unfold p_n in ROOM. destruct T; lia. }
      rewrite E3. cbn [fst snd]. split; auto. rewrite (pl_len _ _ _ _ _ _ R) in M3. exact M3.
    + destruct SL as (s3 & E3 & _). rewrite E3. auto.
Qed.
Section Set1.
Context (h : hashes) (bs : list Z) (n : Z) (s : estate) (xl : list nid) (l : list ent) (x : string) (v : gval) (k c : Z).
Context (A : arel bs n s xl l) (EK : key_to_hash h (KStr x) = Some (k, c)) (NEW : forall e, In e l -> e_pos e <> reverse64 k)
  (ROOM : Z.of_nat (List.length (bucket_of bs l (reverse64 k))) < x_max s)
  (OK : snd (estep h s (OpSet (KStr x) v)) = Ret (RBool true)).
Let r := reverse64 k.
Let s' := fst (estep h s (OpSet (KStr x) v)).
Lemma set_taken : exists y b P q i v' ok z, adj (x_bl s) y b /\ b = base (x_trie s) (find_bucket (x_trie s) r) /\ brev (x_trie s) b <= r < up (x_trie s) y /\
  b_pool (bget (x_trie s) b) = Some P /\ pool_ok P (brev (x_trie s) b) (up (x_trie s) y) /\ bucket_of bs l r = map ent_of (live P) /\
  (forall sl, In sl (live P) -> sl_rev sl <> r) /\ taken P r q i /\ set_value KSample (sl_val (slot_at q i)) v = Some (v', ok) /\
  moved s s' b (filled q i r c (KStr x) v' true) z.
Proof.
  assert (NS : stops (snd (estep h s (OpSet (KStr x) v))) = false) by (rewrite OK; auto).
  destruct (set_slot h bs n s xl l x v k c A EK NEW ROOM NS) as (y & b & P & q & i & H1 & H2 & H3 & H4 & H5 & H6 & H7 & H8 & H9 & H10).
  destruct (set_value KSample (sl_val (slot_at q i)) v) as [[v' ok]|] eqn:SV; [|exfalso; rewrite H10 in OK; discriminate].
  destruct H10 as [_ M]. exists y, b, P, q, i, v', ok, (n + 1). repeat (split; [assumption|]). exact M.
Qed.

(** the bucket list and the pool *)
Lemma list_swapped y b P j : adj (x_bl s) y b -> b_pool (bget (x_trie s) b) = Some P -> pool_ok P (brev (x_trie s) b) (up (x_trie s) y) -> bucket_of bs l r = map ent_of (live P) ->
  (j < p_n P)%nat -> (displaced bs l r (ent_of (slot_at P j)) <-> sl_del (slot_at P j) = false /\ swapped P r j).
Proof.
  intros Hy HP K BK Hj. destruct A as [R L _]. pose proof (live_length _ _ _ K) as LL.
  assert (AT : forall a, (a < p_n P)%nat -> nth_error (map ent_of (live P)) a = Some (ent_of (slot_at P a))).
  { intros a Ha. rewrite nth_error_map. rewrite (nth_error_nth' (live P) zero_slot) by lia. rewrite live_nth by auto. auto. }
  assert (POS : forall a, (a < p_n P)%nat -> e_pos (ent_of (slot_at P a)) = sl_rev (slot_at P a)) by (intros a Ha; apply (bk_pos bs n s s xl l R y b P Hy HP a Ha)).
  split.
  - intros (a & d & b0 & EB & NA & DD & AL & DB & LT). rewrite BK in EB. pose proof (f_equal (@List.length _) EB) as LN. rewrite map_length, LL, app_length in LN. cbn [List.length] in LN.
    assert (JJ : j = S (List.length a)).
    { pose proof (AT (S (List.length a)) ltac:(lia)) as X. rewrite EB in X. rewrite nth_error_app2 in X by lia. replace (S (List.length a) - List.length a)%nat with 1%nat in X by lia. cbn [nth_error] in X. assert (X' : ent_of (slot_at P j) = ent_of (slot_at P (S (List.length a)))) by congruence.
      pose proof (bk_same bs n s s xl l R y b P Hy HP j (S (List.length a)) Hj ltac:(lia)) as Y. rewrite X' in Y. unfold same_entry in Y. rewrite pair_eqb_refl in Y. symmetry in Y. apply Nat.eqb_eq in Y. auto. }
    assert (0 < List.length a)%nat by (destruct a; [congruence|cbn; lia]).
    split; [exact AL|]. split; [|split; [lia|split]].
    + split; auto. split; [exact AL|]. intros a0 Ha0. pose proof (AT a0 ltac:(lia)) as X. rewrite EB in X. rewrite nth_error_app2 in X by lia.
      destruct (a0 - List.length a)%nat as [|[|w]] eqn:EW; [lia|lia|]. cbn in X. apply nth_error_In in X. rewrite Forall_forall in DB. apply (DB _ X).
    + pose proof (AT (j - 1)%nat ltac:(lia)) as X. rewrite EB in X. replace (j - 1)%nat with (List.length a) in X |- * by lia. rewrite nth_error_app2, Nat.sub_diag in X by lia. cbn [nth_error] in X. assert (X' : d = ent_of (slot_at P (List.length a))) by congruence. rewrite X' in DD. exact DD.
    + rewrite POS in LT by auto. exact LT.
  - intros (DJ & (T1 & T2 & T3) & S2 & S3 & S4). destruct (nth_error_split _ _ (AT (j - 1)%nat ltac:(lia))) as (a & b1 & E1 & L1).
    assert (EJ : nth_error b1 0 = Some (ent_of (slot_at P j))).
    { pose proof (AT j Hj) as X. rewrite E1 in X. rewrite nth_error_app2 in X by lia. rewrite L1 in X. replace (j - (j - 1))%nat with 1%nat in X by lia. exact X. }
    destruct b1 as [|e0 b1]; [discriminate|]. cbn [nth_error] in EJ. assert (e0 = ent_of (slot_at P j)) as -> by congruence. exists a, (ent_of (slot_at P (j - 1))), b1. rewrite BK, E1. split; auto.
    split; [intros ->; cbn in L1; lia|]. split; [exact S3|]. split; [exact DJ|]. split; [|rewrite POS by auto; exact S4].
    apply Forall_forall. intros e He. apply In_nth_error in He as (w & Hw).
    assert (X : nth_error (map ent_of (live P)) (S j + w) = Some e).
    { rewrite E1. rewrite nth_error_app2 by lia. rewrite L1. replace (S j + w - (j - 1))%nat with (S (S w)) by lia. exact Hw. }
    assert (Hx : (S j + w < p_n P)%nat) by (rewrite <- LL, <- (map_length ent_of); apply nth_error_Some; congruence).
    rewrite AT in X by auto. assert (e = ent_of (slot_at P (S j + w))) as -> by congruence. apply T3. lia.
Qed.
Lemma list_under y b P : adj (x_bl s) y b -> b_pool (bget (x_trie s) b) = Some P -> pool_ok P (brev (x_trie s) b) (up (x_trie s) y) -> bucket_of bs l r = map ent_of (live P) ->
  ((exists e, under bs l r e) <-> (0 < p_n P)%nat /\ sl_del (slot_at P 0) = true /\ r < sl_rev (slot_at P 0)).
Proof.
  intros Hy HP K BK. destruct A as [R L _]. pose proof (live_length _ _ _ K) as LL. unfold under. rewrite BK. split.
  - intros (e & b0 & EB & DE & LT). destruct (live P) as [|sl rest] eqn:EL; [discriminate|]. injection EB as <- <-. cbn [List.length] in LL.
    assert (S0 : slot_at P 0 = sl) by (rewrite <- live_nth by lia; rewrite EL; auto). rewrite S0. split; [lia|]. split; [exact DE|].
    pose proof (bk_pos bs n s s xl l R y b P Hy HP 0%nat ltac:(lia)) as (E1 & _). rewrite S0 in E1. rewrite <- E1. exact LT.
  - intros (N0 & D0 & R0). pose proof (bk_pos bs n s s xl l R y b P Hy HP 0%nat N0) as (E1 & _). destruct (live P) as [|sl rest] eqn:EL; [cbn in LL; lia|].
    assert (S0 : slot_at P 0 = sl) by (rewrite <- live_nth by lia; rewrite EL; auto). rewrite S0 in *. exists (ent_of sl), (map ent_of rest). split; auto. split; [exact D0|]. rewrite E1. exact R0.
Qed.

(** another key *)
Lemma set_others key' k' c' : key_to_hash h key' = Some (k', c') -> (k', c') <> (k, c) ->
  (forall e, entry l (k', c') = Some e -> ~ under bs l r e) ->
  let before := snd (estep h s (OpGet key')) in let after := snd (estep h s' (OpGet key')) in
  (forall e, entry l (k', c') = Some e -> displaced bs l r e -> stops before = false -> before = Ret (RVal (bd_val (e_bd e)) true) /\ after = Ret (RVal GNil false)) /\
  ((forall e, entry l (k', c') = Some e -> ~ displaced bs l r e) -> after = before).
Proof.
  intros EK' NE NU. cbv zeta. pose proof A as [R L _]. pose proof (pl_inv _ _ _ _ _ _ R) as I. pose proof (proj1 (key_range _ _ _ _ EK)) as Hk. pose proof (proj1 (key_range _ _ _ _ EK')) as Hk'.
  destruct set_taken as (y & b & P & q & i & v' & ok & z & Hy & Eb & Ri & HP & K & BK & NR & T & SV & M). set (Q := filled q i r c (KStr x) v' true) in *.
  clearbody s'. destruct M as (SS & _ & _ & _ & MP & MO). cbn [estep]. unfold ewith. rewrite EK'.
  assert (BS : base (x_trie s') (find_bucket (x_trie s') (reverse64 k')) = base (x_trie s) (find_bucket (x_trie s) (reverse64 k'))).
  { pose proof (find_bucket_shape _ _ SS (reverse64 k')) as F1. pose proof (base_shape _ _ SS (find_bucket (x_trie s') (reverse64 k'))) as F2. congruence. }
  set (b' := base (x_trie s) (find_bucket (x_trie s) (reverse64 k'))) in *.
  assert (OTHER : b' <> b -> eget s' k' c' = (s', snd (eget s k' c'))).
  { intros NB. unfold eget, eload, pool_of. rewrite BS. fold b'. rewrite MO by auto. destruct (b_pool (bget (x_trie s) b')) as [pb|] eqn:EP; auto. destruct (emb_search pb (reverse64 k')) as [a|]; auto.
    destruct (_ && _); auto. cbn [snd]. unfold item_at. rewrite MO, EP by auto. auto. }
  (* entries of the key in the pool of b *)
  assert (ENT : forall j, (j < p_n P)%nat -> sl_rev (slot_at P j) = reverse64 k' -> sl_conf (slot_at P j) = c' -> entry l (k', c') = Some (ent_of (slot_at P j))) by (intros j Hj Hr Hc; apply (bk_entry bs n s s xl l R y b P Hy HP k' c' j); auto).
  assert (PK : b' = b -> pool_of (x_trie s') (find_bucket (x_trie s') (reverse64 k')) = Some Q) by (intros E; unfold pool_of; rewrite BS, E; exact MP).
  assert (KR : (sl_rev (mkS r c false (KStr x) v' true) =? reverse64 k') && (sl_conf (mkS r c false (KStr x) v' true) =? c') = false).
  { cbn [sl_rev sl_conf]. destruct (Z.eqb_spec r (reverse64 k')) as [E|E]; auto. destruct (Z.eqb_spec c c') as [E2|E2]; auto. exfalso. apply NE. apply reverse64_inj in E; auto. congruence. }
  destruct (eload_view bs n s s xl l k' c' R Hk') as [E|[(n1 & j & p1 & E & HT & HI & EV)|(E & EV)]].
  - (* no pool *)
    assert (NP : b_pool (bget (x_trie s) b') = None).
    { unfold eload, pool_of in E. fold b' in E. destruct (b_pool (bget (x_trie s) b')) as [pb|]; auto. exfalso. destruct (emb_search pb (reverse64 k')); [|discriminate]. clear KR. destruct (_ && _); discriminate. }
    assert (NB : b' <> b) by congruence. rewrite (OTHER NB). cbn [snd]. split; [|auto]. intros e _ _ ST. unfold eget in ST. rewrite E in ST. discriminate.
  - pose proof (load_hit_base _ _ _ _ _ E) as EB1. fold b' in EB1. pose proof HT as (y1 & Hy1 & HP1 & K1 & Hj & Hr & Hc & Hv).
    destruct (nid_eq_dec b' b) as [EQ|NB].
    + assert (p1 = P) by congruence. subst p1. pose proof (ENT j Hj Hr Hc) as EE.
      assert (BF : snd (eget s k' c') = Ret (RVal (sl_val (slot_at P j)) true)) by (unfold eget; rewrite E; cbn [snd]; rewrite HI; auto).
      assert (FOUND : forall a, emb_search Q (reverse64 k') = Some a -> relink (slot_at Q a) = relink (slot_at P j) -> snd (eget s' k' c') = Ret (RVal (sl_val (slot_at P j)) true)).
      { intros a EA RA. destruct (relink_same _ _ RA) as (E1 & E2 & _ & _ & E5). unfold eget, eload. rewrite (PK EQ), EA, E1, E2, Hr, Hc, !Z.eqb_refl. cbn [andb]. rewrite BS. cbn [snd]. unfold item_at. rewrite EQ, MP, E5. auto. }
      assert (LIVE : sl_del (slot_at P j) = false ->
        (swapped P r j -> snd (eget s' k' c') = Ret (RVal GNil false)) /\ (~ swapped P r j -> snd (eget s' k' c') = Ret (RVal (sl_val (slot_at P j)) true))).
      { intros D. destruct (after_live P _ _ r c (KStr x) v' q i K T j Hj D) as [W1 W2]. fold Q in W1, W2. rewrite Hr in W1, W2. split.
        - intros W. unfold eget, eload. rewrite (PK EQ), (W1 W). auto.
        - intros W. destruct (W2 W) as (a & EA & RA). eapply FOUND; eauto. }
      pose proof (list_swapped y b P j Hy HP K BK Hj) as DS. rewrite EE. split.
      * intros e X DI ST. injection X as <-. apply DS in DI as [D SW]. split; [exact BF|]. apply LIVE; auto.
      * intros ND. rewrite BF. destruct (sl_del (slot_at P j)) eqn:D.
        -- destruct Hv as [Hv|Hv]; [discriminate|]. subst j.
           assert (LR : sl_rev (slot_at P 0) < r).
           { assert (sl_rev (slot_at P 0) <> r) by (apply NR; eapply live_in; eauto). destruct (Z_lt_ge_dec r (sl_rev (slot_at P 0))); [|lia]. exfalso.
             destruct (proj2 (list_under y b P Hy HP K BK)) as (e & U); [auto|]. apply (NU (ent_of (slot_at P 0)) EE). destruct U as (b0 & U1 & U2 & U3). exists b0. pose proof U1 as U1'. rewrite BK in U1'.
             destruct (live P) as [|sl rest] eqn:EL; [discriminate|]. assert (S0 : slot_at P 0 = sl) by (rewrite <- live_nth by auto; rewrite EL; auto). injection U1' as X1 X2. rewrite S0, X1. auto. }
           destruct (after_first P _ _ r c (KStr x) v' q i K T Hj LR) as [(EA & RA)|X]; [|congruence]. fold Q in EA, RA. rewrite Hr in EA. eapply FOUND; eauto.
        -- apply LIVE; auto. intros SW. apply (ND _ eq_refl). apply DS. auto.
    + rewrite (OTHER NB). cbn [snd]. split; [|auto]. intros e EE DI ST. exfalso.
      destruct (hit_entry bs n s s xl l k' c' n1 j p1 R Hk' HT) as (EE1 & _ & _). rewrite EE in EE1. injection EE1 as ->.
      destruct DI as (a & d & b0 & EBK & _). assert (IN : In (ent_of (slot_at p1 j)) (bucket_of bs l r)) by (rewrite EBK; apply in_or_app; right; right; left; auto).
      rewrite BK in IN. apply (bk_in bs n s s xl l R y b P Hy HP) in IN as (j0 & Hj0 & E0).
      pose proof (bk_pos bs n s s xl l R y b P Hy HP j0 Hj0) as (Q1 & Q2 & _). rewrite <- E0 in Q1. pose proof (bk_pos bs n s s xl l R y1 n1 p1 Hy1 HP1 j Hj) as (Q3 & Q4 & _).
      destruct (ei_disjoint s xl I y b y1 n1 (sl_rev (slot_at p1 j)) Hy Hy1) as [X _]; [rewrite <- Q3, Q1; exact Q2|exact Q4|]. congruence.
  - assert (BF : snd (eget s k' c') = Ret (RVal GNil false)) by (unfold eget; rewrite E; auto). rewrite BF.
    assert (AF : snd (eget s' k' c') = Ret (RVal GNil false)).
    { destruct (nid_eq_dec b' b) as [EQ|NB]; [|rewrite (OTHER NB); exact BF].
      unfold eget, eload. rewrite (PK EQ). destruct (emb_search Q (reverse64 k')) as [a|] eqn:EA; auto.
      destruct ((sl_rev (slot_at Q a) =? reverse64 k') && (sl_conf (slot_at Q a) =? c')) eqn:EC; auto. exfalso.
      apply andb_true_iff in EC as [C1 C2]. apply Z.eqb_eq in C1, C2.
      destruct (Z.eq_dec (reverse64 k') r) as [ER|ER].
      - destruct (search_vis _ _ _ EA) as [Ha _]. destruct (Nat.eq_dec a i) as [->|NI].
        + unfold Q in C1, C2. rewrite (q_at P _ _ r c (KStr x) v' q i K T i), Nat.eqb_refl in C1, C2. cbn [sl_rev sl_conf] in C1, C2. apply NE. apply reverse64_inj in ER; auto. congruence.
        + destruct (after_cases P _ _ r c (KStr x) v' q i K T) as [((t & T1 & T2 & T3 & T4 & T5 & T6) & QN & QS)|(NS & Hi & QN & T4 & T5 & TX & T8 & T10)]; fold Q in QN.
          * apply (NR (slot_at P a)); [eapply live_in; eauto; lia|]. rewrite <- QS by lia. fold Q. congruence.
          * destruct (Nat.lt_ge_cases a i) as [LA|LA].
            -- destruct (relink_same _ _ (T8 a LA)) as (X & _). fold Q in X. apply (NR (slot_at P a)); [eapply live_in; eauto; lia|]. congruence.
            -- destruct a as [|a]; [lia|]. destruct (relink_same _ _ (T10 a ltac:(lia))) as (X & _). fold Q in X. apply (NR (slot_at P a)); [eapply live_in; eauto; lia|]. congruence.
      - destruct (after_only P _ _ r c (KStr x) v' q i K T (reverse64 k') a EA C1 ER) as (j & Hj & V & RA). fold Q in RA. destruct (relink_same _ _ RA) as (X1 & X2 & _).
        pose proof (bk_visible bs n s s xl l R y b P Hy HP k' c' j Hk' Hj ltac:(congruence) ltac:(congruence) V) as BV. congruence. }
    rewrite AF. split; [|auto]. intros e EE DI ST. exfalso. destruct DI as (a & d & b0 & _ & _ & _ & AL & _). unfold visible in EV. rewrite EE in EV. rewrite AL in EV. discriminate.
Qed.

(** the key itself *)
Lemma set_own : (forall e, ~ displaced bs l r e) ->
  let after := snd (estep h s' (OpGet (KStr x))) in
  ((exists e, under bs l r e) -> after = Ret (RVal GNil false)) /\ (~ (exists e, under bs l r e) -> exists w, after = Ret (RVal w true) /\ (w = v \/ exists e ok, In e l /\ dead e /\ set_value KSample (bd_val (e_bd e)) v = Some (w, ok))).
Proof.
  intros NDI. cbv zeta. pose proof A as [R L _]. pose proof (proj1 (key_range _ _ _ _ EK)) as Hk.
  destruct set_taken as (y & b & P & q & i & v' & ok & z & Hy & Eb & Ri & HP & K & BK & NR & T & SV & M). set (Q := filled q i r c (KStr x) v' true) in *.
  clearbody s'. destruct M as (SS & _ & _ & _ & MP & MO). cbn [estep]. unfold ewith. rewrite EK.
  assert (NSW : forall t, ~ swapped P r t).
  { intros t SW. pose proof SW as ((T1 & T2 & _) & _). apply (NDI (ent_of (slot_at P t))). apply (list_swapped y b P t Hy HP K BK T1). auto. }
  destruct (after_own P _ _ r c (KStr x) v' q i K NR T NSW) as [O1 O2]. fold Q in O1, O2. rewrite <- (list_under y b P Hy HP K BK) in O1, O2.
  assert (BS : base (x_trie s') (find_bucket (x_trie s') (reverse64 k)) = b).
  { pose proof (find_bucket_shape _ _ SS (reverse64 k)) as F1. pose proof (base_shape _ _ SS (find_bucket (x_trie s') (reverse64 k))) as F2. unfold r in Eb; congruence. }
  assert (PK : pool_of (x_trie s') (find_bucket (x_trie s') (reverse64 k)) = Some Q) by (unfold pool_of; rewrite BS; exact MP).
  assert (QI : slot_at Q i = mkS r c false (KStr x) v' true) by (unfold Q; rewrite (q_at P _ _ r c (KStr x) v' q i K T i), Nat.eqb_refl; auto).
  split.
  - intros U. unfold eget, eload. rewrite PK. fold r. rewrite (O1 U). auto.
  - intros U. exists v'. split.
    + unfold eget, eload. rewrite PK. fold r. rewrite (O2 U), QI. cbn [sl_rev sl_conf]. rewrite !Z.eqb_refl. cbn [andb snd]. unfold item_at. fold r in BS. rewrite BS, MP, QI. auto.
    + destruct T as [t T1 T2 T3 T4 T5 T6 T7 T8 T9|T1 TX T2 T3 T4 T5 T6 T7|T1 T2 T3 T4 T5 T6 T7 T8 T9 T10].
      * right. destruct T1 as (B1 & _). exists (ent_of (slot_at P i)), ok. rewrite T9, Nat.eqb_refl in SV by lia. split; [|split; [exact T4|exact SV]].
        assert (X : In (ent_of (slot_at P i)) (bucket_of bs l r)) by (rewrite BK; apply in_map; eapply live_in; eauto; lia). apply filter_In in X. tauto.
      * left. rewrite T7 in SV. destruct (set_value_zero v) as (ok' & E). cbn [zero_slot sl_val] in SV. congruence.
      * left. rewrite T9 in SV. destruct (set_value_zero v) as (ok' & E). cbn [zero_slot sl_val] in SV. congruence.
Qed.
End Set1.

(** * A calm Set *)
Lemma ent_dec (a b : ent) : {a = b} + {a <> b}.
Proof. repeat decide equality. Qed.
Lemma moved_div s s' b P Q z : moved s s' b Q z -> b_pool (bget (x_trie s) b) = Some P -> forall k c, eload s' k c = Div <-> eload s k c = Div.
Proof.
  intros (SS & _ & _ & _ & MP & MO) HP k c.
  assert (D : forall t, eload t k c = Div <-> b_pool (bget (x_trie t) (base (x_trie t) (find_bucket (x_trie t) (reverse64 k)))) = None).
  { intros t. clear. unfold eload, pool_of. destruct (b_pool _) as [p|]; [|split; auto]. destruct (emb_search p _); [|split; discriminate]. destruct (_ && _); split; discriminate. }
  rewrite !D. pose proof (find_bucket_shape _ _ SS (reverse64 k)) as F1. pose proof (base_shape _ _ SS (find_bucket (x_trie s') (reverse64 k))) as F2.
  assert (BS : base (x_trie s') (find_bucket (x_trie s') (reverse64 k)) = base (x_trie s) (find_bucket (x_trie s) (reverse64 k))) by congruence. rewrite BS.
  destruct (nid_eq_dec (base (x_trie s) (find_bucket (x_trie s) (reverse64 k))) b) as [->|N]; [rewrite MP, HP; split; discriminate|rewrite MO by auto; tauto].
Qed.
(** the slot a new key got *)
Definition slotted (s s' : estate) (k c : Z) (x : string) (v w : gval) : Prop :=
  let r := reverse64 k in exists y b P q i ok z, eload s k c = Ret None /\ adj (x_bl s) y b /\ b = base (x_trie s) (find_bucket (x_trie s) r) /\ brev (x_trie s) b <= r < up (x_trie s) y /\
  b_pool (bget (x_trie s) b) = Some P /\ 0 <= p_len P /\ get_with_fn 4 P r = GSlot q i /\ set_value KSample (sl_val (slot_at q i)) v = Some (w, ok) /\ (i < p_n q)%nat /\ p_len q <= x_max s /\
  moved s s' b (filled q i r c (KStr x) w true) z /\ pool_ok (filled q i r c (KStr x) w true) (brev (x_trie s) b) (up (x_trie s) y) /\
  slot_at (filled q i r c (KStr x) w true) i = mkS r c false (KStr x) w true.
Section Set2.
Context (h : hashes) (bs : list Z) (n : Z) (s : estate) (xl : list nid) (l : list ent) (x : string) (v : gval) (k c : Z).
Context (A : arel bs n s xl l) (EK : key_to_hash h (KStr x) = Some (k, c)) (PR : present bs l (k, c) = false) (CA : calm bs l (reverse64 k))
  (ROOM : Z.of_nat (List.length (bucket_of bs l (reverse64 k))) < x_max s)
  (w : gval) (G : given bs l (reverse64 k) v = Some w) (NS : stops (snd (estep h s (OpSet (KStr x) v))) = false).
Let r := reverse64 k.
Let s' := fst (estep h s (OpSet (KStr x) v)).
Lemma calm_set : snd (estep h s (OpSet (KStr x) v)) = Ret (RBool true) /\ (forall k' c', eload s' k' c' = Div <-> eload s k' c' = Div) /\ slotted s s' k c x v w /\ arel bs (n + 1) s' xl (entered bs l (k, c) (KStr x) v).
Proof.
  pose proof A as [R L S]. pose proof (pl_inv _ _ _ _ _ _ R) as I. pose proof (proj1 (key_range _ _ _ _ EK)) as Hk.
  change (MixSpec.pos_of (k, c)) with (reverse64 k) in *. change (calm bs l (MixSpec.pos_of (k, c))) in CA.
  assert (EL : eload s k c = Ret None).
  { destruct (eload_view bs n s s xl l k c R Hk) as [E|[(b & j & p & E & _ & _ & V)|(E & _)]]; auto; exfalso.
    - cbn [estep] in NS. unfold eset in NS. rewrite EK, E in NS. discriminate.
    - unfold present in PR. rewrite V in PR. discriminate. }
  destruct (eload_spec s xl k c I) as [E|[(b & j & P & E & _)|(_ & y & b & P & Hy & Eb & Ri & HP & K & _)]]; [congruence|congruence|]. fold r in Ri, Eb.
  pose proof (pl_bk _ _ _ _ _ _ R y b P r Hy HP Ri) as BK. pose proof (L b P HP) as LK.
  pose proof (live_length _ _ _ K) as LL. fold r in ROOM. rewrite BK, map_length, LL in ROOM.
  assert (POS : forall a, (a < p_n P)%nat -> e_pos (ent_of (slot_at P a)) = sl_rev (slot_at P a)) by (intros a Ha; apply (bk_pos bs n s s xl l R y b P Hy HP a Ha)).
  assert (IB : forall e, In e (bucket_of bs l r) <-> exists j, (j < p_n P)%nat /\ e = ent_of (slot_at P j)) by (intros e; rewrite BK; apply (bk_in bs n s s xl l R y b P Hy HP)).
  assert (INL : forall e, In e (map ent_of (live P)) -> In e l) by (intros e He; rewrite <- BK in He; apply in_bucket in He; tauto).
  fold r in G. assert (HH : forall e, In e (entered bs l (k, c) (KStr x) v) -> 0 <= fst (e_hash e) < W64).
  { intros e He. apply (entered_in bs l (k, c) (KStr x) v w S G) in He as [->|[He _]]; [exact Hk|apply (pl_hash _ _ _ _ _ _ R e He)]. }
  assert (NEWE : forall w0, ent_of (mkS r c false (KStr x) w0 true) = mkE (k, c) (mkBd KSample (KStr x) w0) false).
  { intros w0. unfold ent_of. cbn [sl_rev sl_conf sl_key sl_val sl_del]. unfold r. rewrite reverse64_involutive by auto. auto. }
  destruct (place bs l r) as [d|] eqn:EP.
  - pose proof EP as P0. apply (place_iff bs l r d S) in P0 as (P1 & P2 & P3 & (a & A1 & A2) & (u & U1 & U2 & U3) & P6).
    apply IB in P1 as (i & Hi & Ed). apply IB in A1 as (ia & Hia & Ea). apply IB in U1 as (iu & Hiu & Eu).
    assert (RI : sl_rev (slot_at P i) <= r) by (rewrite <- (POS i Hi), <- Ed; exact P3).
    assert (I1 : (1 <= i)%nat).
    { destruct i as [|i]; [|lia]. exfalso. rewrite Ea, Ed, !POS in A2 by auto. destruct ia as [|ia]; [lia|]. pose proof (slot_lt P _ _ 0%nat (Datatypes.S ia) K ltac:(lia)). lia. }
    assert (DU : sl_del (slot_at P iu) = false) by (rewrite Eu in U2; exact U2).
    assert (RU : r < sl_rev (slot_at P iu)) by (rewrite <- POS by auto; congruence).
    assert (IU : (i < iu)%nat). { destruct (Nat.lt_trichotomy i iu) as [H|[H|H]]; auto; [subst iu; lia|]. pose proof (slot_lt P _ _ iu i K ltac:(lia)). lia. }
    assert (LO : exists t, last_one P t /\ (iu <= t)%nat).
    { pose proof (last_active_spec (p_slots P) (p_n P)) as LA. destruct (last_active (p_slots P) (p_n P)) as [t|].
      - exists t. split; [exact LA|]. destruct LA as (T1 & T2 & T3). destruct (Nat.le_gt_cases iu t); auto. unfold slot_at in DU. rewrite T3 in DU by lia. discriminate.
      - unfold slot_at in DU. rewrite LA in DU by auto. discriminate. }
    destruct LO as (t & LO & TU).
    assert (RS : r < sl_rev (slot_at P (Datatypes.S i))).
    { destruct (Z_lt_ge_dec r (sl_rev (slot_at P (Datatypes.S i)))) as [H|H]; auto. exfalso. pose proof (slot_lt P _ _ i (Datatypes.S i) K ltac:(lia)).
      assert (X : In (ent_of (slot_at P (Datatypes.S i))) (bucket_of bs l r)) by (apply IB; exists (Datatypes.S i); split; auto; lia). specialize (P6 _ X). rewrite POS in P6 by lia. rewrite Ed, POS in P6 by auto. lia. }
    pose proof (reuse_must P _ _ r i t K LK LO I1 ltac:(lia) ltac:(unfold dead in P2; rewrite Ed in P2; exact P2) RI RS) as EG.
    assert (BB : base (x_trie s) b = b) by (apply (base_linked _ xl); [apply (ei_trie _ _ I)|]; apply (ei_adj_x s xl I _ _ Hy)).
    pose proof (eset_slot h s x v k c b P _ i EK (eq_sym Eb) BB HP EL EG) as SL. unfold s'. cbn [estep].
    assert (SV0 : slot_at (upd_slot P i recycle) i = recycle (slot_at P i)) by (rewrite upd_at by (pose proof (po_n _ _ _ K); lia); rewrite Nat.eqb_refl; auto).
    assert (SV : exists ok, set_value KSample (sl_val (slot_at (upd_slot P i recycle) i)) v = Some (w, ok)).
    { rewrite SV0, set_value_assign. cbn [recycle sl_val]. unfold given in G. rewrite EP, Ed in G. cbn [ent_of e_bd bd_val] in G. destruct (assign KSample (sl_val (slot_at P i)) v) as [[w' ok]|]; [|discriminate]. exists ok. congruence. }
    destruct SV as (ok & SV). rewrite SV in SL.
    destruct SL as (s2 & _ & GO & _). destruct GO as (s3 & E3 & M3).
    { right. pose proof (po_len _ _ _ K). unfold p_n in ROOM. cbn [upd_slot p_len]. lia. }
    rewrite E3. cbn [fst snd]. split; [auto|]. split; [exact (moved_div _ _ _ _ _ _ M3 HP)|]. rewrite (pl_len _ _ _ _ _ _ R) in M3. fold r in M3.
    destruct (pool_reused P _ _ r c (KStr x) w _ i K LK Ri EG eq_refl Hi) as (KQ & LQ & IQ).
    { intros a0 Ha0. pose proof (slot_lt P _ _ a0 i K ltac:(lia)). lia. }
    { intros a0 Ha0. destruct (Nat.eq_dec a0 (Datatypes.S i)) as [->|N]; auto. pose proof (slot_lt P _ _ (Datatypes.S i) a0 K ltac:(lia)). lia. }
    split.
    { exists y, b, P, (upd_slot P i recycle), i, ok, (n + 1). repeat (split; [first [assumption | exact (eq_sym Eb)]|]). split; [exact (proj1 (po_len _ _ _ K))|]. split; [exact EG|]. split; [exact SV|].
      split; [exact Hi|]. split; [cbn [upd_slot p_len]; unfold p_n in ROOM; pose proof (po_len _ _ _ K); lia|]. split; [exact M3|]. split; [exact KQ|].
      unfold filled. rewrite upd_at by (unfold upd_slot; cbn [p_slots]; rewrite upd_nth_length; pose proof (po_n _ _ _ K); lia). rewrite Nat.eqb_refl, SV0. reflexivity. }
    refine (calm_put bs n s s3 xl l y b P _ (n + 1) _ A M3 Hy HP K KQ LQ (entered_asc bs l (k, c) (KStr x) v w S CA G) _ HH).
    intros e. rewrite (entered_in bs l (k, c) (KStr x) v w S G). change (MixSpec.pos_of (k, c)) with r. rewrite EP. rewrite <- (NEWE w).
    assert (IQE : In e (map ent_of (live (filled (upd_slot P i recycle) i r c (KStr x) w true))) <-> e = ent_of (mkS r c false (KStr x) w true) \/ (In e (map ent_of (live P)) /\ e <> d)).
    { split.
      - intros H. apply in_map_iff in H as (sl & <- & H). apply IQ in H as [->|[H NE]]; auto. right. split; [apply in_map; auto|]. intros X. apply NE. destruct (in_live _ _ _ _ K H) as (j & Hj & <-). f_equal.
        apply (slot_inj P _ _ j i K); auto. rewrite <- !POS by auto. congruence.
      - intros [->|[H NE]]; [apply in_map; apply IQ; auto|]. apply in_map_iff in H as (sl & <- & H). apply in_map. apply IQ. right. split; auto. congruence. }
    rewrite IQE. split.
    + intros [->|[He ND]]; auto. destruct (in_dec ent_dec e (map ent_of (live P))) as [H|H]; [left; right; split; auto; congruence|auto].
    + intros [[->|[H NE]]|[H NI]]; auto.
      * right. split; auto. congruence.
      * right. split; auto. intros X. apply NI. assert (d = e) by congruence. subst e. rewrite Ed. apply in_map. eapply live_in; eauto.
  - pose proof CA as CC. unfold calm in CC. change (MixSpec.pos_of (k, c)) with r in CC. rewrite EP in CC. destruct CC as [NEW CU].
    assert (w = v) as -> by (unfold given in G; rewrite EP in G; congruence).
    assert (ROOM' : Z.of_nat (List.length (bucket_of bs l (reverse64 k))) < x_max s) by (fold r; rewrite BK, map_length, LL; exact ROOM).
    destruct (set_slot h bs n s xl l x v k c A EK NEW ROOM' NS) as (y1 & b1 & P1 & q & i & Hy1 & Eb1 & Ri1 & HP1 & K1 & BK1 & NR & T & EG & SV).
    fold r in Eb1, Ri1, BK1, NR, T, EG, SV. assert (HB1 : b1 = b) by congruence. clear Eb1. subst b1. assert (P1 = P) by congruence. subst P1. assert (y1 = y) by (exact (adj_uniq_l _ _ _ _ (ei_nodup s xl I) Hy1 Hy)). subst y1. clear Hy1 Ri1 HP1 K1 BK1.
    fold s' in SV. clearbody s'.
    assert (NSW : forall t, ~ swapped P r t).
    { intros t SW. pose proof SW as ((T1 & T2 & T3) & _). assert (DD : displaced bs l r (ent_of (slot_at P t))) by (apply (list_swapped bs n s xl l k A y b P t Hy HP K BK T1); auto).
      destruct (upper bs l r) as [|u us] eqn:EU; [apply (CU _ DD)|]. assert (U0 : In u (upper bs l r)) by (rewrite EU; left; auto). unfold upper in U0. apply filter_In in U0 as [U0 U3].
      apply IB in U0 as (iu & Hiu & Eu). rewrite Eu, POS in U3 by auto. destruct SW as (_ & _ & _ & S4). assert (DU : sl_del (slot_at P iu) = false) by (rewrite Eu in CU; exact CU).
      destruct (Nat.lt_trichotomy iu t) as [H|[H|H]]; [pose proof (slot_lt P _ _ iu t K ltac:(lia)); lia|subst iu; lia|]. rewrite T3 in DU by lia. discriminate. }
    assert (NRU : forall t, last_one P t -> (1 <= i)%nat -> (Datatypes.S i <= t)%nat -> sl_del (slot_at P i) = true -> sl_rev (slot_at P i) < r -> r < sl_rev (slot_at P (Datatypes.S i)) -> False).
    { intros t (T1 & T2 & T3) I1 IT DI RI RS. assert (X : place bs l r = Some (ent_of (slot_at P i))); [|congruence]. apply place_iff; auto. rewrite POS by lia. split; [apply IB; exists i; split; auto; lia|]. split; [exact DI|]. split; [lia|]. split.
      - exists (ent_of (slot_at P 0)). split; [apply IB; exists 0%nat; split; auto; lia|]. rewrite POS by lia. apply (slot_lt P _ _ 0%nat i K). lia.
      - split.
        + exists (ent_of (slot_at P t)). split; [apply IB; exists t; auto|]. split; [exact T2|]. rewrite POS by auto. destruct (Nat.eq_dec (Datatypes.S i) t) as [<-|N]; auto. pose proof (slot_lt P _ _ (Datatypes.S i) t K ltac:(lia)). lia.
        + intros e He Le. apply IB in He as (j & Hj & ->). rewrite POS in * by auto. destruct (Nat.le_gt_cases j i) as [H|H].
          * destruct (Nat.eq_dec j i) as [->|N]; [lia|]. pose proof (slot_lt P _ _ j i K ltac:(lia)). lia.
          * destruct (Nat.eq_dec j (Datatypes.S i)) as [->|N]; [lia|]. pose proof (slot_lt P _ _ (Datatypes.S i) j K ltac:(lia)). lia. }
    assert (ZS : slot_at q i = zero_slot).
    { destruct T as [t T1 T2 T3 T4 T5 T6 T7 T8 T9|T1 TX T2 T3 T4 T5 T6 T7|T1 T2 T3 T4 T5 T6 T7 T8 T9 T10]; auto. exfalso. destruct T6 as [T6|[T6 T6']]; [eapply NRU; eauto|].
      apply (NSW t). split; auto. split; [lia|]. replace (t - 1)%nat with i by lia. auto. }
    rewrite ZS in SV. cbn [zero_slot sl_val] in SV. destruct (set_value_zero v) as (ok' & EZ). rewrite EZ in SV. destruct SV as [SR M]. split; [exact SR|]. split; [exact (moved_div _ _ _ _ _ _ M HP)|].
    destruct (taken_fresh P _ _ r q i K T) as (FI & FN & _). pose proof (q_at P _ _ r c (KStr x) v q i K T i) as QI. rewrite Nat.eqb_refl in QI.
    destruct (after_cases P _ _ r c (KStr x) v q i K T) as [((t & T1 & T2 & T3 & T4 & T5 & T6) & _)|(_ & Hi & QN & T4 & T5 & TX & T8 & T10)].
    { exfalso. destruct T6 as [T6|[T6 T6']]; [eapply NRU; eauto|]. apply (NSW t). split; auto. split; [lia|]. replace (t - 1)%nat with i by lia. auto. }
    assert (LOW : forall a, (a < i)%nat -> sl_rev (slot_at P a) < r).
    { intros a Ha. assert (sl_rev (slot_at P a) <> r) by (apply NR; eapply live_in; eauto; lia). destruct (Z_lt_ge_dec (sl_rev (slot_at P a)) r) as [H0|H0]; auto. exfalso.
      assert (IU : In (ent_of (slot_at P a)) (upper bs l r)) by (unfold upper; apply filter_In; split; [apply IB; exists a; split; auto; lia|rewrite POS by lia; lia]).
      pose proof (filter_sorted (fun e => r <? e_pos e) _ (filter_sorted (fun e => together bs r (e_pos e)) l S)) as SU. fold (bucket_of bs l r) in SU. fold (upper bs l r) in SU.
      destruct (upper bs l r) as [|u us] eqn:EU; [destruct IU|]. assert (U0 : In u (upper bs l r)) by (rewrite EU; left; auto). unfold upper in U0. apply filter_In in U0 as [U0 U3].
      apply IB in U0 as (iu & Hiu & Eu). assert (DU : sl_del (slot_at P iu) = false) by (rewrite Eu in CU; exact CU). rewrite Eu, POS in U3 by auto.
      assert (LE : sl_rev (slot_at P iu) <= sl_rev (slot_at P a)).
      { cbn [map] in SU. inversion SU as [|? ? S1 S2]; subst. destruct IU as [IU|IU].
        - assert (e_pos (ent_of (slot_at P iu)) = e_pos (ent_of (slot_at P a))) by congruence. rewrite !POS in * by lia. lia.
        - rewrite Forall_forall in S2. specialize (S2 _ (in_map e_pos _ _ IU)). rewrite !POS in S2 by lia. lia. }
      assert (iu <= a)%nat. { destruct (Nat.le_gt_cases iu a); auto. pose proof (slot_lt P _ _ a iu K ltac:(lia)). lia. }
      pose proof (T4 iu ltac:(lia) DU). lia. }
    assert (QZ : 0 <= p_len q) by (pose proof (po_len _ _ _ K); destruct T; lia).
    destruct (pool_inserted P _ _ r c (KStr x) v q i K LK Ri EG Hi FI FN QZ QN QI T8 T10 LOW T5) as (KQ & LQ & IQ).
    split.
    { exists y, b, P, q, i, ok', (n + 1). repeat (split; [first [assumption | exact (eq_sym Eb)]|]). split; [exact (proj1 (po_len _ _ _ K))|]. split; [exact EG|]. split; [rewrite ZS; exact EZ|].
      assert (PNQ : p_n q = Datatypes.S (p_n P)) by exact QN. split; [lia|]. split; [unfold p_n in ROOM, PNQ; lia|]. split; [exact M|]. split; [exact KQ|]. exact QI. }
    refine (calm_put bs n s s' xl l y b P _ (n + 1) _ A M Hy HP K KQ LQ (entered_asc bs l (k, c) (KStr x) v v S CA G) _ HH).
    intros e. rewrite (entered_in bs l (k, c) (KStr x) v v S G), IQ. change (MixSpec.pos_of (k, c)) with r. rewrite EP. rewrite (NEWE v). split.
    + intros [->|[He _]]; auto. destruct (in_dec ent_dec e (map ent_of (live P))) as [H|H]; auto.
    + intros [[->|H]|[H _]]; auto; right; (split; [auto|discriminate]).
Qed.
End Set2.
Lemma calm_arun max h bs xl : forall ops n s l, arel bs n s xl l -> x_max s = max -> calm_calls h bs max n l ops -> existsb stops (eouts h s ops) = false ->
  exists n', arel bs n' (erun h s ops) xl (calm_run h bs n l ops).
Proof.
  induction ops as [|o ops IH]; intros n s l A MX HC NS; cbn [erun calm_run eouts calm_calls] in *; [eauto|]. destruct HC as [H1 H2].
  pose proof (max_run h [o] s) as MX'. cbn [erun] in MX'.
  destruct (estep h s o) as [s' r] eqn:ES. cbn [existsb] in NS. apply orb_false_iff in NS as [N1 N2]. rewrite N1 in *.
  apply IH; auto; [|congruence].
  assert (KEEP : match o with OpPurge _ => False | _ => True end -> match o with
    | OpSet key _ => exists p, key_to_hash h key = Some p /\ present bs l p = true
    | OpStore i => exists p, key_to_hash h (i_key i) = Some p /\ present bs l p = true
    | _ => True end -> arel bs n s' xl (next_entries h bs n l o)).
  { intros K0 HO. pose proof (astep bs n h s xl l o A K0 HO) as A'. rewrite ES in A'. apply A'. exact N1. }
  unfold calm_count, calm_next, creates. destruct o as [key v|i|key|k c|key|k c|key|key|]; cbn [calm_call] in H1; auto; try contradiction.
  destruct H1 as (p & EK & HP). rewrite EK. destruct (present bs l p) eqn:EP; cbn [negb].
  - apply KEEP; auto. exists p. auto.
  - destruct HP as [HP|((x & ->) & CA & RO & w & G)]; [discriminate|]. destruct p as [k c].
    pose proof (calm_set h bs n s xl l x v k c A EK EP CA) as CS. rewrite ES in CS. cbn [fst snd] in CS. rewrite MX in CS. exact (proj2 (proj2 (proj2 (CS RO w G N1)))).
Qed.

(** * The theorems *)
Lemma erun_then h : forall os1 s os2, existsb stops (eouts h s os1) = false -> erun h s (os1 ++ os2) = erun h (erun h s os1) os2.
Proof.
  induction os1 as [|o os1 IH]; intros s os2 NS; cbn [app erun eouts] in *; auto. destruct (estep h s o) as [s' r]. cbn [existsb] in NS. apply orb_false_iff in NS as [N1 N2].
  rewrite N1 in *. auto.
Qed.
(** [os]: Sets and reads; [ops]: Deletes, reads, Sets of keys that can be read and calm Sets of keys that cannot; [l]: what is stored after
    [os], by position *)
Section Scope.
Context (h : hashes) (max : Z) (os ops : list op) (l : list ent).
Definition in_scope : Prop :=
  16 <= max /\ Forall store_or_read os /\ no_collision h os /\
  lists (sm_run h (sm_empty KSample) os) l /\
  calm_calls h (edump (erun h (new_emb max) os)) max (sm_created (sm_run h (sm_empty KSample) os)) l ops /\
  existsb stops (eouts h (new_emb max) (os ++ ops)) = false.
(** the boundaries and the entries before the Set *)
Definition bounds : list Z := edump (erun h (new_emb max) os).
Definition entries : list ent := calm_run h bounds (sm_created (sm_run h (sm_empty KSample) os)) l ops.
Lemma scope_arel : in_scope -> exists xl n, arel bounds n (erun h (new_emb max) (os ++ ops)) xl entries /\
  x_max (erun h (new_emb max) (os ++ ops)) = max.
Proof.
  intros (HM & HF & HN & HL & HC & NS). rewrite eouts_app, existsb_app in NS. apply orb_false_iff in NS as [N1 N2]. rewrite N1 in N2. cbn [app] in N2.
  destruct (erun_agrees h os _ _ (new_emb_rel max HM) HF) as (_ & A2 & _); auto.
  destruct A2 as [A2|A2]; [unfold stopped in A2; congruence|].
  destruct (erel_prel _ _ l A2 HL) as (xl & R). exists xl.
  assert (A : arel bounds (sm_created (sm_run h (sm_empty KSample) os)) (erun h (new_emb max) os) xl l); [|
    destruct (calm_arun max h bounds xl ops _ _ _ A ltac:(rewrite max_run; auto) HC N2) as (n & A'); exists n; split; [rewrite erun_then by auto; exact A'|rewrite max_run; auto]].
  constructor; auto; [|apply pos_sorted, (ls_sorted _ _ HL)].
  apply (linked_run h os (new_emb max) (sm_empty KSample)); auto; [apply new_emb_rel; auto|apply linked_new].
Qed.
End Scope.

(** the Set of a new key [x] at a position where nothing is stored, into a bucket that does not reach its maximum *)
Definition plain_set h max os ops l x v k c : Prop :=
  key_to_hash h (KStr x) = Some (k, c) /\
  (forall e, In e (entries h max os ops l) -> e_pos e <> reverse64 k) /\
  Z.of_nat (List.length (bucket_of (bounds h max os) (entries h max os ops l) (reverse64 k))) < max /\
  snd (estep h (erun h (new_emb max) (os ++ ops)) (OpSet (KStr x) v)) = Ret (RBool true).
(** C42, exactly: the Set hides the key it displaces and leaves every other key alone. (A deleted key that can still be read, being the
    first of its bucket, is left alone too if the new key lies above it.) *)
Theorem C42_displaced_only_partial : forall h max os ops l x v k c key' k' c', in_scope h max os ops l -> plain_set h max os ops l x v k c ->
  key_to_hash h key' = Some (k', c') -> (k', c') <> (k, c) ->
  let bs := bounds h max os in let es := entries h max os ops l in let r := reverse64 k in
  let s := erun h (new_emb max) (os ++ ops) in let s' := fst (estep h s (OpSet (KStr x) v)) in
  let before := snd (estep h s (OpGet key')) in let after := snd (estep h s' (OpGet key')) in
  (forall e, entry es (k', c') = Some e -> displaced bs es r e -> stops before = false ->
     before = Ret (RVal (bd_val (e_bd e)) true) /\ after = Ret (RVal GNil false)) /\
  ((forall e, entry es (k', c') = Some e -> ~ displaced bs es r e /\ ~ under bs es r e) -> after = before).
Proof.
  intros h max os ops l x v k c key' k' c' HS (EK & NEW & ROOM & OK) EK' NE. destruct (scope_arel h max os ops l HS) as (xl & n & A & MX). cbv zeta.
  generalize dependent (erun h (new_emb max) (os ++ ops)). generalize dependent (entries h max os ops l). generalize (bounds h max os).
  intros bs es NEW ROOM s OK A MX. rewrite <- MX in ROOM.
  pose proof (set_others h bs n s xl es x v k c A EK NEW ROOM OK key' k' c' EK' NE) as SO. cbv zeta in SO. split.
  - intros e EE DI. assert (NU : forall e0, entry es (k', c') = Some e0 -> ~ under bs es (reverse64 k) e0).
    { intros e0 E0 (b & _ & D & _). destruct DI as (a & d & b0 & _ & _ & _ & AL & _). unfold dead, alive in *. congruence. }
    destruct (SO NU) as [S1 _]. intros ST. exact (S1 e EE DI ST).
  - intros ND. apply SO; intros e EE; apply (ND e EE).
Qed.
Print Assumptions C42_displaced_only_partial.

(** * C76: the key itself *)
Definition set_is_found : Prop := forall h max os x v, 16 <= max -> no_collision h (os ++ [OpSet (KStr x) v]) ->
  existsb stops (eouts h (new_emb max) os) = false ->
  let s := erun h (new_emb max) os in let s' := fst (estep h s (OpSet (KStr x) v)) in
  snd (estep h s (OpSet (KStr x) v)) = Ret (RBool true) -> exists w, snd (estep h s' (OpGet (KStr x))) = Ret (RVal w true).
Theorem C76_set_is_found_refuted : ~ set_is_found.
Proof.
  intros H. specialize (H (hpos five) 32 [set_ "b" 2; set_ "c" 3; del_ "b"] "a"%string (GV 1 1) ltac:(lia)). cbv zeta in H.
  set (s := erun (hpos five) (new_emb 32) [set_ "b" 2; set_ "c" 3; del_ "b"]) in *.
  assert (A : exists w, snd (estep (hpos five) (fst (estep (hpos five) s (set_ "a" 1))) (get_ "a")) = Ret (RVal w true)).
  { apply H.
    - apply nocol_ok. vm_compute. reflexivity.
    - vm_compute. reflexivity.
    - vm_compute. reflexivity. }
  clear H. destruct A as (w & A). vm_compute in A. discriminate A.
Qed.
Print Assumptions C76_set_is_found_refuted.
(** the new key is found exactly if it does not lie below a deleted key that is the first of the bucket; its value is the one given, or
    what assigning the one given over the value of a deleted key makes of it *)
Theorem C76_found_unless_under_partial : forall h max os ops l x v k c, in_scope h max os ops l -> plain_set h max os ops l x v k c ->
  let bs := bounds h max os in let es := entries h max os ops l in let r := reverse64 k in
  let s := erun h (new_emb max) (os ++ ops) in let s' := fst (estep h s (OpSet (KStr x) v)) in
  let after := snd (estep h s' (OpGet (KStr x))) in
  (forall e, ~ displaced bs es r e) ->
  ((exists e, under bs es r e) -> after = Ret (RVal GNil false)) /\
  (~ (exists e, under bs es r e) ->
     exists w, after = Ret (RVal w true) /\ (w = v \/ exists e ok, In e es /\ dead e /\ assign KSample (bd_val (e_bd e)) v = Some (w, ok))).
Proof.
  intros h max os ops l x v k c HS (EK & NEW & ROOM & OK). destruct (scope_arel h max os ops l HS) as (xl & n & A & MX). cbv zeta.
  generalize dependent (erun h (new_emb max) (os ++ ops)). generalize dependent (entries h max os ops l). generalize (bounds h max os).
  intros bs es NEW ROOM s OK A MX. rewrite <- MX in ROOM.
  intros ND. pose proof (set_own h bs n s xl es x v k c A EK NEW ROOM OK ND) as SO. cbv zeta in SO. destruct SO as [S1 S2]. split; [exact S1|]. intros NU. destruct (S2 NU) as (w & E & D).
  exists w. split; [exact E|]. destruct D as [D|(e & ok & D1 & D2 & D3)]; [left; exact D|right]. exists e, ok. rewrite set_value_assign in D3. auto.
Qed.
Print Assumptions C76_found_unless_under_partial.

(** * Calm Sets, one after another *)
(** what every key reads after a history in scope *)
Theorem C76_reads_partial : forall h max os ops l key k c, in_scope h max os ops l -> key_to_hash h key = Some (k, c) ->
  let got := snd (estep h (erun h (new_emb max) (os ++ ops)) (OpGet key)) in stops got = false ->
  got = Ret (match visible (bounds h max os) (entries h max os ops l) (k, c) with Some b => RVal (bd_val b) true | None => RVal GNil false end).
Proof.
  intros h max os ops l key k c HS EK. destruct (scope_arel h max os ops l HS) as (xl & n & [R _ _] & _). cbv zeta. clear HS. generalize dependent (erun h (new_emb max) (os ++ ops)).
  intros s R. cbn [estep]. unfold ewith. rewrite EK. unfold eget.
  destruct (eload_view _ n s s xl _ k c R (proj1 (key_range _ _ _ _ EK))) as [E|[(m & j & p & E & _ & HI & V)|(E & V)]]; rewrite E; cbn [snd].
  - discriminate.
  - intros _. rewrite V, HI. auto.
  - intros _. rewrite V. auto.
Qed.
Print Assumptions C76_reads_partial.
(** a calm Set of a key that cannot be read: it succeeds, every other key reads as before, the key itself reads as [given] says, and the
    history is in scope again *)
Definition calm_new h max os ops l x v k c w : Prop :=
  let bs := bounds h max os in let es := entries h max os ops l in
  key_to_hash h (KStr x) = Some (k, c) /\ present bs es (k, c) = false /\ calm bs es (reverse64 k) /\
  Z.of_nat (List.length (bucket_of bs es (reverse64 k))) < max /\ given bs es (reverse64 k) v = Some w /\
  stops (snd (estep h (erun h (new_emb max) (os ++ ops)) (OpSet (KStr x) v))) = false.
Lemma calm_calls_app h bs max : forall ops n l o, calm_calls h bs max n l ops -> calm_call h bs max (calm_run h bs n l ops) o -> calm_calls h bs max n l (ops ++ [o]).
Proof. induction ops as [|a ops IH]; intros n l o H1 H2; cbn [calm_calls calm_run app] in *; [auto|]. destruct H1 as [H0 H1]. split; auto. Qed.
Theorem C42_calm_set_partial : forall h max os ops l x v k c w, in_scope h max os ops l -> calm_new h max os ops l x v k c w ->
  let s := erun h (new_emb max) (os ++ ops) in let s' := fst (estep h s (OpSet (KStr x) v)) in
  snd (estep h s (OpSet (KStr x) v)) = Ret (RBool true) /\
  snd (estep h s' (OpGet (KStr x))) = Ret (RVal w true) /\
  (forall key' p', key_to_hash h key' = Some p' -> p' <> (k, c) -> snd (estep h s' (OpGet key')) = snd (estep h s (OpGet key'))) /\
  in_scope h max os (ops ++ [OpSet (KStr x) v]) l.
Proof.
  intros h max os ops l x v k c w HS HC. destruct (scope_arel h max os ops l HS) as (xl & n & A & MX). cbv zeta.
  assert (SC : in_scope h max os (ops ++ [OpSet (KStr x) v]) l).
  { destruct HS as (H1 & H2 & H3 & H4 & H5 & H6). destruct HC as (EK & PR & CA & RO & G & NS). repeat (split; [assumption|]). split.
    - apply calm_calls_app; auto. exists (k, c). split; auto. right. split; [exists x; auto|]. split; [exact CA|]. split; [exact RO|]. exists w. exact G.
    - rewrite app_assoc, eouts_app, existsb_app, H6. cbn [orb eouts]. destruct (estep h _ (OpSet (KStr x) v)) as [s1 r1]. cbn [snd] in NS. rewrite NS. cbn [existsb]. rewrite NS. auto. }
  destruct HC as (EK & PR & CA & RO & G & NS). clear HS. generalize dependent (erun h (new_emb max) (os ++ ops)). generalize dependent (entries h max os ops l). generalize dependent (bounds h max os).
  intros bs es PR CA RO G s NS A MX. rewrite <- MX in RO. destruct (calm_set h bs n s xl es x v k c A EK PR CA RO w G NS) as (S1 & S2 & _ & A'). pose proof A as [R _ SO]. pose proof A' as [R' _ SO'].
  set (s' := fst (estep h s (OpSet (KStr x) v))) in *. clearbody s'. pose proof (proj1 (key_range _ _ _ _ EK)) as Hk.
  split; [exact S1|]. split; [|split; [|exact SC]].
  - pose proof (entered_own bs es (k, c) (KStr x) v w SO CA G) as EO. cbn [estep]. unfold ewith. rewrite EK. unfold eget.
    destruct (eload_view _ _ s' s' xl _ k c R' Hk) as [E|[(m & j & p & E & _ & HI & V)|(E & V)]]; rewrite E; cbn [snd].
    + exfalso. apply S2 in E. cbn [estep] in NS. unfold eset in NS. rewrite EK, E in NS. discriminate.
    + rewrite HI. assert (X : Some (mkBd KSample (sl_key (slot_at p j)) (sl_val (slot_at p j))) = Some (mkBd KSample (KStr x) w)) by (rewrite <- V; exact EO). injection X as _ ->. auto.
    + rewrite EO in V. discriminate.
  - intros key' [k' c'] EK' NE. pose proof (proj1 (key_range _ _ _ _ EK')) as Hk'. pose proof (entered_other bs es (k, c) (KStr x) v w SO CA G (k', c') NE) as EO.
    cbn [estep]. unfold ewith. rewrite EK'. unfold eget.
    destruct (eload_view _ _ s s xl _ k' c' R Hk') as [E|[(m & j & p & E & _ & HI & V)|(E & V)]].
    + rewrite E, (proj2 (S2 k' c') E). auto.
    + rewrite E. cbn [snd]. destruct (eload_view _ _ s' s' xl _ k' c' R' Hk') as [E'|[(m' & j' & p' & E' & _ & HI' & V')|(E' & V')]]; rewrite E'; cbn [snd].
      * apply S2 in E'. congruence.
      * assert (X : Some (mkBd KSample (sl_key (slot_at p' j')) (sl_val (slot_at p' j'))) = Some (mkBd KSample (sl_key (slot_at p j)) (sl_val (slot_at p j)))) by congruence.
        rewrite HI, HI'. injection X as _ ->. auto.
      * congruence.
    + rewrite E. cbn [snd]. destruct (eload_view _ _ s' s' xl _ k' c' R' Hk') as [E'|[(m' & j' & p' & E' & _ & HI' & V')|(E' & V')]]; rewrite E'; cbn [snd]; auto.
      * apply S2 in E'. congruence.
      * congruence.
Qed.
Print Assumptions C42_calm_set_partial.
(** lying below a key of the same bucket that can be read is not enough: once a Set took the place of a deleted key, a second one can hide
    a third key *)
Definition below_keeps : Prop := forall h max os x v key' u p pu p', 16 <= max -> no_collision h (os ++ [OpSet (KStr x) v]) ->
  existsb stops (eouts h (new_emb max) os) = false ->
  key_to_hash h (KStr x) = Some p -> key_to_hash h u = Some pu -> key_to_hash h key' = Some p' -> p' <> p ->
  let s := erun h (new_emb max) os in let s' := fst (estep h s (OpSet (KStr x) v)) in
  together (edump s) (reverse64 (fst p)) (reverse64 (fst pu)) = true -> reverse64 (fst p) < reverse64 (fst pu) ->
  (exists w, snd (estep h s (OpGet u)) = Ret (RVal w true)) -> snd (estep h s (OpGet (KStr x))) = Ret (RVal GNil false) ->
  snd (estep h s (OpSet (KStr x) v)) = Ret (RBool true) -> snd (estep h s' (OpGet key')) = snd (estep h s (OpGet key')).
Definition six : list (string * Z) := [("a", 10); ("b", 20); ("c", 30); ("d", 40); ("x", 25); ("y", 27)]%string.
Definition six_ops : list op := [set_ "a" 1; set_ "b" 2; set_ "c" 3; set_ "d" 4; del_ "c"; set_ "x" 5; del_ "b"].
Theorem C42_below_readable_refuted : ~ below_keeps.
Proof.
  intros H. specialize (H (hpos six) 32 six_ops "y"%string (GV 1 6) (KStr "x") (KStr "d") (reverse64 27, 1) (reverse64 40, 1) (reverse64 25, 1) ltac:(lia)). cbv zeta in H.
  set (s := erun (hpos six) (new_emb 32) six_ops) in *.
  assert (A : snd (estep (hpos six) (fst (estep (hpos six) s (set_ "y" 6))) (get_ "x")) = snd (estep (hpos six) s (get_ "x"))).
  { apply H.
    - apply nocol_ok. vm_compute. reflexivity.
    - vm_compute. reflexivity.
    - vm_compute. reflexivity.
    - vm_compute. reflexivity.
    - vm_compute. reflexivity.
    - intros X. apply (f_equal (fun p => reverse64 (fst p))) in X. revert X. apply Z.eqb_neq. vm_compute. reflexivity.
    - vm_compute. reflexivity.
    - vm_compute. reflexivity.
    - exists (GV 1 4). vm_compute. reflexivity.
    - vm_compute. reflexivity.
    - vm_compute. reflexivity. }
  clear H. vm_compute in A. discriminate A.
Qed.
Print Assumptions C42_below_readable_refuted.

(** * Cases *)
(** a, b, c set, b deleted: d above c displaces c; x between b and c and y between a and b displace nothing *)
Definition eight : list (string * Z) := [("a", 10); ("y", 15); ("b", 20); ("x", 25); ("c", 30); ("d", 40); ("z", 5)]%string.
Lemma three_lists8 : lists (sm_run (hpos eight) (sm_empty KSample) three) three_l.
Proof.
  constructor.
  - apply sorted_nth. vm_compute. repeat constructor.
  - intros k c b Hk.
    assert (M : forall p, sm_map (sm_run (hpos eight) (sm_empty KSample) three) p =
      if pair_eqb (reverse64 30, 1) p then Some (mkBd KSample (KStr "c") (GV 1 3)) else if pair_eqb (reverse64 20, 1) p then Some (mkBd KSample (KStr "b") (GV 1 2)) else if pair_eqb (reverse64 10, 1) p then Some (mkBd KSample (KStr "a") (GV 1 1)) else None).
    { intros p. vm_compute. reflexivity. }
    rewrite M. clear M. unfold three_l, ent_. apply listed3; intros Q; revert Q; apply Z.eqb_neq; vm_compute; reflexivity.
  - intros e He. cbn [three_l In] in He. destruct He as [<-|[<-|[<-|[]]]]; (split; [reflexivity|]); vm_compute; split; discriminate || reflexivity.
Qed.
Lemma eight_scope ops : calm_calls (hpos eight) (edump (erun (hpos eight) (new_emb 32) three)) 32 3 three_l ops ->
  existsb stops (eouts (hpos eight) (new_emb 32) (three ++ ops)) = false -> in_scope (hpos eight) 32 three ops three_l.
Proof.
  intros HC NS. split; [lia|]. split; [apply sor_ok; reflexivity|]. split; [apply nocol_ok; vm_compute; reflexivity|]. split; [exact three_lists8|]. split; [exact HC|exact NS].
Qed.
Lemma eight_set ops x v k c :
  key_to_hash (hpos eight) (KStr x) = Some (k, c) ->
  forallb (fun e => negb (e_pos e =? reverse64 k)) (entries (hpos eight) 32 three ops three_l) = true ->
  (Z.of_nat (List.length (bucket_of (bounds (hpos eight) 32 three) (entries (hpos eight) 32 three ops three_l) (reverse64 k))) <? 32) = true ->
  snd (estep (hpos eight) (erun (hpos eight) (new_emb 32) (three ++ ops)) (OpSet (KStr x) v)) = Ret (RBool true) ->
  plain_set (hpos eight) 32 three ops three_l x v k c.
Proof.
  intros E1 E2 E3 E4. split; [exact E1|]. split; [|split; [apply Z.ltb_lt; exact E3|exact E4]].
  intros e He. rewrite forallb_forall in E2. specialize (E2 e He). apply negb_true_iff, Z.eqb_neq in E2. exact E2.
Qed.
Example C42_displaced_case : let ops := [del_ "b"; get_ "b"] in
  in_scope (hpos eight) 32 three ops three_l /\ plain_set (hpos eight) 32 three ops three_l "d" (GV 1 4) (reverse64 40) 1 /\
  displaced (bounds (hpos eight) 32 three) (entries (hpos eight) 32 three ops three_l) 40 (ent_ "c" 30 3).
Proof.
  cbv zeta. split; [|split].
  - apply eight_scope; [repeat split|vm_compute; reflexivity].
  - apply eight_set; vm_compute; reflexivity.
  - exists [ent_ "a" 10 1], (kill (ent_ "b" 20 2)), []. split; [vm_compute; reflexivity|]. split; [discriminate|]. repeat split. constructor.
Qed.
(** whether an entry is displaced, decided *)
Fixpoint displacing (r : Z) (fst_ : bool) (l : list ent) : bool :=
  match l with
  | d :: (e' :: b) as t => (negb fst_ && e_dead d && negb (e_dead e') && forallb e_dead b && (e_pos e' <? r)) || displacing r false t
  | _ => false
  end.
Lemma displacing_ok r : forall a l fst_ d e' b, l = a ++ d :: e' :: b -> (fst_ = true -> a <> []) -> dead d -> alive e' -> Forall dead b -> e_pos e' < r -> displacing r fst_ l = true.
Proof.
  induction a as [|x a IH]; intros l f d e' b -> HF D1 D2 D3 D4.
  - cbn [app displacing]. apply orb_true_iff. left. rewrite D1, D2. destruct f; [exfalso; apply HF; auto|]. cbn [negb andb]. apply andb_true_iff. split; [|apply Z.ltb_lt; exact D4].
    apply forallb_forall. intros e He. rewrite Forall_forall in D3. apply D3. exact He.
  - assert (X : displacing r false (a ++ d :: e' :: b) = true) by (apply (IH _ false d e' b); auto; discriminate).
    cbn [app displacing]. destruct (a ++ d :: e' :: b) as [|? ?]; [discriminate|]. rewrite X. apply orb_true_r.
Qed.
Lemma none_displaced bs es r : displacing r true (bucket_of bs es r) = false -> forall e, ~ displaced bs es r e.
Proof. intros H e (a & d & b & E & NA & D1 & D2 & D3 & D4). rewrite (displacing_ok r a _ true d e b E) in H; auto. discriminate. Qed.
Lemma none_under bs es r : match bucket_of bs es r with e :: _ => e_dead e && (r <? e_pos e) | [] => false end = false -> forall e, ~ under bs es r e.
Proof. intros H e (b & E & D & L). rewrite E in H. unfold dead in D. rewrite D in H. cbn [andb] in H. apply Z.ltb_ge in H. lia. Qed.
Example C42_kept_case : let ops := [del_ "b"; get_ "b"; set_ "c" 9] in let es := entries (hpos eight) 32 three ops three_l in
  in_scope (hpos eight) 32 three ops three_l /\ plain_set (hpos eight) 32 three ops three_l "x" (GV 1 4) (reverse64 25) 1 /\ plain_set (hpos eight) 32 three ops three_l "y" (GV 1 4) (reverse64 15) 1 /\
  (forall r e, In r [15; 25] -> ~ displaced (bounds (hpos eight) 32 three) es r e /\ ~ under (bounds (hpos eight) 32 three) es r e).
Proof.
  cbv zeta. split; [|split; [|split]].
  - apply eight_scope; [|vm_compute; reflexivity]. split; [exact I|]. split; [exact I|]. split; [|exact I]. exists (reverse64 30, 1). split; [vm_compute; reflexivity|left; vm_compute; reflexivity].
  - apply eight_set; vm_compute; reflexivity.
  - apply eight_set; vm_compute; reflexivity.
  - intros r e [<-|[<-|[]]]; (split; [apply none_displaced|apply none_under]); vm_compute; reflexivity.
Qed.
(** a, the first, deleted: z below it is lost; y above it is found *)
Example C76_cases : let ops := [del_ "a"] in let es := entries (hpos eight) 32 three ops three_l in let bs := bounds (hpos eight) 32 three in
  in_scope (hpos eight) 32 three ops three_l /\ plain_set (hpos eight) 32 three ops three_l "z" (GV 1 4) (reverse64 5) 1 /\ plain_set (hpos eight) 32 three ops three_l "y" (GV 1 4) (reverse64 15) 1 /\
  (forall r e, In r [5; 15] -> ~ displaced bs es r e) /\ under bs es 5 (kill (ent_ "a" 10 1)) /\ (forall e, ~ under bs es 15 e).
Proof.
  cbv zeta. split; [|split; [|split; [|split; [|split]]]].
  - apply eight_scope; [repeat split|vm_compute; reflexivity].
  - apply eight_set; vm_compute; reflexivity.
  - apply eight_set; vm_compute; reflexivity.
  - intros r e [<-|[<-|[]]]; apply none_displaced; vm_compute; reflexivity.
  - exists [ent_ "b" 20 2; ent_ "c" 30 3]. split; [vm_compute; reflexivity|]. split; vm_compute; reflexivity.
  - apply none_under. vm_compute. reflexivity.
Qed.
(** new keys after Deletes: b deleted, x takes its place, b is set again, x is deleted and set again, z goes below a, and then y *)
Definition calm_ops : list op := [del_ "b"; set_ "x" 5; set_ "b" 6; del_ "x"; set_ "x" 7; get_ "x"; set_ "z" 8].
Lemma calm_b bs l r : match place bs l r with
    | Some _ => true
    | None => forallb (fun e => negb (e_pos e =? r)) l && match upper bs l r with [] => negb (displacing r true (bucket_of bs l r)) | e :: _ => negb (e_dead e) end
    end = true -> calm bs l r.
Proof.
  unfold calm. destruct (place bs l r); [auto|]. intros H. apply andb_true_iff in H as [H1 H2]. split.
  - intros e He. rewrite forallb_forall in H1. specialize (H1 e He). apply negb_true_iff, Z.eqb_neq in H1. exact H1.
  - destruct (upper bs l r); [apply none_displaced|]; apply negb_true_iff in H2; exact H2.
Qed.
Lemma calm_call_b h bs max l x v k c w : key_to_hash h (KStr x) = Some (k, c) -> match place bs l (reverse64 k) with
    | Some _ => true
    | None => forallb (fun e => negb (e_pos e =? reverse64 k)) l && match upper bs l (reverse64 k) with [] => negb (displacing (reverse64 k) true (bucket_of bs l (reverse64 k))) | e :: _ => negb (e_dead e) end
    end = true -> (Z.of_nat (List.length (bucket_of bs l (reverse64 k))) <? max) = true -> given bs l (reverse64 k) v = Some w ->
  calm_call h bs max l (OpSet (KStr x) v).
Proof.
  intros E1 E2 E3 E4. exists (k, c). split; [exact E1|]. right. split; [exists x; auto|]. split; [apply calm_b; exact E2|]. split; [apply Z.ltb_lt; exact E3|]. exists w. exact E4.
Qed.
Lemma calm_ops_scope : in_scope (hpos eight) 32 three calm_ops three_l.
Proof.
  apply eight_scope; [|vm_compute; reflexivity]. unfold calm_ops. cbn [calm_calls]. split; [exact I|].
  split; [apply (calm_call_b _ _ _ _ _ _ (reverse64 25) 1 (GV 1 5)); vm_compute; reflexivity|].
  split; [apply (calm_call_b _ _ _ _ _ _ (reverse64 20) 1 (GV 1 6)); vm_compute; reflexivity|]. split; [exact I|].
  split; [apply (calm_call_b _ _ _ _ _ _ (reverse64 25) 1 (GV 1 7)); vm_compute; reflexivity|]. split; [exact I|].
  split; [apply (calm_call_b _ _ _ _ _ _ (reverse64 5) 1 (GV 1 8)); vm_compute; reflexivity|]. exact I.
Qed.
Example C42_calm_case : in_scope (hpos eight) 32 three calm_ops three_l /\ calm_new (hpos eight) 32 three calm_ops three_l "y" (GV 1 9) (reverse64 15) 1 (GV 1 9) /\
  map e_pos (entries (hpos eight) 32 three calm_ops three_l) = [5; 10; 20; 25; 30].
Proof.
  split; [exact calm_ops_scope|]. split; [|vm_compute; reflexivity]. unfold calm_new. cbv zeta. split; [vm_compute; reflexivity|]. split; [vm_compute; reflexivity|].
  split; [apply calm_b; vm_compute; reflexivity|]. split; [apply Z.ltb_lt; vm_compute; reflexivity|]. split; vm_compute; reflexivity.
Qed.
