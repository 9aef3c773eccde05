(** Whole histories of the embedded mode. *)
From Verif Require Import Base BaseProofs Util UtilProofs Bucket TrieProofs TrieInv TrieGrow MapModel ItemProofs MapInv MapSplit
  MapInit Spec MapRefine EmbModel EmbPool EmbTrie EmbInv EmbSplit EmbSpec EmbRefine EmbDel.
From Coq Require Import ZifyBool Sorted.
Local Open Scope Z_scope.
Local Opaque reverse64 level_of base find_bucket.

Lemma eouts_app h : forall os1 s os2, eouts h s (os1 ++ os2) =
  eouts h s os1 ++ (if existsb stops (eouts h s os1) then [] else eouts h (erun h s os1) os2).
Proof.
  induction os1 as [|o os1 IH]; intros s os2; cbn [app eouts erun existsb]; auto.
  destruct (estep h s o) as [s' r]. destruct (stops r) eqn:E; cbn [existsb]; rewrite E; cbn [orb app]; auto.
  rewrite IH. auto.
Qed.
Lemma agree_app rs1 es1 rs2 es2 : agree rs1 es1 -> (existsb stops rs1 = true /\ rs2 = []) \/ agree rs2 es2 /\ existsb stops rs1 = false ->
  agree (rs1 ++ rs2) (es1 ++ es2).
Proof.
  revert es1. induction rs1 as [|r rs1 IH]; intros [|e es1] H1 H2; cbn [app agree existsb] in *; try contradiction.
  - destruct H2 as [[H2 _]|[H2 _]]; [discriminate|auto].
  - destruct H1 as [[-> ->]|[H1 H3]].
    + left. split; auto. destruct H2 as [[_ ->]|[_ H2]]; [auto|discriminate].
    + right. split; auto. apply IH; auto. destruct r; cbn in *; try discriminate; auto.
Qed.

(** * Histories that never stop *)
Lemma eload_returns s k c : einv s (x_bl s) -> eload s k c <> Div.
Proof.
  intros I. unfold eload. pose proof (reverse64_range k) as R. set (t := x_trie s).
  destruct (find_bucket_spec t (x_bl s) (reverse64 k) (ei_trie _ _ I) R) as (l & v & E & N & Hle & HB).
  destruct (base_anchor t (x_bl s) (find_bucket t (reverse64 k)) (ei_trie _ _ I)) as [A1 A2]; [rewrite E; apply N|].
  destruct (base_ok t (x_bl s) l v (ei_trie _ _ I) (proj1 N) (proj2 N)) as (l' & El & _ & NE).
  set (b := base t (find_bucket t (reverse64 k))) in *.
  assert (Nb : b <> bmax) by (unfold b; rewrite E, El; exact NE).
  destruct (ei_pred s _ I b A1 Nb) as (y & Hy). destruct (ei_pool _ _ I _ _ Hy) as (p & HP & _).
  unfold pool_of. fold b. fold t in HP. rewrite HP. destruct (emb_search p (reverse64 k)); [|discriminate].
  destruct (_ && _); discriminate.
Qed.

Record calm (h : hashes) (pre : list Z) (s : estate) (m : smap) : Prop := {
  cm_rel : erel s m; cm_inv : einv s (x_bl s); cm_bl : x_bl s = init_bl; cm_shape : same_shape init_trie (x_trie s);
  cm_pos : forall x, cont s x -> In (pr_rev x) pre }.


Lemma init_nibble y b r : adj init_bl y b -> brev init_trie b <= r < up init_trie y -> r / 2 ^ 60 = brev init_trie b / 2 ^ 60.
Proof.
  intros H R.
  assert (E : exists i, brev init_trie b = i * 2 ^ 60 /\ up init_trie y = (i + 1) * 2 ^ 60).
  { apply init_pairs in H. clear R. cbn in H. each H; injection H as <- <-;
    match goal with |- exists i, ?x = _ /\ _ => exists (x / 2 ^ 60) end; split; vm_compute; reflexivity. }
  destruct E as (i & E1 & E2). rewrite E1, E2 in *. rewrite Z.div_mul by lia.
  symmetry. apply Z.div_unique with (r := r - i * 2 ^ 60); lia.
Qed.

Lemma calm_room h all s m k y b p : calm h all s m -> adj (x_bl s) y b -> b_pool (bget (x_trie s) b) = Some p ->
  brev (x_trie s) b <= reverse64 k < up (x_trie s) y -> (forall x, cont s x -> pr_rev x <> reverse64 k) -> In (reverse64 k) all ->
  p_len p < Z.of_nat (List.length (nodup Z.eq_dec (filter (fun r => r / 2 ^ 60 =? reverse64 k / 2 ^ 60) all))).
Proof.
  intros C Hy HP R NC HA. pose proof (cm_inv _ _ _ _ C) as I.
  destruct (ei_pool _ _ I _ _ Hy) as (q & Eq & K). rewrite HP in Eq. injection Eq as <-.
  set (L := reverse64 k :: map sl_rev (live p)).
  assert (ND : NoDup L).
  { constructor.
    - intros Hin. apply in_map_iff in Hin as (sl & E & Hs). apply (NC (pr sl)); [|exact E]. exists y, b, p.
      split; auto. split; auto. apply in_map; auto.
    - pose proof (po_sorted _ _ _ K) as SO. clear -SO. induction SO as [|x l S IH F]; constructor; auto.
      intros H. rewrite Forall_forall in F. specialize (F x H). lia. }
  assert (HB : forall n, brev (x_trie s) n = brev init_trie n) by (intros; symmetry; apply same_shape_brev, (cm_shape _ _ _ _ C)).
  assert (HU : forall n, up (x_trie s) n = up init_trie n) by (intros; unfold up; rewrite HB; auto).
  pose proof Hy as Hy'. rewrite (cm_bl _ _ _ _ C) in Hy'. rewrite HB, HU in R.
  assert (IN : incl L (nodup Z.eq_dec (filter (fun r => r / 2 ^ 60 =? reverse64 k / 2 ^ 60) all))).
  { intros r Hr. apply nodup_In, filter_In. destruct Hr as [<-|Hr]; [split; auto; apply Z.eqb_refl|].
    apply in_map_iff in Hr as (sl & <- & Hs). split.
    - change (sl_rev sl) with (pr_rev (pr sl)). apply (cm_pos _ _ _ _ C). exists y, b, p. split; auto. split; auto. apply in_map; auto.
    - apply Z.eqb_eq. pose proof (po_rng _ _ _ K sl Hs) as Rs. rewrite HB, HU in Rs.
      rewrite (init_nibble _ _ _ Hy' R), (init_nibble _ _ _ Hy' Rs). auto. }
  pose proof (NoDup_incl_length ND IN) as LE. unfold L in LE. cbn [List.length] in LE.
  rewrite map_length, (live_length _ _ _ K) in LE. unfold p_n in LE. pose proof (po_len _ _ _ K). lia.
Qed.

Lemma calm_step h all max s m o : calm h all s m -> x_max s = max -> store_or_read o ->
  (forall k c c', writes h o = Some (k, c) -> c' <> c -> sm_map m (k, c') = None) ->
  (forall k c, writes h o = Some (k, c) -> In (reverse64 k) all) ->
  (forall i, Z.of_nat (List.length (nodup Z.eq_dec (filter (fun r => r / 2 ^ 60 =? i) all))) <= max) ->
  seen (snd (estep h s o)) = Some (snd (sm_step h m o)) /\
  calm h all (fst (estep h s o)) (fst (sm_step h m o)) /\ x_max (fst (estep h s o)) = max.
Proof.
  intros C EX HO HC HA HM. pose proof (cm_rel _ _ _ _ C) as H. pose proof (cm_inv _ _ _ _ C) as I.
  pose proof (estep_agrees h s m o H HO HC) as AG.
  assert (NDV : forall k c, eload s k c <> Div) by (intros; apply eload_returns; auto).
  assert (RDO : forall (f : Z -> Z -> estate * res out), (forall k c, snd (f k c) <> Div /\ fst (f k c) = s) ->
     forall key, snd (ewith h s key f) <> Div /\ fst (ewith h s key f) = s).
  { intros f Hf key. unfold ewith. destruct (key_to_hash h key) as [[k c]|]; auto. split; [discriminate|auto]. }
  assert (G1 : forall k c, snd (eget s k c) <> Div /\ fst (eget s k c) = s).
  { intros k c. unfold eget. destruct (eload s k c) as [[[n i]|]| | |] eqn:E; cbn [fst snd]; split; auto; try discriminate.
    exfalso. apply (NDV k c E). }
  assert (G2 : forall k c, snd (eget_item s k c) <> Div /\ fst (eget_item s k c) = s).
  { intros k c. unfold eget_item. destruct (eload s k c) as [[[n i]|]| | |] eqn:E; cbn [fst snd]; split; auto; try discriminate.
    exfalso. apply (NDV k c E). }
  assert (KEEP : snd (estep h s o) <> Div /\ fst (estep h s o) = s -> (fst (sm_step h m o)) = m ->
    seen (snd (estep h s o)) = Some (snd (sm_step h m o)) /\
    calm h all (fst (estep h s o)) (fst (sm_step h m o)) /\ x_max (fst (estep h s o)) = max).
  { intros [ND1 ES] EM. destruct AG as [[E _]|[E _]]; [contradiction|]. split; auto. rewrite ES, EM. auto. }
  destruct o as [key v|i|key|k c|key|k c|key|key|]; try contradiction;
  try (apply KEEP; [cbn [estep]; auto; fail|reflexivity]); [|apply KEEP; [split; [discriminate|reflexivity]|reflexivity]].
  destruct HO as (x & ->). cbn [estep writes] in *.
  destruct (key_to_hash h (KStr x)) as [[k c]|] eqn:EK; [|discriminate].
  destruct (key_range _ _ _ _ EK) as [Hk _].
  destruct (eload_rel s m k c H Hk) as [E|[(n & j & p & E & HT & HI & EM)|(E & EM)]]; [exfalso; apply (NDV k c E)| |].
  - assert (ES : eset h s (KStr x) v = eupdate s n j v) by (unfold eset; rewrite EK, E; auto).
    rewrite ES in *. unfold eupdate in *. rewrite HI in *.
    destruct (set_value KSample (sl_val (slot_at p j)) v) as [[v' ok]|].
    + cbn [fst snd] in *. destruct AG as [[AG _]|[AG1 AG2]]; [discriminate|]. split; auto.
      destruct (upd_item_spec s _ k c n j p (set_sval v') I HT ltac:(reflexivity)) as (I' & M' & L' & B' & _ & _ & _ & C' & N').
      split; [|rewrite M'; auto]. constructor; auto.
      * rewrite B'. auto.
      * rewrite B'. apply (cm_bl _ _ _ _ C).
      * intros z. rewrite (cm_shape _ _ _ _ C z). unfold upd_item. destruct (b_pool (bget (x_trie s) n)); auto.
        unfold set_bpool, set_xtrie. cbn [x_trie]. apply same_shape_tupd. intros; reflexivity.
      * intros z Hz. apply C' in Hz as [->|[Hz _]]; [|apply (cm_pos _ _ _ _ C); auto].
        destruct (hit_at _ _ _ _ _ _ HT) as [HX _]. apply (cm_pos _ _ _ _ C) in HX. cbn [pr_rev fst] in HX.
        destruct HT as (_ & _ & _ & _ & _ & Hr & _). cbn [pr_rev pr fst set_sval sl_rev]. rewrite Hr. auto.
    + cbn [fst snd] in *. destruct AG as [[AG _]|[AG1 AG2]]; [discriminate|]. split; auto. split; auto.
      constructor; auto; apply C.
  - assert (NC : forall c', sm_map m (k, c') = None).
    { intros c'. destruct (Z.eq_dec c' c) as [->|N]; auto. apply (HC k c); auto. }
    assert (FR : forall z, cont s z -> pr_rev z <> reverse64 k).
    { intros [[[[r cf] d] ky] vl] HZ Er. cbn [pr_rev fst] in Er. subst r.
      assert (D0 : d = false).
      { destruct HZ as (y & b & p & Hy & HP & Hin). apply in_map_iff in Hin as (sl & Es & Hs).
        pose proof (er_nd _ _ H y b p Hy HP sl Hs) as D. unfold pr in Es. congruence. }
      subst d. assert (EX' : sm_map m (k, cf) = Some (mkBd KSample ky vl)) by (apply (er_at _ _ H); eauto).
      rewrite NC in EX'. discriminate. }
    destruct (eset_new h s _ x v k c I (er_nd _ _ H) (er_max _ _ H) EK E FR) as (s' & xl' & ES & I' & N' & M' & L' & C' & Q').
    rewrite ES in *. cbn [fst snd] in *. destruct AG as [[AG _]|[AG1 AG2]]; [discriminate|]. split; auto.
    destruct Q' as (Q1 & Q2 & Q3).
    { intros y b p Hy HP R. eapply Z.lt_le_trans; [eapply calm_room; eauto|]. rewrite EX. apply HM. }
    split; [|congruence]. subst xl'. constructor; auto.
    + rewrite Q1. auto.
    + rewrite Q1. apply (cm_bl _ _ _ _ C).
    + eapply same_shape_trans; [apply (cm_shape _ _ _ _ C)|auto].
    + intros z Hz. apply C' in Hz as [->|Hz]; [|apply (cm_pos _ _ _ _ C); auto]. cbn [pr_rev fst]. eauto.
Qed.

Lemma calm_run h all max : (forall i, Z.of_nat (List.length (nodup Z.eq_dec (filter (fun r => r / 2 ^ 60 =? i) all))) <= max) ->
  forall os s m, calm h all s m -> x_max s = max -> Forall store_or_read os -> incl (positions h os) all ->
  (forall o k c c', In o os -> writes h o = Some (k, c) -> c' <> c -> sm_map m (k, c') = None) ->
  no_collision h os ->
  map seen (eouts h s os) = map Some (sm_outs h m os).
Proof.
  intros HM. induction os as [|o os IH]; intros s m C EX HF HI HC HN; cbn [eouts sm_outs map]; auto.
  apply Forall_cons_iff in HF as [HO HF].
  destruct (calm_step h all max s m o C EX HO (fun k c c' => HC o k c c' (or_introl eq_refl))) as (E & C' & EX'); auto.
  { intros k c HW. apply HI. cbn [positions flat_map]. rewrite HW. left; auto. }
  destruct (estep h s o) as [s' r]. cbn [fst snd] in *.
  assert (ST : stops r = false) by (destruct r; cbn in *; congruence). rewrite ST. cbn [map]. f_equal; auto.
  apply IH; auto.
  - intros z Hz. apply HI. cbn [positions flat_map]. apply in_or_app. right; auto.
  - intros o' k c c' Hin HW Nc. destruct (sm_map (fst (sm_step h m o)) (k, c')) eqn:EM; auto. exfalso.
    destruct (sm_step_writes h m o k c') as [N|W]; [congruence| |].
    + apply N. apply (HC o' k c c'); auto. right; auto.
    + apply Nc. apply (HN o o' k c' c); auto; [left|right]; auto.
  - intros o1 o2 k c c' H1 H2. apply HN; right; auto.
Qed.
Lemma new_emb_calm h all max : 16 <= max -> calm h all (new_emb max) (sm_empty KSample).
Proof.
  intros HM. destruct (new_emb_inv max ltac:(lia)) as (I & N & C). constructor; auto.
  - apply new_emb_rel; auto.
  - apply emb_trie_shape.
  - intros x Hx. exfalso. apply (C x Hx).
Qed.
