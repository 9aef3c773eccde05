(** C62: Range in the embedded mode. *)
From Verif Require Import Base BaseProofs Util UtilProofs Bucket TrieProofs TrieInv TrieGrow MapModel ItemProofs MapInv MapSplit
  MapRefine MapMore Spec SpecUtil EmbModel EmbPool EmbTrie EmbInv EmbSplit EmbSpec EmbRefine EmbDel EmbTop EmbList EmbListInv PropEmb.
From Coq Require Import ZifyBool Sorted String.
Local Open Scope Z_scope.
Local Opaque reverse64 level_of base find_bucket.

(** * The slots in the order of the list *)
Definition shown (sl : slot) : bool := negb (sl_del sl).
Definition of_slot (sl : slot) : (Z * Z) * binding := ((reverse64 (sl_rev sl), sl_conf sl), mkBd KSample (sl_key sl) (sl_val sl)).

Lemma frange_app {A} t (f : A -> option gkey -> gval -> A * bool) : forall l a l' sls,
  (forall a, frange_loop t f a l' = visit (fun a x => f a (Some (bd_key (snd x))) (bd_val (snd x))) a (map of_slot (filter shown sls))) ->
  forall n p i m, b_pool (bget t n) = Some p -> l = slots n i m -> (i + m <= List.length (p_slots p))%nat ->
  frange_loop t f a (l ++ l') = visit (fun a x => f a (Some (bd_key (snd x))) (bd_val (snd x))) a
    (map of_slot (filter shown (firstn m (skipn i (p_slots p)) ++ sls))).
Proof.
  intros l a l' sls H n p i m HP ->. revert a i. induction m as [|m IH]; intros a i Hl; [apply H|].
  cbn [slots seq map app frange_loop]. fold (slots n (S i) m). unfold slot_in. rewrite HP.
  assert (E : skipn i (p_slots p) = slot_at p i :: skipn (S i) (p_slots p)).
  { unfold slot_at. clear -Hl. assert (Hi : (i < List.length (p_slots p))%nat) by lia. clear Hl. revert i Hi.
    induction (p_slots p) as [|x q IHq]; intros i Hi; [cbn in Hi; lia|]. destruct i as [|i]; auto. cbn [skipn nth].
    apply IHq. cbn in Hi. lia. }
  rewrite E. cbn [firstn app filter]. unfold shown at 1.
  destruct (sl_del (slot_at p i)); cbn [negb]; [apply IH; lia|].
  cbn [map visit]. change (snd (of_slot (slot_at p i))) with (mkBd KSample (sl_key (slot_at p i)) (sl_val (slot_at p i))).
  cbn [bd_key bd_val]. destruct (f a (Some (sl_key (slot_at p i))) (sl_val (slot_at p i))) as [a' go]. cbn [fst snd].
  destruct go; auto. apply IH; lia.
Qed.
Lemma frange_flat {A} s xl (f : A -> option gkey -> gval -> A * bool) a : einv s xl ->
  frange (s, flat_of s) f a = visit (fun a x => f a (Some (bd_key (snd x))) (bd_val (snd x))) a
    (map of_slot (filter shown (slist (x_trie s) (x_bl s)))).
Proof.
  intros I. unfold frange, flat_of. cbn [fst snd]. set (t := x_trie s).
  assert (G : forall B A0, x_bl s = A0 ++ B -> forall l' sls,
    (forall a, frange_loop t f a l' = visit (fun a x => f a (Some (bd_key (snd x))) (bd_val (snd x))) a (map of_slot (filter shown sls))) ->
    forall a, frange_loop t f a (flat t B ++ l') = visit (fun a x => f a (Some (bd_key (snd x))) (bd_val (snd x))) a
      (map of_slot (filter shown (slist t B ++ sls)))).
  { induction B as [|b B IH]; intros A0 EB l' sls H a0; [apply H|].
    rewrite flat_cons, slist_cons, <- !app_assoc. apply (IH (A0 ++ [b])); [rewrite <- app_assoc; auto|].
    intros a1. unfold seg. cbn [app frange_loop]. unfold of_bucket, plen.
    destruct (nid_eqb b bmax) eqn:Eb; [apply H|].
    assert (Nb : b <> bmax) by (intros ->; rewrite nid_eqb_refl in Eb; discriminate).
    destruct (ei_pred s xl I b) as (y & Hy); auto; [rewrite EB; apply in_or_app; right; left; auto|].
    destruct (ei_pool _ _ I y b Hy) as (p & HP & K). fold t in HP. rewrite HP.
    rewrite (frange_app t f (slots b 0 (p_n p)) a1 l' sls H b p 0%nat (p_n p) HP eq_refl).
    - reflexivity.
    - pose proof (po_n _ _ _ K). lia. }
  rewrite <- (app_nil_r (flat t (x_bl s))), (G (x_bl s) [] eq_refl [] []); [|reflexivity]. rewrite app_nil_r. auto.
Qed.

Lemma slist_sorted s xl : einv s xl -> forall B y A, x_bl s = A ++ y :: B ->
  StronglySorted Z.lt (map sl_rev (slist (x_trie s) B)) /\ forall sl, In sl (slist (x_trie s) B) -> sl_rev sl < up (x_trie s) y.
Proof.
  intros I. induction B as [|b B IH]; intros y A EB; [split; [constructor|intros sl []]|].
  assert (Hy : adj (x_bl s) y b) by (exists A, B; auto).
  destruct (IH b (A ++ [y])) as [IH1 IH2]; [rewrite <- app_assoc; auto|].
  destruct (ei_pool _ _ I y b Hy) as (p & HP & K).
  pose proof (ei_adj_ne s xl I _ _ Hy) as Nb. apply nid_eqb_neq in Nb.
  unfold up in IH2. rewrite Nb in IH2. rewrite slist_cons. unfold of_bucket. rewrite Nb, HP. split.
  - rewrite map_app. apply sorted_app. split; auto. split; [apply (po_sorted _ _ _ K)|].
    intros u w Hu Hw. apply in_map_iff in Hu as (x & <- & Hx). apply in_map_iff in Hw as (z & <- & Hz).
    specialize (IH2 x Hx). pose proof (po_rng _ _ _ K z Hz). lia.
  - pose proof (ei_adj_lt s xl I _ _ Hy) as LT.
    assert (brev (x_trie s) b <= up (x_trie s) y).
    { unfold up. destruct (nid_eqb y bmax) eqn:E; [|lia]. apply nid_eqb_eq in E. subst y.
      destruct (tk_bmax _ _ (ei_trie _ _ I)) as (_ & EM & _). rewrite EM in LT. change W64 with (MAX64 + 1). lia. }
    intros sl Hs. apply in_app_or in Hs as [Hs|Hs]; [specialize (IH2 sl Hs); lia|]. apply (po_rng _ _ _ K sl Hs).
Qed.
Lemma slist_in s xl sl : einv s xl -> In sl (slist (x_trie s) (x_bl s)) <->
  exists y b p, adj (x_bl s) y b /\ b_pool (bget (x_trie s) b) = Some p /\ In sl (EmbPool.live p).
Proof.
  intros I. unfold slist. rewrite in_flat_map. split.
  - intros (b & Hb & Hs). rewrite <- in_rev in Hb. unfold of_bucket in Hs. destruct (nid_eqb b bmax) eqn:E; [destruct Hs|].
    assert (Nb : b <> bmax) by (intros ->; rewrite nid_eqb_refl in E; discriminate).
    destruct (ei_pred s xl I b Hb Nb) as (y & Hy). destruct (ei_pool _ _ I y b Hy) as (p & HP & K). rewrite HP in Hs. eauto 6.
  - intros (y & b & p & Hy & HP & Hs). exists b. rewrite <- in_rev. split; [apply (adj_in _ _ _ Hy)|].
    unfold of_bucket. pose proof (ei_adj_ne s xl I _ _ Hy) as Nb. apply nid_eqb_neq in Nb. rewrite Nb, HP. auto.
Qed.

(** What Range visits, in any state of the invariant. *)
Lemma frange_cont s xl : einv s xl -> exists P : list ((Z * Z) * binding),
  StronglySorted (fun a b => reverse64 (fst (fst a)) < reverse64 (fst (fst b))) P /\
  (forall k c b, In ((k, c), b) P <-> 0 <= k < W64 /\ exists key v, b = mkBd KSample key v /\ cont s (reverse64 k, c, false, key, v)) /\
  forall A (f : A -> option gkey -> gval -> A * bool) a,
    frange (s, flat_of s) f a = visit (fun a x => f a (Some (bd_key (snd x))) (bd_val (snd x))) a P.
Proof.
  intros I. exists (map of_slot (filter shown (slist (x_trie s) (x_bl s)))).
  assert (CR : forall sl, In sl (slist (x_trie s) (x_bl s)) -> cont s (pr sl)).
  { intros sl Hs. apply (slist_in s xl sl I) in Hs as (y & b & p & Hy & HP & Hs). exists y, b, p. split; auto. split; auto. apply in_map; auto. }
  split; [|split].
  - destruct (ei_bl_head s xl I) as (B & EB). destruct (slist_sorted s xl I B bmax [] EB) as [S _].
    assert (S2 : StronglySorted Z.lt (map sl_rev (slist (x_trie s) (x_bl s)))).
    { rewrite EB, slist_cons. unfold of_bucket at 1. rewrite nid_eqb_refl, app_nil_r. exact S. }
    clear S. induction (slist (x_trie s) (x_bl s)) as [|sl L IH]; cbn [filter map]; [constructor|].
    cbn [map] in S2. apply StronglySorted_inv in S2 as [S3 F]. specialize (IH (fun x Hx => CR x (or_intror Hx)) S3).
    destruct (shown sl); auto. cbn [map]. constructor; auto. apply Forall_forall. intros x Hx.
    apply in_map_iff in Hx as (z & <- & Hz). apply filter_In in Hz as [Hz _]. cbn [of_slot fst].
    rewrite !reverse64_involutive.
    + rewrite Forall_forall in F. apply F. apply in_map; auto.
    + apply (cont_rev s xl I _ (CR z (or_intror Hz))).
    + apply (cont_rev s xl I _ (CR sl (or_introl eq_refl))).
  - intros k c b. rewrite in_map_iff. split.
    + intros (sl & E & Hs). apply filter_In in Hs as [Hs Hd]. unfold of_slot in E. injection E as Ek Ec Eb.
      pose proof (cont_rev s xl I _ (CR sl Hs)) as R. change (pr_rev (pr sl)) with (sl_rev sl) in R.
      split; [subst k; apply reverse64_range|]. exists (sl_key sl), (sl_val sl). split; auto.
      subst k. rewrite reverse64_involutive by auto. specialize (CR sl Hs). unfold pr in CR. rewrite Ec in CR.
      unfold shown in Hd. destruct (sl_del sl); [discriminate|]. exact CR.
    + intros (Hk & key & v & -> & y & b' & p & Hy & HP & Hin). apply in_map_iff in Hin as (sl & E & Hs).
      unfold pr in E. injection E as E1 E2 E3 E4 E5. exists sl. split.
      * unfold of_slot. rewrite E1, E2, E4, E5, reverse64_involutive by auto. auto.
      * apply filter_In. split; [apply (slist_in s xl sl I); eauto 6|]. unfold shown. rewrite E3. auto.
  - intros A f a. apply (frange_flat s xl f a I).
Qed.

(** * Deletes: what is marked *)
Definition marked (s : estate) (D : Z * Z -> Prop) : Prop :=
  forall k c n j sl, 0 <= k < W64 -> occ s k c n j sl -> vis j sl -> (sl_del sl = true <-> D (k, c)).
Lemma occ_pair s k c k' c' n j sl : 0 <= k < W64 -> 0 <= k' < W64 -> occ s k c n j sl -> occ s k' c' n j sl -> (k', c') = (k, c).
Proof.
  intros Hk Hk' (y1 & p1 & A1 & A2 & A3 & A4 & A5 & A6) (y2 & p2 & B1 & B2 & B3 & B4 & B5 & B6).
  rewrite B5 in A5. apply reverse64_inj in A5; auto. congruence.
Qed.
Definition deletes (h : hashes) (o : op) (p : Z * Z) : Prop := exists key, o = OpDelete key /\ key_to_hash h key = Some p.
Lemma fstep_marked h st s m o D : srel st s m -> creates_nothing h m o -> marked s D -> stops (snd (estep h s o)) = false ->
  link_step h s o (flat_of s) = Some (flat_of (fst (estep h s o))) /\
  marked (fst (estep h s o)) (fun p => D p \/ deletes h o p).
Proof.
  intros H HO HD HS. destruct (sr_inv _ _ _ H) as (xl & I).
  assert (SK : forall D', (forall p, ~ deletes h o p) -> marked s D' -> marked s (fun p => D' p \/ deletes h o p)).
  { intros D' N M k c n j sl Hk O V. rewrite (M k c n j sl Hk O V). split; [left; auto|intros [|X]; auto; destruct (N _ X)]. }
  assert (RD0 : forall o, read_only o -> fst (estep h s o) = s).
  { intros o' Ho. destruct o' as [| |key|k c|key|k c|key|key|]; try contradiction; cbn [estep]; unfold ewith, eget, eget_item;
      try destruct (key_to_hash h key) as [[k c]|]; auto; destruct (eload s _ _) as [[[]|]| | |]; auto. }
  assert (UP : forall k c n j v, 0 <= k < W64 -> eload s k c = Ret (Some (n, j)) -> (forall p, ~ deletes h o p) ->
    flat_of (fst (eupdate s n j v)) = flat_of s /\ marked (fst (eupdate s n j v)) (fun p => D p \/ deletes h o p)).
  { intros k c n j v Hk E N.
    destruct (eload_srel st s m k c H Hk) as [E'|[(n' & j' & p & E' & HT & HI & EM')|(E' & _)]]; rewrite E in E'; try discriminate.
    injection E' as -> ->. unfold eupdate. destruct (set_value _ _ _) as [[v' ok]|]; cbn [fst]; [|auto].
    split; [apply upd_item_flat|]. apply SK in HD; auto.
    intros k1 c1 n1 j1 sl Hk1 O1 V1.
    apply (occ_upd s xl k c n' j' p (set_sval v') I HT ltac:(reflexivity) ltac:(reflexivity)) in O1 as [(E1 & -> & O1)|(_ & O1)].
    - injection E1 as -> ->. apply (HD k1 c1 n' j' (slot_at p j')); auto.
    - apply (HD k1 c1 n1 j1 sl); auto. }
  destruct o as [key v|i|key|k c|key|k c|key|key|]; try contradiction; cbn [link_step];
    try (rewrite RD0 by exact Logic.I; split; auto; apply SK; auto; intros p (key' & E & _); discriminate).
  - cbn [estep creates_nothing] in *. destruct HO as ((k & c) & EK & EM). pose proof (proj1 (key_range _ _ _ _ EK)) as Hk.
    unfold eset, link_set in *. rewrite EK in *.
    destruct (eload_srel st s m k c H Hk) as [E|[(n & j & p & E & HT & HI & EM')|(_ & EM')]]; [rewrite E in *; discriminate| |congruence].
    rewrite E in *. destruct (UP k c n j v Hk E) as [U1 U2]; [intros q (key' & X & _); discriminate|].
    rewrite U1. auto.
  - cbn [estep creates_nothing] in *. destruct HO as ((k & c) & EK & EM). pose proof (proj1 (key_range _ _ _ _ EK)) as Hk.
    unfold estore, item_hash in *. rewrite EK in *.
    destruct (eload_srel st s m k c H Hk) as [E|[(n & j & p & E & HT & HI & EM')|(_ & EM')]]; [rewrite E in *; discriminate| |congruence].
    rewrite E in *. destruct (UP k c n j (i_val i) Hk E) as [U1 U2]; [intros q (key' & X & _); discriminate|].
    rewrite U1. auto.
  - cbn [estep] in *. unfold ewith in *. destruct (key_to_hash h key) as [[k c]|] eqn:EK.
    2:{ split; auto. apply SK; auto. intros q (key' & X & Y). injection X as <-. congruence. }
    pose proof (proj1 (key_range _ _ _ _ EK)) as Hk. unfold edelete in *.
    assert (DD : forall q, deletes h (OpDelete key) q <-> q = (k, c)).
    { intros q. split; [intros (key' & X & Y); injection X as <-; congruence|intros ->; exists key; auto]. }
    destruct (eload_srel st s m k c H Hk) as [E|[(n & j & p & E & HT & HI & EM')|(E & EM')]]; rewrite E in *; [discriminate| |]; cbn [fst].
    + split; [f_equal; symmetry; apply upd_item_flat|].
      destruct (hit_occ _ _ _ _ _ _ HT) as [HOc HV].
      intros k1 c1 n1 j1 sl Hk1 O1 V1. rewrite DD.
      apply (occ_upd s xl k c n j p set_sdel I HT ltac:(reflexivity) ltac:(reflexivity)) in O1 as [(E1 & -> & O1)|(NE & O1)].
      * injection E1 as -> ->. split; [intros _; right; apply (occ_pair s k c k1 c1 n j _ Hk Hk1 HOc O1)|reflexivity].
      * rewrite (HD k1 c1 n1 j1 sl Hk1 O1 V1). split; [auto|]. intros [|X]; auto. injection X as -> ->. exfalso. apply NE.
        destruct (occ_uniq s xl k k c c n1 n j1 j _ _ I eq_refl O1 HOc) as (-> & -> & _). auto.
    + split; auto. intros k1 c1 n1 j1 sl Hk1 O1 V1. rewrite DD, (HD k1 c1 n1 j1 sl Hk1 O1 V1). split; auto.
      intros [|X]; auto. injection X as -> ->. exfalso.
      assert (X : sm_map m (k, c) = Some (mkBd KSample (sl_key sl) (sl_val sl))) by (apply (sr_at _ _ _ H); eauto 6).
      congruence.
Qed.
Lemma marked_iff s D D' : (forall p, D p <-> D' p) -> marked s D -> marked s D'.
Proof. intros E M k c n j sl Hk O V. rewrite <- E. eauto. Qed.
Lemma frun_marked h st : forall os s m D, srel st s m -> no_create st h m os -> marked s D ->
  existsb stops (eouts h s os) = false ->
  frun h (s, flat_of s) os = (erun h s os, flat_of (erun h s os)) /\
  fouts h (s, flat_of s) os = eouts h s os /\
  srel st (erun h s os) (sticky_run st h m os) /\
  marked (erun h s os) (fun p => D p \/ gone h os p).
Proof.
  induction os as [|o os IH]; intros s m D H HN HD HS.
  - cbn [frun fouts erun eouts sticky_run]. split; auto. split; auto. split; auto. eapply marked_iff; [|exact HD].
    intros p. split; auto. intros [|(key & [] & _)]; auto.
  - cbn [no_create] in HN. destruct HN as [HO HN].
    pose proof (estep_sagrees st h s m o H HO) as A.
    cbn [frun fouts erun eouts sticky_run] in *. pose proof (fstep_marked h st s m o D H HO HD) as F.
    unfold fstep. cbn [fst snd]. destruct (estep h s o) as [s' r]. cbn [fst snd existsb] in *.
    apply orb_false_iff in HS as [S1 S2]. rewrite S1 in *. destruct (F eq_refl) as [F1 F2]. rewrite F1, S1.
    destruct A as [->|[_ A]]; [discriminate|].
    destruct (IH s' _ _ A HN F2 S2) as (I1 & I2 & I3 & I4). rewrite I1, I2. split; auto. split; auto. split; auto.
    eapply marked_iff; [|exact I4]. intros p. cbn beta. unfold gone. split.
    + intros [[X|(key & -> & K)]|(key & Hin & K)]; auto; right; exists key; [split; [left|]|split; [right|]]; auto.
    + intros [X|(key & [->|Hin] & K)]; auto; [left; right; exists key; auto|right; exists key; auto].
Qed.

(** * C62 *)
Lemma flat_new max : flat_of (new_emb max) = init_list.
Proof. vm_compute. reflexivity. Qed.
Lemma sticky_ranged st h os : forall m, ranged_map m -> ranged_map (sticky_run st h m os).
Proof.
  induction os as [|o os IH]; intros m H; cbn [sticky_run]; auto. apply IH.
  pose proof (sm_ranged h [o] m H) as R. cbn [sm_run] in R.
  destruct o; cbn [sticky_step]; auto; destruct (key_to_hash h key) as [q|]; auto; destruct (st q); auto.
Qed.
Lemma frun_app h : forall a s b, existsb stops (fouts h s a) = false -> frun h s (a ++ b) = frun h (frun h s a) b.
Proof.
  induction a as [|o a IH]; intros s b H; cbn [app frun fouts] in *; auto.
  destruct (fstep h s o) as [s' r]. cbn [existsb] in H. apply orb_false_iff in H as [H1 H2]. rewrite H1 in *. auto.
Qed.
Lemma fouts_app h : forall a s b, existsb stops (fouts h s a) = false -> fouts h s (a ++ b) = fouts h s a ++ fouts h (frun h s a) b.
Proof.
  induction a as [|o a IH]; intros s b H; cbn [app frun fouts] in *; auto.
  destruct (fstep h s o) as [s' r]. cbn [existsb] in H. apply orb_false_iff in H as [H1 H2]. rewrite H1 in *.
  rewrite IH; auto.
Qed.
Lemma new_ranged : ranged_map (sm_empty KSample).
Proof. intros k c X. exfalso. apply X. reflexivity. Qed.

Section Hist.
Variables (h : hashes) (max : Z) (os : list op).
Hypothesis (HM : 16 <= max) (HF : Forall store_or_read os) (HN : no_collision h os).
Hypothesis HS : existsb stops (eouts h (new_emb max) os) = false.
Hypothesis HB : forall r, In r (positions h os) -> ~ In r (edump (erun h (new_emb max) os)).
Lemma hist_flat :
  frun h (new_lemb max) os = (erun h (new_emb max) os, flat_of (erun h (new_emb max) os)) /\
  fouts h (new_lemb max) os = eouts h (new_emb max) os /\
  erel (erun h (new_emb max) os) (sm_run h (sm_empty KSample) os).
Proof.
  unfold new_lemb. rewrite <- (flat_new max).
  apply (frun_flat h (fun r => In r (positions h os))); auto.
  - apply new_emb_rel; auto.
  - unfold stopped. congruence.
  - intros k c _ X. exfalso. apply X. reflexivity.
Qed.
End Hist.

(** After any history of Set and reads that comes back, with no hash collision, in which no position written
    (bit-reversed hash) is a bucket boundary shown by DumpBucket at the end, Range is the callback run over
    exactly the bindings of the abstract map, in strictly increasing order of bit-reversed hash. The first
    conjunct says that following the item list does not change any answer. *)
Theorem C62_range_is_the_map_partial : forall h max os, 16 <= max -> Forall store_or_read os -> no_collision h os ->
  existsb stops (eouts h (new_emb max) os) = false ->
  (forall r, In r (positions h os) -> ~ In r (edump (erun h (new_emb max) os))) ->
  fouts h (new_lemb max) os = eouts h (new_emb max) os /\
  exists P : list ((Z * Z) * binding),
    StronglySorted (fun a b => reverse64 (fst (fst a)) < reverse64 (fst (fst b))) P /\
    (forall p b, In (p, b) P <-> sm_map (sm_run h (sm_empty KSample) os) p = Some b) /\
    forall A (f : A -> option gkey -> gval -> A * bool) a,
      frange (frun h (new_lemb max) os) f a = visit (fun a x => f a (Some (bd_key (snd x))) (bd_val (snd x))) a P.
Proof.
  intros h max os HM HF HN HS HB. destruct (hist_flat h max os HM HF HN HS HB) as (E1 & E2 & R). split; [exact E2|].
  rewrite E1. destruct (er_inv _ _ R) as (xl & I). destruct (frange_cont _ xl I) as (P & PS & PI & PV).
  exists P. split; [exact PS|]. split; [|exact PV].
  intros [k c] b. rewrite PI. split.
  - intros (Hk & key & v & -> & HC). apply (er_at _ _ R); eauto.
  - intros EM. assert (Hk : 0 <= k < W64).
    { apply (sm_ranged h os _ new_ranged k c). rewrite EM. discriminate. }
    split; auto. apply (er_at _ _ R) in EM; auto.
Qed.
Print Assumptions C62_range_is_the_map_partial.

(** If Deletes, reads and updates follow, Range visits exactly the bindings of the map of C22 whose Delete was
    not called: in contrast to Get, also a deleted first key of a bucket is passed over. *)
Theorem C62_range_after_delete_partial : forall h max os os2 sticky, 16 <= max -> Forall store_or_read os -> no_collision h os ->
  let s := erun h (new_emb max) os in let m := sm_run h (sm_empty KSample) os in
  (forall r, In r (positions h os) -> ~ In r (edump s)) ->
  (forall k c, 0 <= k < 2 ^ 64 -> (sticky (k, c) = true <-> first_of_bucket (edump s) m k c)) ->
  no_create sticky h m os2 ->
  existsb stops (eouts h (new_emb max) (os ++ os2)) = false ->
  fouts h (new_lemb max) (os ++ os2) = eouts h (new_emb max) (os ++ os2) /\
  exists P : list ((Z * Z) * binding),
    StronglySorted (fun a b => reverse64 (fst (fst a)) < reverse64 (fst (fst b))) P /\
    (forall p b, In (p, b) P <-> sm_map (sticky_run sticky h m os2) p = Some b /\ ~ gone h os2 p) /\
    forall A (f : A -> option gkey -> gval -> A * bool) a,
      frange (frun h (new_lemb max) (os ++ os2)) f a = visit (fun a x => f a (Some (bd_key (snd x))) (bd_val (snd x))) a P.
Proof.
  intros h max os os2 sticky HM HF HN s m HB HK HC HS.
  rewrite eouts_app in HS.
  assert (HS1 : existsb stops (eouts h (new_emb max) os) = false).
  { destruct (existsb stops (eouts h (new_emb max) os)) eqn:E; auto. exfalso. rewrite existsb_app in HS. apply orb_false_iff in HS as [X _]. congruence. }
  rewrite HS1 in HS. rewrite existsb_app, HS1 in HS. cbn [orb] in HS. fold s in HS.
  destruct (hist_flat h max os HM HF HN HS1 HB) as (E1 & E2 & R). fold s m in E1, R.
  pose proof (erel_srel sticky s m R HK) as SR.
  destruct (frun_marked h sticky os2 s m (fun _ => False) SR HC) as (F1 & F2 & F3 & F4); auto.
  { intros k c n j sl Hk O V. rewrite (erel_nodel s m k c n j sl R O). split; [discriminate|intros []]. }
  rewrite frun_app, fouts_app, E1, E2, F1, F2 by (rewrite E2; auto). rewrite eouts_app, HS1. fold s. split; auto.
  destruct (sr_inv _ _ _ F3) as (xl & I). destruct (frange_cont _ xl I) as (P & PS & PI & PV).
  exists P. split; [exact PS|]. split; [|exact PV].
  assert (CO : forall k c key v, 0 <= k < W64 -> cont (erun h s os2) (reverse64 k, c, false, key, v) <->
     exists n j sl, occ (erun h s os2) k c n j sl /\ sl_del sl = false /\ sl_key sl = key /\ sl_val sl = v).
  { intros k c key v Hk. split.
    - intros (y & n & p & Hy & HP & Hin). apply in_map_iff in Hin as (sl & E & Hs).
      destruct (ei_pool _ _ I y n Hy) as (p' & HP' & K). rewrite HP in HP'. injection HP' as <-.
      destruct (in_live _ _ _ _ K Hs) as (j & Hj & <-). unfold pr in E. injection E as A1 A2 A3 A4 A5.
      exists n, j, (slot_at p j). split; auto. exists y, p. auto 8.
    - intros (n & j & sl & (y & p & Hy & HP & Hj & -> & A1 & A2) & A3 & A4 & A5).
      destruct (ei_pool _ _ I y n Hy) as (p' & HP' & K). rewrite HP in HP'. injection HP' as <-.
      exists y, n, p. split; auto. split; auto. apply in_map_iff. exists (slot_at p j). split; [|eapply live_in; eauto].
      unfold pr. congruence. }
  intros [k c] b. rewrite PI. split.
  - intros (Hk & key & v & -> & HX). apply (CO k c key v Hk) in HX as (n & j & sl & O & D & <- & <-).
    assert (V : vis j sl) by (left; auto). split; [apply (sr_at _ _ _ F3); eauto 7|].
    intros G. assert (sl_del sl = true) by (apply (F4 k c n j sl Hk O V); auto). congruence.
  - intros [EM NG]. assert (Hk : 0 <= k < W64).
    { apply (sticky_ranged sticky h os2 m) with (c := c); [|rewrite EM; discriminate].
      apply sm_ranged. apply new_ranged. }
    split; auto. apply (sr_at _ _ _ F3) in EM as (n & j & sl & O & V & ->); auto.
    exists (sl_key sl), (sl_val sl). split; auto. apply (CO k c _ _ Hk). exists n, j, sl. split; auto. split; auto.
    destruct (sl_del sl) eqn:D; auto. exfalso. apply (F4 k c n j sl Hk O V) in D as [[]|D]. auto.
Qed.
Print Assumptions C62_range_after_delete_partial.

(** The hypothesis about [sticky] can be met after every such history. *)
Lemma sticky_exists s m : erel s m ->
  forall k c, 0 <= k < 2 ^ 64 -> (in_first s (k, c) = true <-> first_of_bucket (edump s) m k c).
Proof.
  intros H k c Hk. change (2 ^ 64) with W64 in Hk. destruct (er_inv _ _ H) as (xl & I). split.
  - intros E. assert (HO : exists n sl, occ s k c n 0 sl).
    { unfold in_first in E. apply existsb_exists in E as (n & Hn & E). apply andb_true_iff in E as [E1 E2].
      assert (Nn : n <> bmax) by (apply nid_eqb_neq; destruct (nid_eqb n bmax); auto; discriminate).
      destruct (ei_pred s xl I n Hn Nn) as (y & Hy).
      destruct (b_pool (bget (x_trie s) n)) as [p|] eqn:EP; [|discriminate].
      apply andb_true_iff in E2 as [E2 E4]. apply andb_true_iff in E2 as [E2 E3]. cbn [fst snd] in *.
      exists n, (slot_at p 0), y, p. apply Nat.ltb_lt in E2. apply Z.eqb_eq in E3, E4. auto 8. }
    destruct HO as (n & sl & HO). apply (first_zero s m k c n 0 sl H Hk HO). auto.
  - intros F. destruct F as [F1 F2]. destruct (sm_map m (k, c)) as [bd|] eqn:EM; [|congruence].
    apply (erel_occ s m k c bd H Hk) in EM as (n & j & sl & HO & HX).
    apply (in_first_spec s xl k c n j sl I HO). apply (first_zero s m k c n j sl H Hk HO). split; auto. eapply occ_some; eauto.
Qed.

Definition off_b (h : hashes) (os : list op) (bs : list Z) : bool :=
  forallb (fun r => negb (existsb (Z.eqb r) bs)) (positions h os).
Lemma off_ok h os bs : off_b h os bs = true -> forall r, In r (positions h os) -> ~ In r bs.
Proof.
  unfold off_b. rewrite forallb_forall. intros H r Hr Hb. specialize (H r Hr). apply negb_true_iff in H.
  rewrite <- not_true_iff_false in H. apply H. apply existsb_exists. exists r. split; auto. apply Z.eqb_refl.
Qed.
Definition count_all (s : lstate) : Z := frange s (fun n _ _ => (n + 1, true)) 0.
Definition keys_all (s : lstate) : list (option gkey) := frange s (fun l k _ => (l ++ [k], true)) [].
(** 60 keys; buckets of 16 are split *)
Example C62_case :
  let l := spread 60 in let os := fill l in
  Forall store_or_read os /\ no_collision (hpos l) os /\
  existsb stops (eouts (hpos l) (new_emb 16) os) = false /\
  (forall r, In r (positions (hpos l) os) -> ~ In r (edump (erun (hpos l) (new_emb 16) os))) /\
  List.length (edump (erun (hpos l) (new_emb 16) os)) = 21%nat /\
  count_all (frun (hpos l) (new_lemb 16) os) = 60.
Proof.
  cbv zeta. split; [|split; [|split; [|split; [|split]]]].
  - apply sor_ok. vm_compute. reflexivity.
  - apply nocol_ok. vm_compute. reflexivity.
  - vm_compute. reflexivity.
  - apply off_ok. vm_compute. reflexivity.
  - vm_compute. reflexivity.
  - vm_compute. reflexivity.
Qed.
(** a, the first key of the bucket, and c are deleted: Get answers for a, Range passes over both *)
Example C62_delete_case :
  let os := [set_ "a" 1; set_ "b" 2; set_ "c" 3; set_ "d" 4] in
  let os2 := [del_ "a"; del_ "c"; set_ "b" 7] in
  let s := erun (hpos five) (new_emb 32) os in
  Forall store_or_read os /\ no_collision (hpos five) os /\
  (forall r, In r (positions (hpos five) os) -> ~ In r (edump s)) /\
  existsb stops (eouts (hpos five) (new_emb 32) (os ++ os2)) = false /\
  no_create (in_first s) (hpos five) (sm_run (hpos five) (sm_empty KSample) os) os2 /\
  keys_all (frun (hpos five) (new_lemb 32) (os ++ os2)) = [Some (KStr "b"); Some (KStr "d")] /\
  snd (estep (hpos five) (erun (hpos five) (new_emb 32) (os ++ os2)) (get_ "a")) = Ret (RVal (GV 1 1) true).
Proof.
  cbv zeta. split; [|split; [|split; [|split; [|split; [|split]]]]].
  - apply sor_ok. reflexivity.
  - apply nocol_ok. vm_compute. reflexivity.
  - apply off_ok. vm_compute. reflexivity.
  - vm_compute. reflexivity.
  - split; [exact Logic.I|]. split; [exact Logic.I|]. split; [|exact Logic.I].
    eexists. split; [vm_compute; reflexivity|vm_compute; discriminate].
  - vm_compute. reflexivity.
  - vm_compute. reflexivity.
Qed.
(** The condition on the boundaries is needed for the model to follow the list: with keys on what become
    boundaries, the twentieth Set asks ReplaceNext to replace a part of the list that holds the marker of a
    bucket. *)
Definition on_bounds : list (string * Z) := map (fun i => (str i, Z.of_nat (i * 11 mod 32) * 2 ^ 55)) (seq 0 32).
Example C62_boundary_case :
  let os := firstn 20 (fill on_bounds) in
  existsb stops (eouts (hpos on_bounds) (new_emb 16) os) = false /\
  existsb stops (fouts (hpos on_bounds) (new_lemb 16) (firstn 19 os)) = false /\
  last (fouts (hpos on_bounds) (new_lemb 16) os) Div = Undef.
Proof. vm_compute. auto. Qed.
