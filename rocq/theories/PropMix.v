(** C68, C42: Sets, Deletes and Purges in any order in the embedded mode, new keys going to buckets in which nothing was deleted.
    Specification: PurgeSpec.v and MixSpec.v (the buckets as lists). *)
From Verif Require Import Base BaseProofs Util UtilProofs Bucket TrieProofs TrieInv TrieGrow MapModel ItemProofs MapInv MapSplit
  MapInit Spec MapRefine EmbModel EmbPool EmbTrie EmbInv EmbSplit EmbSpec EmbRefine EmbDel EmbTop PurgeSpec EmbPurge MixSpec EmbMix PropEmb PropHang PropPurge.
From Coq Require Import ZifyBool Sorted Ascii String.
Local Open Scope Z_scope.
Local Open Scope list_scope.
Local Opaque reverse64 level_of base find_bucket.

(** what DumpBucket shows before each call *)
Fixpoint edumps (h : hashes) (s : estate) (os : list op) : list (list Z) :=
  match os with
  | [] => []
  | o :: os' => edump s :: (if stops (snd (estep h s o)) then [] else edumps h (fst (estep h s o)) os')
  end.

Lemma mix_agrees h : forall os m s s2 xl, drel m s s2 xl -> mix_ok h (edumps h s os) m os -> agree (eouts h s os) (mix_outs h (edumps h s os) m os).
Proof.
  induction os as [|o os IH]; intros m s s2 xl D HO; cbn [eouts edumps mix_outs mix_ok agree] in *; [auto|].
  destruct HO as [HC HO]. pose proof (dstep m h s s2 xl o D HC) as A.
  destruct (estep h s o) as [s' r]. cbn [fst snd] in *. destruct A as [->|[E (s2' & xl' & D' & _)]]; [left; auto|right].
  assert (ST : stops r = false) by (destruct r; cbn in *; congruence). rewrite ST in *. split; eauto.
Qed.
Theorem C68_mixed : forall h max os, 16 <= max -> let ds := edumps h (new_emb max) os in
  mix_ok h ds m_empty os -> agree (eouts h (new_emb max) os) (mix_outs h ds m_empty os).
Proof. intros h max os HM ds HO. destruct (new_emb_drel max HM) as (xl & D). eapply mix_agrees; eauto. Qed.
Print Assumptions C68_mixed.

(** * A condition on the calls alone *)
(** No Set comes after a Delete or Purge of a key in the same sixteenth of the positions, and no two keys share the first hash. *)
Definition deletes (h : hashes) (o : op) : option (Z * Z) := match o with OpDelete key | OpPurge key => key_to_hash h key | _ => None end.
Definition sets_before_deletes (h : hashes) (os : list op) : Prop :=
  forall a o b o' p p', os = a ++ o :: b -> In o' b -> deletes h o = Some p -> writes h o' = Some p' -> MixSpec.pos_of p / 2 ^ 60 <> MixSpec.pos_of p' / 2 ^ 60.
Definition sets_or_deletes (o : op) : Prop := store_or_read o \/ (exists key, o = OpDelete key \/ o = OpPurge key).

Lemma found_in bs l p : PurgeSpec.present bs l p = true -> exists e, In e l /\ e_hash e = p.
Proof. unfold PurgeSpec.present, visible. destruct (entry l p) as [e|] eqn:E; [|discriminate]. intros _. exists e. apply entry_some. auto. Qed.
Lemma in_change g p l e : (forall x, e_hash (g x) = e_hash x) -> In e (change g p l) -> exists e0, In e0 l /\ e_hash e0 = e_hash e.
Proof. intros G H. unfold change in H. apply in_map_iff in H as (e0 & <- & H0). exists e0. split; auto. destruct (pair_eqb _ _); auto. Qed.
Lemma next_in h bs n l o e : In e (next_entries h bs n l o) -> exists e0, In e0 l /\ e_hash e0 = e_hash e.
Proof.
  assert (ID : In e l -> exists e0, In e0 l /\ e_hash e0 = e_hash e) by eauto.
  destruct o as [key v|i|key|k c|key|k c|key|key|]; cbn [next_entries]; auto.
  - destruct (key_to_hash h key); auto. destruct (sm_map _ _); auto. apply in_change; auto.
  - destruct (key_to_hash h (i_key i)); auto. destruct (sm_map _ _); auto. apply in_change; auto.
  - destruct (key_to_hash h key); auto. destruct (PurgeSpec.present _ _ _); auto. apply in_change; auto.
  - destruct (key_to_hash h key); auto. destruct (entry _ _); auto. destruct (PurgeSpec.present _ _ _); auto. unfold purged. destruct (is_last _ _ _); [|apply in_change; auto].
    intros H. unfold without in H. apply filter_In in H as [H _]. auto.
Qed.

Definition tops (bs : list Z) : Prop := forall i, 0 <= i < 16 -> In (i * 2 ^ 60) bs.
Lemma sixteenths bs z r : tops bs -> 0 <= z < 2 ^ 64 -> 0 <= r < 2 ^ 64 -> z / 2 ^ 60 <> r / 2 ^ 60 -> together bs z r = false.
Proof.
  intros T Hz Hr N. apply together_spec.
  assert (G : forall a b, 0 <= a < 2 ^ 64 -> 0 <= b < 2 ^ 64 -> a / 2 ^ 60 < b / 2 ^ 60 -> separated bs a b).
  { intros a b Ha Hb L. exists (b / 2 ^ 60 * 2 ^ 60). pose proof (Z.div_mod a (2 ^ 60)). pose proof (Z.div_mod b (2 ^ 60)). pose proof (Z.mod_pos_bound a (2 ^ 60)). pose proof (Z.mod_pos_bound b (2 ^ 60)).
    split; [apply T; lia|]. lia. }
  destruct (Z_lt_ge_dec z r) as [L|L].
  - rewrite Z.min_l, Z.max_r by lia. apply G; auto. pose proof (Z.div_le_mono z r (2 ^ 60)). lia.
  - rewrite Z.min_r, Z.max_l by lia. apply G; auto. pose proof (Z.div_le_mono r z (2 ^ 60)). lia.
Qed.
Lemma new_tops max : tops (edump (new_emb max)).
Proof.
  assert (E : edump (new_emb max) = MAX64 :: map (fun i => i * 16 ^ 15) (rev idx16)) by (vm_compute; reflexivity).
  rewrite E. intros i Hi. right. apply in_map_iff. exists i. split; [change (16 ^ 15) with (2 ^ 60); auto|].
  assert (X : In i idx16); [|apply in_rev in X; auto]. unfold idx16. cbn.
  assert (i = 0 \/ i = 1 \/ i = 2 \/ i = 3 \/ i = 4 \/ i = 5 \/ i = 6 \/ i = 7 \/ i = 8 \/ i = 9 \/ i = 10 \/ i = 11 \/ i = 12 \/ i = 13 \/ i = 14 \/ i = 15) by lia. intuition.
Qed.

Lemma mix_static h : forall os pre m s s2 xl, drel m s s2 xl -> tops (edump s) ->
  (forall z, In z (m_touched m) -> exists o p, In o pre /\ deletes h o = Some p /\ z = MixSpec.pos_of p) ->
  (forall e, In e (m_l m) -> exists o, In o pre /\ writes h o = Some (e_hash e)) ->
  Forall sets_or_deletes os -> no_collision h (pre ++ os) -> sets_before_deletes h (pre ++ os) -> mix_ok h (edumps h s os) m os.
Proof.
  induction os as [|o os IH]; intros pre m s s2 xl D T HT HE HF HN HS; cbn [edumps mix_ok]; auto.
  inversion HF as [|? ? F1 F2]; subst.
  assert (HC : mix_call h (edump s) m o).
  { destruct o as [key v|i|key|k c|key|k c|key|key|]; cbn [mix_call]; auto.
    2:{ destruct F1 as [[]|(key & [F|F])]; discriminate. }
    assert (KX : exists x, key = KStr x) by (destruct F1 as [F1|(key' & [F|F])]; [exact F1|discriminate|discriminate]).
    destruct KX as (x & ->). destruct (key_to_hash h (KStr x)) as [[k c]|] eqn:EK; [|discriminate]. exists (k, c). split; auto. destruct (PurgeSpec.present (edump s) (m_l m) (k, c)) eqn:PR; auto. right. split; [eauto|].
    assert (SEP : forall z, In z (m_touched m) -> z / 2 ^ 60 <> reverse64 k / 2 ^ 60).
    { intros z Hz. destruct (HT z Hz) as (o & p & Ho & EO & ->). apply in_split in Ho as (a & b & ->). rewrite <- app_assoc in HS. cbn [app] in HS.
      apply (HS a o (b ++ OpSet (KStr x) v :: os) (OpSet (KStr x) v) p (k, c)); auto. apply in_or_app. right. left. auto. }
    pose proof (proj1 (key_range _ _ _ _ EK)) as Hk. split.
    - intros z Hz. unfold MixSpec.pos_of. cbn [fst]. apply sixteenths; auto; [|apply reverse64_range]. destruct (HT z Hz) as (o & p & _ & _ & ->). apply reverse64_range.
    - intros e He EP. unfold MixSpec.pos_of in EP. cbn [fst] in EP. destruct (HE e He) as (o & Ho & WO).
      destruct (e_hash e) as [k1 c1] eqn:EH. unfold e_pos in EP. rewrite EH in EP. cbn [fst] in EP.
      assert (Hk1 : 0 <= k1 < W64). { destruct o; cbn [writes] in WO; try discriminate; apply (proj1 (key_range _ _ _ _ WO)). }
      apply reverse64_inj in EP; auto. subst k1.
      assert (c1 = c). { apply (HN o (OpSet (KStr x) v) k c1 c); auto; apply in_or_app; [left; auto|right; left; auto]. } subst c1.
      unfold PurgeSpec.present, visible in PR. destruct (entry (m_l m) (k, c)) as [e'|] eqn:EE.
      + destruct (entry_some _ _ _ EE) as [He' Hp']. destruct (e_dead e') eqn:DD; [|discriminate].
        pose proof (dr_dead _ _ _ _ D e' He' DD) as Z. apply SEP in Z. apply Z. unfold e_pos. rewrite Hp'. reflexivity.
      + unfold entry in EE. pose proof (find_none _ _ EE e He) as X. cbn in X. rewrite EH, pair_eqb_refl in X. discriminate. }
  split; auto. pose proof (dstep m h s s2 xl o D HC) as A.
  set (s' := fst (estep h s o)) in *. set (r := snd (estep h s o)) in *. destruct A as [->|[E (s2' & xl' & D' & IN)]]; [cbn [stops]; destruct os; exact I|].
  assert (ST : stops r = false) by (destruct r; cbn in *; congruence). rewrite ST.
  apply (IH (pre ++ [o]) _ _ _ _ D').
  - intros i Hi. rewrite (dump_same _ _ _ _ D'). apply IN. rewrite <- (dump_same _ _ _ _ D). auto.
  - intros z Hz.
    assert (OLD : In z (m_touched m) -> exists o0 p, In o0 (pre ++ [o]) /\ deletes h o0 = Some p /\ z = MixSpec.pos_of p).
    { intros H. destruct (HT z H) as (o0 & p & H0 & H1). exists o0, p. split; auto. apply in_or_app; auto. }
    unfold mix_next in Hz. destruct o as [key v|i|key|k c|key|k c|key|key|]; cbn [m_touched] in Hz; auto.
    + destruct (key_to_hash h key); auto. destruct (PurgeSpec.present _ _ _); cbn [m_touched] in Hz; auto.
    + destruct (key_to_hash h key) as [p|] eqn:EK; auto. destruct (PurgeSpec.present _ _ _); auto. destruct Hz as [<-|Hz]; auto. exists (OpDelete key), p. split; [apply in_or_app; right; left; auto|auto].
    + destruct (key_to_hash h key) as [p|] eqn:EK; auto. destruct (PurgeSpec.present _ _ _); auto. destruct Hz as [<-|Hz]; auto. exists (OpPurge key), p. split; [apply in_or_app; right; left; auto|auto].
  - intros e He.
    assert (OLD : In e (next_entries h (edump s) (m_n m) (m_l m) o) -> exists o0, In o0 (pre ++ [o]) /\ writes h o0 = Some (e_hash e)).
    { intros H. apply next_in in H as (e0 & H0 & <-). destruct (HE e0 H0) as (o0 & H1 & H2). exists o0. split; auto. apply in_or_app; auto. }
    unfold mix_next in He. destruct o as [key v|i|key|k c|key|k c|key|key|]; cbn [m_l] in He; auto.
    destruct (key_to_hash h key) as [p|] eqn:EK.
    + destruct (PurgeSpec.present _ _ _); cbn [m_l] in He; auto. apply put_in in He as [->|He].
      * exists (OpSet key v). split; [apply in_or_app; right; left; auto|exact EK].
      * destruct (HE e He) as (o0 & H1 & H2). exists o0. split; auto. apply in_or_app; auto.
    + destruct (HE e He) as (o0 & H1 & H2). exists o0. split; auto. apply in_or_app; auto.
  - auto.
  - rewrite <- app_assoc. exact HN.
  - rewrite <- app_assoc. exact HS.
Qed.
Theorem C68_sixteenths : forall h max os, 16 <= max -> Forall sets_or_deletes os -> no_collision h os -> sets_before_deletes h os ->
  let ds := edumps h (new_emb max) os in
  mix_ok h ds m_empty os /\ agree (eouts h (new_emb max) os) (mix_outs h ds m_empty os).
Proof.
  intros h max os HM HF HN HS ds. assert (O : mix_ok h ds m_empty os); [|split; auto; apply C68_mixed; auto].
  destruct (new_emb_drel max HM) as (xl & D). apply (mix_static h os [] m_empty (new_emb max) (new_emb max) xl); auto.
  - apply new_tops.
  - intros z [].
  - intros e [].
Qed.
Print Assumptions C68_sixteenths.

(** * C42: the Set leaves the other keys alone *)
Lemma find_put f e l : f e = false -> find f (put e l) = find f l.
Proof. intros F. induction l as [|x l IH]; cbn [put find]; [rewrite F; auto|]. destruct (_ <? _); cbn [find]; [rewrite F; auto|rewrite IH; auto]. Qed.
Lemma filter_put f e l : f e = false -> filter f (put e l) = filter f l.
Proof. intros F. induction l as [|x l IH]; cbn [put filter]; [rewrite F; auto|]. destruct (_ <? _); cbn [filter]; [rewrite F; auto|rewrite IH; auto]. Qed.
Lemma together_more s2 s2' xl A y b B N z r : einv s2 xl -> x_bl s2 = A ++ y :: b :: B -> x_bl s2' = A ++ y :: N ++ b :: B ->
  (forall n, In n (x_bl s2) -> brev (x_trie s2') n = brev (x_trie s2) n) -> (forall n, In n N -> brev (x_trie s2) b < brev (x_trie s2') n < up (x_trie s2) y) ->
  0 <= z < W64 -> 0 <= r < W64 -> ~ (brev (x_trie s2) b <= z < up (x_trie s2) y) -> together (edump s2') z r = together (edump s2) z r.
Proof.
  intros I EA EB BR NR Hz Hr NZ. assert (Hy : adj (x_bl s2) y b) by (exists A, B; auto). destruct (bound_below s2 xl y b I Hy) as (B1 & B2 & B3 & B4).
  assert (IN : forall v, In v (edump s2) -> In v (edump s2')).
  { intros v Hv. unfold edump in *. apply in_map_iff in Hv as (q & <- & Hq). rewrite <- BR by auto. apply in_map. rewrite EB. rewrite EA in Hq. apply in_app_or in Hq as [Hq|[Hq|Hq]]; apply in_or_app; [left; auto|right; left; auto|right; right; apply in_or_app; auto]. }
  assert (BI : In (brev (x_trie s2) b) (edump s2)) by (apply in_map; apply adj_in in Hy; tauto).
  assert (UI : up (x_trie s2) y < W64 -> In (up (x_trie s2) y) (edump s2) /\ up (x_trie s2) y <> 2 ^ 64 - 1).
  { unfold up. destruct (nid_eqb y bmax) eqn:Ey; [lia|]. intros L. split; [apply in_map; apply adj_in in Hy; tauto|]. assert (Ny : y <> bmax) by (intros ->; rewrite nid_eqb_refl in Ey; discriminate).
    destruct (ei_adj_x s2 xl I _ _ Hy) as [Hx _]. destruct (ei_16 _ _ I y Hx Ny) as (w & Hw). rewrite Hw. change (2 ^ 64) with (2 ^ 60 * 16). lia. }
  destruct (together (edump s2') z r) eqn:T'; destruct (together (edump s2) z r) eqn:T; auto; exfalso.
  - apply together_spec in T as (v & Hv & H). assert (X : together (edump s2') z r = false); [|congruence]. apply together_spec. exists v. auto.
  - apply together_spec in T' as (v & Hv & V1 & V2). assert (X : together (edump s2) z r = false); [|congruence]. apply together_spec.
    unfold edump in Hv. apply in_map_iff in Hv as (q & <- & Hq). rewrite EB in Hq.
    assert (Q : In q (x_bl s2) \/ In q N).
    { rewrite EA. apply in_app_or in Hq as [Hq|[Hq|Hq]]; [left; apply in_or_app; auto|left; apply in_or_app; right; left; auto|]. apply in_app_or in Hq as [Hq|Hq]; auto. left. apply in_or_app. right. right. auto. }
    destruct Q as [Q|Q].
    + rewrite BR in * by auto. exists (brev (x_trie s2) q). split; [apply in_map; auto|]. auto.
    + specialize (NR q Q). destruct (Z_lt_ge_dec z (brev (x_trie s2) b)) as [L|L].
      * exists (brev (x_trie s2) b). split; auto. split; auto. lia.
      * destruct UI as [U1 U2]; [lia|]. exists (up (x_trie s2) y). split; auto. split; auto. lia.
Qed.
Lemma same_reads m s s2 xl h key v p p' : drel m s s2 xl -> mix_call h (edump s) m (OpSet key v) -> key_to_hash h key = Some p -> p <> p' -> snd (estep h s (OpSet key v)) <> Div ->
  exists s2' xl', drel (mix_next h (edump s) m (OpSet key v)) (fst (estep h s (OpSet key v))) s2' xl' /\
    visible (edump (fst (estep h s (OpSet key v)))) (m_l (mix_next h (edump s) m (OpSet key v))) p' = visible (edump s) (m_l m) p'.
Proof.
  intros D HC EK NP ND. pose proof (dr_rel _ _ _ _ D) as R. destruct p as [k c]. pose proof (proj1 (key_range _ _ _ _ EK)) as Hk.
  pose proof (dstep m h s s2 xl _ D HC) as A. destruct (PurgeSpec.present (edump s) (m_l m) (k, c)) eqn:PR.
  - destruct A as [A|[_ (s2' & xl' & D' & _)]]; [contradiction|]. exists s2', xl'. split; auto.
    assert (ED : edump (fst (estep h s (OpSet key v))) = edump s).
    { cbn [estep]. unfold eset. rewrite EK. destruct (eload_view (edump s2) (m_n m) s s2 xl (m_l m) k c R Hk) as [E|[(n & j & q & E & _)|(E & EV)]]; rewrite ?E; auto.
      - unfold eupdate. destruct (set_value _ _ _) as [[? ?]|]; cbn [fst]; auto. apply dump_upd.
      - exfalso. rewrite (dump_same _ _ _ _ D) in PR. unfold PurgeSpec.present in PR. rewrite EV in PR. discriminate. }
    rewrite ED. unfold mix_next. rewrite EK, PR. cbn [m_l next_entries]. rewrite EK. destruct (sm_map _ _) as [b|]; auto.
    unfold visible. rewrite entry_change by auto. destruct (entry (m_l m) p') as [e'|]; auto. rewrite first_change by auto. auto.
  - cbn [mix_call] in HC. destruct HC as (p & EK' & HC). rewrite EK in EK'. injection EK' as <-. destruct HC as [HC|((x & ->) & HC)]; [congruence|].
    rewrite (dump_same _ _ _ _ D) in HC, PR.
    destruct (eload_view (edump s2) (m_n m) s s2 xl (m_l m) k c R Hk) as [E|[(n & j & q & E & HT & HI & EV)|(E & EV)]].
    { exfalso. apply ND. cbn [estep]. unfold eset. rewrite EK, E. auto. }
    { exfalso. unfold PurgeSpec.present in PR. rewrite EV in PR. discriminate. }
    destruct (drel_new m s s2 xl h x v k c D EK E HC) as (s' & s2' & xl' & ES & D' & A0 & y & b & B & N & EA & EB & RG & BR & NR).
    cbn [estep]. rewrite ES. cbn [fst snd]. unfold mix_next. rewrite EK, (dump_same _ _ _ _ D), PR. exists s2', xl'. split; auto. cbn [m_l]. rewrite (dump_same _ _ _ _ D').
    set (e := mkE (k, c) (mkBd KSample (KStr x) v) false). unfold visible.
    assert (EE : entry (put e (m_l m)) p' = entry (m_l m) p').
    { unfold entry. apply find_put. cbn [e e_hash]. destruct (pair_eqb (k, c) p') eqn:Q; auto. apply same_hash in Q. congruence. }
    rewrite EE. destruct (entry (m_l m) p') as [e'|] eqn:E'; auto. destruct (entry_some _ _ _ E') as [He' Hp']. destruct (e_dead e') eqn:DD; cbn [negb orb]; auto.
    pose proof (dr_dead _ _ _ _ D e' He' DD) as TZ. destruct HC as [U1 _]. specialize (U1 _ TZ). unfold MixSpec.pos_of in U1. cbn [fst] in U1.
    pose proof (pl_inv _ _ _ _ _ _ R) as I. assert (Hy : adj (x_bl s2) y b) by (exists A0, B; auto).
    assert (NZ : ~ (brev (x_trie s2) b <= e_pos e' < up (x_trie s2) y)).
    { intros Z. rewrite (proj2 (together_bucket s2 xl y b (e_pos e') (reverse64 k) I Hy Z (reverse64_range k)) RG) in U1. discriminate. }
    assert (TM : forall r, 0 <= r < W64 -> together (edump s2') (e_pos e') r = together (edump s2) (e_pos e') r).
    { intros r Hr. apply (together_more s2 s2' xl A0 y b B N); auto. apply EmbPurge.pos_range. }
    assert (IF : is_first (edump s2') (put e (m_l m)) e' = is_first (edump s2) (m_l m) e'); [|rewrite IF; auto].
    unfold is_first. assert (BE : bucket_of (edump s2') (put e (m_l m)) (e_pos e') = bucket_of (edump s2) (m_l m) (e_pos e')); [|rewrite BE; auto].
    unfold bucket_of. rewrite filter_put.
    + apply filter_ext. intros z. apply TM. apply EmbPurge.pos_range.
    + rewrite TM by apply EmbPurge.pos_range. exact U1.
Qed.
Lemma mix_reach h : forall os m s s2 xl, drel m s s2 xl -> mix_ok h (edumps h s os) m os -> existsb stops (eouts h s os) = false ->
  exists s2' xl', drel (mix_run h (edumps h s os) m os) (erun h s os) s2' xl'.
Proof.
  induction os as [|o os IH]; intros m s s2 xl D HO HS; cbn [eouts edumps mix_run erun mix_ok existsb] in *; [eauto|].
  destruct HO as [HC HO]. pose proof (dstep m h s s2 xl o D HC) as A. destruct (estep h s o) as [s' r]. cbn [fst snd existsb] in *.
  apply orb_false_iff in HS as [S1 S2]. rewrite S1 in *. destruct A as [->|[E (s2' & xl' & D' & _)]]; [discriminate|]. eauto.
Qed.
Lemma get_view m s s2 xl h key p : drel m s s2 xl -> key_to_hash h key = Some p -> stops (snd (estep h s (OpGet key))) = false ->
  snd (estep h s (OpGet key)) = Ret (sm_get (mkSM (visible (edump s) (m_l m)) KSample 0) p).
Proof.
  intros D EK ST. destruct p as [k c]. pose proof (proj1 (key_range _ _ _ _ EK)) as Hk. rewrite (dump_same _ _ _ _ D).
  cbn [estep] in *. unfold ewith in *. rewrite EK in *. unfold eget, sm_get in *. cbn [sm_map].
  destruct (eload_view (edump s2) (m_n m) s s2 xl (m_l m) k c (dr_rel _ _ _ _ D) Hk) as [E|[(n & j & q & E & _ & HI & ->)|(E & ->)]]; rewrite E in *; cbn [fst snd stops] in *; [discriminate| |auto].
  rewrite HI. auto.
Qed.
Lemma mix_snoc h o : forall os m s, mix_ok h (edumps h s (os ++ [o])) m (os ++ [o]) -> existsb stops (eouts h s os) = false ->
  mix_ok h (edumps h s os) m os /\ mix_call h (edump (erun h s os)) (mix_run h (edumps h s os) m os) o.
Proof.
  induction os as [|x os IH]; intros m s HO HS; cbn [app eouts edumps mix_run erun mix_ok existsb] in *; [tauto|].
  destruct (estep h s x) as [s' r]. cbn [fst snd existsb] in *. apply orb_false_iff in HS as [S1 S2]. rewrite S1 in *. destruct HO as [HC HO]. destruct (IH _ _ HO S2). auto.
Qed.
(** the state before, and the call: [os] and then the Set *)
Theorem C42_set_keeps_others_mixed_partial : forall h max os key v key', 16 <= max ->
  let os' := os ++ [OpSet key v] in mix_ok h (edumps h (new_emb max) os') m_empty os' ->
  let s := erun h (new_emb max) os in
  existsb stops (eouts h (new_emb max) os) = false ->
  key_to_hash h key <> key_to_hash h key' ->
  let s' := fst (estep h s (OpSet key v)) in
  stops (snd (estep h s (OpSet key v))) = false -> stops (snd (estep h s (OpGet key'))) = false -> stops (snd (estep h s' (OpGet key'))) = false ->
  snd (estep h s' (OpGet key')) = snd (estep h s (OpGet key')).
Proof.
  intros h max os key v key' HM os' HOO s HS NE s' S1 S2 S3. destruct (mix_snoc h _ os _ _ HOO HS) as [HO HC]. destruct (new_emb_drel max HM) as (xl & D0). destruct (mix_reach h os _ _ _ _ D0 HO HS) as (s2 & xl2 & D).
  set (m := mix_run h (edumps h (new_emb max) os) m_empty os) in *. fold s in D.
  destruct HC as (p & EK & HC). destruct (key_to_hash h key') as [p'|] eqn:EK'.
  2:{ clear -EK'. subst s'. cbn [estep]. unfold ewith. rewrite EK'. auto. }
  destruct (same_reads m s s2 xl2 h key v p p' D) as (s2' & xl' & D' & EV); auto; [exists p; auto|congruence|intros E; rewrite E in S1; discriminate|].
  unfold s' in *. rewrite (get_view _ _ _ _ h key' p' D' EK' S3), (get_view _ _ _ _ h key' p' D EK' S2). unfold sm_get. cbn [sm_map]. rewrite EV. auto.
Qed.
Print Assumptions C42_set_keeps_others_mixed_partial.

(** * Cases *)
Fixpoint sbd_b (h : hashes) (os : list op) : bool :=
  match os with
  | [] => true
  | o :: b => match deletes h o with
              | Some p => forallb (fun o' => match writes h o' with Some p' => negb (MixSpec.pos_of p / 2 ^ 60 =? MixSpec.pos_of p' / 2 ^ 60) | None => true end) b
              | None => true end && sbd_b h b
  end.
Lemma sbd_ok h os : sbd_b h os = true -> sets_before_deletes h os.
Proof.
  induction os as [|x os IH]; intros H a o b o' p p' E Ho D W; [destruct a; discriminate|]. cbn [sbd_b] in H. apply andb_true_iff in H as [H1 H2].
  destruct a as [|a0 a]; cbn [app] in E.
  - injection E as -> ->. rewrite D, forallb_forall in H1. specialize (H1 o' Ho). rewrite W in H1. apply negb_true_iff, Z.eqb_neq in H1. auto.
  - injection E as -> ->. apply (IH H2 a o b o' p p'); auto.
Qed.
Local Transparent reverse64.
(** three keys in the first sixteenth; then eighteen new keys in the sixth, whose bucket splits, between Deletes and Purges in the first *)
Definition wide_keys : list (string * Z) := [("a", 10); ("b", 20); ("c", 30)]%string ++ map (fun i => (str i, 5 * 2 ^ 60 + Z.of_nat i * 2 ^ 55)) (seq 1 18).
Definition mixed_ops : list op :=
  [set_ "a" 1; set_ "b" 2; set_ "c" 3; del_ "a"; pur_ "b"] ++ map (fun i => OpSet (KStr (str i)) (GV 1 (Z.of_nat i))) (seq 1 17) ++
  [get_ "a"; get_ "b"; pur_ "c"; OpSet (KStr (str 18)) (GV 1 18); get_ "c"; get_ "a"; OpGet (KStr (str 7)); OpLen].
Example C68_case :
  Forall sets_or_deletes mixed_ops /\ no_collision (hpos wide_keys) mixed_ops /\ sets_before_deletes (hpos wide_keys) mixed_ops /\
  map seen (eouts (hpos wide_keys) (new_emb 16) mixed_ops) = map Some (mix_outs (hpos wide_keys) (edumps (hpos wide_keys) (new_emb 16) mixed_ops) m_empty mixed_ops) /\
  skipn 22 (map seen (eouts (hpos wide_keys) (new_emb 16) mixed_ops)) =
    map Some [RVal (GV 1 1) true; RVal GNil false; RBool true; RBool true; RVal GNil false; RVal GNil false; RVal (GV 1 7) true; RLen 21] /\
  (List.length (edump (new_emb 16)) < List.length (edump (erun (hpos wide_keys) (new_emb 16) mixed_ops)))%nat.
Proof.
  split; [|split; [apply nocol_ok; vm_compute; reflexivity|split; [apply sbd_ok; vm_compute; reflexivity|split; [vm_compute; reflexivity|split; [vm_compute; reflexivity|vm_compute; lia]]]]].
  apply Forall_forall. intros o Ho. unfold mixed_ops in Ho. rewrite !in_app_iff in Ho. unfold sets_or_deletes. destruct Ho as [Ho|[Ho|Ho]].
  - cbn [In] in Ho. destruct Ho as [<-|[<-|[<-|[<-|[<-|[]]]]]]; solve [left; cbn; eauto|right; eexists; left; reflexivity|right; eexists; right; reflexivity].
  - apply in_map_iff in Ho as (i & <- & _). left. cbn. eauto.
  - cbn [In] in Ho. destruct Ho as [<-|[<-|[<-|[<-|[<-|[<-|[<-|[<-|[]]]]]]]]]; solve [left; cbn; eauto|right; eexists; left; reflexivity|right; eexists; right; reflexivity].
Qed.
(** Delete of a leaves it readable (the first of its bucket); the Set goes to another bucket, and a stays readable *)
Example C42_mixed_case :
  let os := [set_ "a" 1; set_ "b" 2; del_ "a"] in let os' := os ++ [OpSet (KStr (str 1)) (GV 1 9)] in let h := hpos wide_keys in
  let s := erun h (new_emb 16) os in let s' := fst (estep h s (OpSet (KStr (str 1)) (GV 1 9))) in
  mix_ok h (edumps h (new_emb 16) os') m_empty os' /\ existsb stops (eouts h (new_emb 16) os) = false /\
  snd (estep h s (OpSet (KStr (str 1)) (GV 1 9))) = Ret (RBool true) /\
  snd (estep h s (get_ "a")) = Ret (RVal (GV 1 1) true) /\ snd (estep h s' (get_ "a")) = Ret (RVal (GV 1 1) true).
Proof.
  cbv zeta. split; [|split; [vm_compute; reflexivity|split; [vm_compute; reflexivity|split; vm_compute; reflexivity]]].
  refine (proj1 (C68_sixteenths (hpos wide_keys) 16 _ ltac:(lia) _ _ _)).
  - apply Forall_forall. intros o Ho. cbn [In app] in Ho. destruct Ho as [<-|[<-|[<-|[<-|[]]]]]; solve [left; cbn; eauto|right; eexists; left; reflexivity].
  - apply nocol_ok. vm_compute. reflexivity.
  - apply sbd_ok. vm_compute. reflexivity.
Qed.
