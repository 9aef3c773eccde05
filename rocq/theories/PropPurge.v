(** C23: Delete and Purge after any history of Sets, in the embedded mode. Specification: PurgeSpec.v (the buckets as lists). *)
From Verif Require Import Base BaseProofs Util UtilProofs Bucket TrieProofs TrieInv TrieGrow MapModel ItemProofs MapInv MapSplit
  MapInit Spec MapRefine EmbModel EmbPool EmbTrie EmbInv EmbSplit EmbSpec EmbRefine EmbDel EmbTop PurgeSpec EmbPurge PropEmb PropHang.
From Coq Require Import ZifyBool Sorted Ascii String.
Local Open Scope Z_scope.
Local Open Scope list_scope.
Local Opaque reverse64 level_of base find_bucket.

(** [l]: what is stored after the Sets, by position; [ops]: Deletes, Purges, reads, and Sets of keys that can be read *)
Theorem C23_purges : forall h max os ops l, 16 <= max -> Forall store_or_read os -> no_collision h os ->
  let s := erun h (new_emb max) os in let m := sm_run h (sm_empty KSample) os in
  lists m l -> creates_none h (edump s) (sm_created m) l ops ->
  agree (eouts h (new_emb max) (os ++ ops)) (sm_outs h (sm_empty KSample) os ++ purge_outs h (edump s) (sm_created m) l ops).
Proof.
  intros h max os ops l HM HF HN s m HL HC.
  destruct (erun_agrees h os _ _ (new_emb_rel max HM) HF) as (A1 & A2 & _); auto.
  rewrite eouts_app. apply agree_app; auto.
  destruct (existsb stops (eouts h (new_emb max) os)) eqn:ES; [left; auto|right]. split; auto.
  destruct A2 as [A2|A2]; [unfold stopped in A2; congruence|].
  destruct (erel_prel _ _ l A2 HL) as (xl & R). exact (prun _ _ h xl ops _ _ l R HC).
Qed.
Print Assumptions C23_purges.

(** such a list exists after every history of Sets *)
Fixpoint insert (e : ent) (l : list ent) : list ent :=
  match l with [] => [e] | x :: r => if e_pos e <? e_pos x then e :: l else x :: insert e r end.
Lemma insert_in e l : forall x, In x (insert e l) <-> x = e \/ In x l.
Proof. induction l as [|a l IH]; intros x; cbn [insert In]; [intuition congruence|]. destruct (e_pos e <? e_pos a); cbn [In]; [intuition congruence|]. rewrite IH. tauto. Qed.
Lemma insert_sorted e l : StronglySorted Z.lt (map e_pos l) -> (forall x, In x l -> e_pos x <> e_pos e) -> StronglySorted Z.lt (map e_pos (insert e l)).
Proof.
  induction l as [|a l IH]; intros S H; cbn [insert map]; [repeat constructor|]. cbn [map] in S. inversion S as [|? ? S1 S2]; subst. destruct (Z.ltb_spec (e_pos e) (e_pos a)); cbn [map].
  - constructor; auto. constructor; auto. eapply Forall_impl; [|exact S2]. cbn. intros; lia.
  - constructor; [apply IH; auto; intros x Hx; apply H; cbn; auto|]. apply Forall_forall. intros z Hz. apply in_map_iff in Hz as (x & <- & Hx). apply insert_in in Hx as [->|Hx].
    + specialize (H a (or_introl eq_refl)). lia.
    + rewrite Forall_forall in S2. apply S2. apply in_map. auto.
Qed.
Theorem C23_listed : forall h os, Forall store_or_read os -> no_collision h os -> exists l, lists (sm_run h (sm_empty KSample) os) l.
Proof.
  intros h os. induction os as [|o os IH] using rev_ind; intros HF HN.
  - exists []. constructor.
    + intros i j x y Hi. destruct i; discriminate.
    + intros k c b _. cbn. split; [discriminate|tauto].
    + intros e [].
  - apply Forall_app in HF as [HF HO]. inversion HO as [|? ? HO1 _]; subst. destruct IH as (l & [L1 L2 L3]); auto.
    { intros o1 o2 k c c' H1 H2. apply HN; apply in_or_app; auto. }
    rewrite sm_run_snoc. set (m := sm_run h (sm_empty KSample) os) in *.
    assert (SAME : fst (sm_step h m o) = m -> exists l, lists (fst (sm_step h m o)) l) by (intros ->; exists l; constructor; auto).
    destruct o as [key v|i|key|k c|key|k c|key|key|]; try contradiction; try (apply SAME; reflexivity).
    destruct HO1 as (x & ->). cbn [sm_step]. destruct (key_to_hash h (KStr x)) as [[k c]|] eqn:EK; [|discriminate].
    pose proof (proj1 (key_range _ _ _ _ EK)) as Hk. rewrite W64_val in Hk.
    assert (PO : forall e, In e l -> fst (e_hash e) = k -> e_hash e = (k, c)).
    { intros e He E. destruct e as [[k1 c1] b d]. cbn [e_hash fst] in *. subst k1. f_equal.
      destruct (L3 _ He) as [D _]. cbn [e_dead] in D. subst d. apply (L2 k c1 b Hk) in He.
      destruct (run_written h os (sm_empty KSample) k c1) as (o' & H1 & H2); [reflexivity|fold m; congruence|]. symmetry.
      apply (HN (OpSet (KStr x) v) o' k c c1); auto; apply in_or_app; cbn; auto. }
    apply pos_sorted in L1.
    assert (PE : forall e, In e l -> e_pos e = reverse64 k -> e_hash e = (k, c)).
    { intros e He E. apply PO; auto. unfold e_pos in E. apply reverse64_inj in E; [auto|rewrite W64_val; apply (L3 e He)|rewrite W64_val; auto]. }
    destruct (sm_map m (k, c)) as [b|] eqn:EM.
    + unfold sm_update. destruct (assign (sm_view m) (bd_val b) v) as [[v' ok]|]; cbn [fst]; [|exists l; constructor; auto; apply sorted_nth; auto].
      set (b' := mkBd (bd_kind b) (bd_key b) v'). exists (change (set_bd b') (k, c) l).
      assert (IN : In (mkE (k, c) b false) l) by (apply L2; auto). constructor.
      * apply sorted_nth. unfold change. rewrite map_map. rewrite (map_ext _ e_pos); auto. intros e. destruct (pair_eqb _ _); auto.
      * intros k1 c1 b1 Hk1. cbn [sm_map]. rewrite sm_put_eq. unfold change. rewrite in_map_iff. destruct (pair_eqb_spec (k, c) (k1, c1)) as [E|N].
        -- injection E as <- <-. split.
           ++ intros E. injection E as <-. exists (mkE (k, c) b false). cbn [e_hash]. rewrite pair_eqb_refl. auto.
           ++ intros (e & E & He). destruct (pair_eqb (e_hash e) (k, c)) eqn:Q; [injection E as _ E _; congruence|]. rewrite E in Q. cbn [e_hash] in Q. rewrite pair_eqb_refl in Q. discriminate.
        -- rewrite (L2 k1 c1 b1 Hk1). split.
           ++ intros He. exists (mkE (k1, c1) b1 false). split; auto. cbn [e_hash]. destruct (pair_eqb (k1, c1) (k, c)) eqn:Q; auto. apply same_hash in Q. congruence.
           ++ intros (e & E & He). destruct (pair_eqb (e_hash e) (k, c)) eqn:Q; [|congruence]. apply same_hash in Q. injection E as E _ _. congruence.
      * intros e He. unfold change in He. apply in_map_iff in He as (e0 & <- & He). destruct (L3 e0 He). destruct (pair_eqb _ _); auto.
    + cbn [fst]. exists (insert (mkE (k, c) (mkBd KSample (KStr x) v) false) l). constructor.
      * apply sorted_nth. apply insert_sorted; auto. intros e He E. assert (EH := PE e He E). destruct e as [hh b d]. cbn [e_hash] in EH. subst hh. destruct (L3 _ He) as [D _]. cbn [e_dead] in D. subst d. apply (L2 k c b Hk) in He. congruence.
      * intros k1 c1 b1 Hk1. cbn [sm_map]. rewrite sm_put_eq, insert_in. destruct (pair_eqb_spec (k, c) (k1, c1)) as [E|N].
        -- injection E as <- <-. split; [intros E; injection E as <-; auto|]. intros [E|He]; [injection E as <-; auto|]. apply (L2 k c b1 Hk) in He. congruence.
        -- rewrite (L2 k1 c1 b1 Hk1). split; auto. intros [E|He]; auto. congruence.
      * intros e He. apply insert_in in He as [->|He]; auto.
Qed.
Print Assumptions C23_listed.

(** * What the list says of losses *)
Lemma pos_unique l a b : StronglySorted Z.lt (map e_pos l) -> In a l -> In b l -> e_hash a = e_hash b -> a = b.
Proof.
  intros S A B E. assert (EP : e_pos a = e_pos b) by (unfold e_pos; rewrite E; auto). clear E. induction l as [|x l IH]; [destruct A|]. cbn [map] in S. inversion S as [|? ? S1 S2]; subst. rewrite Forall_forall in S2.
  destruct A as [->|A], B as [->|B]; auto.
  - pose proof (S2 _ (in_map e_pos _ _ B)). lia.
  - pose proof (S2 _ (in_map e_pos _ _ A)). lia.
Qed.
Lemma entry_some l p e : entry l p = Some e -> In e l /\ e_hash e = p.
Proof. intros H. apply find_some in H as [A B]. split; auto. apply same_hash. auto. Qed.
Lemma entry_change g p p' l : (forall e, e_hash (g e) = e_hash e) -> p <> p' -> entry (change g p l) p' = entry l p'.
Proof.
  intros G N. unfold entry, change. induction l as [|x l IH]; cbn [map find]; auto. destruct (pair_eqb (e_hash x) p) eqn:E; auto.
  - rewrite G. destruct (pair_eqb (e_hash x) p') eqn:E2; auto. apply same_hash in E, E2. congruence.
  - destruct (pair_eqb (e_hash x) p'); auto.
Qed.
Lemma first_change bs g p l e : (forall e, e_hash (g e) = e_hash e) -> is_first bs (change g p l) e = is_first bs l e.
Proof.
  intros G. unfold is_first. assert (CB : bucket_of bs (change g p l) (e_pos e) = change g p (bucket_of bs l (e_pos e))).
  { unfold bucket_of, change. apply filter_map_same. intros x. unfold e_pos. destruct (pair_eqb (e_hash x) p); [rewrite G|]; auto. }
  rewrite CB. destruct (bucket_of bs l (e_pos e)) as [|x r]; auto. cbn [change map]. unfold same_entry. destruct (pair_eqb (e_hash x) p); [rewrite G|]; auto.
Qed.
(** A Purge that finds its key makes another readable key unreadable exactly when its own key is the last of its bucket, the one
    before it is marked, and the other key is that one or the one before it. *)
Theorem C23_lost : forall h bs n l key p p' b,
  (forall i j x y, nth_error l i = Some x -> nth_error l j = Some y -> (i < j)%nat -> e_pos x < e_pos y) ->
  key_to_hash h key = Some p -> present bs l p = true -> p <> p' -> visible bs l p' = Some b ->
  (visible bs (next_entries h bs n l (OpPurge key)) p' = None <->
   exists e e' d rest, e_hash e = p /\ e_hash e' = p' /\ e_dead d = true /\ rev (bucket_of bs l (e_pos e)) = e :: d :: rest /\ (e' = d \/ exists rest', rest = e' :: rest')).
Proof.
  intros h bs n l key p p' b SO EK PR NP EV. apply pos_sorted in SO. cbn [next_entries]. rewrite EK, PR.
  unfold present in PR. destruct (visible bs l p) as [bp|] eqn:EVp; [|discriminate]. unfold visible in EVp. destruct (entry l p) as [e|] eqn:EE; [|discriminate]. clear EVp PR.
  destruct (entry_some _ _ _ EE) as [He Hp]. unfold visible in EV. destruct (entry l p') as [e'|] eqn:EE'; [|discriminate]. destruct (entry_some _ _ _ EE') as [He' Hp'].
  unfold purged. destruct (is_last bs l e) eqn:EL.
  2:{ split.
      - intros H. exfalso. unfold visible in H. rewrite Hp in H. rewrite entry_change, EE', first_change in H by auto. destruct (negb (e_dead e') || is_first bs l e'); discriminate.
      - intros (e0 & e1 & d & rest & H1 & H2 & H3 & H4 & _). exfalso. unfold is_last in EL. assert (EP : e_pos e = e_pos e0) by (unfold e_pos; rewrite H1, Hp; auto). rewrite EP, H4 in EL. unfold same_entry in EL. rewrite H1, Hp, pair_eqb_refl in EL. discriminate. }
  assert (BU : forall x, In x (rev (bucket_of bs l (e_pos e))) -> In x l). { intros x Hx. apply in_rev in Hx. unfold bucket_of in Hx. apply filter_In in Hx. tauto. }
  assert (V : visible bs (without (taken_off bs l e) l) p' = None <-> existsb (same_entry e') (taken_off bs l e) = true).
  { set (G := taken_off bs l e). destruct (existsb (same_entry e') G) eqn:EX.
    - split; auto. intros _. unfold visible. destruct (entry (without G l) p') as [z|] eqn:EZ; auto. exfalso. destruct (entry_some _ _ _ EZ) as [Hz Hzp]. unfold without in Hz. apply filter_In in Hz as [Hz N].
      assert (z = e') by (apply (pos_unique l); auto; congruence). subst z. rewrite EX in N. discriminate.
    - split; [|discriminate]. intros H. exfalso. unfold visible in H.
      assert (EZ : entry (without G l) p' = Some e').
      { unfold entry. apply find_unique; [apply filter_In; split; auto; rewrite EX; auto|rewrite Hp'; apply pair_eqb_refl|]. intros z Hz Q. apply filter_In in Hz as [Hz _]. apply same_hash in Q. apply (pos_unique l); auto. congruence. }
      rewrite EZ in H. assert (FI : is_first bs l e' = true -> is_first bs (without G l) e' = true).
      { unfold is_first. assert (CB : bucket_of bs (without G l) (e_pos e') = without G (bucket_of bs l (e_pos e'))) by apply filter_filter. rewrite CB. destruct (bucket_of bs l (e_pos e')) as [|x r] eqn:EB; [auto|]. intros Q.
        assert (x = e'). { apply same_hash in Q. apply (pos_unique l); auto. assert (X : In x (bucket_of bs l (e_pos e'))) by (rewrite EB; cbn; auto). apply filter_In in X. tauto. }
        subst x. cbn [without filter]. rewrite EX. cbn [negb]. apply pair_eqb_refl. }
      destruct (e_dead e'); cbn [negb orb] in *; [|discriminate]. destruct (is_first bs l e'); [rewrite FI in H by auto; discriminate|discriminate]. }
  rewrite V. clear V. unfold taken_off. unfold is_last in EL. destruct (rev (bucket_of bs l (e_pos e))) as [|x r] eqn:ER; [discriminate|]. assert (x = e) by (apply (pos_unique l); auto; [apply BU; cbn; auto|apply same_hash; auto]). subst x.
  assert (SE : same_entry e' e = false). { unfold same_entry. destruct (pair_eqb _ _) eqn:Q; auto. apply same_hash in Q. congruence. }
  assert (HX : forall e0, e_hash e0 = p -> bucket_of bs l (e_pos e0) = bucket_of bs l (e_pos e)). { intros e0 E0. unfold e_pos. rewrite E0, Hp. auto. }
  destruct r as [|d rest].
  - cbn [existsb]. rewrite SE. split; [discriminate|]. intros (e0 & e1 & d & rest & H1 & _ & _ & H4 & _). rewrite (HX e0 H1), ER in H4. discriminate.
  - destruct (e_dead d) eqn:D; cbn [existsb]; rewrite SE; cbn [orb].
    + split.
      * intros H. exists e, e', d, rest. split; auto. split; auto. split; auto. split; auto. apply orb_true_iff in H as [H|H].
        -- left. apply (pos_unique l); auto; [apply BU; cbn; auto|apply same_hash; auto].
        -- right. destruct rest as [|z rest]; [discriminate|]. cbn in H. rewrite orb_false_r in H. exists rest. f_equal. symmetry. apply (pos_unique l); auto; [apply BU; cbn; auto|apply same_hash; auto].
      * intros (e0 & e1 & d0 & rest0 & H1 & H2 & H3 & H4 & H5). rewrite (HX e0 H1), ER in H4. injection H4 as <- <- <-.
        assert (SS : same_entry e' e1 = true) by (unfold same_entry; rewrite Hp', H2; apply pair_eqb_refl). destruct H5 as [<-|(rest' & ->)]; [rewrite SS; auto|]. cbn. rewrite SS. apply orb_true_iff. right. auto.
    + split; [discriminate|]. intros (e0 & e1 & d0 & rest0 & H1 & _ & H3 & H4 & _). rewrite (HX e0 H1), ER in H4. injection H4 as _ <- _. congruence.
Qed.
Print Assumptions C23_lost.

(** * Cases *)
Definition ent_ (k : string) (z v : Z) := mkE (reverse64 z, 1) (mkBd KSample (KStr k) (GV 1 v)) false.
Definition three := [set_ "a" 1; set_ "b" 2; set_ "c" 3].
Definition three_l := [ent_ "a" 10 1; ent_ "b" 20 2; ent_ "c" 30 3].
Definition eqb_gval (a b : gval) : bool := gval_eqb a b.
Lemma listed3 (r1 r2 r3 k c : Z) (b1 b2 b3 b : binding) : r1 <> r2 -> r2 <> r3 -> r1 <> r3 ->
  ((if pair_eqb (r3, 1) (k, c) then Some b3 else if pair_eqb (r2, 1) (k, c) then Some b2 else if pair_eqb (r1, 1) (k, c) then Some b1 else None) = Some b <->
   In (mkE (k, c) b false) [mkE (r1, 1) b1 false; mkE (r2, 1) b2 false; mkE (r3, 1) b3 false]).
Proof.
  intros N12 N23 N13. cbn [In]. destruct (pair_eqb (r3, 1) (k, c)) eqn:E3; [apply same_hash in E3; injection E3 as <- <-|].
  { split; [intros Q; injection Q as <-; auto|]. intros [Q|[Q|[Q|[]]]]; congruence. }
  destruct (pair_eqb (r2, 1) (k, c)) eqn:E2; [apply same_hash in E2; injection E2 as <- <-|].
  { split; [intros Q; injection Q as <-; auto|]. intros [Q|[Q|[Q|[]]]]; congruence. }
  destruct (pair_eqb (r1, 1) (k, c)) eqn:E1; [apply same_hash in E1; injection E1 as <- <-|].
  { split; [intros Q; injection Q as <-; auto|]. intros [Q|[Q|[Q|[]]]]; congruence. }
  split; [discriminate|]. intros [Q|[Q|[Q|[]]]]; injection Q as <- <- _; rewrite pair_eqb_refl in *; discriminate.
Qed.
Local Transparent reverse64.
Lemma three_lists : lists (sm_run (hpos five) (sm_empty KSample) three) three_l.
Proof.
  constructor.
  - apply sorted_nth. vm_compute. repeat constructor.
  - intros k c b Hk.
    assert (M : forall p, sm_map (sm_run (hpos five) (sm_empty KSample) three) p =
      if pair_eqb (reverse64 30, 1) p then Some (mkBd KSample (KStr "c") (GV 1 3)) else if pair_eqb (reverse64 20, 1) p then Some (mkBd KSample (KStr "b") (GV 1 2)) else if pair_eqb (reverse64 10, 1) p then Some (mkBd KSample (KStr "a") (GV 1 1)) else None).
    { intros p. vm_compute. reflexivity. }
    rewrite M. clear M. unfold three_l, ent_. apply listed3; intros Q; revert Q; apply Z.eqb_neq; vm_compute; reflexivity.
  - intros e He. cbn [three_l In] in He. destruct He as [<-|[<-|[<-|[]]]]; (split; [reflexivity|]); vm_compute; split; discriminate || reflexivity.
Qed.
(** Purge b marks it; Purge c, the last, takes b and a with it; a Set of a readable key and a Delete before *)
Example C23_purges_case :
  let ops := [set_ "a" 7; del_ "a"; get_ "a"; pur_ "b"; get_ "b"; get_ "c"; pur_ "c"; get_ "c"; get_ "a"; pur_ "a"] in
  let s := erun (hpos five) (new_emb 32) three in
  Forall store_or_read three /\ no_collision (hpos five) three /\ lists (sm_run (hpos five) (sm_empty KSample) three) three_l /\
  creates_none (hpos five) (edump s) 3 three_l ops /\
  purge_outs (hpos five) (edump s) 3 three_l ops = [RBool true; RBool true; RVal (GV 1 7) true; RBool true; RVal GNil false; RVal (GV 1 3) true; RBool true; RVal GNil false; RVal GNil false; RBool false] /\
  map seen (skipn 3 (eouts (hpos five) (new_emb 32) (three ++ ops))) = map Some (purge_outs (hpos five) (edump s) 3 three_l ops).
Proof.
  cbv zeta. split; [apply sor_ok; reflexivity|]. split; [apply nocol_ok; vm_compute; reflexivity|]. split; [exact three_lists|]. split; [|split; vm_compute; reflexivity].
  split; [exists (reverse64 10, 1); split; vm_compute; reflexivity|]. repeat (split; [exact I|]). exact I.
Qed.
