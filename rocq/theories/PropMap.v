(** Property theorems about the default map: C05-C17, C19. The model is MapModel.v, the
    specification vocabulary Spec.v. *)
From Verif Require Import Base BaseProofs Util UtilProofs Bucket TrieProofs TrieInv TrieGrow MapModel ItemProofs
  MapInv MapSplit MapStep MapInit Spec MapRefine MapAny MapSafe MapMore Checks.
From Coq Require Import ZifyBool Sorted.
Local Open Scope Z_scope.
Local Opaque reverse64 level_of base find_bucket.

(** hash functions and keys for the examples *)
Definition hx : hashes :=
  mkH (fun s => Z.of_nat (String.length s) * 0x9e3779b97f4a7c15) (fun s => 7 + Z.of_nat (String.length s)).
Definition st (z v : Z) : op := OpStore (new_entry (KU64 z) (GV 1 v)).

Lemma safe_app h os o : Forall (safe_op h) (os ++ [o]) -> Forall (safe_op h) os /\ safe_op h o.
Proof. intros H. apply Forall_app in H as [H1 H2]. inversion H2; auto. Qed.
Lemma clean_app h k c os1 : forall s os2, clean h s k c (os1 ++ os2) -> clean h s k c os1 /\ clean h (run h s os1) k c os2.
Proof.
  induction os1 as [|o os1 IH]; intros s os2; cbn [app clean run]; auto.
  intros [H1 H2]. destruct (IH _ _ H2). auto.
Qed.
Lemma run_app h os1 : forall s os2, run h s (os1 ++ os2) = run h (run h s os1) os2.
Proof. induction os1 as [|o os1 IH]; intros s os2; cbn [app run]; auto. Qed.
Lemma assign_true view old v v' : assign view old v = Some (v', true) -> v' = v.
Proof.
  destruct view; cbn; [|intros X; inversion X; auto].
  destruct (gval_eqb v GNil); [discriminate|]. destruct (_ || _); [|discriminate]. intros X; inversion X; auto.
Qed.

(** * C05: read your writes *)
Lemma reads_value h s k c e : sinv s -> slot s k c -> 0 <= k < W64 -> 0 <= c < W64 -> slot_val s k = Some e ->
  snd (step h s (OpGetByHash k c)) = RVal (e_val e) true /\
  (exists kv, snd (step h s (OpLoadByHash k c)) = RItem (Some (kv, e_val e))) /\
  forall key, key_to_hash h key = Some (k, c) ->
    snd (step h s (OpGet key)) = RVal (e_val e) true /\
    exists kv, snd (step h s (OpLoad key)) = RItem (Some (kv, e_val e)).
Proof.
  intros I S Hk Hc V. pose proof (get_spec s k c I) as G. pose proof (load_spec s k c I) as L.
  split; [|split].
  - rewrite get_by_hash by auto. rewrite (slot_get s k c _ S G), V. auto.
  - cbn [step]. unfold u64. rewrite !Z.mod_small by (rewrite W64_val in *; auto).
    rewrite (slot_item s k c _ S G), V. cbn. eauto.
  - intros key K. cbn [step]. unfold with_key. rewrite K.
    rewrite (slot_get s k c _ S G), (slot_item s k c _ S L), V. cbn. eauto.
Qed.
Lemma effect_slot_val h s s' o k c : sinv s -> 0 <= k < W64 -> 0 <= c < W64 -> fresh_item o ->
  effect h s s' o (RBool true) -> slot s k c -> slot s' k c -> writes h o = Some (k, c) -> clean_op h s k c o ->
  exists e, slot_val s' k = Some e /\ e_val e = written o.
Proof.
  intros I Hk Hc Fr E S S' W Cl.
  destruct E as [E N _ _|k1 c2 l e r' v' ok W' Ei HL HR HC As _ -> E|k1 c2 l e r' D T' Ei HL HR HC -> _
                |k1 c2 i s0 W' L _ Fi Vi _ I0 E0 E1 E2 _ E5 A _].
  - congruence.
  - rewrite W in W'. inversion W'; subst k1 c2. inversion E; subst ok. apply assign_true in As. subst v'.
    unfold slot_val. cbn [set_items m_items].
    destruct S as [C SL].
    assert (Hin : In e (live_at (reverse64 k) (m_items s))).
    { apply live_at_in. rewrite Ei. split; [apply in_or_app; right; left; auto|auto]. }
    destruct SL as [E0|(x & E0 & Ex)]; rewrite E0 in Hin; [destruct Hin|destruct Hin as [->|[]]].
    rewrite Ei in E0. rewrite (live_at_replace_same _ _ _ (set_e_val e (written o)) _ E0 HL HR); auto.
    change (live (set_e_val e (written o))) with (live e). rewrite HL. cbn. eauto.
  - destruct o; discriminate.
  - rewrite W in W'. inversion W'; subst k1 c2. destruct (Fi Fr) as (F1 & F2 & F3).
    exists (entry_of i k c). split; [|exact Vi]. unfold slot_val.
    destruct (Cl _ _ W eq_refl) as [_ NB].
    destruct (slot_load s k c I S) as (z & L' & P). rewrite L in L'. inversion L'; subst z.
    destruct (slot_val s k) as [e|] eqn:SV; [destruct P as (l & r0 & X & _); discriminate|].
    destruct NB as [NB|(v & Hv)].
    + destruct (added_same s0 s' (entry_of i k c) (reverse64 k)) as [L1 _]; auto.
      * apply (sv_sorted _ I0).
      * cbn. rewrite F1. auto.
      * cbn. unfold live, ignored. cbn. rewrite F3. auto.
      * rewrite E0. intros d. apply dummy_boundary; auto.
      * rewrite E0. eapply slot_val_none; eauto.
      * rewrite L1. auto.
    + exfalso. rewrite get_by_hash in Hv by auto.
      rewrite (slot_get s k c) in Hv; auto; [|apply get_spec; auto]. rewrite SV in Hv. cbn in Hv. discriminate.
Qed.

Theorem C05_read_your_writes : forall h view max mode pool os o k c,
  let s := run h (new_map view max mode pool) os in
  Forall (safe_op h) (os ++ [o]) -> Forall fresh_item (os ++ [o]) ->
  clean h (new_map view max mode pool) k c (os ++ [o]) -> writes h o = Some (k, c) ->
  snd (step h s o) = RBool true ->
  let s' := fst (step h s o) in
  snd (step h s' (OpGetByHash k c)) = RVal (written o) true /\
  (exists kv, snd (step h s' (OpLoadByHash k c)) = RItem (Some (kv, written o))) /\
  forall key, key_to_hash h key = Some (k, c) ->
    snd (step h s' (OpGet key)) = RVal (written o) true /\
    exists kv, snd (step h s' (OpLoad key)) = RItem (Some (kv, written o)).
Proof.
  intros h view max mode pool os o k c s F1 F2 Cl W R s'.
  apply safe_app in F1 as [F1 SO]. apply Forall_app in F2 as [F2 Fo]. apply Forall_inv in Fo.
  apply clean_app in Cl as [Cl [Co _]].
  destruct (touches_range h o k c (writes_touches _ _ _ W)) as [Hk Hc].
  destruct (run_slot h k c Hk Hc os _ (new_map_sinv view max mode pool) (new_map_slot _ _ _ _ k c) F1 F2 Cl) as [I S].
  fold s in I, S. pose proof (step_effect h s o I SO) as E. fold s' in E. rewrite R in E.
  assert (I' : sinv s') by (eapply effect_sinv; eauto).
  assert (S' : slot s' k c) by (eapply (slot_step h s s' o _ k c); eauto).
  destruct (effect_slot_val h s s' o k c I Hk Hc Fo E S S' W Co) as (e & V & <-).
  apply reads_value; auto.
Qed.
Print Assumptions C05_read_your_writes.

(** the hypotheses are met by a history with splits (bucket size 1), a deletion and an update *)
Example C05_case :
  let os := [st 21 1; st 22 2; st 53 3; st 85 4; st 117 5; OpDelete (KInt 22); st 22 6] in
  Forall (safe_op hx) (os ++ [st 21 9]) /\ Forall fresh_item (os ++ [st 21 9]) /\
  clean hx (new_map KEntry 1 CombineSearch4 false) 21 0 (os ++ [st 21 9]) /\
  List.length (dump_bucket (run hx (new_map KEntry 1 CombineSearch4 false) os)) = 21%nat /\
  snd (step hx (run hx (new_map KEntry 1 CombineSearch4 false) os) (st 21 9)) = RBool true.
Proof.
  cbv zeta. split; [|split; [|split; [|split]]].
  - safe_tac.
  - fresh_tac.
  - clean_tac.
  - vm_compute. reflexivity.
  - vm_compute. reflexivity.
Qed.

(** * C06: boundary keys are lost *)
Lemma never_written h view max mode pool os k : 0 <= k < W64 -> Forall fresh_item os ->
  (forall o' c', In o' os -> writes h o' <> Some (k, c')) ->
  live_at (reverse64 k) (m_items (run h (new_map view max mode pool) os)) = [].
Proof.
  intros Hk F N.
  pose proof (run_came_from h os [] _ F (new_map_inv0 _ view max mode pool)) as [(_ & _ & Q) _]. cbn [app] in Q.
  destruct (live_at _ _) as [|e L] eqn:E; auto. exfalso.
  assert (X : In e (live_at (reverse64 k) (m_items (run h (new_map view max mode pool) os)))) by (rewrite E; left; auto).
  apply live_at_in in X as (X1 & X2 & X3).
  destruct (Q e X1 (live_not_dummy _ X2)) as (o & k1 & c1 & O1 & O2 & O3 & _).
  destruct (touches_range h o k1 c1 (writes_touches _ _ _ O2)) as [Hk1 _].
  rewrite X3 in O3. apply reverse64_inj in O3; auto. subst k1. exact (N o c1 O1 O2).
Qed.

Theorem C06_boundary_keys_are_lost : forall h view max mode pool os o k c,
  let s := run h (new_map view max mode pool) os in
  let s' := fst (step h s o) in
  Forall (safe_op h) (os ++ [o]) -> Forall fresh_item (os ++ [o]) ->
  writes h o = Some (k, c) -> (forall o' c', In o' os -> writes h o' <> Some (k, c')) ->
  In (reverse64 k) (dump_bucket s) -> k < 2 ^ 60 ->
  snd (step h s o) = RBool true ->
  snd (step h s' (OpGetByHash k c)) = RVal GNil false /\
  forall key, key_to_hash h key = Some (k, c) ->
    snd (step h s' (OpGet key)) = RVal GNil false /\
    snd (step h s' (OpLoad key)) = RItem None /\
    snd (step h s' (OpDelete key)) = RBool false.
Proof.
  intros h view max mode pool os o k c s s' F1 F2 W N D Hlt R.
  apply safe_app in F1 as [F1 SO]. apply Forall_app in F2 as [F2 Fo]. apply Forall_inv in Fo.
  destruct (touches_range h o k c (writes_touches _ _ _ W)) as [Hk Hc].
  assert (L0 : live_at (reverse64 k) (m_items s) = []) by (apply never_written; auto).
  assert (I : sinv s) by (apply run_sinv; auto; apply new_map_sinv).
  pose proof (step_effect h s o I SO) as E. fold s' in E. rewrite R in E.
  assert (I' : sinv s') by (eapply effect_sinv; eauto).
  assert (D' : In (reverse64 k) (dump_bucket s')) by exact (effect_dump h s s' o _ _ I E D).
  assert (D16 : (16 | reverse64 k)).
  { change 16 with (2 ^ (64 - 60)). rewrite <- reverse_lt_divide; [|apply reverse64_range|lia].
    rewrite reverse64_involutive; auto. }
  assert (B : behind (reverse64 k) (m_items s')).
  { destruct E as [_ E _ _|k1 c2 l e r' v' ok W' Ei HL HR HC As _ _ E|k1 c2 l e r' D1 _ _ _ _ _ _ _
                  |k1 c2 i s0 W' L _ Fi Vi _ I0 E0 E1 E2 _ E5 A _].
    - congruence.
    - rewrite W in W'. inversion W'; subst k1 c2.
      assert (X : In e (live_at (reverse64 k) (m_items s))).
      { apply live_at_in. rewrite Ei. split; [apply in_or_app; right; left; auto|auto]. }
      rewrite L0 in X. destruct X.
    - destruct o; discriminate.
    - rewrite W in W'. inversion W'; subst k1 c2. destruct (Fi Fo) as (G1 & _ & _).
      eapply behind_added; [apply (sv_sorted _ I0)|exact A| | | |].
      + cbn [entry_of e_rev]. rewrite G1. reflexivity.
      + reflexivity.
      + rewrite E0. destruct (proj1 (dump_iff s _ I) D) as (d & X1 & X2 & X3).
        rewrite <- X3. apply in_map, filter_In. auto.
      + rewrite E0. exact L0. }
  destruct (behind_get s' k c I' D' D16 B) as [G L].
  rewrite get_by_hash, G by auto. split; [reflexivity|]. intros key K. cbn [step]. unfold with_key, delete.
  rewrite K, G, L. auto.
Qed.
Print Assumptions C06_boundary_keys_are_lost.

(** the hypotheses are met by a map whose bucket was split by the first five keys; 5 is then a boundary *)
Example C06_case :
  let os := [st 21 1; st 22 2; st 53 3; st 85 4; st 117 5] in
  Forall (safe_op hx) (os ++ [st 1 9]) /\ Forall fresh_item (os ++ [st 1 9]) /\
  (forall o' c', In o' os -> writes hx o' <> Some (1, c')) /\
  In (reverse64 1) (dump_bucket (run hx (new_map KEntry 1 CombineSearch4 false) os)) /\
  snd (step hx (run hx (new_map KEntry 1 CombineSearch4 false) os) (st 1 9)) = RBool true.
Proof.
  cbv zeta. split; [|split; [|split; [|split]]].
  - safe_tac.
  - fresh_tac.
  - intros o' c' H. repeat (destruct H as [<-|H]; [vm_compute; discriminate|]). destruct H.
  - vm_compute. tauto.
  - vm_compute. reflexivity.
Qed.

(** Exactly: an acknowledged write of a new key can be read back iff the position of the key was no bucket boundary. *)
Lemma unwritten_clean h k c os : forall s, (forall o' c', In o' os -> writes h o' <> Some (k, c')) -> clean h s k c os.
Proof.
  induction os as [|o os IH]; intros s N; cbn [clean]; [exact I|]. split; [|apply IH; intros o' c' H; apply N; right; auto].
  intros k1 c1 W ->. exfalso. exact (N o c1 (or_introl eq_refl) W).
Qed.
Lemma clean_then h k c o os : forall s, clean h s k c os -> clean_op h (run h s os) k c o -> clean h s k c (os ++ [o]).
Proof.
  induction os as [|o' os IH]; intros s C D; cbn [app clean run] in *; [split; [exact D|exact I]|]. destruct C. auto.
Qed.
Theorem C06_new_key_readable_iff : forall h view max mode pool os o k c,
  let s := run h (new_map view max mode pool) os in
  let g := snd (step h (fst (step h s o)) (OpGetByHash k c)) in
  Forall (safe_op h) (os ++ [o]) -> Forall fresh_item (os ++ [o]) ->
  writes h o = Some (k, c) -> (forall o' c', In o' os -> writes h o' <> Some (k, c')) -> k < 2 ^ 60 ->
  snd (step h s o) = RBool true ->
  (g = RVal (written o) true \/ g = RVal GNil false) /\ (g = RVal (written o) true <-> ~ In (reverse64 k) (dump_bucket s)).
Proof.
  intros h view max mode pool os o k c s g F1 F2 W N Hlt R.
  destruct (in_dec Z.eq_dec (reverse64 k) (dump_bucket s)) as [B|B].
  - destruct (C06_boundary_keys_are_lost h view max mode pool os o k c F1 F2 W N B Hlt R) as [G _].
    change (g = RVal GNil false) in G. rewrite G. split; [auto|]. split; [discriminate|contradiction].
  - assert (C : clean h (new_map view max mode pool) k c (os ++ [o])).
    { apply clean_then; [apply unwritten_clean; auto|]. intros k1 c1 W' ->. rewrite W in W'. inversion W'. auto. }
    destruct (C05_read_your_writes h view max mode pool os o k c F1 F2 C W R) as [G _].
    change (g = RVal (written o) true) in G. rewrite G. split; [auto|]. split; auto.
Qed.
Print Assumptions C06_new_key_readable_iff.

(** The natural claim (no exceptions for boundary keys) is false: on a new map of any search mode
    StoreItem of key 1 returns true and Get(1) does not find it. *)
Definition acknowledged_writes_are_readable : Prop :=
  forall h view max mode pool os o k c,
    let s := run h (new_map view max mode pool) os in
    Forall (safe_op h) (os ++ [o]) -> Forall fresh_item (os ++ [o]) -> writes h o = Some (k, c) ->
    snd (step h s o) = RBool true ->
    snd (step h (fst (step h s o)) (OpGetByHash k c)) = RVal (written o) true.
Theorem C06_acknowledged_writes_are_readable_refuted : ~ acknowledged_writes_are_readable.
Proof.
  intros H. specialize (H hx KEntry 32 CombineSearch4 false [] (st 1 9) 1 0). cbv zeta in H.
  assert (X : RVal GNil false = RVal (written (st 1 9)) true).
  { transitivity (snd (step hx (fst (step hx (run hx (new_map KEntry 32 CombineSearch4 false) []) (st 1 9))) (OpGetByHash 1 0))).
    - vm_compute. reflexivity.
    - apply H; [safe_tac|fresh_tac|reflexivity|vm_compute; reflexivity]. }
  discriminate X.
Qed.
Print Assumptions C06_acknowledged_writes_are_readable_refuted.

(** * C07: the default map is a map *)
Theorem C07_default_map_is_a_map : forall h view max mode pool os,
  all_covered h (new_map view max mode pool) (sm_empty view) os ->
  outs h (new_map view max mode pool) os = sm_outs h (sm_empty view) os.
Proof. intros h view max mode pool os A. apply run_ok; auto. apply new_map_holds. Qed.
Print Assumptions C07_default_map_is_a_map.

Definition os7 : list op :=
  [st 21 1; st 22 2; st 53 3; st 85 4; OpGet (KInt 85); st 117 5; OpDelete (KInt 22); OpGet (KU64 22);
   st 22 6; st 21 7; OpSet (KStr "ab") (GV 2 1); OpSet (KStr "ab") (GV 3 1); OpLoad (KStr "ab"); OpLen; OpPurge (KU8 9)].
Example C07_case : all_covered hx (new_map KEntry 1 CombineSearch2 false) (sm_empty KEntry) os7.
Proof. unfold os7. cov_tac. Qed.

(** * C08: operations on one key do not disturb another *)
Lemma clean_snoc h k c o : forall os s, clean h s k c os -> clean_op h (run h s os) k c o -> clean h s k c (os ++ [o]).
Proof.
  induction os as [|a os IH]; intros s; cbn [app clean run]; [auto|]. intros [H1 H2] H3. split; auto.
Qed.
Lemma clean_state h view max mode pool os k c : 0 <= k < W64 -> 0 <= c < W64 ->
  Forall (safe_op h) os -> Forall fresh_item os -> clean h (new_map view max mode pool) k c os ->
  let s := run h (new_map view max mode pool) os in sinv s /\ slot s k c.
Proof.
  intros Hk Hc F1 F2 Cl. apply run_slot; auto using new_map_sinv, new_map_slot.
Qed.
Lemma slot_gets h s k c : sinv s -> slot s k c -> 0 <= k < W64 -> 0 <= c < W64 ->
  let r := match slot_val s k with Some e => RVal (e_val e) true | None => RVal GNil false end in
  snd (step h s (OpGetByHash k c)) = r /\
  forall key, key_to_hash h key = Some (k, c) -> snd (step h s (OpGet key)) = r.
Proof.
  intros I S Hk Hc. cbv zeta. pose proof (get_spec s k c I) as G. rewrite get_by_hash by auto.
  rewrite (slot_get s k c _ S G). split; [reflexivity|]. intros key K. cbn [step]. unfold with_key. rewrite K.
  rewrite (slot_get s k c _ S G). reflexivity.
Qed.

Theorem C08_other_keys_untouched : forall h view max mode pool os o k c,
  let s := run h (new_map view max mode pool) os in
  let s' := fst (step h s o) in
  0 <= k < 2 ^ 64 -> 0 <= c < 2 ^ 64 ->
  Forall (safe_op h) (os ++ [o]) -> Forall fresh_item (os ++ [o]) ->
  clean h (new_map view max mode pool) k c os ->
  (forall k1 c1, touches h o = Some (k1, c1) -> k1 <> k) ->
  snd (step h s' (OpGetByHash k c)) = snd (step h s (OpGetByHash k c)) /\
  forall key, key_to_hash h key = Some (k, c) -> snd (step h s' (OpGet key)) = snd (step h s (OpGet key)).
Proof.
  intros h view max mode pool os o k c s s' Hk Hc F1 F2 Cl T.
  apply safe_app in F1 as [F1 SO]. apply Forall_app in F2 as [F2 Fo]. apply Forall_inv in Fo.
  destruct (clean_state h view max mode pool os k c Hk Hc F1 F2 Cl) as [I S]. fold s in I, S.
  pose proof (step_effect h s o I SO) as E. fold s' in E.
  assert (I' : sinv s') by (eapply effect_sinv; eauto).
  destruct (effect_other h s s' o _ k I Hk Fo E T) as [L C].
  assert (S' : slot s' k c) by (destruct S as [S1 S2]; split; [auto|rewrite L; auto]).
  destruct (slot_gets h s k c I S Hk Hc) as [A1 A2]. destruct (slot_gets h s' k c I' S' Hk Hc) as [B1 B2].
  assert (V : slot_val s' k = slot_val s k) by (unfold slot_val; rewrite L; reflexivity).
  rewrite V in B1, B2. split; [congruence|]. intros key K. rewrite (A2 key K), (B2 key K). reflexivity.
Qed.
Print Assumptions C08_other_keys_untouched.

(** the disturbing call may split buckets and may store a boundary key (1) or delete *)
Example C08_case :
  let os := [st 21 1; st 22 2; st 53 3; st 85 4; st 117 5] in
  let s := run hx (new_map KEntry 1 CombineSearch4 false) os in
  clean hx (new_map KEntry 1 CombineSearch4 false) 22 0 os /\
  Forall (safe_op hx) (os ++ [st 181 9]) /\ Forall fresh_item (os ++ [st 181 9]) /\
  dump_bucket (fst (step hx s (st 181 9))) <> dump_bucket s /\
  snd (step hx s (OpGetByHash 22 0)) = RVal (GV 1 2) true /\
  (forall k1 c1, touches hx (st 1 9) = Some (k1, c1) -> k1 <> 22).
Proof.
  cbv zeta. split; [|split; [|split; [|split; [|split]]]].
  - clean_tac.
  - safe_tac.
  - fresh_tac.
  - vm_compute. discriminate.
  - vm_compute. reflexivity.
  - intros k1 c1 H. vm_compute in H. inversion H. discriminate.
Qed.

(** * C09: Delete *)
Theorem C09_delete : forall h view max mode pool os key k c d,
  let s := run h (new_map view max mode pool) os in
  let s' := fst (step h s d) in
  key_to_hash h key = Some (k, c) -> d = OpDelete key \/ d = OpPurge key ->
  Forall (safe_op h) os -> Forall fresh_item os -> clean h (new_map view max mode pool) k c os ->
  ((exists v, snd (step h s (OpGet key)) = RVal v true) /\ snd (step h s d) = RBool true \/
   snd (step h s (OpGet key)) = RVal GNil false /\ snd (step h s d) = RBool false /\ s' = s) /\
  snd (step h s' (OpGet key)) = RVal GNil false /\
  snd (step h s' (OpGetByHash k c)) = RVal GNil false /\
  snd (step h s' (OpDelete key)) = RBool false.
Proof.
  intros h view max mode pool os key k c d s s' K D F1 F2 Cl.
  destruct (key_range h key k c K) as [Hk Hc].
  destruct (clean_state h view max mode pool os k c Hk Hc F1 F2 Cl) as [I S]. fold s in I, S.
  assert (X : step h s d = delete h s key) by (destruct D; subst d; reflexivity).
  assert (SO : safe_op h d) by (destruct D; subst d; exact Logic.I).
  assert (FO : fresh_item d) by (destruct D; subst d; exact Logic.I).
  pose proof (step_effect h s d I SO) as E. fold s' in E.
  assert (I' : sinv s') by (eapply effect_sinv; eauto).
  assert (S' : slot s' k c).
  { eapply (slot_step h s s' d _ k c); eauto. intros k1 c1 W _. destruct D; subst d; discriminate. }
  destruct (slot_gets h s k c I S Hk Hc) as [A1 A2]. destruct (slot_gets h s' k c I' S' Hk Hc) as [B1 B2].
  destruct (slot_load s k c I S) as (z & L & P). destruct (slot_load s' k c I' S') as (z' & L' & P').
  assert (V' : slot_val s' k = None).
  { unfold s'. rewrite X. unfold delete. rewrite K, L.
    destruct (slot_val s k) as [e|] eqn:V.
    - destruct P as (l & r & -> & Ei & HR & HL & HC). destruct (slot_val_live s k c e S V) as [V1 _].
      cbn [fst]. unfold slot_val. cbn [set_items m_items]. rewrite upd_cur_eq.
      rewrite Ei in V1. rewrite (live_at_replace_same _ _ _ (del_entry (m_view s) e) _ V1 HL HR) by reflexivity.
      replace (live (del_entry (m_view s) e)) with false; [reflexivity|].
      unfold live, ignored. cbn [del_entry e_dummy e_del]. destruct (e_dummy e); reflexivity.
    - subst z. exact V. }
  split; [|rewrite V' in *].
  - rewrite (A2 key K). unfold s'. rewrite X. unfold delete. rewrite K, L.
    destruct (slot_val s k) as [e|] eqn:V.
    + left. destruct P as (l & r & -> & _). eauto.
    + right. subst z. auto.
  - split; [auto|]. split; [auto|]. cbn [step]. unfold delete. rewrite K, L'. subst z'. reflexivity.
Qed.
Print Assumptions C09_delete.
Example C09_case :
  let os := [st 21 1; st 22 2; st 53 3; st 85 4; st 117 5; OpDelete (KInt 22); st 22 6; st 22 7] in
  Forall (safe_op hx) os /\ Forall fresh_item os /\
  clean hx (new_map KEntry 1 CombineSearch4 false) 22 0 os /\
  snd (step hx (run hx (new_map KEntry 1 CombineSearch4 false) os) (OpGet (KInt 22))) = RVal (GV 1 7) true.
Proof.
  cbv zeta. split; [|split; [|split]].
  - safe_tac.
  - fresh_tac.
  - clean_tac.
  - vm_compute. reflexivity.
Qed.

(** * C10: Range *)

(** Any history whatsoever: Range is the callback run over the undeleted items, in order of
    position, each once. *)
Theorem C10_range_any_history : forall h view max mode pool os, Forall item_u64 os ->
  let s := run h (new_map view max mode pool) os in
  StronglySorted (fun a b => e_rev a <= e_rev b) (m_items s) /\
  forall A (f : A -> option gkey -> gval -> A * bool) a,
    range s f a = visit (fun a x => f a (fst x) (snd x)) a
      (map (fun e => (view_key (m_view s) e, e_val e))
           (filter (fun e => match e_dummy e with Some _ => false | None => negb (e_del e) end) (m_items s))).
Proof.
  intros h view max mode pool os F s.
  destruct (run_any h os (new_map view max mode pool) F (new_map_inv0 _ _ _ _ _)) as [(S & _ & _) _].
  split; [exact S|]. intros A f a. rewrite range_visit. f_equal. f_equal. apply filter_ext.
  intros e. unfold live, ignored. destruct (e_dummy e); reflexivity.
Qed.
Print Assumptions C10_range_any_history.

(** Covered histories: Range is the callback run over exactly the bindings of the abstract map,
    in strictly increasing order of bit-reversed hash. *)
Theorem C10_range_is_the_map : forall h view max mode pool os,
  all_covered h (new_map view max mode pool) (sm_empty view) os ->
  let s := run h (new_map view max mode pool) os in
  let m := sm_run h (sm_empty view) os in
  exists P : list ((Z * Z) * binding),
    StronglySorted (fun a b => reverse64 (fst (fst a)) < reverse64 (fst (fst b))) P /\
    (forall p b, In (p, b) P <-> sm_map m p = Some b) /\
    forall A (f : A -> option gkey -> gval -> A * bool) a,
      range s f a = visit (fun a x => f a (bd_view (sm_view m) (snd x)) (bd_val (snd x))) a P.
Proof.
  intros h view max mode pool os A s m.
  destruct (run_ok h os _ _ (new_map_holds view max mode pool) A) as [H _]. fold s m in H.
  assert (R : ranged_map m) by (apply sm_ranged; intros k c X; exfalso; apply X; reflexivity).
  destruct (holds_bindings s m H R) as [P1 P2]. eexists. split; [exact P1|]. split; [exact P2|].
  intros B f a. rewrite range_visit. clear P1 P2. rewrite (hd_view _ _ H).
  revert a. induction (filter live (m_items s)) as [|e L IH]; intros a; cbn [map visit]; [reflexivity|].
  change (bd_view (sm_view m) (snd (binding_of e))) with (view_key (sm_view m) e).
  change (bd_val (snd (binding_of e))) with (e_val e). cbn [fst snd].
  destruct (snd (f a (view_key (sm_view m) e) (e_val e))); auto.
Qed.
Print Assumptions C10_range_is_the_map.
Example C10_case : all_covered hx (new_map KEntry 1 CombineSearch2 false) (sm_empty KEntry) os7 /\
  range (run hx (new_map KEntry 1 CombineSearch2 false) os7) (fun l k v => (l ++ [(k, v)], true)) []
  <> [].
Proof. split; [exact C07_case|vm_compute; discriminate]. Qed.

(** * C11: Len *)
(** number of items Range visits *)
Definition range_count (s : mstate) : Z := range s (fun n _ _ => (n + 1, true)) 0.
Lemma range_count_nlive s : range_count s = nlive (m_items s).
Proof.
  unfold range_count. rewrite range_visit. unfold nlive. rewrite <- (map_length (fun e => (view_key (m_view s) e, e_val e))).
  generalize (map (fun e => (view_key (m_view s) e, e_val e)) (filter live (m_items s))). intros L.
  assert (G : forall n, visit (fun (a : Z) (_ : option gkey * gval) => (a + 1, true)) n L = n + Z.of_nat (List.length L)).
  { induction L as [|x L IH]; intros n; cbn [visit fst snd List.length]; [lia|rewrite IH; lia]. }
  rewrite G. lia.
Qed.
Lemma new_map_len view max mode pool : m_len (new_map view max mode pool) - nlive (m_items (new_map view max mode pool)) = 0.
Proof. vm_compute. reflexivity. Qed.

Theorem C11_len_law : forall h view max mode pool os,
  let s := run h (new_map view max mode pool) os in
  Forall (safe_op h) os -> Forall fresh_item os ->
  snd (step h s OpLen) = RLen (range_count s + deletes os (outs h (new_map view max mode pool) os)).
Proof.
  intros h view max mode pool os s F1 F2. rewrite range_count_nlive.
  pose proof (run_count h os _ (new_map_sinv view max mode pool) F1 F2) as C. fold s in C.
  rewrite new_map_len in C. cbn [step snd]. f_equal. lia.
Qed.
Print Assumptions C11_len_law.
Lemma no_deletes os : forall rs, forallb (fun o => negb (is_delete o)) os = true -> deletes os rs = 0.
Proof.
  induction os as [|o os IH]; intros [|r rs]; cbn [forallb deletes]; auto. rewrite andb_true_iff, negb_true_iff.
  intros [-> H]. rewrite IH by auto. reflexivity.
Qed.
Theorem C11_len_counts_without_deletes : forall h view max mode pool os,
  let s := run h (new_map view max mode pool) os in
  Forall (safe_op h) os -> Forall fresh_item os -> forallb (fun o => negb (is_delete o)) os = true ->
  snd (step h s OpLen) = RLen (range_count s).
Proof.
  intros h view max mode pool os s F1 F2 N. unfold s. rewrite C11_len_law by auto.
  rewrite no_deletes by auto. f_equal. lia.
Qed.
Print Assumptions C11_len_counts_without_deletes.
Definition len_is_the_number_of_items : Prop :=
  forall h view max mode pool os, let s := run h (new_map view max mode pool) os in
    Forall (safe_op h) os -> Forall fresh_item os -> snd (step h s OpLen) = RLen (range_count s).
Theorem C11_len_refuted : ~ len_is_the_number_of_items.
Proof.
  intros H. specialize (H hx KEntry 32 CombineSearch4 false [st 21 1; OpDelete (KU64 21)]). cbv zeta in H.
  assert (X : RLen 1 = RLen 0); [|discriminate X].
  transitivity (snd (step hx (run hx (new_map KEntry 32 CombineSearch4 false) [st 21 1; OpDelete (KU64 21)]) OpLen));
    [vm_compute; reflexivity|rewrite H; [vm_compute; reflexivity|safe_tac|fresh_tac]].
Qed.
Print Assumptions C11_len_refuted.
Example C11_case : Forall (safe_op hx) os7 /\ Forall fresh_item os7 /\
  snd (step hx (run hx (new_map KEntry 1 CombineSearch2 false) os7) OpLen) = RLen 7 /\
  range_count (run hx (new_map KEntry 1 CombineSearch2 false) os7) = 6.
Proof. split; [safe_tac|]. split; [fresh_tac|]. split; vm_compute; reflexivity. Qed.

(** * C12: configuration does not change results *)
Theorem C12_configuration_invisible : forall h view max1 mode1 pool1 max2 mode2 pool2 os,
  let s1 := new_map view max1 mode1 pool1 in
  let s2 := new_map view max2 mode2 pool2 in
  all_covered h s1 (sm_empty view) os -> all_covered h s2 (sm_empty view) os ->
  outs h s1 os = outs h s2 os /\
  forall A (f : A -> option gkey -> gval -> A * bool) a, range (run h s1 os) f a = range (run h s2 os) f a.
Proof.
  intros h view max1 mode1 pool1 max2 mode2 pool2 os s1 s2 A1 A2. split.
  - unfold s1, s2. rewrite !C07_default_map_is_a_map; auto.
  - intros A f a.
    destruct (C10_range_is_the_map h view max1 mode1 pool1 os A1) as (P1 & S1 & B1 & R1).
    destruct (C10_range_is_the_map h view max2 mode2 pool2 os A2) as (P2 & S2 & B2 & R2).
    unfold s1, s2. rewrite R1, R2. f_equal.
    apply (strict_sorted_unique (fun x => reverse64 (fst (fst x)))); auto.
    intros [p b]. rewrite B1, B2. tauto.
Qed.
Print Assumptions C12_configuration_invisible.
(** UsePool is invisible whatever the history *)
Theorem C12_pool_invisible : forall h view max mode os,
  let s1 := new_map view max mode true in
  let s2 := new_map view max mode false in
  outs h s1 os = outs h s2 os /\
  dump_bucket (run h s1 os) = dump_bucket (run h s2 os) /\
  forall A (f : A -> option gkey -> gval -> A * bool) a, range (run h s1 os) f a = range (run h s2 os) f a.
Proof.
  intros h view max mode os s1 s2.
  destruct (sbp_outs h os s1 s2 (sbp_set s1 false)) as [O [b B]]. rewrite B. auto.
Qed.
Print Assumptions C12_pool_invisible.
Example C12_case :
  all_covered hx (new_map KEntry 1 CombineSearch2 false) (sm_empty KEntry) os7 /\
  all_covered hx (new_map KEntry 3 NestedSearch true) (sm_empty KEntry) os7 /\
  dump_bucket (run hx (new_map KEntry 1 CombineSearch2 false) os7) <>
  dump_bucket (run hx (new_map KEntry 3 NestedSearch true) os7).
Proof. split; [cov_tac|]. split; [cov_tac|]. vm_compute. discriminate. Qed.

(** * C13: sentinels *)
Theorem C13_sentinels : forall h view max mode pool os, Forall item_u64 os ->
  let s := run h (new_map view max mode pool) os in
  first_hash s = Some 0 /\ last_hash s = Some (2 ^ 64 - 1).
Proof.
  intros h view max mode pool os F s.
  destruct (run_any h os (new_map view max mode pool) F (new_map_inv0 _ _ _ _ _)) as [(_ & (mid & E) & _) _].
  fold s in E. unfold first_hash, last_hash. rewrite E. split; [vm_compute; reflexivity|].
  change (d_first :: mid ++ [d_last]) with ((d_first :: mid) ++ [d_last]). rewrite rev_app_distr. vm_compute. reflexivity.
Qed.
Print Assumptions C13_sentinels.
Example C13_case : Forall item_u64 (os7 ++ [OpStore (setup hx (new_sample "x" (GV 1 1))); st (2 ^ 64 - 1) 3; st 0 1]).
Proof. unfold os7. repeat (apply Forall_cons; [vm_compute; first [exact I|split; [discriminate|reflexivity]]|]). apply Forall_nil. Qed.

(** * C14: value update rules *)
Lemma view_make s er : m_view (fst (make_bucket s er)) = m_view s.
Proof.
  assert (AB : forall s b rv, m_view (add_bucket s b rv) = m_view s).
  { intros s0 b rv. unfold add_bucket. destruct (bucket_below _ _ _); auto. destruct (head_z _ _); auto.
    destruct (add_dummy _ _ _); auto. }
  unfold make_bucket. destruct (first_below _ _ _); auto. destruct (walk_up _ _ _ _ _) as [c nx].
  destruct (_ || _); auto. destruct (bucket_from_pool _ _ _) as [[[t1 lv1] b]|]; auto.
  destruct (head_z _ _); auto. destruct (_ && _); auto.
  match goal with |- context [add_bucket ?x ?y ?z] => pose proof (AB x y z) as V; set (q := add_bucket x y z) in * end.
  destruct (head_z q b); cbn [fst set_lv m_view]; rewrite V; reflexivity.
Qed.
Lemma view_set s k n e : m_view (fst (set_ s k n e)) = m_view s.
Proof.
  unfold set_. destruct (head_z s n); auto.
  assert (G : forall it er, m_view (fst (let s1 := set_len (set_items s it) (m_len s + 1) in
    let s2 := if 0 <? lvl (m_trie s1) n
              then set_trie s1 (tupd (m_trie s1) n (fun b => set_blen b (b_len b + 1))) else s1 in
    if m_max s2 <? b_len (bget (m_trie s2) n) then make_bucket s2 er else (s2, false))) = m_view s).
  { intros it er. cbv zeta. match goal with |- context [make_bucket ?x er] => set (q := x) end.
    assert (E : m_view q = m_view s) by (unfold q; destruct (0 <? _); reflexivity).
    destruct (m_max q <? _); [rewrite view_make|]; exact E. }
  destruct (add_item _ _ _ _ _); apply G.
Qed.
Lemma step_view h s o : m_view (fst (step h s o)) = m_view s \/ (m_view (fst (step h s o)) = KSample /\ exists key v, o = OpSet key v).
Proof.
  assert (U : forall s z v, m_view (fst (update s z v)) = m_view s).
  { intros s0 z v. unfold update. destruct (snd z); auto. destruct (set_value _ _ _) as [[v' ok]|]; auto. }
  destruct o as [key v|i|key|k c|key|k c|key|key|]; cbn [step]; auto.
  - unfold set. destruct (key_to_hash h key) as [[k c]|]; auto. destruct (load s k c) as [[z|]| | |]; auto.
    set (s1 := if (_ && _) then set_mpool s true else s).
    assert (V1 : m_view s1 = m_view s) by (unfold s1; destruct (_ && _); reflexivity).
    destruct key; auto.
    match goal with |- context [set_ ?a ?b ?c ?d] => pose proof (view_set a b c d) as V; destruct (set_ a b c d) as [s3 p] end.
    right. cbn [fst set_view m_view] in *. split; eauto.
  - unfold store. destruct (item_hash h i) as [[k c]|]; auto. destruct (load s k c) as [[z|]| | |]; auto.
    match goal with |- context [set_ ?a ?b ?c ?d] => pose proof (view_set a b c d) as V; destruct (set_ a b c d) as [s3 p] end.
    left. exact V.
  - unfold with_key. destruct (key_to_hash h key) as [[k c]|]; auto. rewrite (proj1 (get_val_same s _)). auto.
  - rewrite (proj1 (get_val_same s _)). auto.
  - unfold with_key. destruct (key_to_hash h key) as [[k c]|]; auto. rewrite (proj1 (get_item_same s _)). auto.
  - rewrite (proj1 (get_item_same s _)). auto.
  - unfold delete. destruct (key_to_hash h key) as [[k c]|]; auto. destruct (load s k c) as [[z|]| | |]; auto.
  - unfold delete. destruct (key_to_hash h key) as [[k c]|]; auto. destruct (load s k c) as [[z|]| | |]; auto.
Qed.
Lemma run_view_sample h os : forall s, m_view s = KSample -> m_view (run h s os) = KSample.
Proof.
  induction os as [|o os IH]; intros s V; cbn [run]; auto. apply IH.
  destruct (step_view h s o) as [E|[E _]]; congruence.
Qed.
Lemma run_view_noset h os : forall s, (forall key v, ~ In (OpSet key v) os) -> m_view (run h s os) = m_view s.
Proof.
  induction os as [|o os IH]; intros s N; cbn [run]; auto. rewrite IH.
  - destruct (step_view h s o) as [E|[E (key & v & ->)]]; auto. exfalso. eapply N. left. reflexivity.
  - intros key v X. eapply N. right. eauto.
Qed.

Lemma update_rule h s o k c old : sinv s -> slot s k c -> 0 <= k < W64 -> 0 <= c < W64 ->
  writes h o = Some (k, c) -> snd (step h s (OpGetByHash k c)) = RVal old true ->
  match assign (m_view s) old (written o) with
  | None => step h s o = (s, RPanic)
  | Some (v', ok) => snd (step h s o) = RBool ok /\
      (sinv (fst (step h s o)) -> slot (fst (step h s o)) k c ->
       snd (step h (fst (step h s o)) (OpGetByHash k c)) = RVal v' true)
  end.
Proof.
  intros I S Hk Hc W G. destruct (slot_gets h s k c I S Hk Hc) as [A1 _]. rewrite A1 in G.
  destruct (slot_val s k) as [e|] eqn:V; [|discriminate]. inversion G as [G']. clear A1 G.
  destruct (slot_load s k c I S) as (z & L & P). rewrite V in P. destruct P as (l & r & -> & Ei & HR & HL & HC).
  destruct (slot_val_live s k c e S V) as [V1 _].
  assert (X : step h s o = update s (l, e :: r) (written o)).
  { destruct o as [key v|i| | | | | | |]; try discriminate W; cbn [writes] in W; cbn [step written].
    - unfold set. rewrite W, L. reflexivity.
    - unfold store, item_hash. rewrite W, L. reflexivity. }
  rewrite X, update_eq, G'. destruct (assign (m_view s) old (written o)) as [[v' ok]|]; [|reflexivity].
  cbn [fst snd]. split; [reflexivity|]. intros I' S'.
  destruct (slot_gets h _ k c I' S' Hk Hc) as [B1 _]. rewrite B1. unfold slot_val. cbn [set_items m_items].
  rewrite Ei in V1. rewrite (live_at_replace_same _ _ _ (set_e_val e v') _ V1 HL HR) by reflexivity.
  change (live (set_e_val e v')) with (live e). rewrite HL. reflexivity.
Qed.

(** Updating a present key in a map whose ItemFn gives SampleItems: nil is refused and changes
    nothing; a value of the stored dynamic type (or any value if nil is stored) replaces the old one;
    a value of another dynamic type panics and leaves the map as it was. *)
Theorem C14_update_sample : forall h max mode pool os o k c old,
  let s := run h (new_map KSample max mode pool) os in
  Forall (safe_op h) (os ++ [o]) -> Forall fresh_item (os ++ [o]) ->
  clean h (new_map KSample max mode pool) k c (os ++ [o]) -> writes h o = Some (k, c) ->
  snd (step h s (OpGetByHash k c)) = RVal old true ->
  match written o with
  | GNil => snd (step h s o) = RBool false /\
            snd (step h (fst (step h s o)) (OpGetByHash k c)) = RVal old true
  | GV ty x =>
      (old = GNil \/ (exists y, old = GV ty y)) /\ snd (step h s o) = RBool true /\
        snd (step h (fst (step h s o)) (OpGetByHash k c)) = RVal (GV ty x) true
      \/ (exists ty' y, old = GV ty' y /\ ty' <> ty) /\ step h s o = (s, RPanic)
  end.
Proof.
  intros h max mode pool os o k c old s F1 F2 Cl W G.
  apply safe_app in F1 as [F1 SO]. apply Forall_app in F2 as [F2 Fo]. apply Forall_inv in Fo.
  apply clean_app in Cl as [Cl [Co _]].
  destruct (touches_range h o k c (writes_touches _ _ _ W)) as [Hk Hc].
  destruct (clean_state h KSample max mode pool os k c Hk Hc F1 F2 Cl) as [I S]. fold s in I, S.
  pose proof (update_rule h s o k c old I S Hk Hc W G) as U.
  pose proof (step_effect h s o I SO) as E.
  assert (I' : sinv (fst (step h s o))) by (eapply effect_sinv; eauto).
  assert (S' : slot (fst (step h s o)) k c) by (eapply (slot_step h s _ o _ k c); eauto).
  unfold s in U at 1. rewrite run_view_sample in U by reflexivity. cbn [assign] in U.
  destruct (written o) as [|ty x]; cbn [gval_eqb] in U.
  - destruct U as [U1 U2]. auto.
  - destruct old as [|ty' y]; cbn [gval_eqb orb] in U.
    + destruct U as [U1 U2]. left. auto.
    + cbn [same_type] in U. destruct (Z.eqb_spec ty' ty) as [->|N].
      * destruct U as [U1 U2]. left. split; [right; exists y; reflexivity|auto].
      * right. split; [exists ty', y; auto|exact U].
Qed.
Print Assumptions C14_update_sample.
(** In a map of entryHMap items on which Set is never called every value replaces the old one. *)
Theorem C14_update_entry : forall h max mode pool os o k c old,
  let s := run h (new_map KEntry max mode pool) os in
  Forall (safe_op h) (os ++ [o]) -> Forall fresh_item (os ++ [o]) ->
  (forall key v, ~ In (OpSet key v) os) ->
  clean h (new_map KEntry max mode pool) k c (os ++ [o]) -> writes h o = Some (k, c) ->
  snd (step h s (OpGetByHash k c)) = RVal old true ->
  snd (step h s o) = RBool true /\
  snd (step h (fst (step h s o)) (OpGetByHash k c)) = RVal (written o) true.
Proof.
  intros h max mode pool os o k c old s F1 F2 N Cl W G.
  apply safe_app in F1 as [F1 SO]. apply Forall_app in F2 as [F2 Fo]. apply Forall_inv in Fo.
  apply clean_app in Cl as [Cl [Co _]].
  destruct (touches_range h o k c (writes_touches _ _ _ W)) as [Hk Hc].
  destruct (clean_state h KEntry max mode pool os k c Hk Hc F1 F2 Cl) as [I S]. fold s in I, S.
  pose proof (update_rule h s o k c old I S Hk Hc W G) as U.
  pose proof (step_effect h s o I SO) as E.
  assert (I' : sinv (fst (step h s o))) by (eapply effect_sinv; eauto).
  assert (S' : slot (fst (step h s o)) k c) by (eapply (slot_step h s _ o _ k c); eauto).
  unfold s in U at 1. rewrite run_view_noset in U by auto. cbn [new_map m_view assign] in U.
  destruct U as [U1 U2]. auto.
Qed.
Print Assumptions C14_update_entry.
(** A value that is read was stored for the same hash pair - after any history at all. *)
Theorem C14_no_invented_values : forall h view max mode pool os k c v,
  Forall fresh_item os -> 0 <= k < 2 ^ 64 -> 0 <= c < 2 ^ 64 ->
  snd (step h (run h (new_map view max mode pool) os) (OpGetByHash k c)) = RVal v true ->
  exists o, In o os /\ writes h o = Some (k, c) /\ written o = v.
Proof.
  intros h view max mode pool os k c v F Hk Hc G. rewrite get_by_hash in G by auto.
  pose proof (run_came_from h os [] _ F (new_map_inv0 _ view max mode pool)) as [(_ & _ & Q) _]. cbn [app] in Q.
  set (s := run h (new_map view max mode pool) os) in *.
  destruct (get s k c) as [[z|]| | |] eqn:E; try discriminate G.
  destruct (get_hit _ _ _ _ E) as (l & e & r & -> & Ei & HL & HR & HC). cbn in G. inversion G; subst v.
  assert (X : In e (m_items s)) by (rewrite Ei; apply in_or_app; right; left; auto).
  destruct (Q e X (live_not_dummy _ HL)) as (o & k1 & c1 & O1 & O2 & O3 & O4 & O5).
  destruct (touches_range h o k1 c1 (writes_touches _ _ _ O2)) as [Hk1 _].
  rewrite HR in O3. apply reverse64_inj in O3; auto. exists o. subst k1. rewrite HC in O4. subst c1. auto.
Qed.
Print Assumptions C14_no_invented_values.
Definition sms (x : string) (v : gval) : op := OpStore (new_sample x v).
Example C14_case :
  let os := [sms "ab" (GV 1 1); sms "abc" GNil; OpSet (KStr "abcd") (GV 5 5); OpDelete (KStr "abcd")] in
  let s0 := new_map KSample 1 CombineSearch3 false in
  (exists k c, writes hx (OpSet (KStr "ab") (GV 2 1)) = Some (k, c) /\
   clean hx s0 k c (os ++ [OpSet (KStr "ab") (GV 2 1)]) /\
   snd (step hx (run hx s0 os) (OpGetByHash k c)) = RVal (GV 1 1) true) /\
  Forall (safe_op hx) (os ++ [OpSet (KStr "ab") (GV 2 1)]) /\ Forall fresh_item (os ++ [OpSet (KStr "ab") (GV 2 1)]).
Proof.
  cbv zeta. split; [|split; [safe_tac|fresh_tac]].
  eexists. eexists. split; [vm_compute; reflexivity|]. split; [clean_tac|vm_compute; reflexivity].
Qed.
Example C14_entry_case :
  let os := [st 21 1; st 22 2; st 53 3; st 85 4] in
  let s0 := new_map KEntry 1 CombineSearch3 false in
  clean hx s0 21 0 (os ++ [OpSet (KInt 21) GNil]) /\
  snd (step hx (run hx s0 os) (OpGetByHash 21 0)) = RVal (GV 1 1) true /\
  Forall (safe_op hx) (os ++ [OpSet (KInt 21) GNil]) /\ Forall fresh_item (os ++ [OpSet (KInt 21) GNil]).
Proof. cbv zeta. split; [clean_tac|]. split; [vm_compute; reflexivity|]. split; [safe_tac|fresh_tac]. Qed.

(** * C15: unsupported keys fail cleanly *)
(** the key argument of a call *)
Definition op_key (o : op) : option gkey :=
  match o with
  | OpSet key _ | OpGet key | OpLoad key | OpDelete key | OpPurge key => Some key
  | OpStore i => Some (i_key i)
  | _ => None
  end.
Theorem C15_unsupported_key : forall h s o, op_key o = Some KOther -> step h s o = (s, RPanic).
Proof.
  intros h s o H. destruct o as [key v|i|key|k c|key|k c|key|key|]; inversion H; subst; try reflexivity.
  cbn [step]. unfold store, item_hash. rewrite H1. reflexivity.
Qed.
Print Assumptions C15_unsupported_key.
(** Set of a new key that is not a string panics, and no later call, nor Range, can tell that it was made. *)
Theorem C15_new_nonstring_key : forall h s key v,
  snd (step h s (OpLoad key)) = RItem None -> (forall x, key <> KStr x) ->
  snd (step h s (OpSet key v)) = RPanic /\
  let s' := fst (step h s (OpSet key v)) in
  (forall os, outs h s' os = outs h s os) /\
  (forall A (f : A -> option gkey -> gval -> A * bool) a, range s' f a = range s f a) /\
  dump_bucket s' = dump_bucket s.
Proof.
  intros h s key v L N.
  assert (X : same_but_pool s (fst (step h s (OpSet key v))) /\ snd (step h s (OpSet key v)) = RPanic).
  { cbn [step] in *. unfold with_key, set in *. destruct (key_to_hash h key) as [[k c]|] eqn:K; [|discriminate L].
    destruct (load s k c) as [[[l [|e r]]|]| | |] eqn:E; try discriminate L.
    - destruct (load_hit _ _ _ _ E) as (l1 & e1 & r1 & Y & _). discriminate.
    - set (s1 := if (_ && _) then set_mpool s true else s).
      assert (B : same_but_pool s s1) by (unfold s1; destruct (_ && _); [apply sbp_set|apply sbp_refl]).
      destruct key; try (split; [exact B|reflexivity]). exfalso. eapply N. reflexivity. }
  destruct X as [X1 X2]. split; [exact X2|]. cbv zeta. split; [|destruct X1 as [b ->]; auto].
  intros os. symmetry. apply (sbp_outs h os _ _ X1).
Qed.
Print Assumptions C15_new_nonstring_key.
Example C15_case :
  snd (step hx (run hx (new_map KEntry 1 CombineSearch4 false) os7) (OpLoad (KInt (-5)))) = RItem None.
Proof. vm_compute. reflexivity. Qed.

(** * C16: items prepared with Setup *)
Theorem C16_setup_item_unreadable : forall h view max mode pool os x v k c,
  let s := run h (new_map view max mode pool) os in
  let o := OpStore (setup h (new_sample x v)) in
  let s' := fst (step h s o) in
  key_to_hash h (KStr x) = Some (k, c) -> reverse64 k <> k -> k <= 2 ^ 64 - 3 ->
  Forall (safe_op h) os -> Forall fresh_item os -> clean h (new_map view max mode pool) k c os ->
  snd (step h s (OpGet (KStr x))) = RVal GNil false ->
  snd (step h s o) = RBool true /\ snd (step h s' (OpGet (KStr x))) = RVal GNil false.
Proof.
  intros h view max mode pool os x v k c s o s' K NP Kmax F1 F2 Cl G.
  destruct (key_range h (KStr x) k c K) as [Hk Hc].
  destruct (clean_state h view max mode pool os k c Hk Hc F1 F2 Cl) as [I S]. fold s in I, S.
  assert (K0 : 0 < k).
  { destruct (Z.eq_dec k 0) as [->|]; [|lia]. exfalso. apply NP. vm_compute. reflexivity. }
  assert (W : writes h o = Some (k, c)).
  { unfold o, setup. cbn [new_sample i_key]. rewrite K. cbn [writes i_key]. exact K. }
  assert (SO : safe_op h o).
  { unfold safe_op. unfold o in *. rewrite W. right. unfold setup. cbn [new_sample i_key]. rewrite K. cbn [i_rev].
    lia. }
  destruct (slot_gets h s k c I S Hk Hc) as [A1 A2]. rewrite (A2 _ K) in G.
  destruct (slot_val s k) as [e|] eqn:V; [discriminate|].
  destruct (slot_load s k c I S) as (z & L & P). rewrite V in P. subst z.
  pose proof (step_effect h s o I SO) as E. fold s' in E.
  assert (I' : sinv s') by (eapply effect_sinv; eauto).
  assert (NPan : snd (step h s o) <> RPanic).
  { intros X. destruct (step_panic h s o I SO X) as [[T _]|[(key & w & k1 & c1 & Y & _)|(k1 & c1 & l & e & r & W1 & L1 & _)]].
    - rewrite (writes_touches h o _ W) in T. discriminate.
    - discriminate Y.
    - rewrite W in W1. inversion W1; subst. rewrite L in L1. discriminate. }
  destruct E as [_ _ E _|k1 c2 l e r' v' ok W' Ei HL HR HC As L' _ E|k1 c2 l e r' D1 _ _ _ _ _ _ _
                  |k1 c2 i s0 W' _ _ _ _ Ii I0 E0 _ _ _ _ A R].
  - exfalso. apply NPan. eapply E. exact W.
  - rewrite W in W'. inversion W' as [[X1 X2]]. rewrite <- X1, <- X2, L in L'. discriminate.
  - discriminate D1.
  - rewrite W in W'. inversion W'; subst k1 c2. split; [exact R|].
    assert (Rv : e_rev (entry_of i k c) = k).
    { rewrite (Ii _ eq_refl). unfold setup. cbn [new_sample i_key]. rewrite K. cbn [entry_of e_rev i_rev].
      destruct (Z.eqb_spec k 0); lia. }
    destruct (added_other s0 s' (entry_of i k c) (reverse64 k) (reverse64 k)) as [X1 X2].
    + apply (sv_sorted _ I0).
    + exact A.
    + rewrite Rv. congruence.
    + rewrite E0 in X1, X2. destruct S as [S1 S2].
      assert (S' : slot s' k c) by (split; [auto|rewrite X1; auto]).
      destruct (slot_gets h s' k c I' S' Hk Hc) as [_ B2]. rewrite (B2 _ K). unfold slot_val in *. rewrite X1, V. reflexivity.
Qed.
Print Assumptions C16_setup_item_unreadable.
Example C16_case :
  let os := [st 21 1; st 22 2; OpSet (KStr "ab") (GV 1 1)] in
  let s0 := new_map KEntry 1 CombineSearch4 false in
  exists k c, key_to_hash hx (KStr "abc") = Some (k, c) /\ reverse64 k <> k /\ k <= 2 ^ 64 - 3 /\
    Forall (safe_op hx) os /\ Forall fresh_item os /\ clean hx s0 k c os /\
    snd (step hx (run hx s0 os) (OpGet (KStr "abc"))) = RVal GNil false.
Proof.
  cbv zeta. eexists. eexists. split; [vm_compute; reflexivity|]. split; [vm_compute; discriminate|].
  split; [vm_compute; discriminate|]. split; [safe_tac|]. split; [fresh_tac|]. split; [clean_tac|vm_compute; reflexivity].
Qed.
Definition prepared_items_are_readable : Prop :=
  forall h view max mode pool x v,
    let i := setup h (new_sample x v) in
    let s := new_map view max mode pool in
    snd (step h s (OpStore i)) = RBool true ->
    snd (step h (fst (step h s (OpStore i))) (OpGet (KStr x))) = RVal v true.
Theorem C16_prepared_items_refuted : ~ prepared_items_are_readable.
Proof.
  intros H. specialize (H hx KEntry 32 CombineSearch4 false "abc"%string (GV 1 1)). cbv zeta in H.
  assert (X : RVal GNil false = RVal (GV 1 1) true); [|discriminate X].
  rewrite <- H; vm_compute; reflexivity.
Qed.
Print Assumptions C16_prepared_items_refuted.

(** * C17: crashes *)
Theorem C17_no_crash_partial : forall h view max mode pool ty os,
  Forall (safe_op h) os -> Forall (plain_op ty) os -> ~ In RPanic (outs h (new_map view max mode pool) os).
Proof.
  intros h view max mode pool ty os F1 F2. apply (run_no_panic h ty); auto using new_map_sinv, new_map_inv0.
Qed.
Print Assumptions C17_no_crash_partial.
Definition os17 : list op :=
  [st 21 1; st 1 2; OpSet (KStr "ab") (GV 1 7); OpStore (setup hx (new_sample "abc" (GV 1 1))); OpSet (KStr "ab") GNil;
   OpDelete (KNil); OpGet (KBytes "q"); OpLoadByHash (-1) 5].
Example C17_case : Forall (safe_op hx) os17 /\ Forall (plain_op 1) os17.
Proof.
  split; [safe_tac|]. unfold os17.
  repeat (apply Forall_cons; [vm_compute; first [exact I | discriminate | split; [discriminate|reflexivity]
    | split; [eexists; reflexivity|first [exact I|reflexivity]]]|]). apply Forall_nil.
Qed.
(** Crash witness: 61 rounds of StoreItem/Delete of key 2^63-1 (bucket size 1), all values of one type, all
    keys supported. *)
Definition os17c : list op := List.concat (repeat [st (2 ^ 63 - 1) 1; OpDelete (KU64 (2 ^ 63 - 1))] 61).
Definition calls_do_not_crash : Prop :=
  forall h view max mode pool ty os, Forall fresh_item os -> Forall (plain_op ty) os ->
    ~ In RPanic (outs h (new_map view max mode pool) os).
Theorem C17_calls_do_not_crash_refuted : ~ calls_do_not_crash.
Proof.
  intros H. apply (H hx KEntry 1 CombineSearch4 false 1 os17c).
  - fresh_tac.
  - unfold os17c. apply Forall_concat. apply Forall_forall. intros l L. apply repeat_spec in L. subst l.
    repeat (apply Forall_cons; [vm_compute; first [discriminate | split; [discriminate|reflexivity]]|]). apply Forall_nil.
  - assert (X : existsb (fun r => match r with RPanic => true | _ => false end)
                  (outs hx (new_map KEntry 1 CombineSearch4 false) os17c) = true) by (vm_compute; reflexivity).
    apply existsb_exists in X as (r & X & Y). destruct r; try discriminate. exact X.
Qed.
Print Assumptions C17_calls_do_not_crash_refuted.

(** * C19: item types *)
Theorem C19_own_type : forall h kd max mode pool os,
  all_covered h (new_map kd max mode pool) (sm_empty kd) os -> Forall (kind_op kd) os ->
  let s := run h (new_map kd max mode pool) os in
  let m := sm_run h (sm_empty kd) os in
  (forall key k c, key_to_hash h key = Some (k, c) ->
     snd (step h s (OpLoad key)) =
     RItem (match sm_map m (k, c) with Some b => Some (Some (bd_key b), bd_val b) | None => None end)) /\
  (forall p b, sm_map m p = Some b -> bd_kind b = kd /\ key_to_hash h (bd_key b) = Some p) /\
  exists P, (forall p b, In (p, b) P <-> sm_map m p = Some b) /\
    forall A (f : A -> option gkey -> gval -> A * bool) a,
      range s f a = visit (fun a x => f a (Some (bd_key (snd x))) (bd_val (snd x))) a P.
Proof.
  intros h kd max mode pool os A F s m.
  destruct (run_ok h os _ _ (new_map_holds kd max mode pool) A) as [H _]. fold s m in H.
  assert (KM : kind_map h kd m).
  { apply run_kind; auto. split; [reflexivity|]. intros p b X. discriminate X. }
  destruct KM as [KV KB].
  assert (BV : forall p b, sm_map m p = Some b -> bd_view (sm_view m) b = Some (bd_key b)).
  { intros p b X. destruct (KB p b X) as [X1 _]. unfold bd_view. rewrite KV, X1. destruct kd; reflexivity. }
  split; [|split; [exact KB|]].
  - intros key k c K. destruct (key_range h key k c K) as [Hk Hc]. cbn [step]. unfold with_key. rewrite K.
    rewrite (get_item_ok s m k c _ H Hk (load_spec s k c (hd_inv _ _ H))). cbn [snd]. unfold sm_load.
    destruct (sm_map m (k, c)) as [b|] eqn:E; [rewrite (BV _ _ E)|]; reflexivity.
  - destruct (C10_range_is_the_map h kd max mode pool os A) as (P & _ & P2 & P3). fold s m in P2, P3.
    exists P. split; [exact P2|]. intros B f a. rewrite P3. clear P3.
    assert (Q : forall x, In x P -> bd_view (sm_view m) (snd x) = Some (bd_key (snd x))).
    { intros [p b] X. apply P2 in X. cbn [snd]. eauto. }
    clear P2. revert a. induction P as [|x P IH]; intros a; cbn [visit]; auto.
    rewrite (Q x) by (left; auto). rewrite IH by (intros y Y; apply Q; right; auto). reflexivity.
Qed.
Print Assumptions C19_own_type.
Definition os19 : list op := [sms "ab" (GV 1 1); OpSet (KStr "abc") (GV 2 2); OpDelete (KStr "ab"); OpSet (KStr "abcd") (GV 2 3)].
Example C19_case : all_covered hx (new_map KSample 1 CombineSearch4 true) (sm_empty KSample) os19 /\ Forall (kind_op KSample) os19.
Proof. split; [cov_tac|]. repeat (apply Forall_cons; [reflexivity || exact I|]). apply Forall_nil. Qed.
Definition items_keep_their_key : Prop :=
  forall h view max mode pool os key i,
    all_covered h (new_map view max mode pool) (sm_empty view) (os ++ [OpStore i]) -> i_key i = key ->
    snd (step h (run h (new_map view max mode pool) (os ++ [OpStore i])) (OpLoad key)) = RItem (Some (Some key, i_val i)).
(** README: StoreItem(&SampleItem{...}) on a map made by New(), whose ItemFn makes entryHMaps. *)
Theorem C19_items_keep_their_key_refuted : ~ items_keep_their_key.
Proof.
  intros H. specialize (H hx KEntry 32 CombineSearch4 false [] (KStr "ab") (new_sample "ab" (GV 1 1))).
  assert (X : RItem (Some (None, GV 1 1)) = RItem (Some (Some (KStr "ab"), GV 1 1))); [|discriminate X].
  change (GV 1 1) with (i_val (new_sample "ab" (GV 1 1))) at 2. rewrite <- H; [vm_compute; reflexivity|cov_tac|reflexivity].
Qed.
Print Assumptions C19_items_keep_their_key_refuted.
