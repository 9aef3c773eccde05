(** C17: exactly when a call on the default map panics. *)
From Verif Require Import Base BaseProofs Util UtilProofs Bucket MapModel Spec ItemProofs MapInv MapSplit MapStep MapInit MapRefine MapAny MapSafe MapMore Checks PropMap.
Local Open Scope Z_scope.
Local Open Scope list_scope.

(** * Vocabulary, in terms of calls and their results *)
(** LoadItem of the key finds nothing / finds an item with this value, after the calls os on map s0 *)
Definition absent (h : hashes) (s0 : mstate) (os : list op) (key : gkey) : Prop := snd (step h (run h s0 os) (OpLoad key)) = RItem None.
Definition holding (h : hashes) (s0 : mstate) (os : list op) (key : gkey) (v : gval) : Prop := exists shown, snd (step h (run h s0 os) (OpLoad key)) = RItem (Some (shown, v)).
(** values are stored by SampleItem.SetValue: the map was made with SampleItem, or some Set has created a key *)
Definition sample_values (h : hashes) (view : ikind) (s0 : mstate) (os : list op) : Prop :=
  view = KSample \/ exists os1 x v os2, os = os1 ++ OpSet (KStr x) v :: os2 /\ absent h s0 os1 (KStr x).
(** the key a call names *)
Definition key_named (o : op) : option gkey :=
  match o with
  | OpSet key _ | OpGet key | OpLoad key | OpDelete key | OpPurge key => Some key
  | OpStore i => Some (i_key i)
  | _ => None
  end.
Definition key_written (o : op) : option gkey := match o with OpSet key _ => Some key | OpStore i => Some (i_key i) | _ => None end.
(** The three causes: a key of no supported type; a Set that would create a key that is not a string; a value of another
    dynamic type than the one stored. *)
Inductive cause (h : hashes) (view : ikind) (s0 : mstate) (os : list op) (o : op) : Prop :=
| Unsupported : key_named o = Some KOther -> cause h view s0 os o
| NotString key v : o = OpSet key v -> (forall x, key <> KStr x) -> absent h s0 os key -> cause h view s0 os o
| OtherType key t x t' x' : key_written o = Some key -> written o = GV t x -> holding h s0 os key (GV t' x') -> t <> t' ->
    sample_values h view s0 os -> cause h view s0 os o.

(** * Proof *)
Lemma hash_none h key : key_to_hash h key = None <-> key = KOther.
Proof. destruct key; cbn; split; intros; try discriminate; auto. Qed.
Lemma touches_named h o : (touches h o = None /\ o <> OpLen) <-> key_named o = Some KOther.
Proof.
  destruct o; cbn [touches key_named]; try (rewrite hash_none); split; try (intros [E _]; congruence); try (intros E; split; congruence). intros [_ E]. congruence.
Qed.
Lemma load_absent h s key k c : sinv s -> key_to_hash h key = Some (k, c) -> load s k c = Ret None <-> snd (step h s (OpLoad key)) = RItem None.
Proof.
  intros I K. cbn [step]. unfold with_key. rewrite K. destruct (load_spec s k c I) as (z & L & _). rewrite L. destruct z as [z|]; [|cbn; tauto].
  destruct (load_hit _ _ _ _ L) as (l & e & r & -> & _). cbn. split; discriminate.
Qed.
Lemma load_holding h s key k c v : sinv s -> key_to_hash h key = Some (k, c) ->
  (exists l e r, load s k c = Ret (Some (l, e :: r)) /\ e_val e = v) <-> (exists shown, snd (step h s (OpLoad key)) = RItem (Some (shown, v))).
Proof.
  intros I K. cbn [step]. unfold with_key. rewrite K. destruct (load_spec s k c I) as (z & L & _). rewrite L. destruct z as [z|].
  - destruct (load_hit _ _ _ _ L) as (l & e & r & -> & _). cbn [get_item snd]. split.
    + intros (l' & e' & r' & X & <-). injection X as <- <- <-. eauto.
    + intros (shown & X). injection X as _ <-. eauto.
  - cbn. split; [intros (l & e & r & X & _)|intros (w & X)]; discriminate X.
Qed.
Lemma step_view_set h s o : sinv s -> safe_op h o ->
  (exists x v, o = OpSet (KStr x) v /\ snd (step h s (OpLoad (KStr x))) = RItem None) /\ m_view (fst (step h s o)) = KSample \/
  ~ (exists x v, o = OpSet (KStr x) v /\ snd (step h s (OpLoad (KStr x))) = RItem None) /\ m_view (fst (step h s o)) = m_view s.
Proof.
  intros I SO. assert (U : forall z v, m_view (fst (update s z v)) = m_view s) by (intros [l [|e r]] v; unfold update; cbn [snd]; auto; destruct (set_value _ _ _) as [[? ?]|]; auto).
  destruct o as [key v|i|key|k c|key|k c|key|key|]; try (right; split; [intros (? & ? & ? & _); discriminate|]).
  - cbn [step]. unfold set. destruct (key_to_hash h key) as [[k c]|] eqn:K; [|right; split; [|auto]; intros (x & w & E & _); injection E as -> _; discriminate K].
    destruct (load_spec s k c I) as (z & L & _). rewrite L. destruct z as [z|].
    + right. split; [|apply U]. intros (x & w & E & A). injection E as -> _. apply (load_absent h s (KStr x) k c I K) in A. congruence.
    + destruct key as [|z|x|z|z|z|z|z|z|]; try (right; split; [intros (? & ? & E & _); discriminate E|]; destruct (_ && _); reflexivity).
      left. split; [exists x, v; split; auto; apply (load_absent h s (KStr x) k c I K); auto|]. cbn [safe_op writes] in SO. rewrite K in SO. destruct SO as [S1 S2].
      destruct (key_range _ _ _ _ K) as [Hk _]. pose proof (storable_rev k Hk S1 S2) as SR. destruct (find_bucket_present s (reverse64 k) I ltac:(apply reverse64_range)) as [P1 P2]. cbv zeta.
      match goal with |- context [set_ ?a ?b ?n ?e] => destruct (set_spec a b n e) as (s' & E' & A) end.
      { apply sinv_view. destruct (_ && _); auto. apply sinv_mpool; auto. }
      { destruct (_ && _); auto. } { destruct (_ && _); auto. } { reflexivity. } { exact SR. }
      rewrite E'. cbn [fst]. destruct A as (_ & _ & V & _). rewrite V. reflexivity.
  - cbn [step]. unfold store, item_hash. destruct (key_to_hash h (i_key i)) as [[k c]|] eqn:K; auto. destruct (load_spec s k c I) as (z & L & _). rewrite L. destruct z as [z|]; [apply U|].
    destruct (key_range _ _ _ _ K) as [Hk _]. cbn [safe_op writes] in SO. rewrite K in SO.
    assert (SR : 0 <= e_rev (entry_of i k c) <= MAX64 - 2).
    { cbn [entry_of e_rev]. destruct SO as [(R0 & S1 & S2)|R].
      - rewrite R0. cbn [Z.eqb]. apply storable_rev; auto.
      - destruct (Z.eqb_spec (i_rev i) 0); [lia|]. rewrite MAX64_val. lia. }
    destruct (find_bucket_present s (reverse64 k) I ltac:(apply reverse64_range)) as [P1 P2].
    destruct (set_spec s k _ (entry_of i k c) I P1 P2 eq_refl SR) as (s' & E' & A). rewrite E'. cbn [fst]. destruct A as (_ & _ & V & _). exact V.
  - cbn [step]. unfold with_key. destruct (key_to_hash h key) as [[k c]|]; auto. destruct (get_val_same s (get s k c)) as [E _]. rewrite E. reflexivity.
  - cbn [step]. destruct (get_val_same s (get s (u64 k) (u64 c))) as [E _]. rewrite E. reflexivity.
  - cbn [step]. unfold with_key. destruct (key_to_hash h key) as [[k c]|]; auto. destruct (get_item_same s (load s k c)) as [E _]. rewrite E. reflexivity.
  - cbn [step]. destruct (get_item_same s (get s (u64 k) (u64 c))) as [E _]. rewrite E. reflexivity.
  - cbn [step]. unfold delete. destruct (key_to_hash h key) as [[k c]|]; auto. destruct (load_spec s k c I) as ([z|] & -> & _); reflexivity.
  - cbn [step]. unfold delete. destruct (key_to_hash h key) as [[k c]|]; auto. destruct (load_spec s k c I) as ([z|] & -> & _); reflexivity.
  - reflexivity.
Qed.
Lemma sample_law h view max mode pool os : Forall (safe_op h) os ->
  m_view (run h (new_map view max mode pool) os) = KSample <-> sample_values h view (new_map view max mode pool) os.
Proof.
  unfold sample_values. induction os as [|o os IH] using rev_ind; intros F.
  - cbn [run new_map m_view]. split; auto. intros [E|(os1 & ? & ? & ? & E & _)]; auto. destruct os1; discriminate E.
  - apply safe_app in F as [F SO]. specialize (IH F). rewrite run_app. cbn [run]. assert (I : sinv (run h (new_map view max mode pool) os)) by (apply run_sinv; auto using new_map_sinv).
    assert (SN : (exists os1 x v os2, os ++ [o] = os1 ++ OpSet (KStr x) v :: os2 /\ absent h (new_map view max mode pool) os1 (KStr x)) <->
                 (exists os1 x v os2, os = os1 ++ OpSet (KStr x) v :: os2 /\ absent h (new_map view max mode pool) os1 (KStr x)) \/
                 (exists x v, o = OpSet (KStr x) v /\ snd (step h (run h (new_map view max mode pool) os) (OpLoad (KStr x))) = RItem None)).
    { split.
      - intros (os1 & x & v & os2 & E & N). destruct os2 as [|o' os2 _] using rev_ind.
        + apply app_inj_tail in E as [<- ->]. right. eauto 8.
        + rewrite app_comm_cons, app_assoc in E. apply app_inj_tail in E as [E ->]. left. exists os1, x, v, os2. auto.
      - intros [(os1 & x & v & os2 & E & N)|(x & v & -> & N)].
        + exists os1, x, v, (os2 ++ [o]). split; [rewrite E, <- app_assoc; reflexivity|auto].
        + exists os, x, v, []. auto. }
    rewrite SN. destruct (step_view_set h _ o I SO) as [[C ->]|[C ->]]; tauto.
Qed.

(** For every history whose stored positions the map can hold, a call panics exactly for one of the three causes. *)
Theorem C17_panics_iff : forall h view max mode pool os o, Forall (safe_op h) (os ++ [o]) ->
  snd (step h (run h (new_map view max mode pool) os) o) = RPanic <-> cause h view (new_map view max mode pool) os o.
Proof.
  intros h view max mode pool os o F. apply safe_app in F as [F SO]. pose proof (sample_law h view max mode pool os F) as SL. set (s0 := new_map view max mode pool) in *.
  assert (I : sinv (run h s0 os)) by (apply run_sinv; auto; apply new_map_sinv). unfold absent, holding in *. split.
  - intros P. destruct (step_panic h _ o I SO P) as [T|[(key & v & k & c & -> & K & X & L)|(k & c & l & e & r & W & L & C)]].
    + apply Unsupported. apply (touches_named h). auto.
    + eapply NotString; eauto. apply (load_absent h _ key k c I K). auto.
    + assert (KW : exists key, key_written o = Some key /\ key_to_hash h key = Some (k, c)) by (destruct o; try discriminate W; cbn [writes] in W; cbn [key_written]; eauto). destruct KW as (key & KW & K).
      unfold assign in C. destruct (m_view (run h s0 os)) eqn:V; [|discriminate C]. destruct (written o) as [|t x] eqn:WO; [discriminate C|]. destruct (e_val e) as [|t' x'] eqn:EV; [discriminate C|]. cbn [gval_eqb orb same_type] in C.
      destruct (Z.eqb_spec t' t); [discriminate C|]. eapply (OtherType h view s0 os o key t x t' x'); eauto; [|apply SL; auto]. apply (load_holding h _ key k c _ I K). eauto.
  - intros [KN|key v -> N A|key t x t' x' KW WO H NT SV].
    + apply (touches_named h) in KN. destruct KN as [T N]. destruct o; cbn [touches] in T; cbn [step]; unfold set, store, item_hash, with_key, delete; try rewrite T; try reflexivity; try discriminate T. congruence.
    + cbn [step]. unfold set. destruct (key_to_hash h key) as [[k c]|] eqn:K; auto. apply (load_absent h _ key k c I K) in A. rewrite A. destruct key; try reflexivity. exfalso. eapply N. reflexivity.
    + apply SL in SV. assert (K : exists k c, key_to_hash h key = Some (k, c)).
      { destruct (key_to_hash h key) as [[k c]|] eqn:K; eauto. destruct H as (w & H). cbn [step] in H. unfold with_key in H. rewrite K in H. discriminate H. }
      destruct K as (k & c & K). apply (load_holding h _ key k c _ I K) in H. destruct H as (l & e & r & L & EV).
      assert (U : snd (update (run h s0 os) (l, e :: r) (written o)) = RPanic).
      { rewrite update_eq, SV, WO, EV. cbn [assign gval_eqb orb same_type]. destruct (Z.eqb_spec t' t); [congruence|]. reflexivity. }
      destruct o; try discriminate KW; cbn [key_written written] in *; injection KW as KW; cbn [step]; unfold set, store, item_hash; rewrite KW, K, L; exact U.
Qed.
Print Assumptions C17_panics_iff.
(** Every cause occurs: a bool key; a Set of an absent integer key; a string over a number, before and after a Set made the map
    use SampleItems. *)
Example C17_causes :
  let s0 := new_map KEntry 32 CombineSearch4 false in
  let os := [st 21 1; OpSet (KStr "ab") (GV 1 7)] in
  let calls := [OpGet KOther; OpSet (KU64 5) (GV 1 1); OpSet (KU64 21) (GV 2 1); OpStore (new_entry (KU64 21) (GV 2 1)); OpSet (KStr "ab") (GV 1 8); OpSet (KStr "ab") GNil] in
  Forall (safe_op hx) (os ++ calls) /\
  map (fun o => snd (step hx (run hx s0 os) o)) calls = [RPanic; RPanic; RPanic; RPanic; RBool true; RBool false] /\
  snd (step hx (run hx s0 [st 21 1]) (OpStore (new_entry (KU64 21) (GV 2 1)))) = RBool true /\
  cause hx KEntry s0 os (OpStore (new_entry (KU64 21) (GV 2 1))).
Proof.
  cbv zeta. split; [safe_tac|]. split; [vm_compute; reflexivity|]. split; [vm_compute; reflexivity|].
  apply C17_panics_iff; [safe_tac|vm_compute; reflexivity].
Qed.
