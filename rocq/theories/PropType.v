(** C19: exactly when a stored item is read back with its key. *)
From Verif Require Import Base BaseProofs Util UtilProofs Bucket MapModel Spec ItemProofs MapInv MapSplit MapStep MapInit MapRefine MapAny MapMore Checks PropMap.
From Coq Require Import Sorted.
Local Open Scope Z_scope.
Local Open Scope list_scope.

(** In the history os, starting from an empty map, some Set created a key (it was not stored then). *)
Definition set_created (h : hashes) (view : ikind) (os : list op) : Prop :=
  exists os1 x v os2 p, os = os1 ++ OpSet (KStr x) v :: os2 /\ key_to_hash h (KStr x) = Some p /\
    sm_map (sm_run h (sm_empty view) os1) p = None.
(** The item type through which the map reads: the type it was made with, and SampleItem once a Set created a key. *)
Definition read_type (h : hashes) (view : ikind) (os : list op) (kd : ikind) : Prop :=
  match kd with
  | KSample => view = KSample \/ set_created h view os
  | KEntry => view = KEntry /\ ~ set_created h view os
  end.

Lemma sm_run_app h m a b : sm_run h m (a ++ b) = sm_run h (sm_run h m a) b.
Proof. revert m. induction a as [|o a IH]; intros m; cbn [app sm_run]; auto. Qed.
Lemma sm_update_view m p b v : sm_view (fst (sm_update m p b v)) = sm_view m.
Proof. unfold sm_update. destruct (assign _ _ _) as [[? ?]|]; reflexivity. Qed.
Lemma step_view h m o : (exists x v p, o = OpSet (KStr x) v /\ key_to_hash h (KStr x) = Some p /\ sm_map m p = None) /\ sm_view (fst (sm_step h m o)) = KSample \/
  ~ (exists x v p, o = OpSet (KStr x) v /\ key_to_hash h (KStr x) = Some p /\ sm_map m p = None) /\ sm_view (fst (sm_step h m o)) = sm_view m.
Proof.
  destruct o as [key v|i|key|k c|key|k c|key|key|]; try (right; split; [intros (? & ? & ? & ? & _); discriminate|]; cbn [sm_step fst]; auto;
    destruct (key_to_hash h _) as [p|] eqn:K; cbn [fst]; auto; destruct (sm_map m p) eqn:E; cbn [fst sm_view]; try rewrite sm_update_view; auto; fail).
  cbn [sm_step]. destruct (key_to_hash h key) as [p|] eqn:K; [destruct (sm_map m p) as [b|] eqn:E|].
  - right. split; [|apply sm_update_view]. intros (x & w & q & [= -> ->] & K' & E'). congruence.
  - destruct key; try (right; split; [intros (? & ? & ? & ? & _); discriminate|reflexivity]). left. split; [eauto 8|reflexivity].
  - right. split; [|reflexivity]. intros (x & w & q & [= -> ->] & K' & E'). congruence.
Qed.
Lemma created_snoc h view os o : set_created h view (os ++ [o]) <-> set_created h view os \/
  exists x v p, o = OpSet (KStr x) v /\ key_to_hash h (KStr x) = Some p /\ sm_map (sm_run h (sm_empty view) os) p = None.
Proof.
  split.
  - intros (os1 & x & v & os2 & p & E & K & N). destruct os2 as [|o' os2 _] using rev_ind.
    + apply app_inj_tail in E as [<- ->]. right. eauto 8.
    + rewrite app_comm_cons, app_assoc in E. apply app_inj_tail in E as [E ->]. left. exists os1, x, v, os2, p. auto.
  - intros [(os1 & x & v & os2 & p & E & K & N)|(x & v & p & -> & K & N)].
    + exists os1, x, v, (os2 ++ [o]), p. split; [rewrite E, <- app_assoc; reflexivity|auto].
    + exists os, x, v, [], p. auto.
Qed.
Lemma view_law h view os kd : sm_view (sm_run h (sm_empty view) os) = kd <-> read_type h view os kd.
Proof.
  assert (S : sm_view (sm_run h (sm_empty view) os) = KSample <-> view = KSample \/ set_created h view os).
  { induction os as [|o os IH] using rev_ind.
    - cbn [sm_run sm_empty sm_view]. split; auto. intros [E|(os1 & ? & ? & ? & ? & E & _)]; auto. destruct os1; discriminate.
    - rewrite sm_run_app, created_snoc. cbn [sm_run]. destruct (step_view h (sm_run h (sm_empty view) os) o) as [[C ->]|[C ->]]; tauto. }
  assert (V : view = KSample \/ view = KEntry) by (destruct view; auto).
  destruct kd; cbn [read_type]; auto. split.
  - intros E. destruct V as [V|V]; [exfalso|split; auto].
    + assert (X : KEntry = KSample) by (rewrite <- E; apply S; auto). discriminate.
    + intros C. assert (X : KEntry = KSample) by (rewrite <- E; apply S; auto). discriminate.
  - intros [E C]. destruct (sm_view _) eqn:Q; auto. destruct (proj1 S eq_refl) as [X|X]; [congruence|tauto].
Qed.

(** For every covered history: LoadItem of a stored key, and Range, show the item's key if the item's type is the type
    the map reads with; otherwise they show the item's value without its key. *)
Theorem C19_own_type_iff : forall h view max mode pool os,
  all_covered h (new_map view max mode pool) (sm_empty view) os ->
  let s := run h (new_map view max mode pool) os in
  let m := sm_run h (sm_empty view) os in
  (forall key k c b, key_to_hash h key = Some (k, c) -> sm_map m (k, c) = Some b ->
     exists shown, snd (step h s (OpLoad key)) = RItem (Some (shown, bd_val b)) /\
       (shown = Some (bd_key b) <-> read_type h view os (bd_kind b)) /\ (shown = None <-> ~ read_type h view os (bd_kind b))) /\
  exists P : list ((Z * Z) * binding),
    NoDup (map fst P) /\ (forall p b, In (p, b) P <-> sm_map m p = Some b) /\
    exists shown : binding -> option gkey,
      (forall b, (shown b = Some (bd_key b) <-> read_type h view os (bd_kind b)) /\ (shown b = None <-> ~ read_type h view os (bd_kind b))) /\
      forall A (f : A -> option gkey -> gval -> A * bool) a,
        range s f a = visit (fun a x => f a (shown (snd x)) (bd_val (snd x))) a P.
Proof.
  intros h view max mode pool os A s m.
  assert (SH : forall b, (bd_view (sm_view m) b = Some (bd_key b) <-> read_type h view os (bd_kind b)) /\ (bd_view (sm_view m) b = None <-> ~ read_type h view os (bd_kind b))).
  { intros b. rewrite <- view_law. fold m. unfold bd_view. destruct (sm_view m), (bd_kind b); split; split; try congruence; intros X; exfalso; apply X; reflexivity. }
  destruct (run_ok h os _ _ (new_map_holds view max mode pool) A) as [H _]. fold s m in H. split.
  - intros key k c b K E. exists (bd_view (sm_view m) b). split; [|apply SH]. destruct (key_range h key k c K) as [Hk Hc]. cbn [step]. unfold with_key. rewrite K.
    rewrite (get_item_ok s m k c _ H Hk (load_spec s k c (hd_inv _ _ H))). cbn [snd]. unfold sm_load. rewrite E. reflexivity.
  - destruct (C10_range_is_the_map h view max mode pool os A) as (P & P1 & P2 & P3). fold s m in P2, P3. exists P. split; [|split; [exact P2|]].
    + clear - P1. induction P1 as [|x P S IH F]; cbn [map]; constructor; auto. intros I. apply in_map_iff in I as (y & E & I). rewrite Forall_forall in F. specialize (F y I). rewrite E in F. lia.
    + exists (bd_view (sm_view m)). split; [exact SH|exact P3].
Qed.
Print Assumptions C19_own_type_iff.

(** a map made by New() (entryHMaps): a SampleItem is stored, then a Set creates a key: before it the stored key is not shown, after it is *)
Definition os19b : list op := [sms "ab" (GV 1 1); OpStore (new_entry (KInt 21) (GV 1 2))].
Definition os19c : list op := os19b ++ [OpSet (KStr "abc") (GV 2 2)].
Example C19_iff_case : all_covered hx (new_map KEntry 1 CombineSearch4 true) (sm_empty KEntry) os19c /\
  read_type hx KEntry os19b KEntry /\ ~ read_type hx KEntry os19b KSample /\ read_type hx KEntry os19c KSample /\ ~ read_type hx KEntry os19c KEntry /\
  snd (step hx (run hx (new_map KEntry 1 CombineSearch4 true) os19b) (OpLoad (KStr "ab"))) = RItem (Some (None, GV 1 1)) /\
  snd (step hx (run hx (new_map KEntry 1 CombineSearch4 true) os19c) (OpLoad (KStr "ab"))) = RItem (Some (Some (KStr "ab"), GV 1 1)) /\
  snd (step hx (run hx (new_map KEntry 1 CombineSearch4 true) os19c) (OpLoad (KInt 21))) = RItem (Some (None, GV 1 2)).
Proof.
  split; [unfold os19c, os19b; cbn [app]; cov_tac|].
  split; [apply view_law; vm_compute; reflexivity|]. split; [intros X; apply view_law in X; vm_compute in X; discriminate|].
  split; [apply view_law; vm_compute; reflexivity|]. split; [intros X; apply view_law in X; vm_compute in X; discriminate|].
  repeat split; vm_compute; reflexivity.
Qed.
