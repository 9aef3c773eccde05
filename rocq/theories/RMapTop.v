(** Consequences of the specification of RMap. *)
From Verif Require Import Base BaseProofs Util UtilProofs Bucket TrieProofs TrieInv TrieGrow MapModel ItemProofs MapInv MapSplit MapStep
  MapInit Spec MapRefine MapAny MapMore RMapModel RSpec RMapProofs.
From Coq Require Import ZifyBool Sorted Permutation.
Local Open Scope Z_scope.
Local Open Scope list_scope.
Local Opaque reverse64 level_of base find_bucket.

Definition qhas (q : rspec) (p : Z * Z) (w : gval) : Prop := fget p (q_prom q) = Some w \/ fget p (q_pend q) = Some w.
Definition qmiss (q : rspec) (p : Z * Z) : Prop := fget p (q_prom q) = None /\ fget p (q_pend q) = None.

(** reachable states of the specification *)
Record qok (q : rspec) : Prop := {
  qo_dist : kdist (q_prom q ++ q_pend q);
  qo_idle : q_am q = false -> q_pend q = [];
  qo_fresh : q_prom q = [] -> q_am q = false;
  qo_unset : q_set q = false -> q_prom q = [];
  qo_miss : 0 <= q_miss q }.
Lemma rq_qok r q : rq r q -> 0 <= q_miss q -> qok q.
Proof.
  intros H M. constructor; auto.
  - exact (rq_dist _ _ H).
  - intros E. apply (rq_idle _ _ H E).
  - exact (rq_fresh _ _ H).
  - exact (rq_unset _ _ H).
Qed.
Lemma q_miss_step h q o : 0 <= q_miss q -> 0 <= q_miss (fst (q_step h q o)).
Proof.
  intros M. destruct o as [x v|x|x|]; cbn [q_step]; auto; destruct (key_to_hash h (KStr x)) as [p|]; auto.
  - destruct (fget p (q_prom q)); auto. destruct (fget p (q_pend q)) as [old|].
    + destruct (assign KSample old v) as [[v' ok]|]; auto.
    + destruct (q_prom q); auto.
  - destruct (q_set q); auto. cbn [negb]. destruct (fget p (q_prom q)); auto. destruct (q_am q); auto. cbn [negb].
    destruct (fget p (q_pend q)); auto. cbn [fst]. destruct (few _ _ _); cbn; lia.
  - destruct (q_set q); auto. cbn [negb]. destruct (fget p (q_prom q)); auto. destruct (q_am q); auto. cbn [negb fst q_miss]. lia.
Qed.
Lemma q_miss_run h os : forall q, 0 <= q_miss q -> 0 <= q_miss (q_run h q os).
Proof.
  induction os as [|o os IH]; intros q M; cbn [q_run]; auto. destruct (rstops _); auto. apply IH, q_miss_step; auto.
Qed.

Lemma qhas_none q p : qmiss q p <-> forall w, ~ qhas q p w.
Proof.
  unfold qmiss, qhas. split.
  - intros [A B] w [C|C]; congruence.
  - intros H. destruct (fget p (q_prom q)) eqn:E1; [exfalso; eapply H; eauto|]. destruct (fget p (q_pend q)) eqn:E2; [exfalso; eapply H; eauto|]. auto.
Qed.

(** a key that is held stays, and its value is one that was given to Set *)
Definition held (q : rspec) (p : Z * Z) : Prop := exists w, qhas q p w.
Lemma q_step_held h q o p : qok q -> held q p ->
  (forall y, o = RDel y -> key_to_hash h (KStr y) <> Some p) -> held (fst (q_step h q o)) p.
Proof.
  intros Q (w & HW) ND. destruct o as [x v|x|x|]; cbn [q_step]; [| | |exists w; auto];
    destruct (key_to_hash h (KStr x)) as [p0|] eqn:EK; try (exists w; auto; fail).
  - destruct (fget p0 (q_prom q)) eqn:FP; [exists w; auto|]. destruct (fget p0 (q_pend q)) as [old|] eqn:FG.
    + destruct (assign KSample old v) as [[v' ok]|]; [|exists w; auto]. cbn [fst]. destruct HW as [HW|HW]; [exists w; left; auto|].
      unfold held, qhas. cbn [q_prom q_pend]. rewrite fget_fset. destruct (pair_eqb p0 p); eauto.
    + destruct (q_prom q) as [|y l] eqn:EP; cbn [fst].
      * destruct HW as [HW|HW]; [rewrite EP in HW; discriminate|]. rewrite (qo_idle _ Q (qo_fresh _ Q EP)) in HW. discriminate.
      * unfold held, qhas. cbn [q_prom q_pend]. rewrite fget_fset. destruct HW as [HW|HW]; [rewrite EP in HW; eauto|]. destruct (pair_eqb p0 p); eauto.
  - destruct (q_set q); cbn [negb]; [|exists w; auto]. destruct (fget p0 (q_prom q)); [exists w; auto|].
    destruct (q_am q); cbn [negb]; [|exists w; auto]. destruct (fget p0 (q_pend q)); [|exists w; auto]. cbn [fst].
    destruct (few _ _ _); [exists w; auto|]. exists w. left. cbn [q_prom]. rewrite fget_app.
    destruct HW as [->|HW]; auto. destruct (fget p (q_prom q)) eqn:E; auto.
    exfalso. pose proof (qo_dist _ Q) as K. apply kdist_nodup in K. rewrite map_app in K. apply nodup_parts in K as (_ & _ & K).
    apply (K p).
    + destruct (in_dec (fun a b => Bool.reflect_dec _ _ (pair_eqbP a b)) p (map fst (q_prom q))) as [Y|Y]; auto. apply fget_none in Y. congruence.
    + destruct (in_dec (fun a b => Bool.reflect_dec _ _ (pair_eqbP a b)) p (map fst (q_pend q))) as [Y|Y]; auto. apply fget_none in Y. congruence.
  - destruct (q_set q); cbn [negb]; [|exists w; auto]. destruct (fget p0 (q_prom q)); [exists w; auto|].
    destruct (q_am q); cbn [negb]; [|exists w; auto]. cbn [fst]. destruct HW as [HW|HW]; [exists w; left; auto|].
    exists w. right. cbn [q_pend]. rewrite fget_fdel. destruct (pair_eqbP p0 p) as [->|]; auto. exfalso. apply (ND x); auto.
Qed.
Lemma q_set_held h q x v p : key_to_hash h (KStr x) = Some p -> held (fst (q_step h q (RSet x v))) p.
Proof.
  intros EK. cbn [q_step]. rewrite EK. destruct (fget p (q_prom q)) as [w|] eqn:FP; [exists w; left; auto|].
  assert (R : pair_eqb p p = true) by (apply pair_eqb_eq; auto).
  destruct (fget p (q_pend q)) as [old|] eqn:FG.
  - destruct (assign KSample old v) as [[v' ok]|]; [|exists old; right; auto]. exists v'. right. cbn [fst q_pend]. rewrite fget_fset, R. auto.
  - exists v. destruct (q_prom q); cbn [fst]; [left; cbn; rewrite R; auto|right]. cbn [q_pend]. rewrite fget_fset, R. auto.
Qed.
Lemma assign_val view old v v' ok : assign view old v = Some (v', ok) -> v' = v \/ v' = old.
Proof.
  destruct view; cbn; intros E; [|injection E as <- <-; auto].
  destruct (gval_eqb v GNil); [injection E as <- <-; auto|]. destruct (_ || _); [injection E as <- <-; auto|discriminate].
Qed.
Definition vals_from (h : hashes) (os : list rop) (q : rspec) : Prop :=
  forall p w, qhas q p w -> exists y, In (RSet y w) os /\ key_to_hash h (KStr y) = Some p.
Lemma q_step_vals h q o pre : vals_from h pre q -> vals_from h (o :: pre) (fst (q_step h q o)).
Proof.
  intros V. assert (V' : vals_from h (o :: pre) q).
  { intros p w HW. destruct (V p w HW) as (y & Hy & E). exists y. split; [right|]; auto. }
  destruct o as [x v|x|x|]; cbn [q_step]; auto; destruct (key_to_hash h (KStr x)) as [p0|] eqn:EK; auto.
  - destruct (fget p0 (q_prom q)) eqn:FP; auto. destruct (fget p0 (q_pend q)) as [old|] eqn:FG.
    + destruct (assign KSample old v) as [[v' ok]|] eqn:EA; auto. cbn [fst]. intros p w [HW|HW]; cbn [q_prom q_pend] in HW; [apply V'; left; auto|].
      rewrite fget_fset in HW. destruct (pair_eqbP p0 p) as [->|]; [|apply V'; right; auto]. injection HW as <-.
      destruct (assign_val _ _ _ _ _ EA) as [->| ->]; [exists x; split; [left|]; auto|]. apply V'. right. auto.
    + destruct (q_prom q) as [|y l] eqn:EP; cbn [fst]; intros p w [HW|HW]; cbn [q_prom q_pend] in HW.
      * cbn in HW. destruct (pair_eqbP p0 p) as [->|]; [|discriminate]. injection HW as <-. exists x. split; [left|]; auto.
      * discriminate.
      * apply V'. left. rewrite EP. auto.
      * rewrite fget_fset in HW. destruct (pair_eqbP p0 p) as [->|]; [|apply V'; right; auto]. injection HW as <-. exists x. split; [left|]; auto.
  - destruct (q_set q); cbn [negb]; auto. destruct (fget p0 (q_prom q)); auto. destruct (q_am q); cbn [negb]; auto.
    destruct (fget p0 (q_pend q)); auto. cbn [fst]. destruct (few _ _ _); [exact V'|].
    intros p w [HW|HW]; cbn [q_prom q_pend] in HW; [|discriminate]. rewrite fget_app in HW. destruct (fget p (q_prom q)) eqn:E.
    + apply V'. left. congruence.
    + apply V'. right. auto.
  - destruct (q_set q); cbn [negb]; auto. destruct (fget p0 (q_prom q)); auto. destruct (q_am q); cbn [negb]; auto. cbn [fst].
    intros p w [HW|HW]; cbn [q_prom q_pend] in HW; [apply V'; left; auto|]. rewrite fget_fdel in HW. destruct (pair_eqb p0 p); [discriminate|].
    apply V'. right. auto.
Qed.
Lemma q_run_vals h os : forall pre q, vals_from h pre q -> vals_from h (rev os ++ pre) (q_run h q os).
Proof.
  induction os as [|o os IH]; intros pre q V; cbn [q_run rev app]; auto. destruct (rstops _).
  - intros p w HW. destruct (V p w HW) as (y & Hy & E). exists y. split; auto. apply in_or_app; auto.
  - rewrite <- app_assoc. cbn [app]. apply IH, q_step_vals; auto.
Qed.
Lemma q_new_vals h : vals_from h [] q_new.
Proof. intros p w [H|H]; discriminate. Qed.

(** runs without blocking *)
Lemma rrun_app h os1 : forall r os2, existsb rstops (routs h r os1) = false -> rrun h r (os1 ++ os2) = rrun h (rrun h r os1) os2.
Proof.
  induction os1 as [|o os IH]; intros r os2 E; cbn [app rrun routs existsb] in *; auto.
  apply orb_false_iff in E as [E1 E2]. rewrite E1 in *. auto.
Qed.
Lemma routs_app h os1 : forall r os2, existsb rstops (routs h r os1) = false -> routs h r (os1 ++ os2) = routs h r os1 ++ routs h (rrun h r os1) os2.
Proof.
  induction os1 as [|o os IH]; intros r os2 E; cbn [app rrun routs existsb] in *; auto.
  apply orb_false_iff in E as [E1 E2]. rewrite E1 in *. rewrite IH; auto.
Qed.
Lemma covered_app h os1 : forall r os2, existsb rstops (routs h r os1) = false -> r_all_covered h r (os1 ++ os2) ->
  r_all_covered h r os1 /\ r_all_covered h (rrun h r os1) os2.
Proof.
  induction os1 as [|o os IH]; intros r os2 E C; cbn [app rrun routs existsb r_all_covered] in *; auto.
  apply orb_false_iff in E as [E1 E2]. rewrite E1 in *. destruct C as [C1 [C2|C2]]; [congruence|]. destruct (IH _ _ E2 C2). auto.
Qed.
Lemma stops_app_l h os1 : forall r os2, existsb rstops (routs h r (os1 ++ os2)) = false -> existsb rstops (routs h r os1) = false.
Proof.
  induction os1 as [|o os IH]; intros r os2 E; cbn [app routs existsb] in *; auto.
  apply orb_false_iff in E as [E1 E2]. rewrite E1 in *. cbn [orb]. eauto.
Qed.

(** the state after a covered history *)
Record rsim (h : hashes) (os : list rop) (r : rstate) (q : rspec) : Prop := {
  rs_rq : rq r q;
  rs_ok : qok q;
  rs_keys : exists pre, incl pre os /\ keys_from h pre q;
  rs_vals : vals_from h os q }.
Lemma rsim_run h os : r_no_collision h os -> r_all_covered h new_rmap os ->
  rsim h os (rrun h new_rmap os) (q_run h q_new os).
Proof.
  intros NC CV. destruct (rrun_ok h os NC os [] new_rmap q_new rq_new) as (_ & H & K); auto.
  - intros p [].
  - intros y [].
  - intros y Hy; auto.
  - constructor; auto.
    + apply (rq_qok _ _ H). apply q_miss_run. cbn. lia.
    + intros p w HW. destruct (q_run_vals h os [] q_new (q_new_vals h) p w HW) as (y & Hy & E). exists y. split; auto.
      rewrite app_nil_r in Hy. apply in_rev in Hy. auto.
Qed.
Lemma rsim_ncol h os r q all x k c : rsim h os r q -> r_no_collision h all -> incl os all -> (exists o, In o all /\ key_of o = Some x) ->
  key_to_hash h (KStr x) = Some (k, c) -> ncol q k c.
Proof.
  intros S NC I (o & Ho & EO) EK. destruct (rs_keys _ _ _ _ S) as (pre & Ip & KF). eapply (keys_ncol h all pre); eauto.
  intros y Hy. auto.
Qed.

(** held after a Set, whatever follows *)
Lemma q_run_held h p os : forall r q pre all, rq r q -> 0 <= q_miss q -> keys_from h pre q -> r_no_collision h all -> incl pre all -> incl os all ->
  r_all_covered h r os -> held q p -> (forall y, In (RDel y) os -> key_to_hash h (KStr y) <> Some p) ->
  held (q_run h q os) p.
Proof.
  induction os as [|o os IH]; intros r q pre all H M KF NC I1 I2 CV HH ND; cbn [q_run]; auto.
  destruct CV as [C1 C2]. destruct (rstep_ok h all pre r q o H KF NC I1 (I2 o (or_introl eq_refl)) C1) as (E & H' & KF').
  rewrite <- E. destruct (rstops (snd (rstep h r o))) eqn:ST; auto. destruct C2 as [C2|C2]; [congruence|].
  eapply (IH _ _ (o :: pre) all H'); eauto.
  - apply q_miss_step; auto.
  - intros y [<-|Hy]; auto. apply I2; left; auto.
  - intros y Hy. apply I2. right; auto.
  - apply q_step_held; auto.
    + eapply rq_qok; eauto.
    + intros y ->. apply ND. left; auto.
  - intros y Hy. apply ND. right; auto.
Qed.

