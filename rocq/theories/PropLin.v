(** C63: Set, Get and Delete of a default map are linearizable as long as one goroutine at a time adds an item and no
    key is deleted by two goroutines at once. Neither condition can be dropped. *)
From Verif Require Import Base BaseProofs Util UtilProofs Bucket MapModel Spec MapRefine ConcModel ConcSpec ConcProofs ConcMore PropConc LinSpec LinProofs ConcLin.
From Coq Require Import PeanoNat.
Local Open Scope nat_scope.
Local Open Scope list_scope.
Local Opaque reverse64.

Lemma hist_calls g s t a s' u o : cstep g s (t, a) = Some s' -> In (Inv u o) (hist s') -> In (Inv u o) (hist s) \/ (u = t /\ a = ACall o).
Proof.
  assert (SAME : forall x, Some x = Some s' -> hist x = hist s -> In (Inv u o) (hist s') -> In (Inv u o) (hist s) \/ (u = t /\ a = ACall o)).
  { intros x E H. injection E as <-. rewrite H. auto. }
  assert (LOG : forall x o' r, Some x = Some s' -> hist x = hist s ++ [Rsp t o' r] -> In (Inv u o) (hist s') -> In (Inv u o) (hist s) \/ (u = t /\ a = ACall o)).
  { intros x o' r E H. injection E as <-. rewrite H. intros I. apply in_app_or in I as [I|[I|[]]]; [auto|discriminate]. }
  assert (AFT : forall s0 o', hist s0 = hist s -> Some (after_insert s0 t o') = Some s' -> In (Inv u o) (hist s') -> In (Inv u o) (hist s) \/ (u = t /\ a = ACall o)).
  { intros s0 o' H E. destruct o'; cbn [after_insert] in E; try (apply (SAME _ E); exact H); eapply (LOG _ _ _ E); cbn [hist ret]; rewrite H; reflexivity. }
  unfold cstep. intros E. destruct (pcs s t) as [|o'|o' i|o' i|o' i|o' i n|o' i cur pv|o' i n pos pv|o' i r|o' i r|o'] eqn:EP.
  - destruct a as [o'| | | |]; try discriminate. intros I. assert (HH : hist s' = hist s ++ [Inv t o']) by (destruct o'; cbn [new_node] in E; injection E as <-; reflexivity).
    rewrite HH in I. apply in_app_or in I as [I|[I|[]]]; [auto|]. injection I as -> ->. auto.
  - destruct a as [o2| |i| |i]; try (destruct o'; discriminate).
    + destruct o' as [k c v|k c|k c|rv]; try discriminate; destruct (hit s k c i); try discriminate; apply (SAME _ E eq_refl).
    + destruct o' as [k c v|k c|k c|rv]; try discriminate; destruct (may_miss g s k c); try discriminate; cbn [new_node] in E; [apply (SAME _ E eq_refl)| |]; eapply (LOG _ _ _ E); reflexivity.
  - destruct o' as [k c v|k c|k c|rv]; destruct a; try discriminate. destruct (node s i); try discriminate. destruct (set_value _ _ _) as [[v' ok]|]; eapply (LOG _ _ _ E); reflexivity.
  - destruct a; try discriminate. destruct (node s i); try discriminate. eapply (LOG _ _ _ E); reflexivity.
  - destruct a; try discriminate. destruct (node s i); try discriminate. eapply (LOG _ _ _ E); reflexivity.
  - destruct a; try discriminate. destruct n; [|apply (SAME _ E eq_refl)]. destruct (node s i), (node s i0); try discriminate. destruct (_ && _)%bool; try discriminate. apply (SAME _ E eq_refl).
  - destruct a; try discriminate. destruct (node s i), (node s cur); try discriminate. destruct (_ && _)%bool; [apply (SAME _ E eq_refl)|]. destruct (next_of cur (order s)); apply (SAME _ E eq_refl).
  - destruct a; destruct n, pos; try discriminate; try (apply (SAME _ E eq_refl)). destruct (in_order s i0); try discriminate. apply (SAME _ E eq_refl).
  - destruct a; try discriminate. destruct (check s i r); [|apply (AFT s o'); auto]. destruct (c_atomic g); [apply (AFT (insert s i r) o'); auto|apply (SAME _ E eq_refl)].
  - destruct a; try discriminate. apply (AFT (insert s i r) o'); auto.
  - destruct a; try discriminate. eapply (LOG _ _ _ E); reflexivity.
Qed.

(** The theorem: any number of goroutines, any schedule, any calls on keys below the largest hash. *)
Theorem C63_linearizable g ls s : c_lax g = false -> crun g cinit ls = Some s ->
  (forall t o, In (t, ACall o) ls -> okcall o) -> always g cinit ls orderly -> linearizable (hist s).
Proof.
  intros LX R OK A. assert (J : exists L, linv s L); [|destruct J as (L & J); exists L; apply J].
  refine (always_ind g (fun x => exists L, linv x L) orderly ls _ cinit s (ex_intro _ [] cinit_linv) A R).
  intros s0 t a s1 I (L & V) O O' E. pose proof (cstep_eff _ _ _ _ _ E) as EF. apply (linv_step g s0 t s1 L LX V); auto.
  apply (lbase_step g s0 t s1 LX (li_base _ _ V) O O' EF). intros o H. destruct (hist_calls _ _ _ _ _ _ _ E H) as [H'|[_ ->]]; [eapply lb_ok; [apply V|eauto]|eauto].
Qed.

(** * A run it applies to *)
Definition orderly_b (s : cstate) : bool :=
  forallb (fun t => forallb (fun u => Nat.eqb t u ||
    (negb (inserting (pcs s t)) || negb (inserting (pcs s u))) &&
    match pending (pcs s t), pending (pcs s u) with Some (CDel k c), Some (CDel k' c') => negb ((k =? k') && (c =? c'))%Z | _, _ => true end) [0; 1; 2; 3]) [0; 1; 2; 3].
Lemma orderly_decide g ls : small_threads ls = true -> forallb orderly_b (states g cinit ls) = true -> always g cinit ls orderly.
Proof.
  intros ST F. apply always_states. intros x I. pose proof (proj1 (forallb_forall _ _) F x I) as B.
  assert (ID : forall t, ~ t < 4 -> pcs x t = Idle).
  { intros t L. rewrite (states_above g ls cinit x t ST); auto. lia. }
  assert (SM : forall t, t < 4 -> In t [0; 1; 2; 3]) by (intros t L; destruct t as [|[|[|[|]]]]; cbn; auto; lia).
  intros t u NE. destruct (Nat.lt_ge_cases t 4) as [Lt|Lt]; [|rewrite (ID t) by lia; split; discriminate].
  destruct (Nat.lt_ge_cases u 4) as [Lu|Lu]; [|rewrite (ID u) by lia; split; [auto|discriminate]].
  unfold orderly_b in B. rewrite forallb_forall in B. specialize (B t (SM t Lt)). rewrite forallb_forall in B. specialize (B u (SM u Lu)). cbn beta in B.
  apply orb_true_iff in B as [B|B]; [apply Nat.eqb_eq in B; congruence|]. apply andb_true_iff in B as [B1 B2]. split.
  - intros H. rewrite H in B1. cbn in B1. destruct (inserting (pcs x u)); auto.
  - intros k c P1 P2. rewrite P1, P2, !Z.eqb_refl in B2. discriminate.
Qed.
Definition okcalls_b (ls : list label) : bool :=
  forallb (fun l => match snd l with ACall o => match key_call o with Some (k, _) => (0 <=? k)%Z && (k <? 2 ^ 64 - 1)%Z | None => true end | _ => true end) ls.
Lemma okcalls_decide ls : okcalls_b ls = true -> forall t o, In (t, ACall o) ls -> okcall o.
Proof.
  intros F t o I. pose proof (proj1 (forallb_forall _ _) F _ I) as B. cbn beta iota delta [snd] in B. unfold okcall. destruct (key_call o) as [[k c]|]; auto.
  apply andb_true_iff in B as [B1 B2]. split; [apply Z.leb_le|apply Z.ltb_lt]; auto.
Qed.
(** Set a; then a Get and an overwriting Set stop at the item, a Delete marks it, the Set and the Get end. A new Set of a
    has added its item and not ended when a Get reads it. *)
Definition lin_run : list label :=
  let a := at_ 10 in
  let l1 := steps strict (call_ [] 1 (CSet a 7 (GV 1 1))) 1 60 in
  let l2 := steps strict (call_ l1 2 (CGet a 7)) 2 1 in
  let l3 := steps strict (call_ l2 3 (CSet a 7 (GV 1 2))) 3 1 in
  let l4 := steps strict (call_ l3 1 (CDel a 7)) 1 60 in
  let l5 := steps strict l4 3 60 in
  let l6 := steps strict l5 2 60 in
  let l7 := steps strict (call_ l6 3 (CSet a 7 (GV 1 3))) 3 9 in
  let l8 := steps strict (call_ l7 2 (CGet a 7)) 2 60 in
  steps strict l8 3 60.
Definition rets (s : cstate) : list (nat * cres) := flat_map (fun e => match e with Rsp t _ r => [(t, r)] | _ => [] end) (hist s).
Example C63_case : crun strict cinit lin_run = Some (after strict lin_run) /\ (forall t o, In (t, ACall o) lin_run -> okcall o) /\ always strict cinit lin_run orderly /\
  rets (after strict lin_run) = [(1, CBool true); (1, CBool true); (3, CBool true); (2, CVal (GV 1 2) true); (2, CVal (GV 1 3) true); (3, CBool true)].
Proof.
  split; [apply valid_run; vm_compute; reflexivity|]. split; [apply okcalls_decide; vm_compute; reflexivity|].
  split; [apply orderly_decide; vm_compute; reflexivity|]. vm_compute. reflexivity.
Qed.

(** * The conditions are needed *)
Definition is_set (k c : Z) (x : lincall) : bool := match l_call x with CSet k' c' _ => ((k' =? k) && (c' =? c))%Z | _ => false end.
Definition is_del (k c : Z) (x : lincall) : bool :=
  match l_call x, l_res x with CDel k' c', CBool true => ((k' =? k) && (c' =? c))%Z | _, _ => false end.
Definition has (m : lmap) (k c : Z) : nat := match m k c with Some _ => 1 | None => 0 end.
(** in an ideal run a key is deleted no more often than it is set *)
Lemma dels_sets k c L : forall m, louts m (calls L) = map l_res L -> List.length (filter (is_del k c) L) <= List.length (filter (is_set k c) L) + has m k c.
Proof.
  induction L as [|x L IH]; intros m E; cbn [calls map louts] in E; [cbn; lia|]. injection E as E1 E2. specialize (IH _ E2).
  assert (ST : List.length (filter (is_del k c) [x]) + has (fst (lin_step m (l_call x))) k c <= List.length (filter (is_set k c) [x]) + has m k c).
  { clear IH E2. cbn [filter]. unfold is_set, is_del. rewrite <- E1. destruct (l_call x) as [k' c' v|k' c'|k' c'|rv]; cbn [lin_step].
    - unfold has. destruct (m k' c') eqn:M; [destruct (assign KSample g v) as [[v' ok]|]|]; cbn [fst snd]; unfold lput; try rewrite (Z.eqb_sym k' k), (Z.eqb_sym c' c);
        destruct (Z.eqb_spec k k'), (Z.eqb_spec c c'); cbn [andb List.length]; subst; rewrite ?M; cbn [List.length]; repeat match goal with |- context [match m ?a ?b with _ => _ end] => destruct (m a b) end; lia.
    - cbn [fst snd]. lia.
    - unfold has. destruct (m k' c') eqn:M; cbn [fst snd]; unfold lput; try rewrite (Z.eqb_sym k' k), (Z.eqb_sym c' c);
        destruct (Z.eqb_spec k k'), (Z.eqb_spec c c'); cbn [andb List.length]; subst; rewrite ?M; cbn [List.length]; repeat match goal with |- context [match m ?a ?b with _ => _ end] => destruct (m a b) end; lia.
    - cbn [fst snd List.length]. lia. }
  cbn [filter] in *. destruct (is_del k c x), (is_set k c x); cbn [List.length] in *; lia.
Qed.
Lemma filter_one {A} (f : A -> bool) (h : A -> nat) a l : NoDup (map h l) -> (forall x, In x l -> f x = true -> h x = a) -> List.length (filter f l) <= 1.
Proof.
  induction l as [|x l IH]; intros ND H; cbn [filter]; [cbn; lia|]. cbn [map] in ND. apply NoDup_cons_iff in ND as [N1 N2].
  assert (IH' : List.length (filter f l) <= 1) by (apply IH; auto; intros y I; apply H; right; auto).
  destruct (f x) eqn:F; [|auto]. assert (E : filter f l = []).
  { destruct (filter f l) as [|y q] eqn:Q; auto. exfalso. assert (I : In y (filter f l)) by (rewrite Q; left; auto). apply filter_In in I as [I Fy].
    apply N1. rewrite (H x), <- (H y); auto; [apply in_map; auto|right; auto|left; auto]. }
  rewrite E. auto.
Qed.
Lemma filter_two {A} (f : A -> bool) l x y : In x l -> In y l -> x <> y -> f x = true -> f y = true -> 2 <= List.length (filter f l).
Proof.
  intros Ix Iy NE Fx Fy. assert (I1 : In x (filter f l)) by (apply filter_In; auto). assert (I2 : In y (filter f l)) by (apply filter_In; auto).
  destruct (filter f l) as [|a [|b q]]; cbn [List.length]; [destruct I1| |lia]. destruct I1 as [->|[]], I2 as [->|[]]. congruence.
Qed.
Definition two_deletes (k c : Z) (v : gval) : list event :=
  [Inv 1 (CSet k c v); Rsp 1 (CSet k c v) (CBool true); Inv 2 (CDel k c); Inv 3 (CDel k c); Rsp 2 (CDel k c) (CBool true); Rsp 3 (CDel k c) (CBool true)].
Lemma two_deletes_not k c v : ~ linearizable (two_deletes k c v).
Proof.
  intros [L N]. set (H := two_deletes k c v) in *.
  assert (A2 : answered H 2 4 (CBool true)). { exists 2, (CDel k c). split; auto. split; auto. split; [lia|]. intros m e Lm E. assert (m = 3) by lia. subst m. injection E as <-. cbn. lia. }
  assert (A3 : answered H 3 5 (CBool true)). { exists 3, (CDel k c). split; auto. split; auto. split; [lia|]. intros m e Lm E. assert (m = 4) by lia. subst m. injection E as <-. cbn. lia. }
  destruct (ln_all _ _ N _ _ _ A2) as (x & Ix & Ex), (ln_all _ _ N _ _ _ A3) as (y & Iy & Ey).
  assert (Rx : l_res x = CBool true) by (eapply (ln_res _ _ N); eauto; rewrite Ex; exact A2).
  assert (Ry : l_res y = CBool true) by (eapply (ln_res _ _ N); eauto; rewrite Ey; exact A3).
  destruct (ln_calls _ _ N x Ix) as (tx & Cx), (ln_calls _ _ N y Iy) as (ty & Cy). rewrite Ex in Cx. rewrite Ey in Cy. injection Cx as _ Cx. injection Cy as _ Cy.
  pose proof (dels_sets k c L lempty (ln_legal _ _ N)) as Q. cbn [has lempty] in Q.
  assert (2 <= List.length (filter (is_del k c) L)).
  { apply (filter_two _ L x y); auto; [congruence| |]; unfold is_del; rewrite <- ?Cx, <- ?Cy, ?Rx, ?Ry, !Z.eqb_refl; auto. }
  assert (List.length (filter (is_set k c) L) <= 1).
  { apply (filter_one _ l_id 0); [apply N|]. intros z Iz Fz. destruct (ln_calls _ _ N z Iz) as (tz & Cz). unfold is_set in Fz.
    destruct (l_id z) as [|[|[|[|[|[|j]]]]]]; auto; cbn in Cz; try discriminate; try (injection Cz as _ Cz; rewrite <- Cz in Fz; discriminate). destruct j; discriminate. }
  unfold has, lempty in Q. lia.
Qed.
(** Two Deletes of one key that overlap may both answer true. *)
Definition deletes_run : list label :=
  let a := at_ 10 in
  let l1 := steps strict (call_ [] 1 (CSet a 7 (GV 1 1))) 1 60 in
  let l2 := steps strict (call_ l1 2 (CDel a 7)) 2 1 in
  let l3 := steps strict (call_ l2 3 (CDel a 7)) 3 1 in
  steps strict (steps strict l3 2 60) 3 60.
Lemma deletes_hist : hist (after strict deletes_run) = two_deletes (at_ 10) 7 (GV 1 1).
Proof. vm_compute. reflexivity. Qed.
Lemma deletes_valid : crun strict cinit deletes_run = Some (after strict deletes_run).
Proof. apply valid_run. vm_compute. reflexivity. Qed.
Lemma deletes_okcalls : forall t o, In (t, ACall o) deletes_run -> okcall o.
Proof. apply okcalls_decide. vm_compute. reflexivity. Qed.

(** A Set that was answered, and then a Get that finds nothing, without a Delete. *)
Lemma stays k c L : forall m, (forall x, In x L -> forall k' c', l_call x <> CDel k' c') -> m k c <> None -> lrun m (calls L) k c <> None.
Proof.
  induction L as [|x L IH]; intros m H M; cbn [calls map lrun]; auto. apply IH; [intros y I; apply H; right; auto|].
  specialize (H x (or_introl eq_refl)). destruct (l_call x) as [k' c' v|k' c'|k' c'|rv]; cbn [lin_step]; auto.
  - destruct (m k' c') eqn:E; [destruct (assign KSample g v) as [[v' ok]|]|]; cbn [fst]; auto; unfold lput; destruct (Z.eqb_spec k k'), (Z.eqb_spec c c'); cbn [andb]; congruence.
  - exfalso. eapply H. eauto.
Qed.
Definition lost_set (k c : Z) (v : gval) (k' c' : Z) (v' : gval) : list event :=
  [Inv 1 (CSet k c v); Inv 2 (CSet k' c' v'); Rsp 2 (CSet k' c' v') (CBool true); Rsp 1 (CSet k c v) (CBool true); Inv 3 (CGet k c); Rsp 3 (CGet k c) (CVal GNil false)].
Lemma lost_set_not k c v k' c' v' : ~ linearizable (lost_set k c v k' c' v').
Proof.
  intros [L N]. set (H := lost_set k c v k' c' v') in *.
  assert (A0 : answered H 0 3 (CBool true)). { exists 1, (CSet k c v). split; auto. split; auto. split; [lia|]. intros m e Lm E. assert (m = 1 \/ m = 2) as [->| ->] by lia; injection E as <-; cbn; lia. }
  assert (A4 : answered H 4 5 (CVal GNil false)). { exists 3, (CGet k c). split; auto. split; auto. split; [lia|]. intros m e Lm E. lia. }
  destruct (ln_all _ _ N _ _ _ A0) as (x & Ix & Ex), (ln_all _ _ N _ _ _ A4) as (y & Iy & Ey).
  assert (Ry : l_res y = CVal GNil false) by (eapply (ln_res _ _ N); eauto; rewrite Ey; exact A4).
  destruct (ln_calls _ _ N x Ix) as (tx & Cx), (ln_calls _ _ N y Iy) as (ty & Cy). rewrite Ex in Cx. rewrite Ey in Cy. injection Cx as _ Cx. injection Cy as _ Cy.
  assert (ND : forall z, In z L -> forall a b, l_call z <> CDel a b).
  { intros z Iz a b E. destruct (ln_calls _ _ N z Iz) as (tz & Cz). rewrite E in Cz. destruct (l_id z) as [|[|[|[|[|[|j]]]]]]; cbn in Cz; try discriminate. destruct j; discriminate. }
  apply in_split in Iy as (l1 & l2 & EL). pose proof (ln_legal _ _ N) as LG. rewrite EL in *. rewrite !map_app in LG. cbn [map] in LG. rewrite louts_app in LG.
  apply app_same_length in LG as [_ LG]; [|rewrite louts_length, !map_length; auto]. cbn [louts] in LG. injection LG as LG _. rewrite <- Cy, Ry in LG. cbn [lin_step snd] in LG.
  assert (IX : In x l1).
  { apply in_app_or in Ix as [I|[I|I]]; auto; exfalso; [subst; congruence|]. pose proof (ln_order _ _ N) as O. apply fop_app in O as (_ & O & _). inversion O as [|? ? O1 _]; subst.
    rewrite Forall_forall in O1. specialize (O1 x I 3 (CBool true)). rewrite Ex in O1. specialize (O1 A0). rewrite Ey in O1. lia. }
  apply in_split in IX as (q1 & q2 & ->). rewrite map_app, lrun_app in LG. cbn [map lrun] in LG. rewrite <- Cx in LG.
  assert (P : fst (lin_step (lrun lempty (map l_call q1)) (CSet k c v)) k c <> None).
  { cbn [lin_step]. destruct (lrun lempty (map l_call q1) k c) eqn:E; [destruct (assign KSample g v) as [[w ok]|]|]; cbn [fst]; rewrite ?lput_same; congruence. }
  apply (stays k c q2) in P; [|intros z I; apply ND; apply in_or_app; left; apply in_or_app; right; right; auto]. unfold calls in P.
  destruct (lrun (fst _) _ k c); [discriminate|congruence].
Qed.
Definition sets_run : list label := steps strict (call_ race 3 (CGet (at_ 10) 7)) 3 60.
Lemma sets_hist : hist (after strict sets_run) = lost_set (at_ 10) 7 (GV 1 1) (at_ 20) 8 (GV 1 2).
Proof. vm_compute. reflexivity. Qed.
Lemma sets_valid : crun strict cinit sets_run = Some (after strict sets_run).
Proof. apply valid_run. vm_compute. reflexivity. Qed.
Lemma sets_okcalls : forall t o, In (t, ACall o) sets_run -> okcall o.
Proof. apply okcalls_decide. vm_compute. reflexivity. Qed.

(** one goroutine at a time adds an item *)
Definition one_adder (s : cstate) : Prop := forall t u, t <> u -> inserting (pcs s t) = true -> inserting (pcs s u) = false.
(** no key is being deleted by two goroutines *)
Definition one_deleter (s : cstate) : Prop := forall t u k c, t <> u -> pending (pcs s t) = Some (CDel k c) -> pending (pcs s u) <> Some (CDel k c).
Lemma orderly_both s : orderly s <-> one_adder s /\ one_deleter s.
Proof.
  split; [intros O; split; intros t u; [intros NE|intros k c NE]; apply (O t u NE)|]. intros [A D] t u NE. split; [apply A; auto|intros k c; apply D; auto].
Qed.
Definition one_adder_b (s : cstate) : bool :=
  forallb (fun t => forallb (fun u => Nat.eqb t u || negb (inserting (pcs s t)) || negb (inserting (pcs s u))) [0; 1; 2; 3]) [0; 1; 2; 3].
Definition no_deleter_b (s : cstate) : bool := forallb (fun t => match pending (pcs s t) with Some (CDel _ _) => false | _ => true end) [0; 1; 2; 3].
Lemma low_threads g ls x t : small_threads ls = true -> In x (states g cinit ls) -> pcs x t <> Idle -> In t [0; 1; 2; 3].
Proof.
  intros ST I P. destruct (Nat.lt_ge_cases t 4) as [L|L]; [destruct t as [|[|[|[|]]]]; cbn; auto; lia|]. exfalso. apply P. rewrite (states_above g ls cinit x t ST); auto.
Qed.
Lemma one_adder_decide g ls : small_threads ls = true -> forallb one_adder_b (states g cinit ls) = true -> always g cinit ls one_adder.
Proof.
  intros ST F. apply always_states. intros x I. pose proof (proj1 (forallb_forall _ _) F x I) as B. intros t u NE P.
  destruct (inserting (pcs x u)) eqn:Q; auto. exfalso. assert (It : In t [0; 1; 2; 3]) by (eapply low_threads; eauto; intros Z; rewrite Z in P; discriminate).
  assert (Iu : In u [0; 1; 2; 3]) by (eapply low_threads; eauto; intros Z; rewrite Z in Q; discriminate).
  unfold one_adder_b in B. rewrite forallb_forall in B. specialize (B t It). rewrite forallb_forall in B. specialize (B u Iu). cbn beta in B. rewrite P, Q in B.
  destruct (Nat.eqb_spec t u); [congruence|discriminate].
Qed.
Lemma no_deleter_decide g ls : small_threads ls = true -> forallb no_deleter_b (states g cinit ls) = true -> always g cinit ls one_deleter.
Proof.
  intros ST F. apply always_states. intros x I. pose proof (proj1 (forallb_forall _ _) F x I) as B. intros t u k c NE P. exfalso.
  assert (It : In t [0; 1; 2; 3]) by (eapply low_threads; eauto; intros Z; rewrite Z in P; discriminate).
  unfold no_deleter_b in B. rewrite forallb_forall in B. specialize (B t It). cbn beta in B. rewrite P in B. discriminate.
Qed.
(** Without the condition on Deletes, or without the one on insertions, the map is not linearizable, although insertion
    is one step in [strict] and no search misses anything. *)
Theorem C63_linearizable_refuted :
  ~ (forall ls s, crun strict cinit ls = Some s -> (forall t o, In (t, ACall o) ls -> okcall o) -> always strict cinit ls one_adder -> linearizable (hist s)) /\
  ~ (forall ls s, crun strict cinit ls = Some s -> (forall t o, In (t, ACall o) ls -> okcall o) -> always strict cinit ls one_deleter -> linearizable (hist s)).
Proof.
  split; intros H.
  - specialize (H deletes_run _ deletes_valid deletes_okcalls). rewrite deletes_hist in H. apply (two_deletes_not (at_ 10) 7 (GV 1 1)), H.
    apply one_adder_decide; vm_compute; reflexivity.
  - specialize (H sets_run _ sets_valid sets_okcalls). rewrite sets_hist in H. apply (lost_set_not (at_ 10) 7 (GV 1 1) (at_ 20) 8 (GV 1 2)), H.
    apply no_deleter_decide; vm_compute; reflexivity.
Qed.
(** The conditions as two. *)
Corollary C63_linearizable_two g ls s : c_lax g = false -> crun g cinit ls = Some s -> (forall t o, In (t, ACall o) ls -> okcall o) ->
  always g cinit ls one_adder -> always g cinit ls one_deleter -> linearizable (hist s).
Proof.
  intros LX R OK A D. eapply C63_linearizable; eauto. intros p q s' E C. apply orderly_both. split; [eapply A|eapply D]; eauto.
Qed.
