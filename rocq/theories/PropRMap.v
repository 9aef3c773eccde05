(** Property theorems about the package rmap: C26-C31, C47. The model is RMapModel.v, the specification RSpec.v. *)
From Verif Require Import Base BaseProofs Util UtilProofs Bucket TrieProofs TrieInv TrieGrow MapModel ItemProofs MapInv MapSplit MapStep
  MapInit Spec MapRefine MapAny MapMore RMapModel RSpec RMapProofs RMapTop.
From Coq Require Import ZifyBool Sorted Permutation.
Local Open Scope Z_scope.
Local Open Scope list_scope.
Local Opaque reverse64 level_of base find_bucket.

(** the same two 64-bit hashes *)
Definition same_key (h : hashes) (x y : string) : Prop := key_to_hash h (KStr x) = key_to_hash h (KStr y).
(** the hypotheses of this file: no two keys of the history collide, every new key is away from the bucket
    boundaries, no call blocked *)
Definition plain (h : hashes) (os : list rop) : Prop :=
  r_no_collision h os /\ r_all_covered h new_rmap os /\ existsb rstops (routs h new_rmap os) = false.
(** the answer of the last call of a history *)
Definition answer (h : hashes) (os : list rop) (o : rop) : res rout := snd (rstep h (rrun h new_rmap os) o).

(** * Decision procedures for the examples *)
Definition rcov1 (h : hashes) (s : rstate) (o : rop) : bool :=
  match o with
  | RSet x _ => match key_to_hash h (KStr x) with
                | Some (k, c) => match snd (rstep h s (RGet x)) with
                                 | Ret (OVal _ true) | Ret (OBox _ true) => true
                                 | _ => negb (existsb (Z.eqb (reverse64 k)) (dump_bucket (r_dirty s))) && negb (k =? 2 ^ 63 - 1) && negb (k =? 2 ^ 64 - 1)
                                 end
                | None => true
                end
  | _ => true
  end.
Fixpoint rcov (h : hashes) (s : rstate) (os : list rop) : bool :=
  match os with
  | [] => true
  | o :: os' => rcov1 h s o && (rstops (snd (rstep h s o)) || rcov h (fst (rstep h s o)) os')
  end.
Lemma rcov1_ok h s o : rcov1 h s o = true -> r_covered h s o.
Proof.
  destruct o as [x v|x|x|]; cbn [r_covered]; auto. unfold rcov1. intros E k c EK. rewrite EK in E.
  destruct (snd (rstep h s (RGet x))) as [a| | |]; try destruct a as [b|v' [|]|v' [|]|n|]; try (left; exists v'; auto; fail); right;
    rewrite !andb_true_iff, !negb_true_iff, !Z.eqb_neq in E; destruct E as [[E1 E2] E3]; split; auto;
    intros I; assert (X : existsb (Z.eqb (reverse64 k)) (dump_bucket (r_dirty s)) = true)
      by (apply existsb_exists; exists (reverse64 k); split; auto; apply Z.eqb_refl); congruence.
Qed.
Lemma rcov_ok h os : forall s, rcov h s os = true -> r_all_covered h s os.
Proof.
  induction os as [|o os IH]; intros s E; cbn [rcov r_all_covered] in *; auto.
  apply andb_true_iff in E as [E1 E2]. split; [apply rcov1_ok; auto|]. apply orb_true_iff in E2 as [E2|E2]; auto.
Qed.
Definition rnocol (h : hashes) (os : list rop) : bool :=
  forallb (fun o => forallb (fun o' => match key_of o, key_of o' with
    | Some x, Some x' => match key_to_hash h (KStr x), key_to_hash h (KStr x') with
                         | Some (k, c), Some (k', c') => negb (k =? k') || (c =? c')
                         | _, _ => true
                         end
    | _, _ => true
    end) os) os.
Lemma rnocol_ok h os : rnocol h os = true -> r_no_collision h os.
Proof.
  unfold rnocol, r_no_collision. intros E o o' x x' k c c' Ho Ho' E1 E2 K1 K2.
  rewrite forallb_forall in E. specialize (E o Ho). rewrite forallb_forall in E. specialize (E o' Ho').
  rewrite E1, E2, K1, K2, Z.eqb_refl in E. cbn [negb orb] in E. apply Z.eqb_eq in E. auto.
Qed.
Lemma plain_ok h os : rnocol h os = true -> rcov h new_rmap os = true -> existsb rstops (routs h new_rmap os) = false -> plain h os.
Proof. intros A B C. split; [apply rnocol_ok|split; [apply rcov_ok|]]; auto. Qed.

(** hash functions for the examples: keys at given positions of the inner map; the conflict hash is the length *)
Definition rpos (l : list (string * Z)) : hashes :=
  mkH (fun s => match find (fun p => String.eqb (fst p) s) l with Some (_, z) => reverse64 z | None => reverse64 1 end)
      (fun s => Z.of_nat (String.length s)).
Definition abc : hashes := rpos [("a", 10); ("b", 20); ("c", 30); ("d", 40); ("z", 50)]%string.
Definition s_ (x : string) (v : Z) := RSet x (GV 1 v).
Definition ga := RGet "a". Definition gb := RGet "b". Definition gc := RGet "c".

(** * Plumbing *)
Lemma nocol_incl h os os' : r_no_collision h os -> incl os' os -> r_no_collision h os'.
Proof. intros N I o o' x x' k c c' A B. intros. eapply (N o o'); eauto. Qed.
Lemma probe h os o : r_no_collision h (os ++ [o]) -> r_all_covered h new_rmap os -> r_covered h (rrun h new_rmap os) o ->
  answer h os o = snd (q_step h (q_run h q_new os) o) /\
  rq (fst (rstep h (rrun h new_rmap os) o)) (fst (q_step h (q_run h q_new os) o)).
Proof.
  intros NC CV C. assert (I : incl os (os ++ [o])) by (intros y; apply in_or_app || (intros Hy; apply in_or_app; auto)).
  pose proof (rsim_run h os (nocol_incl _ _ _ NC I) CV) as S. destruct (rs_keys _ _ _ _ S) as (pre & Ip & KF).
  destruct (rstep_ok h (os ++ [o]) pre _ _ o (rs_rq _ _ _ _ S) KF NC) as (A & B & _); auto.
  - intros y Hy. auto.
  - apply in_or_app. right. left. auto.
Qed.
Lemma plain_app h os1 os2 : plain h (os1 ++ os2) -> plain h os1.
Proof.
  intros (A & B & C). pose proof (stops_app_l h os1 _ _ C) as D. split; [eapply nocol_incl; eauto; intros y Hy; apply in_or_app; auto|].
  split; auto. apply (covered_app h os1 _ os2 D B).
Qed.
Lemma q_run_app h os1 : forall q os2, existsb rstops (q_outs h q os1) = false -> q_run h q (os1 ++ os2) = q_run h (q_run h q os1) os2.
Proof.
  induction os1 as [|o os IH]; intros q os2 E; cbn [app q_run q_outs existsb] in *; auto.
  apply orb_false_iff in E as [E1 E2]. rewrite E1 in *. auto.
Qed.
Lemma plain_outs h os : plain h os -> routs h new_rmap os = q_outs h q_new os.
Proof.
  intros (A & B & C). destruct (rrun_ok h os A os [] new_rmap q_new rq_new) as (E & _); auto.
  - intros p [].
  - intros y [].
  - intros y Hy; auto.
Qed.
Lemma plain_key h os x : r_no_collision h os -> (exists o, In o os /\ key_of o = Some x) -> r_no_collision h (os ++ [RGet x]).
Proof.
  intros N (o0 & H0 & E0) o o' y y' k c c' A B EA EB. 
  assert (P : forall u z, In u (os ++ [RGet x]) -> key_of u = Some z -> exists u', In u' os /\ key_of u' = Some z).
  { intros u z Hu Ez. apply in_app_or in Hu as [Hu|[<-|[]]]; [eauto|]. cbn [key_of] in Ez. injection Ez as <-. eauto. }
  destruct (P _ _ A EA) as (u & Hu & Eu). destruct (P _ _ B EB) as (u' & Hu' & Eu'). intros. eapply (N u u'); eauto.
Qed.

(** * C26 *)
(** Every answer of every history is the one of the specification RSpec.v. *)
Theorem C26_rmap_exact h os : r_no_collision h os -> r_all_covered h new_rmap os ->
  routs h new_rmap os = q_outs h q_new os.
Proof.
  intros A B. destruct (rrun_ok h os A os [] new_rmap q_new rq_new) as (E & _); auto.
  - intros p [].
  - intros y [].
  - intros y Hy; auto.
Qed.
Print Assumptions C26_rmap_exact.

(** A key that was Set and not deleted afterwards is found, with a value some Set gave it. *)
Theorem C26_never_loses h os1 x v os2 : plain h (os1 ++ RSet x v :: os2) ->
  (forall y, In (RDel y) os2 -> ~ same_key h y x) ->
  exists w y, In (RSet y w) (os1 ++ RSet x v :: os2) /\ same_key h y x /\
    (answer h (os1 ++ RSet x v :: os2) (RGet x) = Ret (OVal w true) \/
     answer h (os1 ++ RSet x v :: os2) (RGet x) = Ret (OBox w true)).
Proof.
  set (os := os1 ++ RSet x v :: os2). intros P ND. pose proof P as (NC & CV & NS).
  destruct (key_to_hash h (KStr x)) as [p|] eqn:EK; [|discriminate].
  assert (IX : exists o, In o os /\ key_of o = Some x).
  { exists (RSet x v). split; auto. unfold os. apply in_or_app. right. left. auto. }
  pose proof (rsim_run h os NC CV) as S.
  assert (HD : held (q_run h q_new os) p).
  { assert (E1 : existsb rstops (routs h new_rmap os1) = false) by (eapply stops_app_l; exact NS).
    assert (P1 : plain h os1) by (eapply plain_app; exact P).
    assert (EQ : q_run h q_new os = q_run h (q_run h q_new os1) (RSet x v :: os2)).
    { apply q_run_app. rewrite <- (plain_outs h os1 P1). auto. }
    rewrite EQ. destruct P1 as (NC1 & CV1 & _). pose proof (rsim_run h os1 NC1 CV1) as S1.
    destruct (covered_app h os1 new_rmap (RSet x v :: os2) E1 CV) as [_ CV2]. destruct (rs_keys _ _ _ _ S1) as (pre & Ip & KF).
    cbn [r_all_covered] in CV2. destruct CV2 as [C1 C2].
    assert (I1 : incl pre os) by (intros y Hy; unfold os; apply in_or_app; auto).
    destruct (rstep_ok h os pre _ _ (RSet x v) (rs_rq _ _ _ _ S1) KF NC I1) as (EA & HB & KF'); auto.
    { unfold os. apply in_or_app. right. left. auto. }
    cbn [q_run]. rewrite <- EA. destruct (rstops (snd (rstep h (rrun h new_rmap os1) (RSet x v)))) eqn:ST.
    { exfalso. unfold os in NS. rewrite routs_app, existsb_app in NS by auto. apply orb_false_iff in NS as [_ NS].
      cbn [routs existsb] in NS. rewrite ST in NS. discriminate NS. }
    destruct C2 as [C2|C2]; [congruence|].
    eapply (q_run_held h p os2 _ _ (RSet x v :: pre) os HB); auto.
    - apply q_miss_step. apply (qo_miss _ (rs_ok _ _ _ _ S1)).
    - intros y [<-|Hy]; auto. unfold os. apply in_or_app. right. left. auto.
    - intros y Hy. unfold os. apply in_or_app. right. right. auto.
    - apply q_set_held; auto.
    - intros y Hy E. apply (ND y Hy). unfold same_key. congruence. }
  destruct (probe h os (RGet x) (plain_key h os x NC IX) CV I) as [A _]. rewrite A.
  destruct HD as (w & HW). destruct (rs_vals _ _ _ _ S p w HW) as (y & Hy & Ey). exists w, y. split; auto. split; [unfold same_key; congruence|].
  cbn [q_step]. rewrite EK. pose proof (rs_ok _ _ _ _ S) as Q.
  destruct (q_set (q_run h q_new os)) eqn:ES; cbn [negb].
  - destruct (fget p (q_prom (q_run h q_new os))) as [w'|] eqn:FP.
    + destruct HW as [HW|HW]; [right; cbn [snd]; congruence|]. exfalso.
      destruct p as [k c]. pose proof (qo_dist _ Q) as K. apply kdist_nodup in K. rewrite map_app in K. apply nodup_parts in K as (N1 & N2 & K).
      apply (fget_in _ _ _ N1) in FP. apply (fget_in _ _ _ N2) in HW. apply (K (k, c)); [apply (in_map fst) in FP|apply (in_map fst) in HW]; auto.
    + destruct HW as [HW|HW]; [congruence|]. destruct (q_am (q_run h q_new os)) eqn:EA; cbn [negb].
      * rewrite HW. left. reflexivity.
      * rewrite (qo_idle _ Q EA) in HW. discriminate.
  - exfalso. pose proof (qo_unset _ Q ES) as U. pose proof (qo_idle _ Q (qo_fresh _ Q U)) as U2. destruct HW as [HW|HW]; rewrite ?U, ?U2 in HW; discriminate.
Qed.
Print Assumptions C26_never_loses.
Definition hist26 : list rop := [s_ "a" 1; s_ "b" 2; gb; gb; s_ "c" 3; RGet "c"; s_ "b" 9; RLn; RDel "d"; s_ "d" 4].
Example C26_case : plain abc hist26.
Proof. apply plain_ok; vm_compute; reflexivity. Qed.
Example C26_case_outs : routs abc new_rmap (hist26 ++ [ga; gb; gc; RGet "d"]) =
  map Ret [OBool true; OBool true; OVal (GV 1 2) true; OBox (GV 1 2) true; OBool true; OVal (GV 1 3) true; OBool true; OLen 0;
           OBool false; OBool true; OBox (GV 1 1) true; OBox (GV 1 2) true; OBox (GV 1 3) true; OVal (GV 1 4) true].
Proof. vm_compute. reflexivity. Qed.

(** * C27: the last Set wins *)
Definition last_set_wins : Prop := forall h os x v, plain h (os ++ [RSet x v]) -> v <> GNil ->
  answer h os (RSet x v) = Ret (OBool true) ->
  answer h (os ++ [RSet x v]) (RGet x) = Ret (OVal v true) \/ answer h (os ++ [RSet x v]) (RGet x) = Ret (OBox v true).
Theorem C27_last_set_refuted : ~ last_set_wins.
Proof.
  intros H. specialize (H abc [s_ "a" 1] "a"%string (GV 1 2)).
  assert (A : answer abc ([s_ "a" 1] ++ [RSet "a" (GV 1 2)]) (RGet "a") = Ret (OBox (GV 1 1) true)) by (vm_compute; reflexivity).
  rewrite A in H. destruct H as [H|H]; try discriminate H.
  - apply plain_ok; vm_compute; reflexivity.
  - discriminate.
  - vm_compute. reflexivity.
Qed.
Print Assumptions C27_last_set_refuted.

Lemma q_step_frozen h q o p w : fget p (q_prom q) = Some w -> fget p (q_prom (fst (q_step h q o))) = Some w.
Proof.
  intros F. destruct o as [x v|x|x|]; cbn [q_step]; auto; destruct (key_to_hash h (KStr x)) as [p0|]; auto.
  - destruct (fget p0 (q_prom q)); auto. destruct (fget p0 (q_pend q)) as [old|].
    + destruct (assign KSample old v) as [[v' ok]|]; auto.
    + destruct (q_prom q) eqn:E; [discriminate F|]. cbn [fst q_prom]. auto.
  - destruct (q_set q); cbn [negb]; auto. destruct (fget p0 (q_prom q)); auto. destruct (q_am q); cbn [negb]; auto.
    destruct (fget p0 (q_pend q)); auto. cbn [fst]. destruct (few _ _ _); auto. cbn [q_prom]. rewrite fget_app, F. auto.
  - destruct (q_set q); cbn [negb]; auto. destruct (fget p0 (q_prom q)); auto. destruct (q_am q); cbn [negb]; auto.
Qed.
Lemma q_run_frozen h p w os : forall q, fget p (q_prom q) = Some w -> fget p (q_prom (q_run h q os)) = Some w.
Proof.
  induction os as [|o os IH]; intros q F; cbn [q_run]; auto. destruct (rstops _); auto. apply IH, q_step_frozen; auto.
Qed.
(** what a Get answers, in terms of the specification *)
Lemma q_get_box h q x p v b : key_to_hash h (KStr x) = Some p -> qok q ->
  (snd (q_step h q (RGet x)) = Ret (OBox v b) <-> fget p (q_prom q) = Some v /\ b = true).
Proof.
  intros EK Q. cbn [q_step]. rewrite EK. destruct (q_set q) eqn:ES; cbn [negb].
  - destruct (fget p (q_prom q)) as [w|]; [cbn [snd]; split; [intros X; injection X as <- <-; auto|intros [X ->]; injection X as <-; auto]|].
    split; [|intros [X _]; discriminate]. destruct (q_am q); cbn [negb]; [|discriminate]. destruct (fget p (q_pend q)); discriminate.
  - split; [discriminate|]. rewrite (qo_unset _ Q ES). intros [X _]; discriminate.
Qed.
Lemma q_get_val h q x p v : key_to_hash h (KStr x) = Some p -> qok q ->
  (snd (q_step h q (RGet x)) = Ret (OVal v true) <-> fget p (q_pend q) = Some v).
Proof.
  intros EK Q. cbn [q_step]. rewrite EK. destruct (q_set q) eqn:ES; cbn [negb].
  - destruct (fget p (q_prom q)) as [w|] eqn:FP.
    + split; [discriminate|]. intros FG. exfalso. destruct p as [k c]. pose proof (qo_dist _ Q) as K. apply kdist_nodup in K.
      rewrite map_app in K. apply nodup_parts in K as (N1 & N2 & K).
      apply (fget_in _ _ _ N1) in FP. apply (fget_in _ _ _ N2) in FG. apply (K (k, c)); [apply (in_map fst) in FP|apply (in_map fst) in FG]; auto.
    + destruct (q_am q) eqn:EA; cbn [negb].
      * destruct (fget p (q_pend q)) as [w|]; [|split; discriminate]. cbn [snd]. split; intros X; injection X as <-; auto.
      * rewrite (qo_idle _ Q EA). split; discriminate.
  - pose proof (qo_idle _ Q (qo_fresh _ Q (qo_unset _ Q ES))) as U. rewrite U. split; discriminate.
Qed.
Lemma plain_get h os x : plain h os -> r_no_collision h (os ++ [RGet x]) ->
  answer h os (RGet x) = snd (q_step h (q_run h q_new os) (RGet x)) /\ qok (q_run h q_new os).
Proof.
  intros (NC & CV & NS) N'. split; [apply probe; auto; exact I|]. apply (rs_ok _ _ _ _ (rsim_run h os NC CV)).
Qed.
(** Once Get has returned the box of v for a key, it does so for ever: no later Set changes it. *)
Theorem C27_promoted_is_frozen h os1 os2 x v : plain h (os1 ++ os2) -> r_no_collision h ((os1 ++ os2) ++ [RGet x]) ->
  answer h os1 (RGet x) = Ret (OBox v true) -> answer h (os1 ++ os2) (RGet x) = Ret (OBox v true).
Proof.
  intros P N A. pose proof (plain_app _ _ _ P) as P1.
  assert (N1 : r_no_collision h (os1 ++ [RGet x])).
  { eapply nocol_incl; [exact N|]. intros y Hy. apply in_app_or in Hy as [Hy|Hy]; apply in_or_app; auto. left. apply in_or_app; auto. }
  destruct (plain_get h os1 x P1 N1) as [E1 Q1]. destruct (plain_get h _ x P N) as [E2 Q2].
  destruct (key_to_hash h (KStr x)) as [p|] eqn:EK; [|discriminate].
  rewrite E1 in A. apply (q_get_box h _ x p v true EK Q1) in A as [A _]. rewrite E2. apply (q_get_box h _ x p v true EK Q2). split; auto.
  rewrite q_run_app; [apply q_run_frozen; auto|]. rewrite <- (plain_outs h os1 P1). apply P1.
Qed.
Print Assumptions C27_promoted_is_frozen.
Example C27_frozen_case : plain abc ([s_ "a" 1; s_ "b" 2] ++ [s_ "a" 7; gb; s_ "b" 8; s_ "a" 9]) /\
  answer abc [s_ "a" 1; s_ "b" 2] ga = Ret (OBox (GV 1 1) true).
Proof. split; [apply plain_ok; vm_compute; reflexivity|vm_compute; reflexivity]. Qed.

(** For a key that is not promoted yet, the last Set wins (nil excepted: SetValue(nil) stores nothing). Missing:
    promoted keys, for which it is false. *)
Theorem C27_last_set h os x v : plain h (os ++ [RSet x v]) -> v <> GNil ->
  (forall w, answer h os (RGet x) <> Ret (OBox w true)) ->
  answer h os (RSet x v) = Ret (OBool true) ->
  answer h (os ++ [RSet x v]) (RGet x) = Ret (OVal v true) \/ answer h (os ++ [RSet x v]) (RGet x) = Ret (OBox v true).
Proof.
  intros P NV NB A. pose proof (plain_app _ _ _ P) as P1. pose proof P as (NC & CV & NS).
  assert (IX : exists o, In o (os ++ [RSet x v]) /\ key_of o = Some x).
  { exists (RSet x v). split; auto. apply in_or_app. right. left. auto. }
  pose proof (plain_key h _ x NC IX) as N2.
  assert (N1 : r_no_collision h (os ++ [RGet x])).
  { eapply nocol_incl; [exact N2|]. intros y Hy. apply in_app_or in Hy as [Hy|Hy]; apply in_or_app; auto. left. apply in_or_app; auto. }
  destruct (plain_get h os x P1 N1) as [E1 Q1]. destruct (plain_get h _ x P N2) as [E2 Q2].
  destruct (key_to_hash h (KStr x)) as [p|] eqn:EK; [|discriminate].
  rewrite E2. rewrite (q_get_val h _ x p v EK Q2), (q_get_box h _ x p v true EK Q2).
  pose proof (plain_outs h os P1) as PO.
  destruct (covered_app h os new_rmap [RSet x v] (proj2 (proj2 P1)) CV) as [CV1 CV2]. cbn [r_all_covered] in CV2. destruct CV2 as [CV2 _].
  destruct (probe h os (RSet x v) NC CV1 CV2) as [A' _]. rewrite A' in A.
  rewrite q_run_app by (rewrite <- PO; apply P1). set (q := q_run h q_new os) in *. cbn [q_run].
  assert (NP : fget p (q_prom q) = None).
  { destruct (fget p (q_prom q)) as [w|] eqn:E; auto. exfalso. apply (NB w). rewrite E1. apply (q_get_box h q x p w true EK Q1). auto. }
  assert (R : pair_eqb p p = true) by (apply pair_eqb_eq; auto).
  rewrite A. cbn [rstops]. clear - EK NP R NV A. cbn [q_step] in *. rewrite EK, NP in *. destruct (fget p (q_pend q)) as [old|].
  - destruct (assign KSample old v) as [[v' ok]|] eqn:EA; [|discriminate]. cbn [fst q_pend]. left. rewrite fget_fset, R.
    cbn in EA. destruct (gval_eqb v GNil) eqn:EN; [destruct v; try discriminate; congruence|]. destruct (_ || _); [|discriminate]. injection EA as <- _. auto.
  - destruct (q_prom q); cbn [fst q_prom q_pend].
    + right. cbn [fget]. rewrite R. auto.
    + left. rewrite fget_fset, R. auto.
Qed.
Print Assumptions C27_last_set.
Example C27_partial_case : plain abc ([s_ "a" 1; s_ "b" 2; s_ "c" 3] ++ [s_ "b" 7]) /\
  answer abc [s_ "a" 1; s_ "b" 2; s_ "c" 3] gb = Ret (OVal (GV 1 2) true).
Proof. split; [apply plain_ok; vm_compute; reflexivity|vm_compute; reflexivity]. Qed.

(** * C28: Get of a key that was never set *)
Definition missing_reports_false : Prop := forall h os x, plain h os -> r_no_collision h (os ++ [RGet x]) ->
  (forall y w, In (RSet y w) os -> ~ same_key h y x) -> answer h os (RGet x) = Ret (OVal GNil false).
Theorem C28_missing_refuted : ~ missing_reports_false.
Proof.
  intros H. specialize (H abc [] "a"%string). assert (A : answer abc [] (RGet "a") = Ret OPanic) by (vm_compute; reflexivity).
  rewrite A in H. discriminate H.
  - apply plain_ok; vm_compute; reflexivity.
  - apply rnocol_ok. vm_compute. reflexivity.
  - intros y w [].
Qed.
Print Assumptions C28_missing_refuted.
(** Not only on a fresh RMap. *)
Example C28_also_later : plain abc [s_ "a" 1] /\ answer abc [s_ "a" 1] gb = Ret OPanic.
Proof. split; [apply plain_ok; vm_compute; reflexivity|vm_compute; reflexivity]. Qed.
(** What holds: a panic or (nil, false), nothing changes; a panic as long as Len() is not 0, or nothing was ever set. *)
Theorem C28_missing h os x : plain h os -> r_no_collision h (os ++ [RGet x]) ->
  (forall y w, In (RSet y w) os -> ~ same_key h y x) ->
  (answer h os (RGet x) = Ret OPanic \/ answer h os (RGet x) = Ret (OVal GNil false)) /\
  (answer h os RLn <> Ret (OLen 0) -> answer h os (RGet x) = Ret OPanic) /\
  ((forall y w, ~ In (RSet y w) os) -> answer h os (RGet x) = Ret OPanic) /\
  fst (rstep h (rrun h new_rmap os) (RGet x)) = rrun h new_rmap os.
Proof.
  intros P N ND. pose proof P as (NC & CV & NS). pose proof (rsim_run h os NC CV) as S.
  destruct (plain_get h os x P N) as [E Q]. destruct (key_to_hash h (KStr x)) as [p|] eqn:EK; [|discriminate].
  assert (NQ : forall w, ~ qhas (q_run h q_new os) p w).
  { intros w HW. destruct (rs_vals _ _ _ _ S p w HW) as (y & Hy & Ey). apply (ND y w Hy). unfold same_key. congruence. }
  assert (NP : fget p (q_prom (q_run h q_new os)) = None).
  { destruct (fget p (q_prom (q_run h q_new os))) as [w|] eqn:F; auto. exfalso. apply (NQ w). left. auto. }
  assert (NG : fget p (q_pend (q_run h q_new os)) = None).
  { destruct (fget p (q_pend (q_run h q_new os))) as [w|] eqn:F; auto. exfalso. apply (NQ w). right. auto. }
  assert (LN : answer h os RLn = Ret (OLen (size (q_pend (q_run h q_new os))))).
  { destruct (probe h os RLn) as [L _]; auto; [|exact I]. intros o o' y y' k c c' A B EA EB. 
    apply in_app_or in A as [A|[<-|[]]]; [|discriminate]. apply in_app_or in B as [B|[<-|[]]]; [|discriminate]. eapply (NC o o'); eauto. }
  assert (ST : fst (rstep h (rrun h new_rmap os) (RGet x)) = rrun h new_rmap os).
  { destruct (plain_get h os x P N) as [E' _]. unfold answer in E'. revert E'. cbn [rstep q_step]. rewrite EK. destruct p as [k c].
    rewrite NP, NG. set (r := rrun h new_rmap os). unfold rget. destruct (r_read r) as [rd|]; auto. destruct (rassoc k (rr_m rd)) as [z|].
    - destruct (ri_conf z =? c); auto.
    - destruct (rr_am rd); auto. destruct (get (r_dirty r) k c) as [[[l [|e t]]|]| | |]; auto. cbn [snd].
      destruct (negb (q_set (q_run h q_new os))); [discriminate|]. destruct (negb (q_am (q_run h q_new os))); discriminate. }
  split; [|split; [|split; [|exact ST]]].
  - rewrite E. cbn [q_step]. rewrite EK, NP, NG. destruct (negb (q_set _)); auto. destruct (negb (q_am _)); auto.
  - rewrite LN. intros L. rewrite E. cbn [q_step]. rewrite EK, NP, NG. destruct (negb (q_set _)); auto.
    destruct (q_am (q_run h q_new os)) eqn:EA; cbn [negb]; auto. exfalso. apply L. rewrite (qo_idle _ Q EA). reflexivity.
  - intros NS'. rewrite E. cbn [q_step]. rewrite EK.
    assert (NSET : forall os' q, q_set q = false -> (forall y w, ~ In (RSet y w) os') -> q_set (q_run h q os') = false).
    { induction os' as [|o os' IH]; intros q0 Eq Hq; cbn [q_run]; auto. destruct (rstops _); auto. apply IH.
      - destruct o as [y w|y|y|]; cbn [q_step]; auto; [exfalso; apply (Hq y w); left; auto| |]; destruct (key_to_hash h (KStr y)); auto; rewrite Eq; auto.
      - intros y w Hy. apply (Hq y w). right; auto. }
    rewrite NSET; auto.
Qed.
Print Assumptions C28_missing.
(** both outcomes occur *)
Example C28_case : plain abc [s_ "a" 1; s_ "b" 2; gb] /\ answer abc [s_ "a" 1; s_ "b" 2; gb] (RGet "z") = Ret (OVal GNil false) /\
  plain abc [s_ "a" 1; s_ "b" 2] /\ answer abc [s_ "a" 1; s_ "b" 2] (RGet "z") = Ret OPanic.
Proof.
  split; [apply plain_ok; vm_compute; reflexivity|]. split; [vm_compute; reflexivity|].
  split; [apply plain_ok; vm_compute; reflexivity|vm_compute; reflexivity].
Qed.
(** A key that was never set is reported present when its 64-bit hash is that of a promoted key. *)
Definition unset_never_found : Prop := forall h os x v b,
  (forall y w, In (RSet y w) os -> ~ same_key h y x) -> answer h os (RGet x) = Ret (OVal v b) -> b = false.
Theorem C28_collision_reports_found : ~ unset_never_found.
Proof.
  intros H. specialize (H (rpos [("a", 10); ("bb", 10)]%string) [s_ "a" 1] "bb"%string GNil true).
  assert (A : answer (rpos [("a", 10); ("bb", 10)]%string) [s_ "a" 1] (RGet "bb") = Ret (OVal GNil true)) by (vm_compute; reflexivity).
  specialize (fun X => H X A). discriminate H. intros y w [E|[]]. injection E as <- <-. unfold same_key. intros E. vm_compute in E. discriminate E.
Qed.
Print Assumptions C28_collision_reports_found.

Lemma covered_join h os1 : forall r os2, existsb rstops (routs h r os1) = false -> r_all_covered h r os1 -> r_all_covered h (rrun h r os1) os2 ->
  r_all_covered h r (os1 ++ os2).
Proof.
  induction os1 as [|o os IH]; intros r os2 E C D; cbn [app rrun routs existsb r_all_covered] in *; auto.
  apply orb_false_iff in E as [E1 E2]. rewrite E1 in *. destruct C as [C1 [C2|C2]]; [congruence|]. auto.
Qed.
(** * C29: Delete *)
Definition delete_works : Prop := forall h os x v, plain h os -> r_no_collision h (os ++ [RDel x]) ->
  answer h os (RGet x) = Ret (OVal v true) \/ answer h os (RGet x) = Ret (OBox v true) ->
  answer h os (RDel x) = Ret (OBool true).
Theorem C29_delete_refuted : ~ delete_works.
Proof.
  intros H. specialize (H abc [s_ "a" 1] "a"%string (GV 1 1)).
  assert (A : answer abc [s_ "a" 1] (RDel "a") = Ret OPanic) by (vm_compute; reflexivity). rewrite A in H. discriminate H.
  - apply plain_ok; vm_compute; reflexivity.
  - apply rnocol_ok. vm_compute. reflexivity.
  - right. vm_compute. reflexivity.
Qed.
Print Assumptions C29_delete_refuted.
(** Delete never reports success: any state, any key. *)
Theorem C29_delete_never_true h s x : snd (rstep h s (RDel x)) <> Ret (OBool true).
Proof.
  cbn [rstep]. destruct (key_to_hash h (KStr x)) as [[k c]|]; [|discriminate]. unfold rdelete.
  destruct (r_read s) as [rd|]; [|discriminate]. destruct (rassoc k (rr_m rd)); [discriminate|]. destruct (rr_am rd); [|discriminate].
  destruct (get (r_dirty s) k c); try discriminate. cbn [snd]. destruct (not_restore _ _ _); discriminate.
Qed.
Print Assumptions C29_delete_never_true.
(** A promoted key cannot be deleted: Delete panics and changes nothing. Any state. *)
Theorem C29_promoted_panics h s x v b : snd (rstep h s (RGet x)) = Ret (OBox v b) -> rstep h s (RDel x) = (s, Ret OPanic).
Proof.
  cbn [rstep]. destruct (key_to_hash h (KStr x)) as [[k c]|]; [|discriminate]. unfold rget, rdelete.
  destruct (r_read s) as [rd|]; [|discriminate]. destruct (rassoc k (rr_m rd)) as [z|]; auto. destruct (rr_am rd); [|discriminate].
  destruct (get (r_dirty s) k c) as [[[l [|e t]]|]| | |]; discriminate.
Qed.
Print Assumptions C29_promoted_panics.
Example C29_promoted_case : snd (rstep abc (rrun abc new_rmap [s_ "a" 1; s_ "b" 2]) ga) = Ret (OBox (GV 1 1) true).
Proof. vm_compute. reflexivity. Qed.
(** A pending key: Delete reports false or never returns; it never returns when the key is the only pending one;
    if it does return, the next Get of the key panics and Len is one less. *)
Theorem C29_pending h os x v n : plain h os -> r_no_collision h (os ++ [RDel x]) ->
  answer h os (RGet x) = Ret (OVal v true) -> answer h os RLn = Ret (OLen n) ->
  (answer h os (RDel x) = Ret (OBool false) \/ answer h os (RDel x) = Div) /\
  (n = 1 -> answer h os (RDel x) = Div) /\
  (answer h os (RDel x) = Ret (OBool false) ->
     answer h (os ++ [RDel x]) (RGet x) = Ret OPanic /\ answer h (os ++ [RDel x]) RLn = Ret (OLen (n - 1))).
Proof.
  intros P N G L. pose proof P as (NC & CV & NS). pose proof (rsim_run h os NC CV) as S.
  assert (NG : r_no_collision h (os ++ [RGet x])).
  { intros o o' y y' k c c' A B EA EB. intros. 
    assert (W : forall u z, In u (os ++ [RGet x]) -> key_of u = Some z -> exists u', In u' (os ++ [RDel x]) /\ key_of u' = Some z).
    { intros u z Hu Ez. apply in_app_or in Hu as [Hu|[<-|[]]]; [exists u; split; auto; apply in_or_app; auto|].
      exists (RDel x). split; auto. apply in_or_app. right. left. auto. }
    destruct (W _ _ A EA) as (u & Hu & Eu). destruct (W _ _ B EB) as (u' & Hu' & Eu'). eapply (N u u'); eauto. }
  destruct (plain_get h os x P NG) as [E Q]. destruct (key_to_hash h (KStr x)) as [p|] eqn:EK; [|discriminate].
  assert (RL : forall os', r_no_collision h os' -> r_no_collision h (os' ++ [RLn])).
  { intros os' N0 o o' y y' k c c' A B EA EB. 
    apply in_app_or in A as [A|[<-|[]]]; [|discriminate]. apply in_app_or in B as [B|[<-|[]]]; [|discriminate]. eapply (N0 o o'); eauto. }
  destruct (probe h os RLn (RL _ NC) CV I) as [LN _]. rewrite LN in L. cbn [q_step snd] in L. injection L as L.
  rewrite E in G. apply (q_get_val h _ x p v EK Q) in G.
  destruct (probe h os (RDel x) N CV I) as [D D2].
  set (q := q_run h q_new os) in *.
  assert (ES : q_set q = true).
  { destruct (q_set q) eqn:ES; auto. exfalso. rewrite (qo_idle _ Q (qo_fresh _ Q (qo_unset _ Q ES))) in G. discriminate. }
  assert (EA : q_am q = true).
  { destruct (q_am q) eqn:EA; auto. rewrite (qo_idle _ Q EA) in G. discriminate. }
  assert (FP : fget p (q_prom q) = None).
  { destruct (fget p (q_prom q)) as [w|] eqn:FP; auto. exfalso. destruct p as [k c]. pose proof (qo_dist _ Q) as K. apply kdist_nodup in K.
    rewrite map_app in K. apply nodup_parts in K as (N1 & N2 & K).
    apply (fget_in _ _ _ N1) in FP. apply (fget_in _ _ _ N2) in G. apply (K (k, c)); [apply (in_map fst) in FP|apply (in_map fst) in G]; auto. }
  assert (SZ : size (fdel p (q_pend q)) = n - 1).
  { rewrite <- L. apply fdel_size.
    - pose proof (qo_dist _ Q) as K. apply kdist_nodup in K. rewrite map_app in K. apply nodup_parts in K. tauto.
    - destruct (in_dec (fun a b => Bool.reflect_dec _ _ (pair_eqbP a b)) p (map fst (q_pend q))) as [Y|Y]; auto. apply fget_none in Y. congruence. }
  assert (QD : q_step h q (RDel x) = (mkQ true (q_prom q) (fdel p (q_pend q)) true (q_miss q + 1),
               if few (q_miss q + 1) (q_prom q) (fdel p (q_pend q)) then Ret (OBool false) else Div)).
  { cbn [q_step]. rewrite EK, ES, FP, EA. reflexivity. }
  rewrite D, QD in *. cbn [fst snd] in *. split; [|split].
  - destruct (few _ _ _); auto.
  - intros ->. unfold few. rewrite SZ. pose proof (qo_miss _ Q). replace (q_miss q + 1 <? 1 - 1) with false by lia. rewrite andb_false_r. auto.
  - intros F. assert (FW : few (q_miss q + 1) (q_prom q) (fdel p (q_pend q)) = true) by (destruct (few _ _ _); congruence).
    assert (PD : plain h (os ++ [RDel x])).
    { split; auto. unfold answer in D. split.
      - apply covered_join; auto. cbn [r_all_covered]. split; [exact I|right; exact I].
      - rewrite routs_app by auto. rewrite existsb_app, NS. cbn [orb routs existsb]. rewrite D, FW. reflexivity. }
    assert (IX : exists o, In o (os ++ [RDel x]) /\ key_of o = Some x).
    { exists (RDel x). split; auto. apply in_or_app. right. left. auto. }
    destruct (plain_get h _ x PD (plain_key h _ x (proj1 PD) IX)) as [E3 Q3]. rewrite E3.
    destruct (probe h (os ++ [RDel x]) RLn (RL _ (proj1 PD)) (proj1 (proj2 PD)) I) as [L3 _]. rewrite L3.
    rewrite q_run_app by (rewrite <- (plain_outs h os P); auto). fold q. cbn [q_run]. rewrite QD. cbn [fst snd]. rewrite FW. cbn [rstops].
    split; [|cbn [q_step q_pend snd]; rewrite SZ; auto]. cbn [q_step]. rewrite EK. cbn [q_set q_prom q_am q_pend negb]. rewrite FP, fget_fdel.
    replace (pair_eqb p p) with true by (symmetry; apply pair_eqb_eq; auto). reflexivity.
Qed.
Print Assumptions C29_pending.
Example C29_blocks : plain abc [s_ "a" 1; s_ "b" 2] /\ answer abc [s_ "a" 1; s_ "b" 2] RLn = Ret (OLen 1) /\
  answer abc [s_ "a" 1; s_ "b" 2] gb = Ret (OVal (GV 1 2) true).
Proof. split; [apply plain_ok; vm_compute; reflexivity|split; vm_compute; reflexivity]. Qed.
Example C29_case : let os := [s_ "a" 1; s_ "b" 2; s_ "c" 3; s_ "d" 4] in
  plain abc os /\ answer abc os RLn = Ret (OLen 3) /\ answer abc os (RDel "b") = Ret (OBool false).
Proof. split; [apply plain_ok; vm_compute; reflexivity|split; vm_compute; reflexivity]. Qed.

(** * C30: Get returns the stored value *)
Definition get_returns_value : Prop := forall h os x v, plain h (os ++ [RSet x v]) ->
  (forall y w, In (RSet y w) os -> ~ same_key h y x) -> answer h (os ++ [RSet x v]) (RGet x) = Ret (OVal v true).
Theorem C30_value_refuted : ~ get_returns_value.
Proof.
  intros H. specialize (H abc [] "a"%string (GV 1 1)).
  assert (A : answer abc ([] ++ [RSet "a" (GV 1 1)]) (RGet "a") = Ret (OBox (GV 1 1) true)) by (vm_compute; reflexivity).
  rewrite A in H. discriminate H.
  - apply plain_ok; vm_compute; reflexivity.
  - intros y w [].
Qed.
Print Assumptions C30_value_refuted.
(** A key to which only the value v was ever given, and which was not deleted, reads as v or as the box of v. *)
Theorem C30_value h os x v : plain h os -> In (RSet x v) os ->
  (forall y w, In (RSet y w) os -> same_key h y x -> w = v) -> (forall y, In (RDel y) os -> ~ same_key h y x) ->
  answer h os (RGet x) = Ret (OVal v true) \/ answer h os (RGet x) = Ret (OBox v true).
Proof.
  intros P I O ND. apply in_split in I as (os1 & os2 & ->).
  destruct (C26_never_loses h os1 x v os2 P) as (w & y & I1 & K & A).
  - intros y Hy. apply ND. apply in_or_app. right. right. auto.
  - pose proof (O y w I1 K). subst w. auto.
Qed.
Print Assumptions C30_value.
Example C30_case : plain abc hist26 /\ In (s_ "c" 3) hist26 /\ (forall y w, In (RSet y w) hist26 -> same_key abc y "c" -> w = GV 1 3).
Proof.
  split; [apply C26_case|]. split; [right; right; right; right; left; reflexivity|].
  intros y w H E.
  assert (F : forallb (fun o => match o with RSet y0 w0 => negb (memhash abc y0 =? memhash abc "c") || gval_eqb w0 (GV 1 3) | _ => true end) hist26 = true)
    by (vm_compute; reflexivity).
  rewrite forallb_forall in F. specialize (F _ H). cbn beta iota in F.
  assert (M : memhash abc y = memhash abc "c").
  { unfold same_key in E. cbn [key_to_hash] in E. apply (f_equal (fun o => match o with Some p => fst p | None => 0 end)) in E. cbn beta iota delta [fst] in E.
    unfold abc, rpos in *. cbn beta iota delta [memhash] in *. unfold u64 in E.
    rewrite !Z.mod_small in E; auto; [destruct (find _ _) as [[? ?]|]|destruct (find _ _) as [[? ?]|]]; apply reverse64_range. }
  rewrite M, Z.eqb_refl in F. cbn [negb orb] in F. destruct w as [|t n]; [discriminate F|]. cbn [gval_eqb] in F. f_equal; lia.
Qed.

(** * C31: Len *)
Definition len_counts : Prop := forall h os (keys : list string), plain h os ->
  NoDup (map (fun x => key_to_hash h (KStr x)) keys) -> (forall x, In x keys <-> exists v, In (RSet x v) os) ->
  (forall y, ~ In (RDel y) os) -> answer h os RLn = Ret (OLen (Z.of_nat (List.length keys))).
Theorem C31_len_refuted : ~ len_counts.
Proof.
  intros H. specialize (H abc [s_ "a" 1] ["a"%string]).
  assert (A : answer abc [s_ "a" 1] RLn = Ret (OLen 0)) by (vm_compute; reflexivity). rewrite A in H. discriminate H.
  - apply plain_ok; vm_compute; reflexivity.
  - constructor; [intros []|constructor].
  - intros x. split; [intros [<-|[]]; exists (GV 1 1); left; reflexivity|]. intros (v & [E|[]]). injection E as <- _. left; auto.
  - intros y [E|[]]. discriminate E.
Qed.
Print Assumptions C31_len_refuted.
(** Len is the number of distinct keys that Get finds and returns unboxed. *)
Theorem C31_len_exact h os : plain h os -> exists l : list (Z * Z),
  NoDup l /\ answer h os RLn = Ret (OLen (Z.of_nat (List.length l))) /\
  (forall p, In p l -> exists o x, In o os /\ key_of o = Some x /\ key_to_hash h (KStr x) = Some p) /\
  (forall o x p, In o os -> key_of o = Some x -> key_to_hash h (KStr x) = Some p ->
     (In p l <-> exists v, answer h os (RGet x) = Ret (OVal v true))).
Proof.
  intros P. pose proof P as (NC & CV & NS). pose proof (rsim_run h os NC CV) as S. set (q := q_run h q_new os) in *.
  exists (map fst (q_pend q)).
  assert (ND : NoDup (map fst (q_pend q))).
  { pose proof (qo_dist _ (rs_ok _ _ _ _ S)) as K. apply kdist_nodup in K. rewrite map_app in K. apply nodup_parts in K. tauto. }
  split; auto. split; [|split].
  - destruct (probe h os RLn) as [L _]; auto; [|exact I|].
    + intros o o' y y' k c c' A B EA EB.
      apply in_app_or in A as [A|[<-|[]]]; [|discriminate]. apply in_app_or in B as [B|[<-|[]]]; [|discriminate]. eapply (NC o o'); eauto.
    + rewrite L. cbn [q_step snd]. fold q. unfold size. rewrite map_length. auto.
  - intros p Hp. destruct (rs_keys _ _ _ _ S) as (pre & Ip & KF). destruct (KF p) as (o & x & A & B & C).
    + rewrite map_app. apply in_or_app. auto.
    + exists o, x. auto.
  - intros o x p Ho Eo EK. destruct (plain_get h os x P) as [E Q]; [apply plain_key; eauto|]. rewrite E. fold q. split.
    + intros Hp. destruct (fget p (q_pend q)) as [v|] eqn:F; [|apply fget_none in F; contradiction]. exists v. apply (q_get_val h q x p v EK Q). auto.
    + intros (v & Hv). apply (q_get_val h q x p v EK Q) in Hv. apply (fget_in _ _ _ ND) in Hv. apply (in_map fst) in Hv. auto.
Qed.
Print Assumptions C31_len_exact.
Example C31_case : plain abc [s_ "a" 1; s_ "b" 2; s_ "c" 3] /\ answer abc [s_ "a" 1; s_ "b" 2; s_ "c" 3] RLn = Ret (OLen 2).
Proof. split; [apply plain_ok; vm_compute; reflexivity|vm_compute; reflexivity]. Qed.

(** * C47: reading pending keys promotes everything *)
Lemma q_reads h x p v n : key_to_hash h (KStr x) = Some p -> forall q, qok q -> fget p (q_pend q) = Some v ->
  size (q_pend q) - q_miss q <= Z.of_nat n -> (n > 0)%nat ->
  let q' := q_run h q (repeat (RGet x) n) in
  q_prom q' = q_prom q ++ q_pend q /\ q_pend q' = [].
Proof.
  intros EK. induction n as [|n IH]; intros q Q F SZ NZ; [lia|]. cbn [repeat q_run].
  assert (ES : q_set q = true).
  { destruct (q_set q) eqn:ES; auto. exfalso. rewrite (qo_idle _ Q (qo_fresh _ Q (qo_unset _ Q ES))) in F. discriminate. }
  assert (EA : q_am q = true).
  { destruct (q_am q) eqn:EA; auto. rewrite (qo_idle _ Q EA) in F. discriminate. }
  assert (FP : fget p (q_prom q) = None).
  { destruct (fget p (q_prom q)) as [w|] eqn:FP; auto. exfalso. destruct p as [k c]. pose proof (qo_dist _ Q) as K. apply kdist_nodup in K.
    rewrite map_app in K. apply nodup_parts in K as (N1 & N2 & K).
    apply (fget_in _ _ _ N1) in FP. apply (fget_in _ _ _ N2) in F. apply (K (k, c)); [apply (in_map fst) in FP|apply (in_map fst) in F]; auto. }
  assert (QG : q_step h q (RGet x) = (if few (q_miss q + 1) (q_prom q) (q_pend q)
                   then mkQ true (q_prom q) (q_pend q) true (q_miss q + 1)
                   else mkQ true (q_prom q ++ q_pend q) [] false 0, Ret (OVal v true))).
  { cbn [q_step]. rewrite EK, ES, FP, EA, F. reflexivity. }
  rewrite QG. cbn [fst snd rstops]. destruct (few (q_miss q + 1) (q_prom q) (q_pend q)) eqn:FW.
  - unfold few in FW. apply andb_true_iff in FW as [_ FW]. apply Z.ltb_lt in FW.
    specialize (IH (mkQ true (q_prom q) (q_pend q) true (q_miss q + 1))). cbn [q_pend q_prom q_miss] in IH. apply IH; auto; try lia.
    constructor; cbn [q_prom q_pend q_am q_set q_miss]; try discriminate.
    + apply (qo_dist _ Q).
    + intros E0. pose proof (qo_fresh _ Q E0). congruence.
    + pose proof (qo_miss _ Q). lia.
  - clear - EK F FP. assert (H : forall m, q_run h (mkQ true (q_prom q ++ q_pend q) [] false 0) (repeat (RGet x) m) = mkQ true (q_prom q ++ q_pend q) [] false 0).
    { induction m as [|m IHm]; cbn [repeat q_run]; auto. assert (E : q_step h (mkQ true (q_prom q ++ q_pend q) [] false 0) (RGet x) = (mkQ true (q_prom q ++ q_pend q) [] false 0, Ret (OBox v true))).
      { cbn [q_step]. rewrite EK. cbn [q_set negb q_prom]. rewrite fget_app, FP, F. reflexivity. }
      rewrite E. cbn [fst snd rstops]. auto. }
    rewrite H. cbn. auto.
Qed.
Lemma repeat_covered h x n : forall r, r_all_covered h r (repeat (RGet x) n).
Proof. induction n as [|n IH]; intros r; cbn [repeat r_all_covered]; auto. split; [exact I|auto]. Qed.
Lemma get_never_blocks h s x : rstops (snd (rstep h s (RGet x))) = false.
Proof.
  cbn [rstep]. destruct (key_to_hash h (KStr x)) as [[k c]|]; auto. unfold rget. destruct (r_read s) as [rd|]; auto.
  destruct (rassoc k (rr_m rd)) as [z|]; [destruct (ri_conf z =? c); auto|]. destruct (rr_am rd); auto.
  destruct (get (r_dirty s) k c) as [[[l [|e t]]|]| | |]; auto.
Qed.
Lemma repeat_stops h x n : forall r, existsb rstops (routs h r (repeat (RGet x) n)) = false.
Proof. induction n as [|n IH]; intros r; cbn [repeat routs existsb]; auto. rewrite get_never_blocks. cbn [orb]. auto. Qed.
Lemma repeat_nocol h os x n : r_no_collision h (os ++ [RGet x]) -> r_no_collision h (os ++ repeat (RGet x) n).
Proof.
  intros N. eapply nocol_incl; [exact N|]. intros o Ho. apply in_app_or in Ho as [Ho|Ho]; apply in_or_app; auto.
  apply repeat_spec in Ho. right. left. auto.
Qed.
(** Reading one pending key Len() times promotes all: Len becomes 0 and every key that was found is found with the same
    value, now boxed. *)
Theorem C47_reads_promote h os x v n : plain h os -> r_no_collision h (os ++ [RGet x]) ->
  answer h os (RGet x) = Ret (OVal v true) -> answer h os RLn = Ret (OLen (Z.of_nat n)) ->
  let os' := os ++ repeat (RGet x) n in
  answer h os' RLn = Ret (OLen 0) /\
  forall o y w, In o os -> key_of o = Some y ->
    (answer h os (RGet y) = Ret (OVal w true) \/ answer h os (RGet y) = Ret (OBox w true)) ->
    answer h os' (RGet y) = Ret (OBox w true).
Proof.
  intros P N G L os'. pose proof P as (NC & CV & NS).
  assert (RL : forall l, r_no_collision h l -> r_no_collision h (l ++ [RLn])).
  { intros l N0 o o' y y' k c c' A B EA EB. 
    apply in_app_or in A as [A|[<-|[]]]; [|discriminate]. apply in_app_or in B as [B|[<-|[]]]; [|discriminate]. eapply (N0 o o'); eauto. }
  assert (P' : plain h os').
  { split; [apply repeat_nocol; auto|]. split.
    - apply covered_join; auto. apply repeat_covered.
    - unfold os'. rewrite routs_app, existsb_app, NS by auto. apply repeat_stops. }
  destruct (plain_get h os x P N) as [E Q]. destruct (key_to_hash h (KStr x)) as [p|] eqn:EK; [|discriminate].
  destruct (probe h os RLn (RL _ NC) CV I) as [LN _]. rewrite LN in L. cbn [q_step snd] in L. injection L as L.
  rewrite E in G. apply (q_get_val h _ x p v EK Q) in G.
  assert (EQ : q_run h q_new os' = q_run h (q_run h q_new os) (repeat (RGet x) n)).
  { apply q_run_app. rewrite <- (plain_outs h os P). auto. }
  set (q := q_run h q_new os) in *.
  assert (NZ : (n > 0)%nat). { destruct n; [|lia]. destruct (q_pend q); [discriminate G|]. cbn in L. unfold size in L. cbn in L. lia. }
  destruct (q_reads h x p v n EK q Q G) as [QP QN]; auto; [pose proof (qo_miss _ Q); lia|]. rewrite <- EQ in QP, QN. split.
  - destruct (probe h os' RLn (RL _ (proj1 P')) (proj1 (proj2 P')) I) as [L' _]. rewrite L'. cbn [q_step snd]. rewrite QN. reflexivity.
  - intros o y w Ho Eo A.
    assert (Ny : r_no_collision h (os ++ [RGet y])) by (apply plain_key; eauto).
    assert (Ny' : r_no_collision h (os' ++ [RGet y])).
    { apply plain_key; [apply P'|]. exists o. split; auto. apply in_or_app. auto. }
    destruct (plain_get h os y P Ny) as [Ey _]. destruct (plain_get h os' y P' Ny') as [Ey' Q'].
    destruct (key_to_hash h (KStr y)) as [p'|] eqn:EKy; [|discriminate].
    rewrite Ey'. apply (q_get_box h _ y p' w true EKy Q'). split; auto. rewrite QP, fget_app. rewrite Ey in A. fold q in A.
    rewrite (q_get_val h q y p' w EKy Q), (q_get_box h q y p' w true EKy Q) in A. destruct A as [A|[A _]]; [|rewrite A; auto].
    destruct (fget p' (q_prom q)) as [w'|] eqn:FP; auto.
    exfalso. destruct p' as [k c]. pose proof (qo_dist _ Q) as K. apply kdist_nodup in K.
    rewrite map_app in K. apply nodup_parts in K as (N1 & N2 & K).
    apply (fget_in _ _ _ N1) in FP. apply (fget_in _ _ _ N2) in A. apply (K (k, c)); [apply (in_map fst) in FP|apply (in_map fst) in A]; auto.
Qed.
Print Assumptions C47_reads_promote.
Example C47_case : let os := [s_ "a" 1; s_ "b" 2; s_ "c" 3; s_ "d" 4] in
  plain abc os /\ answer abc os gb = Ret (OVal (GV 1 2) true) /\ answer abc os RLn = Ret (OLen (Z.of_nat 3)).
Proof. split; [apply plain_ok; vm_compute; reflexivity|split; vm_compute; reflexivity]. Qed.
