(** Property theorems about Range beside concurrent calls: C55, C56. The model is ConcRange.v. *)
From Verif Require Import Base BaseProofs Util UtilProofs Bucket MapModel ConcModel ConcSpec ConcProofs ConcMore PropConc ConcRange.
From Coq Require Import ZifyBool Sorted PeanoNat.
Local Open Scope Z_scope.
Local Open Scope list_scope.
Local Opaque reverse64.

(** items reported so far *)
Definition reported (r : rstate) : list nat := map fst (out r).
(** an item of the list that is neither a sentinel nor deleted *)
Definition present (s : cstate) (i : nat) : Prop :=
  In i (order s) /\ exists n, node s i = Some n /\ n_dum n = false /\ n_del n = false.

(** * Runs *)
Lemma rstep_other g r l r' : rstep g r (Oth l) = Some r' -> exists s', cstep g (rc r) l = Some s' /\ r' = mkRg s' (rp r) (out r).
Proof. cbn [rstep]. destruct (cstep g (rc r) l) as [s'|]; [|discriminate]. intros E; injection E as <-. eauto. Qed.
Lemma rstep_ext g r l r' : rstep g r l = Some r' -> ext (rc r) (rc r').
Proof.
  destruct l as [[t a]|go].
  - intros H. destruct (rstep_other _ _ _ _ H) as (s' & E & ->). cbn. eapply eff_ext, cstep_eff; eauto.
  - cbn [rstep]. intros H. assert (E : rc r' = rc r).
    { destruct (rp r) as [|i|i|i| |]; try discriminate H; try (destruct (node (rc r) i); [|discriminate H]); injection H as <-; reflexivity. }
    rewrite E. apply ext_refl.
Qed.
Lemma rstep_inv g r l r' : rstep g r l = Some r' -> cinv (rc r) -> cinv (rc r').
Proof.
  destruct l as [[t a]|go].
  - intros H C. destruct (rstep_other _ _ _ _ H) as (s' & E & ->). cbn. eapply eff_cinv; eauto. eapply cstep_eff; eauto.
  - cbn [rstep]. intros H C. assert (E : rc r' = rc r).
    { destruct (rp r) as [|i|i|i| |]; try discriminate H; try (destruct (node (rc r) i); [|discriminate H]); injection H as <-; reflexivity. }
    rewrite E. auto.
Qed.
Lemma rrun_ind g (P : rstate -> Prop) : (forall r l r', P r -> rstep g r l = Some r' -> P r') -> forall ls r r', P r -> rrun g r ls = Some r' -> P r'.
Proof.
  intros H. induction ls as [|l ls IH]; intros r r' HP E; cbn [rrun] in E; [injection E as <-; auto|].
  destruct (rstep g r l) as [r1|] eqn:E1; [|discriminate]. eapply IH; [|exact E]. eapply H; eauto.
Qed.

(** * A list that only grows *)
Lemma subseq_cut {A} (l l' : list A) : subseq l l' -> forall l1 i l2, l = l1 ++ i :: l2 ->
  exists l1' l2', l' = l1' ++ i :: l2' /\ subseq l1 l1' /\ subseq l2 l2'.
Proof.
  induction 1 as [l|x l l' S IH|x l l' S IH]; intros l1 i l2 E.
  - destruct l1; discriminate E.
  - destruct l1 as [|y l1]; cbn [app] in E; injection E as -> E.
    + subst l2. exists [], l'. repeat split; auto. constructor.
    + destruct (IH l1 i l2 E) as (a & b & -> & Q1 & Q2). exists (y :: a), b. repeat split; auto. constructor; auto.
  - destruct (IH l1 i l2 E) as (a & b & -> & Q1 & Q2). exists (x :: a), b. repeat split; auto. constructor; auto.
Qed.
Lemma subseq_snoc {A} (l l' : list A) x : subseq l l' -> subseq (l ++ [x]) (l' ++ [x]).
Proof. induction 1 as [l|y l l' S IH|y l l' S IH]; cbn [app]; [|constructor; auto|constructor; auto]. induction l; cbn [app]; [apply subseq_refl|constructor; auto]. Qed.
Lemma subseq_more {A} (l l' q : list A) : subseq l l' -> subseq l (l' ++ q).
Proof. induction 1; cbn [app]; constructor; auto. Qed.
Lemma subseq_nodup {A} (l l' : list A) : subseq l l' -> NoDup l' -> NoDup l.
Proof.
  induction 1 as [l|x l l' S IH|x l l' S IH]; intros N; [constructor| |]; inversion N; subst; auto.
  constructor; auto. intros I. apply (subseq_in _ _ x S) in I. auto.
Qed.

(** * What a Range has done *)
(** everything that was there at the start, is not deleted, and stands in l, has been reported *)
Definition covered (s0 : cstate) (r : rstate) (l : list nat) : Prop :=
  forall i n, In i l -> In i (order s0) -> node (rc r) i = Some n -> n_ign n = false -> In i (reported r).
Definition rinv (s0 : cstate) (r : rstate) : Prop :=
  ext s0 (rc r) /\ cinv (rc r) /\
  match rp r with
  | RBegin => out r = []
  | RLook i | RCall i => exists l1 l2, order (rc r) = l1 ++ i :: l2 /\ subseq (reported r) l1 /\ covered s0 r l1
  | RNext i => exists l1 l2, order (rc r) = l1 ++ i :: l2 /\ subseq (reported r) (l1 ++ [i]) /\ covered s0 r (l1 ++ [i])
  | RStop => subseq (reported r) (order (rc r))
  | REnd => subseq (reported r) (order (rc r)) /\ covered s0 r (order (rc r))
  end.
Lemma ign_stays n n' : same_item n n' -> n_ign n' = false -> n_ign n = false.
Proof. unfold same_item, n_ign. intros (_ & _ & D & X) H. apply orb_false_iff in H as [H1 H2]. destruct (n_del n); [rewrite X in H2; [discriminate|auto]|]. rewrite <- D, H1. auto. Qed.
(** steps of the others keep it *)
Lemma covered_grow s0 s s' p o l l' : ext s0 s -> cinv s -> ext s s' -> NoDup (order s') -> (exists q, order s = l ++ q /\ exists q', order s' = l' ++ q' /\ subseq q q') ->
  covered s0 (mkRg s p o) l -> covered s0 (mkRg s' p o) l'.
Proof.
  intros E0 CI E N (q & O & q' & O' & Q) C i n Hi H0 Hn G. cbn [rc] in *.
  assert (Is : In i (order s)) by (eapply subseq_in; [apply (ex_order _ _ E0)|auto]).
  assert (Il : In i l).
  { rewrite O in Is. apply in_app_or in Is as [|Is]; auto. exfalso. apply (subseq_in _ _ i Q) in Is. rewrite O' in N. 
    apply in_split in Hi as (a & b & ->). rewrite <- app_assoc in N. cbn [app] in N. apply NoDup_remove_2 in N. apply N. apply in_or_app. right. apply in_or_app. auto. }
  destruct (node s i) as [m|] eqn:M.
  - destruct (ex_heap _ _ E i m M) as (n' & M' & S). rewrite Hn in M'. injection M' as <-.
    exact (C i m Il H0 M (ign_stays _ _ S G)).
  - exfalso. apply (ci_valid _ CI i Is M).
Qed.
Lemma rinv_step s0 g r l r' : rinv s0 r -> rstep g r l = Some r' -> rinv s0 r'.
Proof.
  intros (E0 & C & P) H. pose proof (rstep_ext _ _ _ _ H) as E. pose proof (rstep_inv _ _ _ _ H C) as C'.
  split; [eapply ext_trans; eauto|]. split; auto. destruct l as [l|go].
  - destruct (rstep_other _ _ _ _ H) as (s' & _ & ->). clear H. destruct r as [s p o]. cbn [rc rp out reported] in *. unfold reported in *. cbn [out] in *.
    pose proof (ci_nodup _ C') as N. pose proof (ex_order _ _ E) as O. destruct p as [|i|i|i| |]; auto.
    + destruct P as (l1 & l2 & Eo & S & Cv). destruct (subseq_cut _ _ O l1 i l2 Eo) as (a & b & Eo' & S1 & S2). exists a, b.
      split; auto. split; [eapply subseq_trans; eauto|]. eapply covered_grow with (l := l1); eauto.
      exists (i :: l2). split; auto. exists (i :: b). split; auto. constructor; auto.
    + destruct P as (l1 & l2 & Eo & S & Cv). destruct (subseq_cut _ _ O l1 i l2 Eo) as (a & b & Eo' & S1 & S2). exists a, b.
      split; auto. split; [eapply subseq_trans; eauto|]. eapply covered_grow with (l := l1); eauto.
      exists (i :: l2). split; auto. exists (i :: b). split; auto. constructor; auto.
    + destruct P as (l1 & l2 & Eo & S & Cv). destruct (subseq_cut _ _ O l1 i l2 Eo) as (a & b & Eo' & S1 & S2). exists a, b.
      split; auto. split; [eapply subseq_trans; [apply subseq_snoc; exact S1|auto]|]. eapply covered_grow with (l := l1 ++ [i]); eauto.
      exists l2. rewrite <- app_assoc. split; auto. exists b. rewrite <- app_assoc. auto.
    + eapply subseq_trans; eauto.
    + destruct P as [S Cv]. split; [eapply subseq_trans; eauto|]. eapply covered_grow with (l := order s); eauto.
      exists []. rewrite app_nil_r. split; auto. exists []. rewrite app_nil_r. split; auto. constructor.
  - clear E C'. cbn [rstep] in H. destruct r as [s p o]. unfold reported in *. cbn [rc rp out] in *. destruct p as [|i|i|i| |]; try discriminate H.
    + injection H as <-. cbn [rp rc out]. subst o. destruct (order s) as [|x l] eqn:Eo; cbn [hd_error].
      * split; [constructor|]. intros i n [].
      * exists [], l. repeat split; auto; [constructor|]. intros i n [].
    + destruct (node s i) as [n|] eqn:M; [|discriminate H]. injection H as <-. destruct P as (l1 & l2 & Eo & S & Cv). cbn [rc rp out].
      destruct (n_ign n) eqn:G; exists l1, l2; cbn [rc out]; repeat split; auto.
      * apply subseq_more; auto.
      * intros j m Ij I0 Mj Gj. cbn [rc] in Mj. apply in_app_or in Ij as [Ij|[<-|[]]]; [eapply Cv; eauto|]. rewrite M in Mj. injection Mj as <-. congruence.
    + destruct (node s i) as [n|] eqn:M; [|discriminate H]. injection H as <-. destruct P as (l1 & l2 & Eo & S & Cv). cbn [rc rp out].
      assert (SS : subseq (map fst (o ++ [(i, n_val n)])) (l1 ++ [i])) by (rewrite map_app; apply subseq_snoc; auto).
      destruct go; [|rewrite Eo; eapply subseq_trans; [|exact SS]; replace (l1 ++ i :: l2) with ((l1 ++ [i]) ++ l2) by (rewrite <- app_assoc; auto); apply subseq_more, subseq_refl].
      exists l1, l2. repeat split; auto. intros j m Ij I0 Mj Gj. unfold reported. cbn [rc out] in *. rewrite map_app. apply in_or_app.
      apply in_app_or in Ij as [Ij|[<-|[]]]; [left; eapply Cv; eauto|right; left; auto].
    + injection H as <-. destruct P as (l1 & l2 & Eo & S & Cv). cbn [rc rp out].
      assert (N : ~ In i l1). { pose proof (ci_nodup _ C) as N. rewrite Eo in N. apply NoDup_remove_2 in N. intros I. apply N. apply in_or_app. auto. }
      rewrite Eo, next_of_split by auto. destruct l2 as [|j l2]; cbn [hd_error rc].
      * split; auto.
      * exists (l1 ++ [i]), l2. rewrite <- app_assoc. auto.
Qed.
Lemma rinv_run g s ls r : reachable g s -> rrun g (rstart s) ls = Some r -> rinv s r.
Proof.
  intros [l0 R0] R. refine (rrun_ind g (rinv s) _ ls (rstart s) r _ R); [intros; eapply rinv_step; eauto|].
  split; [apply ext_refl|]. split; [eapply reach_inv; eauto|]. reflexivity.
Qed.

(** * C55: Range beside Sets, Deletes and other Ranges *)
(** Every schedule, whatever the callback does: Range calls f at most once per item, in list order. *)
Theorem C55_each_once g s ls r : reachable g s -> rrun g (rstart s) ls = Some r ->
  NoDup (reported r) /\ subseq (reported r) (order (rc r)).
Proof.
  intros R0 R. destruct (rinv_run g s ls r R0 R) as (E & C & P).
  assert (S : subseq (reported r) (order (rc r))).
  { destruct (rp r) as [|i|i|i| |]; auto.
    - unfold reported. rewrite P. constructor.
    - destruct P as (l1 & l2 & -> & S & _). apply subseq_more; auto.
    - destruct P as (l1 & l2 & -> & S & _). apply subseq_more; auto.
    - destruct P as (l1 & l2 & -> & S & _). replace (l1 ++ i :: l2) with ((l1 ++ [i]) ++ l2) by (rewrite <- app_assoc; auto). apply subseq_more; auto.
    - apply P. }
  split; auto. eapply subseq_nodup; eauto. apply C.
Qed.
Print Assumptions C55_each_once.
(** Every schedule: an item that was in the map when Range was called and is not deleted when it ends, has been
    reported, unless f stopped the Range. *)
Theorem C55_complete g s ls r i : reachable g s -> rrun g (rstart s) ls = Some r -> rp r = REnd ->
  present s i -> present (rc r) i -> In i (reported r).
Proof.
  intros R0 R RE (I & _) (I' & n & N & D1 & D2). destruct (rinv_run g s ls r R0 R) as (E & C & P). rewrite RE in P. destruct P as [_ P].
  apply (P i n I' I N). unfold n_ign. rewrite D1, D2. auto.
Qed.
Print Assumptions C55_complete.

(** The steps of the other goroutines in a run *)
Fixpoint others (ls : list rlabel) : list label :=
  match ls with
  | [] => []
  | Oth l :: ls' => l :: others ls'
  | Rng _ :: ls' => others ls'
  end.
Lemma rstep_rng g r go r' : rstep g r (Rng go) = Some r' -> rc r' = rc r.
Proof.
  cbn [rstep]. intros H. destruct (rp r) as [|i|i|i| |]; try discriminate H; try (destruct (node (rc r) i); [|discriminate H]); injection H as <-; reflexivity.
Qed.
Lemma rrun_others g ls : forall r r', rrun g r ls = Some r' -> crun g (rc r) (others ls) = Some (rc r').
Proof.
  induction ls as [|l ls IH]; intros r r' H; cbn [rrun others] in *; [injection H as <-; auto|].
  destruct (rstep g r l) as [r1|] eqn:E; [|discriminate]. destruct l as [l|go].
  - destruct (rstep_other _ _ _ _ E) as (s1 & S & ->). cbn [crun]. rewrite S. exact (IH _ _ H).
  - rewrite <- (rstep_rng _ _ _ _ E). auto.
Qed.
Lemma rrun_reach g s ls r : reachable g s -> rrun g (rstart s) ls = Some r -> reachable g (rc r).
Proof. intros [l0 R0] R. exists (l0 ++ others ls). rewrite crun_app, R0. exact (rrun_others g ls _ _ R). Qed.
Lemma rrun_app g ls1 : forall r ls2, rrun g r (ls1 ++ ls2) = match rrun g r ls1 with Some r' => rrun g r' ls2 | None => None end.
Proof. induction ls1 as [|l ls IH]; intros r ls2; cbn [app rrun]; auto. destruct (rstep g r l); auto. Qed.

(** A moment of the run *)
Definition sometime (g : cfg) (s : cstate) (ls : list rlabel) (P : cstate -> Prop) : Prop :=
  exists p q r, ls = p ++ q /\ rrun g (rstart s) p = Some r /\ P (rc r).
Definition sound (g : cfg) (s : cstate) (ls : list rlabel) (r : rstate) : Prop :=
  (forall i v, In (i, v) (out r) -> sometime g s ls (fun x => present x i) /\ sometime g s ls (fun x => exists n, node x i = Some n /\ n_val n = v)) /\
  (forall i, rp r = RCall i -> sometime g s ls (fun x => present x i)).
Lemma sometime_more g s ls l P : sometime g s ls P -> sometime g s (ls ++ [l]) P.
Proof. intros (p & q & r & -> & R & H). exists p, (q ++ [l]), r. rewrite app_assoc. auto. Qed.
Lemma sound_run g s ls r : reachable g s -> rrun g (rstart s) ls = Some r -> sound g s ls r.
Proof.
  intros R0. revert r. induction ls as [|l ls IH] using rev_ind; intros r R.
  - injection R as <-. split; [intros i v []|discriminate].
  - rewrite rrun_app in R. destruct (rrun g (rstart s) ls) as [r1|] eqn:R1; [|discriminate R]. cbn [rrun] in R.
    destruct (rstep g r1 l) as [r2|] eqn:E; [|discriminate R]. injection R as <-. destruct (IH r1 eq_refl) as [S1 S2].
    assert (OLD : forall i v, In (i, v) (out r1) -> sometime g s (ls ++ [l]) (fun x => present x i) /\ sometime g s (ls ++ [l]) (fun x => exists n, node x i = Some n /\ n_val n = v)).
    { intros i v H. destruct (S1 i v H). split; apply sometime_more; auto. }
    assert (HERE : forall P : cstate -> Prop, P (rc r1) -> sometime g s (ls ++ [l]) P) by (intros P H; exists ls, [l], r1; auto).
    pose proof (rinv_run g s ls r1 R0 R1) as (_ & C & RI).
    destruct l as [l|go].
    + destruct (rstep_other _ _ _ _ E) as (s1 & _ & ->). cbn [out rp]. split; auto. intros i H. apply sometime_more; auto.
    + clear R1. cbn [rstep] in E. unfold sound. destruct (rp r1) as [|i|i|i| |]; try discriminate E.
      * injection E as <-. cbn [out rp]. split; auto. destruct (hd_error (order (rc r1))); discriminate.
      * destruct (node (rc r1) i) as [n|] eqn:M; [|discriminate E]. injection E as <-. cbn [out rp]. split; auto.
        intros j. destruct (n_ign n) eqn:G; [discriminate|]. intros [= <-]. apply HERE. destruct RI as (l1 & l2 & Eo & _).
        split; [rewrite Eo; apply in_or_app; right; left; auto|]. exists n. split; auto. apply orb_false_iff in G. auto.
      * destruct (node (rc r1) i) as [n|] eqn:M; [|discriminate E]. injection E as <-. cbn [out rp]. split; [|destruct go; discriminate].
        intros j v H. apply in_app_or in H as [H|[H|[]]]; auto. injection H as <- <-. split; [apply sometime_more; auto|]. apply HERE. eauto.
      * injection E as <-. cbn [out rp]. split; auto. destruct (next_of i (order (rc r1))); discriminate.
Qed.
(** Every schedule: an item reported was in the map at some moment of the Range, and the value reported was its value
    at some moment of the Range. *)
Theorem C55_sound g s ls r i v : reachable g s -> rrun g (rstart s) ls = Some r -> In (i, v) (out r) ->
  sometime g s ls (fun x => present x i) /\ sometime g s ls (fun x => exists n, node x i = Some n /\ n_val n = v).
Proof. intros R0 R H. apply (proj1 (sound_run g s ls r R0 R)); auto. Qed.
Print Assumptions C55_sound.
(** The value reported was the argument of a Set of that key, called before. *)
Theorem C55_values g s ls r i v : reachable g s -> rrun g (rstart s) ls = Some r -> In (i, v) (out r) ->
  exists n t k, node (rc r) i = Some n /\ n_dum n = false /\ n_rev n = reverse64 k /\ In (Inv t (CSet k (n_conf n) v)) (hist (rc r)).
Proof.
  intros R0 R H. destruct (C55_sound g s ls r i v R0 R H) as [(p & q & r1 & E & R1 & _ & m & M & D1 & _) (p2 & q2 & r2 & E2 & R2 & n & N & V)].
  assert (X : forall p q r', ls = p ++ q -> rrun g (rstart s) p = Some r' -> ext (rc r') (rc r)).
  { intros a b r' -> Ra. rewrite rrun_app, Ra in R. eapply crun_ext. exact (rrun_others g b r' r R). }
  destruct (ex_heap _ _ (X _ _ _ E2 R2) i n N) as (n' & N' & (S1 & S2 & S3 & _)). destruct (ex_heap _ _ (X _ _ _ E R1) i m M) as (n2 & N2 & (_ & _ & S4 & _)).
  rewrite N' in N2. injection N2 as <-. assert (D : n_dum n = false) by congruence. destruct (rrun_reach g s p2 r2 R0 R2) as [l0 RR].
  destruct (ci_val _ (reach_inv g _ _ RR) i n N D) as (t & k & Hh & Hr). exists n', t, k. repeat split; auto; try congruence.
  rewrite S2, <- V. eapply ext_hist_in; [apply (X _ _ _ E2 R2)|auto].
Qed.
Print Assumptions C55_values.
(** An item deleted before the call of Range is not reported. *)
Theorem C55_not_deleted g s ls r i n : reachable g s -> rrun g (rstart s) ls = Some r -> node s i = Some n -> n_del n = true -> ~ In i (reported r).
Proof.
  intros R0 R N D H. unfold reported in H. apply in_map_iff in H as ((j & v) & <- & H). cbn [fst] in *.
  destruct (C55_sound g s ls r j v R0 R H) as [(p & q & r1 & E & R1 & _ & m & M & _ & D1) _].
  destruct (ex_heap _ _ (crun_ext _ _ _ _ (rrun_others g p (rstart s) r1 R1)) j n N) as (n' & N' & (_ & _ & _ & X)). rewrite M in N'. injection N' as <-. rewrite (X D) in D1. discriminate.
Qed.
Print Assumptions C55_not_deleted.
(** The order check and the insertion taken as one step: the keys come in ascending order of their bit-reversed hash,
    under every schedule. *)
Theorem C56_sorted_one_step g s ls r : c_atomic g = true -> reachable g s -> rrun g (rstart s) ls = Some r ->
  StronglySorted Z.le (map (pos_at (rc r)) (reported r)).
Proof.
  intros AT R0 R. destruct (C55_each_once g s ls r R0 R) as [_ S]. pose proof (C33_sorted_one_step g _ AT (rrun_reach g s ls r R0 R)) as H.
  unfold positions in H. apply (subseq_map (pos_at (rc r))) in S. revert H. induction S as [l|x l l' S IH|x l l' S IH]; intros H; [constructor| |].
  - inversion H as [|? ? H1 H2]; subst. constructor; auto. rewrite Forall_forall in *. intros y Hy. apply H2. eapply subseq_in; eauto.
  - inversion H; subst; auto.
Qed.
Print Assumptions C56_sorted_one_step.

(** * C56: keys, order, deletions: what does not hold *)
(** a Range runs alone for n steps, f always going on *)
Fixpoint ranging (n : nat) : list rlabel := match n with O => [] | S m => Rng true :: ranging m end.
Definition rafter (g : cfg) (s : cstate) (ls : list rlabel) : rstate := match rrun g (rstart s) ls with Some r => r | None => rstart s end.
Definition rvalid (g : cfg) (s : cstate) (ls : list rlabel) : bool := match rrun g (rstart s) ls with Some _ => true | None => false end.
Lemma rvalid_run g s ls : rvalid g s ls = true -> rrun g (rstart s) ls = Some (rafter g s ls).
Proof. unfold rvalid, rafter. destruct (rrun g (rstart s) ls); [auto|discriminate]. Qed.

(** No key is reported twice *)
Definition keys_once (g : cfg) : Prop := forall s ls r, reachable g s -> rrun g (rstart s) ls = Some r ->
  forall i j n m, In i (reported r) -> In j (reported r) -> node (rc r) i = Some n -> node (rc r) j = Some m ->
    n_rev n = n_rev m -> n_conf n = n_conf m -> i = j.
(** false: after the two Sets of C34 a Range alone reports the key twice *)
Lemma twice_valid : rvalid strict (after strict twice) (ranging 12) = true.
Proof. vm_compute. reflexivity. Qed.
Lemma twice_reported : reported (rafter strict (after strict twice) (ranging 12)) = [18; 17]%nat.
Proof. vm_compute. reflexivity. Qed.
Definition same_hashes (s : cstate) (i j : nat) : bool :=
  match node s i, node s j with Some n, Some m => (n_rev n =? n_rev m) && (n_conf n =? n_conf m) | _, _ => false end.
Lemma twice_same : same_hashes (rc (rafter strict (after strict twice) (ranging 12))) 18 17 = true.
Proof. vm_compute. reflexivity. Qed.
Lemma keys_once_not g s ls r i j : reachable g s -> rrun g (rstart s) ls = Some r -> reported r = [i; j] -> same_hashes (rc r) i j = true -> i <> j -> ~ keys_once g.
Proof.
  intros R0 R E S NE H. unfold same_hashes in S. destruct (node (rc r) i) as [n|] eqn:N; [|discriminate S]. destruct (node (rc r) j) as [m|] eqn:M; [|discriminate S].
  apply andb_true_iff in S as [S1 S2]. apply NE. apply (H s ls r R0 R i j n m); auto; try lia; rewrite E; [left|right; left]; auto.
Qed.
Theorem C56_keys_once_refuted : ~ keys_once strict.
Proof.
  refine (keys_once_not strict _ _ _ 18 17 twice_reach (rvalid_run _ _ _ twice_valid) twice_reported twice_same _). discriminate.
Qed.
Print Assumptions C56_keys_once_refuted.
(** It holds where no Delete was called and no two goroutines were adding the same key at the same time. Missing for
    the full claim: those two (false: above, and a key deleted and added again while the Range is running). *)
Definition no_deletes (s : cstate) : Prop := forall t o, In (Inv t o) (hist s) -> is_delete o = false.
Lemma deleted_called g ls s : crun g cinit ls = Some s -> forall i n, node s i = Some n -> n_del n = true -> exists t o, In (Inv t o) (hist s) /\ is_delete o = true.
Proof.
  intros R. assert (G : reachable g s /\ forall i n, node s i = Some n -> n_del n = true -> exists t o, In (Inv t o) (hist s) /\ is_delete o = true).
  { revert s R. induction ls as [|[t a] ls IH] using rev_ind; intros s R.
    - split; [exists []; auto|]. injection R as <-. intros i n N D. exfalso. revert N D. unfold node. intros N D. apply nth_error_In in N.
      cbn [heap cinit] in N. apply in_map_iff in N as (e & <- & _). discriminate D.
    - split; [eexists; exact R|]. rewrite crun_app in R. destruct (crun g cinit ls) as [s1|] eqn:R1; [|discriminate R]. cbn [crun] in R.
      destruct (cstep g s1 (t, a)) as [s2|] eqn:E; [|discriminate R]. injection R as <-. destruct (IH s1 eq_refl) as [RE H]. apply cstep_eff in E.
      assert (C : cinv s1) by (eapply reach_inv; eauto). pose proof (eff_ext _ _ _ _ E) as X.
      intros i n N D.
      assert (OLD : forall m, node s1 i = Some m -> n_del m = true -> exists u o, In (Inv u o) (hist s2) /\ is_delete o = true).
      { intros m M Dm. destruct (H i m M Dm) as (u & o & I & Q). exists u, o. split; auto. eapply ext_hist_in; eauto. }
      destruct (node s1 i) as [m|] eqn:M.
      + destruct (n_del m) eqn:Dm; [eapply OLD; eauto|]. assert (MK : exists o, pcs s1 t = Mark o i).
        { clear OLD X H. destruct E; try (exfalso; unfold node in *; cbn [heap goto ret log_ alloc set_opt set_node] in N; rewrite ?nth_error_app1 in N by (apply nth_error_Some; congruence); congruence).
          - exfalso. unfold node in *. cbn [heap ret set_node] in N. rewrite set_nth_at in N. destruct (Nat.eqb_spec i i0) as [->|]; [|congruence].
            rewrite M in N. injection N as <-. cbn [n_del] in D. congruence.
          - unfold node in *. cbn [heap ret set_node] in N. rewrite set_nth_at in N. destruct (Nat.eqb_spec i i0) as [->|]; [eauto|congruence].
          - exfalso. unfold node in *. destruct (after_shared s1 t o) as (Q & _). rewrite Q in N. congruence.
          - exfalso. unfold node in *. destruct (after_shared (insert s1 i0 r) t o) as (Q & _). rewrite Q in N. cbn [heap insert] in N. congruence.
          - exfalso. unfold node in *. destruct (after_shared (insert s1 i0 r) t o) as (Q & _). rewrite Q in N. cbn [heap insert] in N. congruence. }
        destruct MK as (o & MK). exists t, o. split; [|eapply marks_delete; eauto]. pose proof (ci_pc _ C t) as P. rewrite MK in P. destruct P as [P _]. eapply ext_hist_in; eauto.
      + exfalso. clear OLD X H. destruct E; try (unfold node in *; cbn [heap goto ret log_ alloc set_opt set_node] in N; congruence).
        * unfold node in *. cbn [heap goto log_ alloc] in N. apply nth_error_None in M. rewrite nth_error_app2 in N by lia. destruct (i - List.length (heap s1))%nat as [|q]; cbn in N; [injection N as <-; discriminate D|destruct q; discriminate N].
        * unfold node in *. cbn [heap goto alloc] in N. apply nth_error_None in M. rewrite nth_error_app2 in N by lia. destruct (i - List.length (heap s1))%nat as [|q]; cbn in N; [injection N as <-; discriminate D|destruct q; discriminate N].
        * unfold node in *. cbn [heap ret set_node] in N. rewrite set_nth_at in N. destruct (Nat.eqb_spec i i0) as [->|]; congruence.
        * unfold node in *. cbn [heap ret set_node] in N. rewrite set_nth_at in N. destruct (Nat.eqb_spec i i0) as [->|]; congruence.
        * unfold node in *. destruct (after_shared s1 t o) as (Q & _). rewrite Q in N. congruence.
        * unfold node in *. destruct (after_shared (insert s1 i0 r) t o) as (Q & _). rewrite Q in N. cbn [heap insert] in N. congruence.
        * unfold node in *. destruct (after_shared (insert s1 i0 r) t o) as (Q & _). rewrite Q in N. cbn [heap insert] in N. congruence. }
  apply G.
Qed.
Theorem C56_keys_once_partial g l0 s ls r : c_lax g = false -> crun g cinit l0 = Some s -> rrun g (rstart s) ls = Some r ->
  always g cinit (l0 ++ others ls) exclusive -> no_deletes (rc r) ->
  forall i j n m, In i (reported r) -> In j (reported r) -> node (rc r) i = Some n -> node (rc r) j = Some m ->
    n_rev n = n_rev m -> n_conf n = n_conf m -> i = j.
Proof.
  intros LX R0 R A ND i j n m Hi Hj Ni Nj E1 E2. assert (RC : crun g cinit (l0 ++ others ls) = Some (rc r)) by (rewrite crun_app, R0; exact (rrun_others g ls _ _ R)).
  assert (RE : reachable g s) by (exists l0; auto). destruct (C55_each_once g s ls r RE R) as [_ S].
  assert (V : forall x y, In x (reported r) -> node (rc r) x = Some y -> n_dum y = false /\ n_del y = false /\ exists k, n_rev y = reverse64 k).
  { intros x y Hx Nx. apply in_map_iff in Hx as ((x' & v) & <- & Hx). cbn [fst] in *. destruct (C55_values g s ls r x' v RE R Hx) as (y' & t & k & N' & D & K & _).
    rewrite Nx in N'. injection N' as <-. split; auto. split; [|eauto]. destruct (n_del y) eqn:DL; auto.
    destruct (deleted_called g _ _ RC x' y Nx DL) as (u & o & I & Q). rewrite (ND u o I) in Q. discriminate Q. }
  destruct (V i n Hi Ni) as (D1 & D2 & k & K). destruct (V j m Hj Nj) as (D3 & D4 & _).
  apply (C34_one_entry_partial g _ _ LX RC A k (n_conf n) i j).
  - split; [eapply subseq_in; eauto|]. exists n. auto.
  - split; [eapply subseq_in; eauto|]. exists m. repeat split; auto; congruence.
Qed.
Print Assumptions C56_keys_once_partial.

(** f is called in list order of the hashes *)
Definition sorted_calls (g : cfg) : Prop := forall s ls r, reachable g s -> rrun g (rstart s) ls = Some r -> StronglySorted Z.le (map (pos_at (rc r)) (reported r)).
(** false in the code, where the order check and the insertion are two steps: the list of C33 *)
Lemma unsorted_valid : rvalid split_cfg (after split_cfg unsorted) (ranging 12) = true.
Proof. vm_compute. reflexivity. Qed.
Lemma unsorted_calls : map (pos_at (rc (rafter split_cfg (after split_cfg unsorted) (ranging 12)))) (reported (rafter split_cfg (after split_cfg unsorted) (ranging 12))) = [20; 10].
Proof. vm_compute. reflexivity. Qed.
Lemma unsorted_reach : reachable split_cfg (after split_cfg unsorted).
Proof. exists unsorted. apply valid_run. vm_compute. reflexivity. Qed.
Lemma sorted_calls_not g s ls r : reachable g s -> rrun g (rstart s) ls = Some r -> map (pos_at (rc r)) (reported r) = [20; 10] -> ~ sorted_calls g.
Proof. intros R0 R E H. specialize (H s ls r R0 R). rewrite E in H. inversion H as [|? ? _ F]; subst. inversion F; subst. lia. Qed.
Theorem C56_sorted_refuted : ~ sorted_calls split_cfg.
Proof. exact (sorted_calls_not _ _ _ _ unsorted_reach (rvalid_run _ _ _ unsorted_valid) unsorted_calls). Qed.
Print Assumptions C56_sorted_refuted.

(** f is not called with an item once a Delete of it has returned *)
Definition calls_live (g : cfg) : Prop := forall s ls r i n go r', reachable g s -> rrun g (rstart s) ls = Some r -> rp r = RCall i ->
  node (rc r) i = Some n -> rstep g r (Rng go) = Some r' -> n_del n = false.
(** false: the Delete runs between the test and the call *)
Definition two_keys : list label := steps strict (call_ (steps strict (call_ [] 1 (CSet (at_ 10) 7 (GV 1 1))) 1 60) 1 (CSet (at_ 20) 8 (GV 1 2))) 1 60.
Definition del_between : list rlabel := ranging 4 ++ map Oth ((1%nat, ACall (CDel (at_ 10) 7)) :: solo strict (after strict (call_ two_keys 1 (CDel (at_ 10) 7))) 1 40).
Definition deleted_b (s : cstate) (i : nat) : bool := match node s i with Some n => n_del n | None => false end.
Lemma two_keys_reach : reachable strict (after strict two_keys).
Proof. exists two_keys. apply valid_run. vm_compute. reflexivity. Qed.
Lemma del_between_valid : rvalid strict (after strict two_keys) del_between = true.
Proof. vm_compute. reflexivity. Qed.
Lemma del_between_at : rp (rafter strict (after strict two_keys) del_between) = RCall 17 /\ deleted_b (rc (rafter strict (after strict two_keys) del_between)) 17 = true.
Proof. split; vm_compute; reflexivity. Qed.
Lemma calls_live_not g s ls r i : reachable g s -> rrun g (rstart s) ls = Some r -> rp r = RCall i /\ deleted_b (rc r) i = true -> ~ calls_live g.
Proof.
  intros R0 R [P D] H. unfold deleted_b in D. destruct (node (rc r) i) as [n|] eqn:N; [|discriminate D].
  rewrite (H s ls r i n true (mkRg (rc r) (RNext i) (out r ++ [(i, n_val n)])) R0 R P N) in D; [discriminate D|]. cbn [rstep]. rewrite P, N. reflexivity.
Qed.
Theorem C56_live_refuted : ~ calls_live strict.
Proof. exact (calls_live_not _ _ _ _ _ two_keys_reach (rvalid_run _ _ _ del_between_valid) del_between_at). Qed.
Print Assumptions C56_live_refuted.

(** A run that the theorems above are about: two keys in the map; while the Range stands on the first, another
    goroutine adds a key after it and deletes nothing; the Range reports all three. *)
Definition set_between : list rlabel :=
  ranging 5 ++ map Oth ((2%nat, ACall (CSet (at_ 15) 9 (GV 1 3))) :: solo strict (after strict (call_ two_keys 2 (CSet (at_ 15) 9 (GV 1 3)))) 2 60) ++ ranging 60.
Definition set_between_all : list rlabel := firstn (List.length set_between - 60 + 39) set_between.
Example C55_case : reachable strict (after strict two_keys) /\ rvalid strict (after strict two_keys) set_between_all = true /\
  rp (rafter strict (after strict two_keys) set_between_all) = REnd /\
  out (rafter strict (after strict two_keys) set_between_all) = [(17, GV 1 1); (19, GV 1 3); (18, GV 1 2)]%nat /\
  existsb (fun i => Nat.eqb i 17) (seen_items (after strict two_keys)) = true.
Proof. split; [exact two_keys_reach|]. repeat split; vm_compute; reflexivity. Qed.
Example C56_keys_once_case : crun strict cinit two_keys = Some (after strict two_keys) /\
  always strict cinit (two_keys ++ others set_between_all) exclusive /\ no_deletes (rc (rafter strict (after strict two_keys) set_between_all)).
Proof.
  split; [apply valid_run; vm_compute; reflexivity|]. split; [apply exclusive_decide; vm_compute; reflexivity|].
  assert (X : forallb (fun e => match e with Inv _ o => negb (is_delete o) | Rsp _ _ _ => true end) (hist (rc (rafter strict (after strict two_keys) set_between_all))) = true) by (vm_compute; reflexivity).
  intros t o I. pose proof (proj1 (forallb_forall _ _) X _ I) as Y. cbn beta iota in Y. apply negb_true_iff in Y. exact Y.
Qed.
