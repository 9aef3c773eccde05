(** Property theorems about Gets during a split in the embedded map: C70. Model: ConcSplit.v. *)
From Verif Require Import Base ConcSplit.
From Coq Require Import PeanoNat Sorted ZifyBool.
Local Open Scope nat_scope.
Local Open Scope list_scope.

(** the items of the bucket are in order (C25) *)
Definition in_order (g : scfg) : Prop := StronglySorted Z.lt (sc_items g).
Definition sreach (g : scfg) (s : sstate) : Prop := exists ls, srun g (sinit g) ls = Some s.
(** a key was stored before the split began *)
Definition stored (g : scfg) (rv : Z) : Prop := In rv (sc_items g).

(** * Lists *)
Lemma sorted_lt l : StronglySorted Z.lt l -> forall i j x y, nth_error l i = Some x -> nth_error l j = Some y -> i < j -> (x < y)%Z.
Proof.
  induction 1 as [|a l S IH F]; intros i j x y Hi Hj L; [destruct i; discriminate|].
  destruct i as [|i], j as [|j]; try lia; cbn in Hi, Hj.
  - injection Hi as <-. rewrite Forall_forall in F. apply F. eapply nth_error_In; eauto.
  - eapply IH; eauto. lia.
Qed.
Lemma sorted_at l i j x y : StronglySorted Z.lt l -> nth_error l i = Some x -> nth_error l j = Some y -> ((x <= y)%Z <-> i <= j).
Proof.
  intros S Hi Hj. destruct (lt_eq_lt_dec i j) as [[L| ->]|L].
  - pose proof (sorted_lt l S i j x y Hi Hj L). split; lia.
  - split; [lia|]. intros _. rewrite Hi in Hj. injection Hj. lia.
  - pose proof (sorted_lt l S j i y x Hj Hi L). split; lia.
Qed.
Lemma first_at_some r l i : first_at r l = Some i -> exists x, nth_error l i = Some x /\ (r <= x)%Z /\ forall j y, nth_error l j = Some y -> j < i -> (y < r)%Z.
Proof.
  revert i. induction l as [|a l IH]; intros i; cbn [first_at]; [discriminate|]. destruct (Z.leb_spec r a) as [L|L].
  - intros [= <-]. exists a. split; auto. split; auto. intros. lia.
  - destruct (first_at r l) as [k|] eqn:E; [|discriminate]. cbn [option_map]. intros [= <-]. destruct (IH k eq_refl) as (x & H1 & H2 & H3).
    exists x. split; auto. split; auto. intros [|j] y Hy Hj; [cbn in Hy; injection Hy as <-; auto|apply (H3 j); auto; lia].
Qed.
Lemma first_at_len r l i : first_at r l = Some i -> i < List.length l.
Proof. intros H. destruct (first_at_some _ _ _ H) as (x & E & _). apply nth_error_Some. congruence. Qed.
(** where the key at position rv is, if it is below the boundary or not *)
Lemma below_cut r l i p rv : StronglySorted Z.lt l -> first_at r l = Some i -> nth_error l p = Some rv -> ((rv < r)%Z <-> p < i).
Proof.
  intros S F N. destruct (first_at_some _ _ _ F) as (x & E & L & B). split; intros H.
  - destruct (Nat.lt_ge_cases p i) as [|G]; auto. apply (sorted_at l i p x rv S E N) in G. lia.
  - eapply B; eauto.
Qed.
Lemma div2_mid i j : i < j -> i <= Nat.div2 (i + j) < j.
Proof. intros H. rewrite Nat.div2_div. split; [apply Nat.div_le_lower_bound; lia|apply Nat.div_lt_upper_bound; lia]. Qed.

(** * The invariant *)
Definition sure (g : scfg) (s : sstate) (rv : Z) (nw : bool) : Prop := nw = true \/ (rv < sc_new g)%Z \/ s_len s = List.length (sc_items g).
Definition ph_ok (g : scfg) (s : sstate) : Prop :=
  let n := List.length (sc_items g) in
  match s_ph s with
  | PhBegin => s_new s = NNone /\ s_len s = n
  | PhFind => s_new s = NBare /\ s_len s = n
  | PhCut i => s_new s = NBare /\ s_len s = n /\ first_at (sc_new g) (sc_items g) = Some i
  | PhPool => s_new s = NBare /\ first_at (sc_new g) (sc_items g) = Some (s_len s) /\ s_cut s = s_len s
  | PhDone => (s_new s = NPool /\ first_at (sc_new g) (sc_items g) = Some (s_len s) /\ s_cut s = s_len s) \/
              (s_new s = NBare /\ s_len s = n)
  end.
Definition new_ok (g : scfg) (s : sstate) (rv : Z) (nw : bool) : Prop := nw = true -> s_new s = NPool /\ (sc_new g <= rv)%Z.
Definition pc_ok (g : scfg) (s : sstate) (p : spc) : Prop :=
  match p with
  | SIdle | SBucket _ => True
  | SPool rv nw => nw = true -> s_new s <> NNone /\ (sc_new g <= rv)%Z
  | SLen rv nw => new_ok g s rv nw
  | SSearch rv nw l i j => new_ok g s rv nw /\ i <= j /\ j <= l /\ h_off s nw + l <= List.length (sc_items g) /\
      forall p, nth_error (sc_items g) p = Some rv -> sure g s rv nw -> h_off s nw + i <= p <= h_off s nw + j /\ p < h_off s nw + l
  | SVal rv nw l i => new_ok g s rv nw /\ h_off s nw + l <= List.length (sc_items g) /\
      forall p, nth_error (sc_items g) p = Some rv -> sure g s rv nw -> p = h_off s nw + i /\ i < l
  | SAt rv nw i => new_ok g s rv nw /\ h_at g s nw i = Some rv
  end.
Record sinv (g : scfg) (s : sstate) : Prop := { si_ph : ph_ok g s; si_pc : forall t, pc_ok g s (s_pcs s t) }.

Lemma len_le g s : ph_ok g s -> s_len s <= List.length (sc_items g).
Proof.
  unfold ph_ok. destruct (s_ph s); intros H; intuition auto; try lia.
  - apply first_at_len in H. lia.
  - apply first_at_len in H0. lia.
Qed.
(** the header is long enough for a key that is sure to be there *)
Lemma len_ok g s rv nw p : in_order g -> ph_ok g s -> new_ok g s rv nw -> nth_error (sc_items g) p = Some rv -> sure g s rv nw ->
  h_off s nw <= p /\ p < h_off s nw + h_len g s nw.
Proof.
  intros O P N E S. assert (Lp : p < List.length (sc_items g)) by (apply nth_error_Some; congruence). unfold h_off, h_len. destruct nw.
  - destruct (N eq_refl) as [NP Hr]. unfold ph_ok in P. destruct (s_ph s); try (destruct P as (A & _); congruence).
    destruct P as [(_ & F & C)|(A & _)]; [|congruence]. pose proof (first_at_len _ _ _ F). pose proof (below_cut _ _ _ _ _ O F E). lia.
  - split; [lia|]. destruct S as [D|[Hr|W]]; [discriminate| |lia].
    assert (FC : forall i, first_at (sc_new g) (sc_items g) = Some i -> p < i) by (intros i F; apply (below_cut _ _ _ _ _ O F E); auto).
    unfold ph_ok in P. destruct (s_ph s).
    + lia.
    + lia.
    + lia.
    + destruct P as (_ & F & _). apply FC; auto.
    + destruct P as [(_ & F & _)|]; [apply FC; auto|lia].
Qed.
Lemma len_bound g s nw rv : ph_ok g s -> new_ok g s rv nw -> h_off s nw + h_len g s nw <= List.length (sc_items g).
Proof.
  intros P N. unfold h_off, h_len. destruct nw; [|apply len_le in P; lia]. destruct (N eq_refl) as [NP _].
  unfold ph_ok in P. destruct (s_ph s); try (destruct P as (A & _); congruence).
  destruct P as [(_ & F & C)|(A & _)]; [|congruence]. apply first_at_len in F. lia.
Qed.

(** the steps of the split leave the claims about the Gets *)
Lemma split_pc g s s' p : ph_ok g s -> split_step g s = Some s' -> pc_ok g s p -> pc_ok g s' p.
Proof.
  intros P E. assert (NW : (s_new s' = s_new s \/ s_new s = NNone \/ s_new s = NBare) /\ (s_new s <> NNone -> s_new s' <> NNone) /\ (s_new s = NPool -> s' = s) /\
     (s_len s' = List.length (sc_items g) -> s_len s = List.length (sc_items g))).
  { unfold split_step in E. pose proof (len_le _ _ P) as LL. unfold ph_ok in P. destruct (s_ph s).
    - injection E as <-. cbn. destruct P as (A & B). intuition congruence.
    - destruct P as (A & B). destruct (first_at _ _) as [[|i]|]; injection E as <-; cbn; rewrite A; repeat split; auto; discriminate.
    - injection E as <-. cbn. destruct P as (A & B & F). rewrite A. repeat split; auto; try discriminate.
    - injection E as <-. cbn. destruct P as (A & B & F). rewrite A. repeat split; auto; try discriminate.
    - discriminate. }
  destruct NW as (N1 & N2 & N3 & N4).
  assert (SU : forall rv nw, sure g s' rv nw -> sure g s rv nw) by (unfold sure; intuition).
  assert (OF : forall rv nw, new_ok g s rv nw -> new_ok g s' rv nw /\ h_off s' nw = h_off s nw).
  { intros rv nw H. destruct nw; [|split; [intros D; discriminate|reflexivity]]. destruct (H eq_refl) as [A B]. rewrite (N3 A). split; auto. }
  assert (OF2 : forall rv nw i, new_ok g s rv nw -> h_at g s' nw i = h_at g s nw i) by (intros rv nw i H; unfold h_at; destruct (OF _ _ H) as [_ ->]; reflexivity).
  destruct p as [|rv|rv nw|rv nw|rv nw l i j|rv nw l i|rv nw i]; cbn [pc_ok]; auto.
  - intros H D. destruct (H D). auto.
  - intros H. apply OF; auto.
  - intros (H1 & H2 & H3 & H4 & H5). destruct (OF _ _ H1) as [A B]. rewrite B. split; [exact A|]. split; [exact H2|]. split; [exact H3|]. split; [exact H4|]. intros q Hq S. apply H5; auto.
  - intros (H1 & H2 & H3). destruct (OF _ _ H1) as [A B]. rewrite B. split; [exact A|]. split; [exact H2|]. intros q Hq S. apply H3; auto.
  - intros (H1 & H2). destruct (OF _ _ H1) as [A B]. split; auto. rewrite (OF2 rv); auto.
Qed.
Lemma split_ph g s s' : ph_ok g s -> split_step g s = Some s' -> ph_ok g s'.
Proof.
  unfold split_step, ph_ok. destruct (s_ph s) eqn:EP; intros P E.
  - injection E as <-. cbn. tauto.
  - destruct P as [A B]. destruct (first_at (sc_new g) (sc_items g)) as [[|i]|] eqn:F; injection E as <-; cbn; auto.
  - injection E as <-. cbn. tauto.
  - injection E as <-. cbn. tauto.
  - discriminate.
Qed.
Lemma split_pcs g s s' : split_step g s = Some s' -> s_pcs s' = s_pcs s /\ s_hist s' = s_hist s.
Proof. unfold split_step. destruct (s_ph s); [|destruct (first_at _ _) as [[|i]|]| | |]; intros [= <-]; auto. Qed.

(** steps of a Get: what its next place claims, and what it answers *)
Inductive gout := GTo (p : spc) | GAns (rv : Z) (a : sans).
Definition rv_of (p : spc) : Z :=
  match p with SIdle => 0%Z | SBucket r | SPool r _ | SLen r _ | SSearch r _ _ _ _ | SVal r _ _ _ | SAt r _ _ => r end.
Definition nw_of (p : spc) : bool :=
  match p with SIdle | SBucket _ => false | SPool _ w | SLen _ w | SSearch _ w _ _ _ | SVal _ w _ _ | SAt _ w _ => w end.
Definition get_ok (g : scfg) (s : sstate) (p : spc) (o : gout) : Prop :=
  match o with
  | GTo p' => pc_ok g s p' /\ rv_of p' = rv_of p /\ p' <> SIdle /\
      match p with SBucket rv => nw_of p' = (match s_new s with NNone => false | _ => (sc_new g <=? rv)%Z end) | _ => nw_of p' = nw_of p end
  | GAns rv a => rv = rv_of p /\ (exists q, p = SVal rv (nw_of p) (fst q) (snd q) \/ p = SAt rv (nw_of p) (fst q)) /\
      (a <> Missing -> stored g rv) /\ (stored g rv -> sure g s rv (nw_of p) -> a = Found)
  end.
Lemma get_eff g s t s' : in_order g -> sinv g s -> get_step g s t = Some s' ->
  exists o, get_ok g s (s_pcs s t) o /\ s' = match o with GTo p => s_goto s t p | GAns rv a => s_ret s t rv a end \/ s' = s.
Proof.
  intros O [P PC] E. specialize (PC t). unfold get_step in E. destruct (s_pcs s t) as [|rv|rv nw|rv nw|rv nw l i j|rv nw l i|rv nw i] eqn:EP; [discriminate| | | | | |].
  - injection E as <-. eexists (GTo _). left. split; [|reflexivity]. cbn. split; [|repeat split; discriminate].
    destruct (s_new s) eqn:EN; try (intros D; discriminate); intros L; split; try discriminate; lia.
  - cbn in PC. destruct nw; [destruct (s_new s) eqn:EN|].
    + injection E as <-. exists (GTo SIdle). right; reflexivity.
    + injection E as <-. exists (GTo SIdle). right; reflexivity.
    + injection E as <-. exists (GTo (SLen rv true)). left. split; [|reflexivity]. cbn. split; [|repeat split; discriminate]. intros D. destruct (PC D). auto.
    + injection E as <-. exists (GTo (SLen rv false)). left. split; [|reflexivity]. cbn. split; [|repeat split; discriminate]. intros D. discriminate.
  - injection E as <-. eexists (GTo _). left. split; [|reflexivity]. cbn. split; [|repeat split; discriminate]. cbn in PC.
    split; auto. split; [lia|]. split; [lia|]. split; [eapply len_bound; eauto|]. intros p Hp S. pose proof (len_ok g s rv nw p O P PC Hp S). lia.
  - cbn in PC. destruct PC as (N & H1 & H2 & H3 & H4). destruct (Nat.ltb_spec i j) as [L|L].
    + pose proof (div2_mid i j L) as M. set (m := Nat.div2 (i + j)) in *. clearbody m.
      destruct (Nat.leb_spec (h_len g s nw) m) as [LM|LM].
      * injection E as <-. eexists (GTo _). left. split; [|reflexivity]. cbn. split; [|repeat split; discriminate]. split; auto. split; [lia|]. split; [lia|]. split; auto.
        intros p Hp S. pose proof (H4 p Hp S). pose proof (len_ok g s rv nw p O P N Hp S). lia.
      * pose proof (len_bound g s nw rv P N) as LB. unfold h_at in E. destruct (nth_error (sc_items g) (h_off s nw + m)) as [x|] eqn:EX.
        2:{ apply nth_error_None in EX. lia. }
        destruct (Z.leb_spec rv x) as [Lx|Lx]; injection E as <-; eexists (GTo _); left; (split; [|reflexivity]); cbn; (split; [|repeat split; discriminate]); (split; [auto|split; [lia|split; [lia|split; [auto|]]]]).
        -- intros p Hp S. pose proof (H4 p Hp S). apply (sorted_at _ p _ rv x O Hp EX) in Lx. lia.
        -- intros p Hp S. pose proof (H4 p Hp S). pose proof (sorted_at _ p _ rv x O Hp EX) as X. destruct (Nat.le_gt_cases p (h_off s nw + m)) as [G|G]; [apply X in G; lia|lia].
    + injection E as <-. eexists (GTo _). left. split; [|reflexivity]. cbn. split; [|repeat split; discriminate]. split; auto. split; auto. intros p Hp S. pose proof (H4 p Hp S). lia.
  - cbn in PC. destruct PC as (N & H2 & H3). unfold h_at in E. destruct (Nat.ltb_spec i l) as [L|L]; cbn [andb] in E.
    + destruct (nth_error (sc_items g) (h_off s nw + i)) as [x|] eqn:EX.
      2:{ apply nth_error_None in EX. lia. }
      destruct (Z.eqb_spec x rv) as [->|NE]; injection E as <-.
      * exists (GTo (SAt rv nw i)). left. split; [|reflexivity]. cbn. split; [|repeat split; discriminate]. split; auto.
      * exists (GAns rv Missing). left. split; [|reflexivity]. split; [reflexivity|]. split; [exists (l, i); auto|]. split; [congruence|].
        intros St S. exfalso. apply In_nth_error in St as [p Hp]. destruct (H3 p Hp S) as [-> _]. congruence.
    + injection E as <-. exists (GAns rv Missing). left. split; [|reflexivity]. split; [reflexivity|]. split; [exists (l, i); auto|]. split; [congruence|].
      intros St S. exfalso. apply In_nth_error in St as [p Hp]. destruct (H3 p Hp S). lia.
  - cbn in PC. destruct PC as (N & H2). unfold h_at in H2. pose proof (nth_error_In _ _ H2) as IN.
    destruct (Nat.leb_spec (h_len g s nw) i) as [L|L]; injection E as <-.
    + exists (GAns rv Crash). left. split; [|reflexivity]. split; [reflexivity|]. split; [exists (i, i); auto|]. split; [intros; exact IN|].
      intros _ S. exfalso. cbn [nw_of] in S. pose proof (len_ok g s rv nw _ O P N H2 S). lia.
    + exists (GAns rv Found). left. split; [|reflexivity]. split; [reflexivity|]. split; [exists (i, i); auto|]. split; [intros; exact IN|auto].
Qed.
Lemma goto_pc g s t p p' : pc_ok g (s_goto s t p) p' <-> pc_ok g s p'.
Proof. reflexivity. Qed.
Lemma sstep_inv g s l s' : in_order g -> sinv g s -> sstep g s l = Some s' -> sinv g s'.
Proof.
  intros O I E. destruct l as [|t rv|t]; cbn [sstep] in E.
  - destruct I as [P PC]. constructor; [eapply split_ph; eauto|]. intros t. destruct (split_pcs _ _ _ E) as [-> _]. eapply split_pc; eauto.
  - destruct (s_pcs s t); try discriminate. injection E as <-. destruct I as [P PC]. constructor; [exact P|].
    intros u. unfold s_goto, s_log; cbn [s_pcs]. destruct (Nat.eqb u t); [exact I|]. exact (PC u).
  - destruct (get_eff g s t s' O I E) as (o & [(K & ->)| ->]); auto. destruct I as [P PC].
    destruct o as [p|rv a]; cbn in K; (constructor; [exact P|]); intros u; unfold s_ret, s_goto, s_log; cbn [s_pcs]; destruct (Nat.eqb u t).
    + apply K.
    + exact (PC u).
    + exact I.
    + exact (PC u).
Qed.
Lemma sinit_inv g : sinv g (sinit g).
Proof. constructor; [cbn; auto|intros; exact I]. Qed.
Lemma srun_ind (g : scfg) (P : sstate -> Prop) : (forall s l s', P s -> sstep g s l = Some s' -> P s') -> forall ls s s', P s -> srun g s ls = Some s' -> P s'.
Proof.
  intros H. induction ls as [|l ls IH]; intros s s' HP E; cbn [srun] in E; [injection E as <-; auto|].
  destruct (sstep g s l) as [s1|] eqn:E1; [|discriminate]. eapply IH; [|exact E]. eapply H; eauto.
Qed.
Lemma sreach_inv g s : in_order g -> sreach g s -> sinv g s.
Proof. intros O [ls E]. eapply (srun_ind g (sinv g)); [|apply sinit_inv|exact E]. intros. eapply sstep_inv; eauto. Qed.

(** * Answers *)
Definition ans_ok (g : scfg) (s : sstate) (e : sevent) : Prop :=
  match e with
  | SInv _ _ => True
  | SRsp _ rv a => (a <> Missing -> stored g rv) /\ (stored g rv -> (rv < sc_new g)%Z \/ s_len s = List.length (sc_items g) -> a = Found)
  end.
Lemma split_len g s s' : ph_ok g s -> split_step g s = Some s' -> s_len s' = List.length (sc_items g) -> s_len s = List.length (sc_items g).
Proof.
  intros P. unfold split_step, ph_ok in *. destruct (s_ph s).
  - intros [= <-]. auto.
  - destruct (first_at _ _) as [[|i]|]; intros [= <-]; auto.
  - intros [= <-]. cbn. tauto.
  - intros [= <-]. auto.
  - discriminate.
Qed.
Lemma ans_step g s l s' : in_order g -> sinv g s -> (forall e, In e (s_hist s) -> ans_ok g s e) -> sstep g s l = Some s' -> forall e, In e (s_hist s') -> ans_ok g s' e.
Proof.
  intros O I H E e He. destruct l as [|t rv|t]; cbn [sstep] in E.
  - destruct (split_pcs _ _ _ E) as [_ EH]. rewrite EH in He. specialize (H e He). destruct e as [|t rv a]; cbn in *; auto. destruct H as [H1 H2]. split; auto.
    intros S [L|L]; apply H2; auto. right. eapply split_len; eauto. apply (si_ph _ _ I).
  - destruct (s_pcs s t); try discriminate. injection E as <-. cbn [s_hist s_goto s_log] in He. apply in_app_or in He as [He|[<-|[]]]; [exact (H e He)|exact Logic.I].
  - destruct (get_eff g s t s' O I E) as (o & [(K & ->)| ->]); auto. destruct o as [p|rv a]; cbn [s_hist s_goto s_log s_ret] in He.
    + exact (H e He).
    + apply in_app_or in He as [He|[<-|[]]]; [exact (H e He)|]. cbn in K. destruct K as (-> & _ & K1 & K2). split; auto.
      intros S L. apply K2; auto. right. exact L.
Qed.
Lemma sreach_ans g s : in_order g -> sreach g s -> forall e, In e (s_hist s) -> ans_ok g s e.
Proof.
  intros O [ls E]. enough (sinv g s /\ forall e, In e (s_hist s) -> ans_ok g s e) as [_ H] by exact H.
  eapply (srun_ind g (fun s => sinv g s /\ forall e, In e (s_hist s) -> ans_ok g s e)); [|split; [apply sinit_inv|intros e []]|exact E].
  intros s1 l s2 [I H] E1. split; [eapply sstep_inv; eauto|eapply ans_step; eauto].
Qed.

(** A Get answers "found" or crashes only for a key that is there. *)
Theorem C70_absent : forall g s t rv a, in_order g -> sreach g s -> In (SRsp t rv a) (s_hist s) -> ~ stored g rv -> a = Missing.
Proof.
  intros g s t rv a O R H N. destruct (sreach_ans g s O R _ H) as [K _]. destruct a; auto; exfalso; apply N, K; discriminate.
Qed.
Print Assumptions C70_absent.
(** A key below the boundary is found by every Get, however it overlaps the split. *)
Theorem C70_below : forall g s t rv a, in_order g -> sreach g s -> In (SRsp t rv a) (s_hist s) -> stored g rv ->
  (rv < sc_new g)%Z -> a = Found.
Proof. intros g s t rv a O R H S L. apply (sreach_ans g s O R _ H); auto. Qed.
Print Assumptions C70_below.
(** the split has not divided the items yet *)
Definition undivided (s : sstate) : Prop := match s_ph s with PhBegin | PhFind | PhCut _ => True | _ => False end.
(** Every key is found by every Get that has returned before the items are divided. *)
Theorem C70_before : forall g s t rv a, in_order g -> sreach g s -> undivided s -> In (SRsp t rv a) (s_hist s) -> stored g rv -> a = Found.
Proof.
  intros g s t rv a O R U H S. apply (sreach_ans g s O R _ H); auto. right. pose proof (si_ph _ _ (sreach_inv g s O R)) as P.
  unfold undivided in U. unfold ph_ok in P. destruct (s_ph s); tauto.
Qed.
Print Assumptions C70_before.

(** ** Gets that begin after the new bucket is visible *)
Definition late (g : scfg) (s : sstate) (t : nat) : Prop := s_new s <> NNone /\
  match s_pcs s t with SIdle | SBucket _ => True | p => nw_of p = true \/ (rv_of p < sc_new g)%Z end.
Lemma split_new g s s' : split_step g s = Some s' -> s_new s <> NNone -> s_new s' <> NNone.
Proof. unfold split_step. destruct (s_ph s); [|destruct (first_at _ _) as [[|i]|]| | |]; intros [= <-]; cbn; auto; discriminate. Qed.
Lemma late_step g s l s' t : in_order g -> sinv g s -> late g s t -> sstep g s l = Some s' ->
  late g s' t /\ exists h, s_hist s' = s_hist s ++ h /\ forall rv a, In (SRsp t rv a) h -> stored g rv -> a = Found.
Proof.
  intros O I [N L] E. destruct l as [|u rv|u]; cbn [sstep] in E.
  - destruct (split_pcs _ _ _ E) as [EP EH]. split; [split; [eapply split_new; eauto|rewrite EP; exact L]|]. exists []. rewrite app_nil_r. split; auto. intros rv a [].
  - destruct (s_pcs s u) eqn:EU; try discriminate. injection E as <-. split.
    + split; [exact N|]. unfold s_goto, s_log; cbn [s_pcs]. destruct (Nat.eqb_spec t u); [exact Logic.I|exact L].
    + eexists. split; [reflexivity|]. intros r a [X|[]]; discriminate.
  - destruct (get_eff g s u s' O I E) as (o & [(K & ->)| ->]).
    2:{ split; [split; auto|]. exists []. rewrite app_nil_r. split; auto. intros rv a []. }
    destruct o as [p|rv a]; cbn in K.
    + split; [|exists []; rewrite app_nil_r; split; [reflexivity|intros rv a []]]. split; [exact N|]. unfold s_goto; cbn [s_pcs].
      destruct (Nat.eqb_spec t u) as [->|]; [|exact L]. destruct K as (_ & K1 & K2 & K3). destruct (s_pcs s u) as [|r|r w|r w|r w a b c|r w a b|r w a] eqn:EU;
        cbn in K1, K3, L; destruct p; auto; try congruence; cbn in *; try (subst; exact L).
      all: try (rewrite K3; destruct (s_new s); [congruence| |]; rewrite K1; destruct (Z.leb_spec (sc_new g) r); auto; right; lia).
      all: unfold get_step in E; rewrite EU in E; discriminate E.
    + split.
      * split; [exact N|]. unfold s_ret, s_goto, s_log; cbn [s_pcs]. destruct (Nat.eqb_spec t u); [exact Logic.I|exact L].
      * eexists. split; [reflexivity|]. intros r b [X|[]] S. injection X as <- <- <-. destruct K as (E1 & (q & Q) & _ & K). apply K; auto.
        destruct Q as [Q|Q]; rewrite Q in L; cbn in L; destruct L as [L|L]; unfold sure; auto.
Qed.
Lemma late_run g t : in_order g -> forall ls s s', sinv g s -> late g s t -> srun g s ls = Some s' ->
  exists h, s_hist s' = s_hist s ++ h /\ forall rv a, In (SRsp t rv a) h -> stored g rv -> a = Found.
Proof.
  intros O. induction ls as [|l ls IH]; intros s s' I L E; cbn [srun] in E.
  - injection E as <-. exists []. rewrite app_nil_r. split; auto. intros rv a [].
  - destruct (sstep g s l) as [s1|] eqn:E1; [|discriminate]. destruct (late_step g s l s1 t O I L E1) as (L1 & h1 & H1 & A1).
    destruct (IH s1 s' (sstep_inv g s l s1 O I E1) L1 E) as (h2 & H2 & A2). exists (h1 ++ h2). split; [rewrite H2, H1, app_assoc; auto|].
    intros rv a H S. apply in_app_or in H as [H|H]; eauto.
Qed.
(** the new bucket can be seen (the first step of the split is done) *)
Definition split_begun (s : sstate) : Prop := s_ph s <> PhBegin.
(** Every key is found by a Get that begins after the new bucket can be seen. *)
Theorem C70_after : forall g s ls s' h t rv a, in_order g -> sreach g s -> split_begun s -> s_pcs s t = SIdle ->
  srun g s ls = Some s' -> s_hist s' = s_hist s ++ h -> In (SRsp t rv a) h -> stored g rv -> a = Found.
Proof.
  intros g s ls s' h t rv a O R B Id E EH H S. pose proof (sreach_inv g s O R) as I.
  assert (L : late g s t). { split; [|rewrite Id; exact Logic.I]. pose proof (si_ph _ _ I) as P. unfold ph_ok in P. unfold split_begun in B. destruct (s_ph s); [congruence| | | |]; intros X; rewrite X in P; intuition discriminate. }
  destruct (late_run g t O ls s s' I L E) as (h2 & H2 & A). rewrite H2 in EH. apply app_inv_head in EH. subst h2. eauto.
Qed.
Print Assumptions C70_after.

(** The natural claim: every Get of a stored key finds it. It is false, and the Get can also crash. *)
Definition gets_find (good : sans -> Prop) : Prop := forall g s t rv a, in_order g -> sreach g s -> In (SRsp t rv a) (s_hist s) -> stored g rv -> good a.
(** four keys, the new bucket begins at 4: keys 5 and 7 go there *)
Definition four : scfg := mkSC [1; 3; 5; 7]%Z 4%Z.
Lemma four_in_order : in_order four.
Proof. unfold in_order, four. cbn. repeat constructor. Qed.
Definition splits (n : nat) : list slabel := repeat LSplit n.
Definition goes (t n : nat) : list slabel := repeat (LGo t) n.
(** the Get has the old bucket when the split begins, and searches it when the split is over *)
Definition overtaken : list slabel := [LGet 0 5; LGo 0] ++ splits 4 ++ goes 0 5.
(** the Get has found its item; before it fetches it the items are divided *)
Definition divided : list slabel := [LGet 0 5] ++ goes 0 7 ++ splits 3 ++ goes 0 1.
Lemma refute good ls rv a : (match srun four (sinit four) ls with Some s => In (SRsp 0 rv a) (s_hist s) | None => False end) -> stored four rv -> ~ good a -> ~ gets_find good.
Proof.
  intros H S B C. destruct (srun four (sinit four) ls) as [s|] eqn:E; [|destruct H]. apply B. eapply (C four s 0 rv a four_in_order); eauto. exists ls. auto.
Qed.
Theorem C70_found_refuted : ~ gets_find (fun a => a = Found).
Proof. apply (refute _ overtaken 5%Z Missing); [vm_compute; auto|cbn; auto|discriminate]. Qed.
Print Assumptions C70_found_refuted.
Theorem C70_crash_refuted : ~ gets_find (fun a => a <> Crash).
Proof. apply (refute _ divided 5%Z Crash); [vm_compute; auto|cbn; auto|auto]. Qed.
Print Assumptions C70_crash_refuted.

(** ** Waiting *)
(** A Get ends after at most n + 5 steps of its own, n the number of items, unless it waits for a new bucket to get its items. *)
Lemma len_small g s nw : ph_ok g s -> h_len g s nw <= List.length (sc_items g).
Proof. intros P. apply len_le in P. unfold h_len. destruct nw; lia. Qed.
Definition left_ (g : scfg) (p : spc) : nat :=
  match p with
  | SIdle => 0
  | SBucket _ => List.length (sc_items g) + 6
  | SPool _ _ => List.length (sc_items g) + 5
  | SLen _ _ => List.length (sc_items g) + 4
  | SSearch _ _ _ i j => j - i + 3
  | SVal _ _ _ _ => 2
  | SAt _ _ _ => 1
  end.
Lemma pcs_goto s t p : s_pcs (s_goto s t p) t = p.
Proof. cbn. rewrite Nat.eqb_refl. reflexivity. Qed.
Lemma get_left g s t : ph_ok g s -> s_new s <> NBare -> s_pcs s t <> SIdle ->
  (forall rv, s_pcs s t = SPool rv true -> s_new s = NPool) ->
  exists s', get_step g s t = Some s' /\ left_ g (s_pcs s' t) < left_ g (s_pcs s t) /\ s_new s' = s_new s /\ ph_ok g s' /\
    (forall rv, s_pcs s' t = SPool rv true -> s_new s' = NPool).
Proof.
  intros P NB NI W. unfold get_step. destruct (s_pcs s t) as [|rv|rv nw|rv nw|rv nw l i j|rv nw l i|rv nw i] eqn:EP; [congruence| | | | | |].
  - eexists. split; [reflexivity|]. rewrite pcs_goto. split; [cbn; lia|]. split; [reflexivity|]. split; [exact P|].
    intros r. destruct (s_new s) eqn:EN; [discriminate|congruence|intros _; exact EN].
  - replace (match nw with true => _ | false => _ end) with (Some (s_goto s t (SLen rv nw))) by (destruct nw; [rewrite (W rv eq_refl)|]; reflexivity).
    eexists; split; [reflexivity|]; rewrite pcs_goto; split; [cbn; lia|]; split; [reflexivity|]; split; [exact P|discriminate].
  - eexists. split; [reflexivity|]. rewrite pcs_goto. split; [cbn [left_]; pose proof (len_small g s nw P); lia|]. split; [reflexivity|]. split; [exact P|discriminate].
  - destruct (Nat.ltb_spec i j) as [L|L].
    + pose proof (div2_mid i j L). cbv zeta. match goal with |- context [if ?x then SSearch _ _ _ _ _ else _] => destruct x end; (eexists; split; [reflexivity|]; rewrite pcs_goto; split; [cbn [left_]; lia|]; split; [reflexivity|]; split; [exact P|discriminate]).
    + eexists. split; [reflexivity|]. rewrite pcs_goto. split; [cbn; lia|]. split; [reflexivity|]. split; [exact P|discriminate].
  - destruct (_ && _); (eexists; split; [reflexivity|]; unfold s_ret; rewrite pcs_goto; split; [cbn; lia|]; split; [reflexivity|]; split; [exact P|discriminate]).
  - destruct (Nat.leb _ _); (eexists; split; [reflexivity|]; unfold s_ret; rewrite pcs_goto; split; [cbn; lia|]; split; [reflexivity|]; split; [exact P|discriminate]).
Qed.
(** Unless the split is between the creation of the new bucket and giving it its items, a Get that runs alone returns. *)
Theorem C70_returns : forall g s t, in_order g -> sreach g s -> s_new s <> NBare ->
  exists k s', k <= List.length (sc_items g) + 6 /\ srun g s (goes t k) = Some s' /\ s_pcs s' t = SIdle.
Proof.
  intros g s t O R NB. pose proof (sreach_inv g s O R) as [P PC].
  assert (W : forall rv, s_pcs s t = SPool rv true -> s_new s = NPool).
  { intros rv E. specialize (PC t). rewrite E in PC. cbn in PC. destruct (PC eq_refl) as [X _]. destruct (s_new s); congruence. }
  assert (B : left_ g (s_pcs s t) <= List.length (sc_items g) + 6).
  { specialize (PC t). destruct (s_pcs s t) as [|rv|rv nw|rv nw|rv nw l i j|rv nw l i|rv nw i]; cbn [left_]; try lia. cbn in PC. lia. }
  enough (H : forall m s, ph_ok g s -> s_new s <> NBare -> (forall rv, s_pcs s t = SPool rv true -> s_new s = NPool) -> left_ g (s_pcs s t) <= m ->
     exists k s', k <= m /\ srun g s (goes t k) = Some s' /\ s_pcs s' t = SIdle).
  { destruct (H _ s P NB W B) as (k & s' & K). exists k, s'. exact K. }
  clear. induction m as [|m IH]; intros s P NB W B.
  - exists 0, s. split; [lia|]. split; [reflexivity|]. destruct (s_pcs s t); cbn in B; auto; lia.
  - destruct (s_pcs s t) eqn:EI; [exists 0, s; split; [lia|]; split; [reflexivity|exact EI]| | | | | |];
    (destruct (get_left g s t P NB ltac:(congruence) ltac:(rewrite EI; exact W)) as (s1 & E1 & L1 & N1 & P1 & W1);
     rewrite EI in L1; rewrite <- N1 in NB; destruct (IH s1 P1 NB W1 ltac:(lia)) as (k & s' & K1 & K2 & K3);
     exists (S k), s'; split; [lia|]; split; [cbn [goes repeat srun sstep]; rewrite E1; exact K2|exact K3]).
Qed.
Print Assumptions C70_returns.
Lemma get_shape g s u s' : get_step g s u = Some s' -> s' = s \/ (exists p, s' = s_goto s u p) \/ exists rv a, s' = s_ret s u rv a.
Proof.
  unfold get_step. destruct (s_pcs s u) as [|rv|rv nw|rv nw|rv nw l i j|rv nw l i|rv nw i]; [discriminate| | | | | |].
  - intros [= <-]. eauto.
  - destruct nw; [destruct (s_new s)|]; intros [= <-]; eauto.
  - intros [= <-]. eauto.
  - destruct (Nat.ltb i j); intros [= <-]; eauto.
  - destruct (_ && _); intros [= <-]; eauto.
  - destruct (Nat.leb _ _); intros [= <-]; eauto.
Qed.
(** If the split gives up because all items are on one side, the new bucket stays without items, and no Get of a position from there on ever returns. *)
Theorem C70_waits_for_ever : forall g s ls s' t rv, s_ph s = PhDone -> s_new s = NBare -> s_pcs s t = SBucket rv -> (sc_new g <= rv)%Z ->
  srun g s ls = Some s' -> s_pcs s' t <> SIdle.
Proof.
  intros g s ls s' t rv D B Pc L E.
  enough (H : s_ph s' = PhDone /\ s_new s' = NBare /\ (s_pcs s' t = SBucket rv \/ s_pcs s' t = SPool rv true)) by (destruct H as (_ & _ & [-> | ->]); discriminate).
  revert E. apply (srun_ind g (fun s => s_ph s = PhDone /\ s_new s = NBare /\ (s_pcs s t = SBucket rv \/ s_pcs s t = SPool rv true))); auto.
  clear - L. intros s l s' (D & B & Pc) E. destruct l as [|u r|u]; cbn [sstep] in E.
  - unfold split_step in E. rewrite D in E. discriminate.
  - destruct (s_pcs s u) eqn:EU; try discriminate. injection E as <-. cbn. destruct (Nat.eqb_spec t u) as [->|]; auto. rewrite EU in Pc. destruct Pc; discriminate.
  - destruct (Nat.eq_dec t u) as [<-|NE].
    + unfold get_step in E. destruct Pc as [Pc|Pc]; rewrite Pc in E.
      * injection E as <-. cbn. rewrite D, B, Nat.eqb_refl. destruct (Z.leb_spec (sc_new g) rv); [auto|lia].
      * rewrite B in E. injection E as <-. auto.
    + assert (X : s_ph s' = s_ph s /\ s_new s' = s_new s /\ s_pcs s' t = s_pcs s t).
      { assert (U : Nat.eqb t u = false) by (apply Nat.eqb_neq; auto).
        destruct (get_shape g s u s' E) as [->|[(p & ->)|(r & a & ->)]]; unfold s_ret, s_goto, s_log; cbn; rewrite ?U; auto. }
      destruct X as (-> & -> & ->). auto.
Qed.
Print Assumptions C70_waits_for_ever.

(** Cases: Gets of keys on both sides that overlap the split, all returned; and a split that gives up. *)
Definition mixed : list slabel := [LGet 0 3; LGo 0; LSplit; LGet 1 5; LGo 1; LGo 1] ++ splits 3 ++ goes 0 7 ++ goes 1 7.
Example C70_case : in_order four /\
  match srun four (sinit four) mixed with
  | Some s => s_hist s = [SInv 0 3; SInv 1 5; SRsp 0 3 Found; SRsp 1 5 Found]%Z /\ s_new s = NPool
  | None => False
  end.
Proof. split; [exact four_in_order|]. vm_compute. auto. Qed.
Example C70_waits_case : let g := mkSC [1; 3]%Z 4%Z in
  match srun g (sinit g) (splits 2 ++ [LGet 0 5]) with
  | Some s => s_ph s = PhDone /\ s_new s = NBare /\ s_pcs s 0 = SBucket 5
  | None => False
  end.
Proof. vm_compute. auto. Qed.
