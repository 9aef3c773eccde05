(** Property theorems about the concurrent creation of buckets below one bucket: C40, C51. The model is ConcTable.v. *)
From Verif Require Import Base ConcTable.
From Coq Require Import PeanoNat.
Local Open Scope list_scope.
Local Open Scope nat_scope.

(** * Vocabulary *)
Definition treach (s : tstate) : Prop := exists ls, trun tinit ls = Some s.
(** the children that were initialised, in order, one entry per goroutine that did it *)
Definition made (s : tstate) : list nat := map snd (t_makes s).
Definition claimed (s : tstate) : list nat := map snd (t_claims s).
(** no call is running *)
Definition tquiet (s : tstate) : Prop := forall t, t_pcs s t = TIdle.
(** the calls all want child i *)
Definition all_want (i : nat) (ls : list (nat * nat)) : Prop := forall l, In l ls -> snd l = i.
(** the calls are made one after another, by any goroutines: who takes a step is the only one inside a call *)
Fixpoint serial (s : tstate) (ls : list (nat * nat)) : Prop :=
  match ls with
  | [] => True
  | l :: ls' => (forall u, u <> fst l -> t_pcs s u = TIdle) /\ match tstep s l with Some s' => serial s' ls' | None => True end
  end.

Lemma tgo_same s t p : t_pcs (tgo s t p) t = p.
Proof. cbn. unfold upd. rewrite Nat.eqb_refl. auto. Qed.
Lemma tgo_other s t p u : u <> t -> t_pcs (tgo s t p) u = t_pcs s u.
Proof. intros H. cbn. unfold upd. destruct (Nat.eqb_spec u t); congruence. Qed.
Lemma upd_same {A} (f : nat -> A) i x : upd f i x i = x.
Proof. unfold upd. rewrite Nat.eqb_refl. auto. Qed.
Lemma upd_other {A} (f : nat -> A) i x j : j <> i -> upd f i x j = f j.
Proof. intros H. unfold upd. destruct (Nat.eqb_spec j i); congruence. Qed.
Lemma trun_app l1 : forall s l2, trun s (l1 ++ l2) = match trun s l1 with Some s' => trun s' l2 | None => None end.
Proof. induction l1 as [|t l1 IH]; intros s l2; cbn [trun app]; auto. destruct (tstep s t); auto. Qed.
Lemma trun_inv (Q : nat * nat -> Prop) (P : tstate -> Prop) : (forall s l s', Q l -> P s -> tstep s l = Some s' -> P s') ->
  forall ls, (forall l, In l ls -> Q l) -> forall s s', P s -> trun s ls = Some s' -> P s'.
Proof.
  intros H. induction ls as [|t ls IH]; intros HQ s s' HP E; cbn [trun] in E; [injection E as <-; auto|].
  destruct (tstep s t) as [s1|] eqn:E1; [|discriminate]. eapply (IH (fun l I => HQ l (or_intror I))); [|exact E]. eapply H; eauto. apply HQ. left; auto.
Qed.
Lemma tstep_other s t w s' u : tstep s (t, w) = Some s' -> u <> t -> t_pcs s' u = t_pcs s u.
Proof.
  intros E N. unfold tstep in E. destruct (t_pcs s t); repeat match type of E with
  | (if ?b then _ else _) = Some _ => destruct b eqn:?
  | (match ?b with _ => _ end) = Some _ => destruct b eqn:?
  end; try discriminate E; injection E as <-; rewrite tgo_other by auto; reflexivity.
Qed.
(** a property of the goroutine inside a call, for histories of calls made one after another *)
Lemma serial_inv (P : nat -> tstate -> Prop) : (forall t u s, P t s -> tquiet s -> P u s) -> (forall t w s s', P t s -> tstep s (t, w) = Some s' -> P t s') ->
  forall ls t s s', (forall u, u <> t -> t_pcs s u = TIdle) -> P t s -> serial s ls -> trun s ls = Some s' -> exists u, (forall v, v <> u -> t_pcs s' v = TIdle) /\ P u s'.
Proof.
  intros H1 H2. induction ls as [|[u w] ls IH]; intros t s s' O HP S E; cbn [trun serial fst] in *; [injection E as <-; exists t; auto|].
  destruct S as [S1 S2]. destruct (tstep s (u, w)) as [s1|] eqn:E1; [|discriminate E]. assert (HPu : P u s).
  { destruct (Nat.eq_dec u t) as [->|N]; auto. apply (H1 t); auto. intros v. destruct (Nat.eq_dec v t) as [->|N']; auto. }
  apply (IH u s1); auto; [|eapply H2; eauto]. intros v N. rewrite (tstep_other _ _ _ _ _ E1); auto.
Qed.
(** every step is [tgo] on a state with the same goroutines *)
Ltac steps E := unfold tstep in E; destruct (t_pcs _ _) eqn:PC in E; repeat match type of E with
  | (if ?b then _ else _) = Some _ => destruct b eqn:?
  | (match ?b with _ => _ end) = Some _ => destruct b eqn:?
  end; try discriminate E; try (injection E as <-).

(** * C40: the table is allocated once *)
Definition building (p : tpc) : bool := match p with TBuild _ => true | _ => false end.
Definition fresh (p : tpc) : bool := match p with TOwn _ | TCas _ _ | TCnt _ | TLen _ | TFull _ => true | _ => false end.
Record ainv (s : tstate) : Prop := {
  ai_zero : t_cnt s = 0 -> t_allocs s = 0 /\ forall t, building (t_pcs s t) = false;
  ai_b : forall t, building (t_pcs s t) = true -> t_allocs s = 0 /\ forall u, building (t_pcs s u) = true -> u = t;
  ai_1 : t_allocs s <= 1 }.
Lemma ainv_go s s1 t p : ainv s -> building p = false -> t_pcs s1 = t_pcs s -> t_allocs s1 = t_allocs s -> (t_cnt s1 = 0 -> t_cnt s = 0) -> ainv (tgo s1 t p).
Proof.
  intros [A B C] Hp E1 E2 E3. constructor.
  - cbn [t_cnt tgo t_allocs]. intros Z. destruct (A (E3 Z)) as [A1 A2]. split; [congruence|]. intros u. destruct (Nat.eq_dec u t) as [->|N]; [rewrite tgo_same; auto|rewrite tgo_other, E1; auto].
  - intros u. destruct (Nat.eq_dec u t) as [->|N]; [rewrite tgo_same; congruence|rewrite tgo_other, E1 by auto]. intros F. destruct (B u F) as [B1 B2]. split; [cbn; congruence|].
    intros v. destruct (Nat.eq_dec v t) as [->|N']; [rewrite tgo_same; congruence|rewrite tgo_other, E1 by auto]. auto.
  - cbn. congruence.
Qed.
Lemma ainv_step s l s' : ainv s -> tstep s l = Some s' -> ainv s'.
Proof.
  intros I E. destruct l as [t want]. assert (I0 := I). destruct I as [A B C].
  steps E; try (eapply ainv_go; [exact I0| | | |]; auto; repeat match goal with |- building (if ?b then _ else _) = _ => destruct b end; auto; cbn; discriminate).
  - (* TStart wins *) apply Nat.eqb_eq in Heqb. destruct (A Heqb) as [A1 A2]. constructor.
    + cbn. discriminate.
    + intros u. destruct (Nat.eq_dec u t) as [->|N]; [intros _|rewrite tgo_other by auto; cbn; rewrite A2; discriminate]. split; [cbn; auto|].
      intros v. destruct (Nat.eq_dec v t) as [->|N']; auto. rewrite tgo_other by auto. cbn. rewrite A2. discriminate.
    + cbn. auto.
  - (* TBuild *) destruct (B t) as [B1 B2]; [rewrite PC; auto|]. assert (NB : forall u, building (t_pcs (tgo s t (TCnt i)) u) = false).
    { intros u. destruct (Nat.eq_dec u t) as [->|N]; [rewrite tgo_same; auto|rewrite tgo_other by auto]. destruct (building (t_pcs s u)) eqn:F; auto. elim N. auto. }
    constructor; [| |cbn; lia].
    + cbn. intros Z. destruct (A Z) as [_ A2]. specialize (A2 t). rewrite PC in A2. discriminate A2.
    + intros u F. assert (X := NB u). cbn in F, X. congruence.
Qed.
Theorem C40_table_once s : treach s -> t_allocs s <= 1.
Proof.
  intros [ls E]. apply (ai_1 s). refine (trun_inv (fun _ => True) ainv _ ls _ tinit s _ E); auto.
  - intros s0 l s1 _ I. apply ainv_step. auto.
  - constructor; cbn; auto; intros; discriminate.
Qed.

(** * C40: goroutines that create the same child: exactly one initialises it *)
Definition early (i : nat) (p : tpc) : Prop := p = TIdle \/ p = TStart i \/ p = TWait i.
Definition spins (i : nat) (p : tpc) : Prop := early i p \/ p = TCnt i \/ p = TLen i \/ p = TCas i 1 \/ p = TFull i.
Definition owning (i : nat) (p : tpc) : Prop := p = TOwn i \/ p = THead i.
Definition finishing (i : nat) (p : tpc) : Prop := p = TOk i \/ p = TOkL i \/ p = TOkR i \/ p = TOkC i 1.
Definition late (i : nat) (p : tpc) : Prop :=
  match p with TIdle => True | TBuild _ | TMake _ => False
  | TStart j | TWait j | TCnt j | TLen j | TCas j _ | TFull j | TOwn j | TSlot j | THead j | TOk j | TOkL j | TOkR j | TOkC j _ | TAct j => j = i end.
Inductive phase (i : nat) (s : tstate) : Prop :=
| ph0 : t_cnt s = 0 -> t_len s = 0 -> t_head s i = false -> t_makes s = [] -> (forall t, early i (t_pcs s t)) -> phase i s
| ph1 b : t_cnt s = 1 -> t_len s = 0 -> t_head s i = false -> t_makes s = [] -> t_pcs s b = TBuild i -> (forall t, t <> b -> early i (t_pcs s t)) -> phase i s
| ph2 : t_cnt s = 1 -> t_len s = 1 -> t_head s i = false -> t_makes s = [] -> (forall t, spins i (t_pcs s t)) -> phase i s
| ph3 o : t_cnt s = S i -> t_len s = 1 -> t_head s i = false -> t_makes s = [] -> owning i (t_pcs s o) -> (forall t, t <> o -> spins i (t_pcs s t)) -> phase i s
| ph4 o : t_cnt s = S i -> t_len s = 1 -> t_head s i = false -> t_makes s = [(o, i)] -> t_pcs s o = TMake i -> (forall t, t <> o -> spins i (t_pcs s t)) -> phase i s
| ph5 o : t_cnt s = S i -> t_len s = 1 -> t_head s i = true -> t_makes s = [(o, i)] -> finishing i (t_pcs s o) -> (forall t, t <> o -> spins i (t_pcs s t)) -> phase i s
| ph6 o : t_cnt s = S i -> t_len s = S i -> t_head s i = true -> t_makes s = [(o, i)] -> (forall t, late i (t_pcs s t)) -> phase i s.

Lemma spins_late i p : spins i p -> late i p.
Proof. intros [[H|[H|H]]|[H|[H|[H|H]]]]; subst; cbn; auto. Qed.
Lemma finishing_late i p : finishing i p -> late i p.
Proof. intros [H|[H|[H|H]]]; subst; cbn; auto. Qed.
Lemma late_go i s1 t p : (forall u, late i (t_pcs s1 u)) -> late i p -> forall u, late i (t_pcs (tgo s1 t p) u).
Proof. intros H L u. destruct (Nat.eq_dec u t) as [->|N]; [rewrite tgo_same|rewrite tgo_other]; auto. Qed.
Lemma spins_go i s1 t p : (forall u, spins i (t_pcs s1 u)) -> spins i p -> forall u, spins i (t_pcs (tgo s1 t p) u).
Proof. intros H L u. destruct (Nat.eq_dec u t) as [->|N]; [rewrite tgo_same|rewrite tgo_other]; auto. Qed.
Lemma early_go i s1 t p : (forall u, early i (t_pcs s1 u)) -> early i p -> forall u, early i (t_pcs (tgo s1 t p) u).
Proof. intros H L u. destruct (Nat.eq_dec u t) as [->|N]; [rewrite tgo_same|rewrite tgo_other]; auto. Qed.
Lemma others_go (P : tpc -> Prop) s1 t o p : (forall u, u <> o -> P (t_pcs s1 u)) -> P p -> forall u, u <> o -> P (t_pcs (tgo s1 t p) u).
Proof. intros H L u. destruct (Nat.eq_dec u t) as [->|N]; [rewrite tgo_same|rewrite tgo_other]; auto. Qed.

Lemma early_step i s t s' : (t_cnt s <> 0) -> early i (t_pcs s t) -> 1 <= i -> tstep s (t, i) = Some s' ->
  exists p, s' = tgo s t p /\ (early i p \/ (t_len s <> 0 /\ p = TCnt i)).
Proof.
  intros C H Hi E. unfold tstep in E. destruct H as [H|[H|H]]; rewrite H in E.
  - destruct (_ && _); [|discriminate E]. injection E as <-. eexists; split; [reflexivity|]. left. right. left. auto.
  - destruct (Nat.eqb_spec (t_cnt s) 0); [contradiction|]. injection E as <-. eexists; split; [reflexivity|]. left. right. right. auto.
  - injection E as <-. eexists; split; [reflexivity|]. destruct (Nat.eqb_spec (t_len s) 0); [left; right; left; auto|right; auto].
Qed.
(** a spinning goroutine while the count is at most i+1 and the length is 1 either goes on spinning or wins the count *)
Lemma spins_step i s t s' : t_len s = 1 -> t_cnt s <> 0 -> spins i (t_pcs s t) -> 1 <= i -> tstep s (t, i) = Some s' ->
  (exists p, s' = tgo s t p /\ spins i p) \/ (t_cnt s = 1 /\ s' = tgo (set_cnt s (S i)) t (TOwn i)).
Proof.
  intros L C H Hi E. destruct H as [H|H].
  - destruct (early_step i s t s' C H Hi E) as (p & -> & [D|[_ D]]); left; exists p; split; auto; [left|right; left]; auto.
  - unfold tstep in E. destruct H as [H|[H|[H|H]]]; rewrite H in E.
    + injection E as <-. left. eexists; split; [reflexivity|]. destruct (_ <=? _); unfold spins; auto.
    + injection E as <-. left. eexists; split; [reflexivity|]. rewrite L. unfold spins; auto.
    + destruct (Nat.eqb_spec (t_cnt s) 1); injection E as <-; [right; auto|left]. eexists; split; [reflexivity|]. unfold spins; auto.
    + injection E as <-. left. eexists; split; [reflexivity|]. rewrite L. destruct (Nat.leb_spec 1 i); [|lia]. unfold spins; auto.
Qed.
Lemma phase_step i s l s' : 1 <= i -> i < table_cap -> snd l = i -> phase i s -> tstep s l = Some s' -> phase i s'.
Proof.
  destruct l as [t w]. cbn [snd]. intros Hi Hc -> I E. destruct I as [C L H M P|b C L H M Pb P|C L H M P|o C L H M Po P|o C L H M Po P|o C L H M Po P|o C L H M P].
  - (* nothing yet *) assert (Q := P t). destruct Q as [Q|[Q|Q]]; unfold tstep in E; rewrite Q in E.
    + destruct (_ && _); [|discriminate E]. injection E as <-. apply ph0; auto. apply early_go; auto. right; left; auto.
    + rewrite C in E. cbn [Nat.eqb] in E. injection E as <-. apply (ph1 _ _ t); auto. * apply tgo_same. * intros u N. rewrite tgo_other by auto. apply P.
    + injection E as <-. rewrite L. apply ph0; auto. apply early_go; auto. right; left; auto.
  - (* being built *) destruct (Nat.eq_dec t b) as [->|N].
    + unfold tstep in E. rewrite Pb in E. injection E as <-. apply ph2; auto. intros u. destruct (Nat.eq_dec u b) as [->|N]; [rewrite tgo_same; unfold spins; auto|rewrite tgo_other by auto]. left. apply P. auto.
    + destruct (early_step i s t s') as (p & -> & [D|[D _]]); auto; [lia| |contradiction].
      apply (ph1 _ _ b); auto. * rewrite tgo_other; auto. * apply others_go; auto.
  - (* built *) destruct (spins_step i s t s') as [(p & -> & D)|(_ & ->)]; auto; [lia| |].
    + apply ph2; auto. apply spins_go; auto.
    + apply (ph3 _ _ t); auto. * unfold owning. rewrite tgo_same. auto. * intros u N. rewrite tgo_other by auto. apply P.
  - (* claimed *) destruct (Nat.eq_dec t o) as [->|N].
    + unfold tstep in E. destruct Po as [Q|Q]; rewrite Q in E.
      * rewrite C in E. replace (S i - 1) with i in E by lia. injection E as <-. apply (ph3 _ _ o); auto. -- unfold owning. rewrite tgo_same. auto. -- intros u N. rewrite tgo_other by auto. apply P. auto.
      * rewrite H in E. injection E as <-. apply (ph4 _ _ o); auto. -- cbn. rewrite M. auto. -- apply tgo_same. -- intros u N. rewrite tgo_other by auto. apply P. auto.
    + destruct (spins_step i s t s') as [(p & -> & D)|(D & ->)]; auto; [lia| |lia].
      apply (ph3 _ _ o); auto. * rewrite tgo_other; auto. * apply others_go; auto.
  - (* being made *) destruct (Nat.eq_dec t o) as [->|N].
    + unfold tstep in E. rewrite Po in E. injection E as <-. apply (ph5 _ _ o); auto. * cbn. apply upd_same. * unfold finishing. rewrite tgo_same. auto. * intros u N. rewrite tgo_other by auto. apply P. auto.
    + destruct (spins_step i s t s') as [(p & -> & D)|(D & ->)]; auto; [lia| |lia].
      apply (ph4 _ _ o); auto. * rewrite tgo_other; auto. * apply others_go; auto.
  - (* made *) destruct (Nat.eq_dec t o) as [->|N].
    + assert (K : forall p, finishing i p -> phase i (tgo s o p)).
      { intros p F. apply (ph5 _ _ o); auto. - rewrite tgo_same. auto. - intros u N. rewrite tgo_other by auto. apply P. auto. }
      unfold tstep in E. destruct Po as [Q|[Q|[Q|Q]]]; rewrite Q in E.
      * rewrite L in E. assert (X : (i <? 1) = false) by (apply Nat.ltb_ge; lia). assert (Y : (table_cap <=? i) = false) by (apply Nat.leb_gt; lia). rewrite X, Y in E. injection E as <-. apply K. unfold finishing; auto.
      * rewrite L in E. assert (X : (i <? 1) = false) by (apply Nat.ltb_ge; lia). rewrite X in E. injection E as <-. apply K. unfold finishing; auto.
      * injection E as <-. rewrite L. apply K. unfold finishing; auto.
      * rewrite L in E. cbn [Nat.eqb] in E. injection E as <-. apply (ph6 _ _ o); auto. intros u. destruct (Nat.eq_dec u o) as [->|N]; [rewrite tgo_same; cbn; auto|rewrite tgo_other by auto]. apply spins_late. apply P. auto.
    + destruct (spins_step i s t s') as [(p & -> & D)|(D & ->)]; auto; [lia| |lia].
      apply (ph5 _ _ o); auto. * rewrite tgo_other; auto. * apply others_go; auto.
  - (* visible *) assert (Q := P t). unfold tstep in E. destruct (t_pcs s t) eqn:PC; cbn in Q; try contradiction; subst;
      try (injection E as <-; apply (ph6 _ _ o); auto; apply late_go; auto; repeat match goal with |- context [if ?b then _ else _] => destruct b end; cbn; auto; fail).
    + destruct (_ && _); [|discriminate E]. injection E as <-. apply (ph6 _ _ o); auto. apply late_go; auto. cbn; auto.
    + rewrite C in E. cbn [Nat.eqb] in E. injection E as <-. apply (ph6 _ _ o); auto. apply late_go; auto. cbn; auto.
    + destruct (_ =? _); injection E as <-; (apply (ph6 _ _ o); auto; apply late_go; auto; cbn; auto).
    + rewrite C in E. replace (S i - 1) with i in E by lia. injection E as <-. apply (ph6 _ _ o); auto. apply late_go; auto. cbn; auto.
    + destruct (t_slot s i); injection E as <-; (apply (ph6 _ _ o); auto; apply late_go; auto; cbn; auto).
    + rewrite H in E. injection E as <-. apply (ph6 _ _ o); auto. apply late_go; auto. cbn; auto.
    + destruct (_ =? _); injection E as <-; (apply (ph6 _ _ o); auto; apply late_go; auto; cbn; auto).
    + destruct (t_slot s i); injection E as <-; (apply (ph6 _ _ o); auto; apply late_go; auto; cbn; auto).
Qed.
Lemma phase_run i ls s : 1 <= i < table_cap -> all_want i ls -> trun tinit ls = Some s -> phase i s.
Proof.
  intros [H1 H2] A E. refine (trun_inv (fun l => snd l = i) (phase i) _ ls A tinit s _ E).
  - intros s0 l s1 Hl I. apply phase_step; auto.
  - apply ph0; auto. intros t. left. auto.
Qed.
(** However many goroutines create one and the same child: at most one initialises it, and once it is visible exactly one
    did. *)
Theorem C40_same_child_partial i ls s : 1 <= i < table_cap -> all_want i ls -> trun tinit ls = Some s ->
  (made s = [] \/ made s = [i]) /\ (i < t_len s -> made s = [i] /\ t_head s i = true).
Proof.
  intros Hi A E. destruct (phase_run i ls s Hi A E) as [C L H M P|b C L H M Pb P|C L H M P|o C L H M Po P|o C L H M Po P|o C L H M Po P|o C L H M P];
    unfold made; rewrite M, L; cbn [map snd]; split; auto; intros; lia.
Qed.

(** * C40 in general is false *)
Definition by1 (t n : nat) (want : nat) : list (nat * nat) := repeat (t, want) n.
Definition sched (l : list (nat * nat * nat)) : list (nat * nat) := flat_map (fun x => by1 (fst (fst x)) (snd x) (snd (fst x))) l.
(** goroutine 0 creates child 8; then goroutines 1 and 2 create child 4: both find it claimed and without sentinel *)
Definition two_makers : list (nat * nat) := sched [((0, 8), 15); ((1, 4), 6); ((2, 4), 6); ((1, 4), 1); ((2, 4), 1); ((1, 4), 3); ((2, 4), 3)].
(** goroutines 0 and 1 create child 4; goroutine 0 is stopped between its two reads, of the count and of the length *)
Definition two_claims : list (nat * nat) := sched [((0, 4), 4); ((1, 4), 15); ((0, 4), 6)].
(** the same with goroutine 1 creating child 8 *)
Definition count_back : list (nat * nat) := sched [((0, 4), 4); ((1, 8), 15); ((0, 4), 7)].
Definition look (s : option tstate) := match s with Some s => Some (t_cnt s, t_len s, claimed s, made s, map (t_pcs s) [0;1;2]) | None => None end.
Lemma look_inv o x : look o = Some x -> exists s, o = Some s /\ x = (t_cnt s, t_len s, claimed s, made s, map (t_pcs s) [0;1;2]).
Proof. destruct o as [s|]; cbn [look]; intros E; [|discriminate]. injection E as <-. eauto. Qed.
(** goroutines that never take a step are idle *)
Lemma never_ran ls s t : trun tinit ls = Some s -> (forall l, In l ls -> fst l <> t) -> t_pcs s t = TIdle.
Proof.
  intros E H. refine (trun_inv (fun l => fst l <> t) (fun s => t_pcs s t = TIdle) _ ls H tinit s _ E); auto.
  clear. intros s [u w] s' N P E. cbn [fst] in N. steps E; rewrite tgo_other by auto; cbn [t_pcs]; auto.
Qed.
Lemma quiet_small ls s : trun tinit ls = Some s -> forallb (fun l => fst l <? 3) ls = true -> map (t_pcs s) [0;1;2] = [TIdle; TIdle; TIdle] -> tquiet s.
Proof.
  intros E F M t. cbn [map] in M. injection M as M0 M1 M2. destruct t as [|[|[|t]]]; auto. apply (never_ran ls); auto. rewrite forallb_forall in F. intros l I. specialize (F l I). apply Nat.ltb_lt in F. lia.
Qed.

(** Two goroutines can both initialise one child. *)
Theorem C40_slot_once_refuted : ~ (forall s, treach s -> NoDup (made s)).
Proof.
  intros H. assert (L : look (trun tinit two_makers) = Some (9, 9, [8;4], [8;4;4], [TIdle;TIdle;TIdle])) by (vm_compute; reflexivity).
  destruct (look_inv _ _ L) as (s & E & X). injection X as _ _ _ X _ _ _. assert (N := H s (ex_intro _ _ E)). rewrite <- X in N. inversion N as [|? ? _ N1]; subst. inversion N1 as [|? ? N2 _]; subst. apply N2. left. auto.
Qed.
(** Two goroutines can both claim one child (and so reset the state of a child that is in use to "initialising"). *)
Theorem C40_claim_once_refuted : ~ (forall i ls s, all_want i ls -> trun tinit ls = Some s -> NoDup (claimed s)).
Proof.
  intros H. assert (L : look (trun tinit two_claims) = Some (5, 5, [4;4], [4], [TIdle;TIdle;TIdle])) by (vm_compute; reflexivity).
  destruct (look_inv _ _ L) as (s & E & X). injection X as _ _ X _ _ _ _. assert (N : NoDup (claimed s)).
  { refine (H 4 two_claims s _ E). intros l I. assert (F : forallb (fun l => snd l =? 4) two_claims = true) by (vm_compute; reflexivity). rewrite forallb_forall in F. apply Nat.eqb_eq. auto. }
  rewrite <- X in N. inversion N as [|? ? N1 _]; subst. apply N1. left. auto.
Qed.
(** One call at a time: every child is initialised exactly once. *)
Record sinv (t : nat) (s : tstate) : Prop := {
  si_once : NoDup (made s);
  si_made : forall i, In i (made s) <-> t_head s i = true \/ t_pcs s t = TMake i;
  si_open : forall i, t_pcs s t = TMake i -> t_head s i = false }.
Lemma NoDup_snoc {A} (l : list A) x : NoDup l -> ~ In x l -> NoDup (l ++ [x]).
Proof.
  induction l as [|y l IH]; cbn [app]; intros N I; [constructor; [auto|constructor]|]. inversion N; subst. constructor.
  - rewrite in_app_iff. cbn [In] in *. intuition.
  - apply IH; auto. intros H. apply I. right. auto.
Qed.
Lemma sinv_go t s s1 p : sinv t s -> t_makes s1 = t_makes s -> t_head s1 = t_head s -> (forall i, t_pcs s t <> TMake i) -> (forall i, p <> TMake i) -> sinv t (tgo s1 t p).
Proof.
  intros [A B C] E1 E2 N1 N2. assert (M : made (tgo s1 t p) = made s) by (unfold made; cbn; rewrite E1; auto). constructor; rewrite ?M; auto.
  - intros i. rewrite tgo_same. cbn [t_head tgo]. rewrite E2, B. split; intros [H|H]; auto; exfalso; [eapply N1|eapply N2]; eauto.
  - intros i. rewrite tgo_same. intros H. exfalso. eapply N2; eauto.
Qed.
Lemma sinv_step t w s s' : sinv t s -> tstep s (t, w) = Some s' -> sinv t s'.
Proof.
  intros I E. assert (I0 := I). destruct I as [A B C].
  steps E; try (eapply sinv_go; [exact I0| | | |]; auto; intros; rewrite ?PC; repeat match goal with |- context [if ?b then _ else _] => destruct b end; discriminate).
  - (* THead *) assert (NI : ~ In i (made s)). { rewrite B, PC. intros [H|H]; [congruence|discriminate H]. }
    assert (M : forall p, made (tgo (mkT (t_cnt s) (t_len s) (t_slot s) (t_head s) (t_pcs s) (t_allocs s) (t_claims s) (t_makes s ++ [(t, i)])) t p) = made s ++ [i]) by (intros; unfold made; cbn; rewrite map_app; auto).
    constructor; rewrite ?M; [apply NoDup_snoc; auto| |].
    + intros j. rewrite in_app_iff, B, tgo_same, PC. cbn [In t_head tgo]. split; intros [H|H]; auto; [destruct H as [H|H]; [auto|discriminate H]|destruct H as [->|[]]; auto|injection H as ->; auto].
    + intros j. rewrite tgo_same. intros H. injection H as <-. auto.
  - (* TMake *) constructor.
    + exact A.
    + intros j. rewrite tgo_same. change (made _) with (made s). rewrite B, PC. cbn [t_head tgo]. destruct (Nat.eq_dec j i) as [->|N]; [rewrite upd_same|rewrite upd_other by auto]; split; intros [H|H]; auto; try discriminate H. exfalso. apply N. congruence.
    + intros j. rewrite tgo_same. intros H. discriminate H.
Qed.
Theorem C40_sequential_partial ls s : serial tinit ls -> trun tinit ls = Some s -> NoDup (made s) /\ (tquiet s -> forall i, In i (made s) <-> t_head s i = true).
Proof.
  intros A E. destruct (serial_inv sinv) with (ls := ls) (t := 0) (s := tinit) (s' := s) as (u & _ & [I1 I2 I3]); auto.
  - intros t u s0 [A1 A2 A3] Q. constructor; auto; intros i; rewrite (Q u); [|discriminate]. rewrite A2, (Q t). split; (intros [H|H]; [auto|discriminate H]).
  - intros. eapply sinv_step; eauto.
  - constructor; cbn; [constructor| |]; intros; [split; [intros []|intros [H|H]; discriminate H]|discriminate].
  - split; auto. intros Q i. rewrite I2, (Q u). split; [intros [H|H]; [auto|discriminate H]|auto].
Qed.

(** * C51: a call that creates a bucket returns *)
(** Whenever no call is running and the count is behind the length, a goroutine that wants a child beyond the length never
    returns, whatever the others do. *)
Definition behind (n m : nat) (p : tpc) : Prop :=
  match p with
  | TIdle | TStart _ | TWait _ | TCnt _ | TLen _ | TFull _ => True
  | TCas _ l => l = m
  | TSlot j | THead j | TMake j | TOk j | TAct j => j < m
  | _ => False
  end.
Definition looping (i : nat) (p : tpc) : Prop :=
  match p with TStart j | TWait j | TCnt j | TLen j | TFull j | TCas j _ => j = i | _ => False end.
Record hung (n m t i : nat) (s : tstate) : Prop := {
  hu_cnt : t_cnt s = n; hu_len : t_len s = m;
  hu_pcs : forall u, behind n m (t_pcs s u); hu_t : looping i (t_pcs s t) }.
Lemma hung_step n m t i s l s' : 0 < n -> n < m -> m <= i -> hung n m t i s -> tstep s l = Some s' -> hung n m t i s'.
Proof.
  intros H0 H1 H2 [C L P T] E. destruct l as [u w].
  assert (K : forall s1 p, t_cnt s1 = n -> t_len s1 = m -> t_pcs s1 = t_pcs s -> behind n m p -> (u = t -> looping i p) -> hung n m t i (tgo s1 u p)).
  { intros s1 p A1 A2 A3 A4 A5. constructor; auto.
    - intros v. destruct (Nat.eq_dec v u) as [->|N]; [rewrite tgo_same; auto|rewrite tgo_other by auto]. rewrite A3. auto.
    - destruct (Nat.eq_dec t u) as [->|N]; [rewrite tgo_same; auto|rewrite tgo_other by auto]. rewrite A3. auto. }
  assert (Pu := P u). assert (Tu : u = t -> looping i (t_pcs s u)) by (intros ->; auto).
  steps E; rewrite PC in Pu, Tu; cbn [behind] in Pu; try contradiction; try (apply K; auto; cbn [behind]; auto; intros V; specialize (Tu V); cbn [looping] in Tu; try contradiction; cbn [looping]; auto; fail).
  - exfalso. apply Nat.eqb_eq in Heqb. lia.
  - apply K; auto; destruct (_ =? _); cbn [behind looping] in *; auto.
  - apply K; auto; destruct (_ <=? _); cbn [behind looping] in *; auto.
  - exfalso. apply Nat.eqb_eq in Heqb. lia.
  - rewrite L. apply K; auto; destruct (Nat.leb_spec m i0); cbn [behind]; auto. intros V. specialize (Tu V). cbn [looping] in Tu. lia.
  - apply K; auto; rewrite L; destruct (Nat.ltb_spec i0 m); [cbn; auto|lia|cbn; auto|lia].
Qed.
Theorem C51_hang_is_permanent s t want ls s' : tquiet s -> 0 < t_cnt s < t_len s -> t_len s <= want -> trun s ((t, want) :: ls) = Some s' -> t_pcs s' t <> TIdle.
Proof.
  intros Q [H0 H1] H2 E. cbn [trun] in E. destruct (tstep s (t, want)) as [s1|] eqn:E1; [|discriminate E].
  assert (I : hung (t_cnt s) (t_len s) t want s1).
  { unfold tstep in E1. rewrite (Q t) in E1. destruct (_ && _); [|discriminate E1]. injection E1 as <-. constructor; auto.
    - intros u. destruct (Nat.eq_dec u t) as [->|N]; [rewrite tgo_same|rewrite tgo_other, Q by auto]; cbn; auto.
    - rewrite tgo_same. cbn. auto. }
  assert (J : hung (t_cnt s) (t_len s) t want s').
  { refine (trun_inv (fun _ => True) (hung (t_cnt s) (t_len s) t want) _ ls _ s1 s' I E); auto. intros s2 l s3 _ K. apply (hung_step _ _ _ _ _ l); auto. }
  intros X. assert (T := hu_t _ _ _ _ _ J). rewrite X in T. exact T.
Qed.
(** ... and such a state can be reached: three children created by two goroutines, and from then on no bucket with a larger
    index can be created below this one. *)
Theorem C51_returns_refuted : exists s, treach s /\ tquiet s /\ t_len s = 9 /\
  forall t want ls s', 9 <= want < table_cap -> trun s ((t, want) :: ls) = Some s' -> t_pcs s' t <> TIdle.
Proof.
  assert (L : look (trun tinit count_back) = Some (5, 9, [8;4], [8;4], [TIdle;TIdle;TIdle])) by (vm_compute; reflexivity).
  destruct (look_inv _ _ L) as (s & E & X). injection X as X1 X2 _ _ X5 X6 X7. exists s. assert (Q : tquiet s). { apply (quiet_small count_back); auto. cbn [map]. congruence. }
  split; [exists count_back; auto|]. split; auto. split; auto. intros t want ls s' [W _] R. apply (C51_hang_is_permanent s t want ls s'); auto; [rewrite <- X1, <- X2|rewrite <- X2]; lia.
Qed.
(** Calls made one after another: every call returns, within 20 steps. *)
Definition even (i : nat) (s : tstate) : Prop := t_cnt s = t_len s /\ i < t_len s.
Definition ahead (i : nat) (s : tstate) : Prop := t_cnt s = S i /\ t_len s <= i.
Definition lone (t : nat) (s : tstate) : Prop :=
  match t_pcs s t with
  | TIdle | TStart _ | TWait _ | TCnt _ => t_cnt s = t_len s /\ match t_pcs s t with TWait _ | TCnt _ => t_cnt s <> 0 | _ => True end
  | TBuild _ => t_cnt s = 1 /\ t_len s = 0
  | TLen i => t_cnt s = t_len s /\ t_cnt s <= i
  | TCas i l => t_cnt s = t_len s /\ t_cnt s <= i /\ l = t_cnt s
  | TFull i | TSlot i => even i s
  | TOwn i | TOkR i => ahead i s
  | THead i | TMake i | TOk i | TOkL i => even i s \/ ahead i s
  | TOkC i l => ahead i s /\ l = t_len s
  | TAct i => even i s
  end /\ match t_pcs s t with
      | TIdle => True
      | TStart i | TBuild i | TWait i | TCnt i | TLen i | TCas i _ | TFull i | TOwn i | TSlot i | THead i | TMake i | TOk i | TOkL i | TOkR i | TOkC i _ | TAct i => i < table_cap
      end.
Definition rank (t : nat) (s : tstate) : nat :=
  match t_pcs s t with
  | TIdle => 0 | TStart _ => 20 | TBuild _ | TWait _ => 19 | TCnt _ => 18 | TLen _ | TFull _ => 17 | TCas _ _ | TSlot _ => 16 | TOwn _ => 15 | THead _ => 14 | TMake _ => 13
  | TOk _ => 12 | TOkL i => if i <? t_len s then 2 else 11 | TOkR _ => 10 | TOkC _ _ => 9 | TAct _ => 1
  end.
Lemma lone_step t w s : lone t s -> (t_pcs s t = TIdle -> 1 <= w < table_cap) -> exists s', tstep s (t, w) = Some s' /\ lone t s' /\ (t_pcs s t <> TIdle -> rank t s' < rank t s).
Proof.
  intros [I W] H. unfold lone, rank, tstep in *. destruct (t_pcs s t) eqn:PC.
  - destruct H as [H1 H2]; auto. replace ((1 <=? w) && (w <? table_cap)) with true by (symmetry; apply andb_true_intro; split; [apply Nat.leb_le|apply Nat.ltb_lt]; auto).
    eexists; split; [reflexivity|]. rewrite tgo_same. split; [|congruence]. cbn. tauto.
  - destruct (Nat.eqb_spec (t_cnt s) 0) as [Z|Z]; (eexists; split; [reflexivity|]); rewrite tgo_same; cbn [t_cnt t_len tgo set_cnt]; (split; [|intros; lia]); (split; [|auto]); lia.
  - eexists; split; [reflexivity|]; rewrite tgo_same; cbn [t_cnt t_len tgo set_cnt]; (split; [|intros; lia]); (split; [|auto]); lia.
  - destruct I as [I1 I2]. eexists; split; [reflexivity|]; rewrite tgo_same; cbn [t_cnt t_len tgo set_cnt]. destruct (Nat.eqb_spec (t_len s) 0); [lia|]. (split; [|intros; lia]); (split; [|auto]); lia.
  - eexists; split; [reflexivity|]; rewrite tgo_same; cbn [t_cnt t_len tgo set_cnt]. unfold even. destruct (Nat.leb_spec (t_cnt s) i); cbn [t_cnt t_len tgo]; (split; [|intros; lia]); (split; [|auto]); lia.
  - eexists; split; [reflexivity|]; rewrite tgo_same; cbn [t_cnt t_len tgo set_cnt]. (split; [|intros; lia]); (split; [|auto]); lia.
  - destruct I as (I1 & I2 & I3). rewrite <- I3. rewrite Nat.eqb_refl. eexists; split; [reflexivity|]; rewrite tgo_same; unfold ahead; cbn [t_cnt t_len tgo set_cnt]. (split; [|intros; lia]); (split; [|auto]); lia.
  - unfold even in I. eexists; split; [reflexivity|]; rewrite tgo_same. destruct (Nat.leb_spec (t_len s) i); [lia|]. unfold even; cbn [t_cnt t_len tgo set_cnt]. (split; [|intros; lia]); (split; [|auto]); lia.
  - unfold ahead in I. destruct I as [I1 I2]. rewrite I1. replace (S i - 1) with i by lia. eexists; split; [reflexivity|]; rewrite tgo_same; unfold even, ahead; cbn [t_cnt t_len tgo set_slot log_claim]. (split; [|intros; lia]); (split; [|auto]); lia.
  - unfold even in I. destruct (t_slot s i); (eexists; split; [reflexivity|]); rewrite tgo_same; unfold even, ahead; cbn [t_cnt t_len tgo set_slot log_claim]; (split; [|intros; lia]); (split; [|auto]); lia.
  - unfold even, ahead in I. destruct (t_head s i); (eexists; split; [reflexivity|]); rewrite tgo_same; unfold even, ahead; cbn [t_cnt t_len tgo]; (split; [|intros; lia]); (split; [|auto]); lia.
  - unfold even, ahead in I. eexists; split; [reflexivity|]; rewrite tgo_same; unfold even, ahead; cbn [t_cnt t_len tgo]; (split; [|intros; lia]); (split; [|auto]); lia.
  - unfold even, ahead in I. eexists; split; [reflexivity|]; rewrite tgo_same. assert (Y : (table_cap <=? i) = false) by (apply Nat.leb_gt; lia). rewrite Y, Bool.orb_false_r.
    destruct (Nat.ltb_spec i (t_len s)) as [X|X]; unfold even, ahead; cbn [t_cnt t_len tgo]; [|destruct (Nat.ltb_spec i (t_len s)); [lia|]]; (split; [|intros; lia]); (split; [|auto]); lia.
  - unfold even, ahead in I. eexists; split; [reflexivity|]; rewrite tgo_same.
    destruct (Nat.ltb_spec i (t_len s)) as [X|X]; unfold even, ahead; cbn [t_cnt t_len tgo]; (split; [|intros; lia]); (split; [|auto]); lia.
  - unfold even, ahead in I. eexists; split; [reflexivity|]; rewrite tgo_same; unfold even, ahead; cbn [t_cnt t_len tgo]; (split; [|intros; lia]); (split; [|auto]); lia.
  - unfold even, ahead in I. destruct I as [[I1 I2] I3]. rewrite <- I3, Nat.eqb_refl. eexists; split; [reflexivity|]; rewrite tgo_same; unfold even, ahead; cbn [t_cnt t_len tgo set_tlen]. destruct (Nat.ltb_spec i (S i)); [|lia]. (split; [|intros; lia]); (split; [|auto]); lia.
  - unfold even in I. destruct (t_slot s i); (eexists; split; [reflexivity|]); rewrite tgo_same; cbn [t_cnt t_len tgo set_slot log_claim]; (split; [|intros; lia]); (split; [|auto]); lia.
Qed.
Lemma lone_ends t w : forall k s, lone t s -> t_pcs s t <> TIdle -> rank t s <= k -> exists n s', n <= k /\ trun s (by1 t n w) = Some s' /\ t_pcs s' t = TIdle.
Proof.
  induction k as [|k IH]; intros s I N R; [exfalso; destruct (lone_step t w s I) as (s' & _ & _ & L); [contradiction|]; specialize (L N); lia|].
  destruct (lone_step t w s I) as (s1 & E & I1 & L); [contradiction|]. specialize (L N). destruct (t_pcs s1 t) eqn:PC; try (destruct (IH s1) as (n & s' & Hn & E' & P); auto; [congruence|lia|exists (S n), s'; split; [lia|]; split; [unfold by1 in *; cbn [repeat trun]; rewrite E; auto|auto]]; fail).
  exists 1, s1. split; [lia|]. split; [unfold by1; cbn [repeat trun]; rewrite E; auto|auto].
Qed.
Theorem C51_sequential_partial ls s t want : serial tinit ls -> trun tinit ls = Some s -> tquiet s -> 1 <= want < table_cap ->
  exists n s', n <= 21 /\ trun s (by1 t n want) = Some s' /\ tquiet s'.
Proof.
  intros A E Q W. destruct (serial_inv lone) with (ls := ls) (t := 0) (s := tinit) (s' := s) as (u & _ & I); auto.
  - intros v u s0 I Q0. unfold lone in *. rewrite (Q0 v) in I. rewrite (Q0 u). auto.
  - intros v w s0 s1 I E1. destruct (t_pcs s0 v) eqn:PC; try (destruct (lone_step v w s0 I) as (s2 & E2 & I2 & _); [congruence|congruence]).
    destruct (lone_step v w s0 I) as (s2 & E2 & I2 & _); [|congruence]. intros _. unfold tstep in E1. rewrite PC in E1. destruct (1 <=? w) eqn:E3; [|discriminate E1]. destruct (w <? table_cap) eqn:E4; [|discriminate E1]. apply Nat.leb_le in E3. apply Nat.ltb_lt in E4. auto.
  - unfold lone. cbn. auto.
  - assert (J : lone t s). { unfold lone in *. rewrite (Q u) in I. rewrite (Q t). auto. }
    destruct (lone_step t want s J) as (s1 & E1 & I1 & _); auto. destruct (lone_ends t want 20 s1 I1) as (n & s' & Hn & E' & P).
    + unfold tstep in E1. rewrite (Q t) in E1. destruct (_ && _); [|discriminate E1]. injection E1 as <-. rewrite tgo_same. discriminate.
    + unfold tstep in E1. rewrite (Q t) in E1. destruct (_ && _); [|discriminate E1]. injection E1 as <-. unfold rank. rewrite tgo_same. auto.
    + exists (S n), s'. split; [lia|]. assert (E2 : trun s (by1 t (S n) want) = Some s') by (unfold by1 in *; cbn [repeat trun]; rewrite E1; auto). split; auto.
      intros v. destruct (Nat.eq_dec v t) as [->|N]; auto. rewrite <- (Q v). clear - E2 N. revert s E2. induction (S n) as [|m IH]; intros s E2; unfold by1 in *; cbn [repeat trun] in E2; [injection E2 as <-; auto|].
      destruct (tstep s (t, want)) as [s1|] eqn:E1; [|discriminate E2]. rewrite (IH s1) by auto. eapply tstep_other; eauto.
Qed.
(** However many goroutines create one and the same child: from every state every call can still return; nobody waits for
    more than the goroutine that builds the table and the one that initialises the child. *)
Definition onward (i : nat) (s s' : tstate) : Prop := exists ls, all_want i ls /\ trun s ls = Some s'.
Lemma onward_refl i s : onward i s s.
Proof. exists []. split; [intros l []|auto]. Qed.
Lemma onward_step i s t s1 s' : tstep s (t, i) = Some s1 -> onward i s1 s' -> onward i s s'.
Proof. intros E (ls & A & R). exists ((t, i) :: ls). split; [intros l [<-|I]; auto|]. cbn [trun]. rewrite E. auto. Qed.
(** the child exists: a goroutine alone returns *)
Definition left6 (p : tpc) : nat :=
  match p with TIdle => 0 | TAct _ => 1 | TOkL _ => 2 | TOk _ | TOkC _ _ => 3 | TOkR _ | THead _ => 4 | TOwn _ | TSlot _ => 5 | TFull _ => 6 | TCas _ _ => 7 | TLen _ => 8 | TCnt _ => 9 | TWait _ => 10 | TStart _ => 11 | _ => 0 end.
Lemma exists_step i s t : t_cnt s = S i -> t_len s = S i -> t_head s i = true -> late i (t_pcs s t) -> t_pcs s t <> TIdle ->
  exists s', tstep s (t, i) = Some s' /\ t_cnt s' = S i /\ t_len s' = S i /\ t_head s' i = true /\ late i (t_pcs s' t) /\ left6 (t_pcs s' t) < left6 (t_pcs s t).
Proof.
  intros C L H P N. unfold tstep. destruct (t_pcs s t) eqn:PC; try contradiction; cbn [late] in P; subst;
    try (eexists; split; [reflexivity|]; rewrite tgo_same; cbn [t_cnt t_len t_head tgo set_cnt set_tlen log_claim set_slot left6 late]; auto 8; fail).
  - rewrite C. cbn [Nat.eqb]. eexists; split; [reflexivity|]. rewrite tgo_same. cbn [t_cnt t_len t_head tgo left6 late]. auto 8.
  - rewrite L. cbn [Nat.eqb]. eexists; split; [reflexivity|]. rewrite tgo_same. cbn [t_cnt t_len t_head tgo left6 late]. auto 8.
  - rewrite C. destruct (Nat.leb_spec (S i) i); [lia|]. eexists; split; [reflexivity|]. rewrite tgo_same. cbn [t_cnt t_len t_head tgo left6 late]. auto 8.
  - destruct (Nat.eqb _ _); (eexists; split; [reflexivity|]; rewrite tgo_same; cbn [t_cnt t_len t_head tgo set_cnt left6 late]; auto 8).
  - rewrite L. destruct (Nat.leb_spec (S i) i); [lia|]. eexists; split; [reflexivity|]. rewrite tgo_same. cbn [t_cnt t_len t_head tgo left6 late]. auto 8.
  - rewrite C. replace (S i - 1) with i by lia. eexists; split; [reflexivity|]. rewrite tgo_same. cbn [t_cnt t_len t_head tgo log_claim set_slot left6 late]. auto 8.
  - destruct (t_slot s i); (eexists; split; [reflexivity|]; rewrite tgo_same; cbn [t_cnt t_len t_head tgo log_claim set_slot left6 late]; auto 8).
  - rewrite H. eexists; split; [reflexivity|]. rewrite tgo_same. cbn [t_cnt t_len t_head tgo left6 late]. auto 8.
  - rewrite L. destruct (Nat.ltb_spec i (S i)); [|lia]. cbn [orb]. eexists; split; [reflexivity|]. rewrite tgo_same. cbn [t_cnt t_len t_head tgo left6 late]. auto 8.
  - rewrite L. destruct (Nat.ltb_spec i (S i)); [|lia]. eexists; split; [reflexivity|]. rewrite tgo_same. cbn [t_cnt t_len t_head tgo left6 late]. auto 8.
  - destruct (Nat.eqb _ _); (eexists; split; [reflexivity|]; rewrite tgo_same; cbn [t_cnt t_len t_head tgo set_tlen left6 late]; auto 8).
  - destruct (t_slot s i); (eexists; split; [reflexivity|]; rewrite tgo_same; cbn [t_cnt t_len t_head tgo set_slot left6 late]; auto 8).
Qed.
Lemma exists_ends i t : forall k s, left6 (t_pcs s t) <= k -> t_cnt s = S i -> t_len s = S i -> t_head s i = true -> late i (t_pcs s t) -> exists s', onward i s s' /\ t_pcs s' t = TIdle.
Proof.
  induction k as [|k IH]; intros s LE C L H P.
  - exists s. split; [apply onward_refl|]. destruct (t_pcs s t); cbn in LE, P; try lia; auto; contradiction.
  - assert (D : t_pcs s t = TIdle \/ t_pcs s t <> TIdle) by (destruct (t_pcs s t); auto; right; discriminate). destruct D as [D|D]; [exists s; split; [apply onward_refl|auto]|].
    destruct (exists_step i s t C L H P D) as (s1 & E & C1 & L1 & H1 & P1 & LT). destruct (IH s1) as (s' & O & T); auto; [lia|]. exists s'. split; auto. eapply onward_step; eauto.
Qed.
(** the child is claimed: its owner makes it exist *)
Definition left5 (p : tpc) : nat := match p with TOwn _ => 7 | THead _ => 6 | TMake _ => 5 | TOk _ => 4 | TOkL _ => 3 | TOkR _ => 2 | TOkC _ _ => 1 | _ => 0 end.
Definition owner_pc (i : nat) (s : tstate) (p : tpc) : Prop :=
  match p with TOwn j | THead j => j = i | TMake j => j = i | TOk j | TOkL j | TOkR j => j = i /\ t_head s i = true | TOkC j l => j = i /\ l = t_len s /\ t_head s i = true | _ => False end.
Lemma owner_ends i o : 1 <= i -> i < table_cap -> forall k s, left5 (t_pcs s o) <= k -> t_cnt s = S i -> t_len s = 1 -> owner_pc i s (t_pcs s o) ->
  exists s', onward i s s' /\ t_cnt s' = S i /\ t_len s' = S i /\ t_head s' i = true /\ t_pcs s' o = TOkL i /\ forall u, u <> o -> t_pcs s' u = t_pcs s u.
Proof.
  intros Hi Hc. induction k as [|k IH]; intros s LE C L P; [destruct (t_pcs s o); cbn in LE, P; try lia; contradiction|].
  assert (K : forall s1 p, tstep s (o, i) = Some (tgo s1 o p) -> t_cnt s1 = S i -> t_len s1 = 1 -> t_pcs s1 = t_pcs s -> owner_pc i (tgo s1 o p) p -> left5 p < left5 (t_pcs s o) ->
    exists s', onward i s s' /\ t_cnt s' = S i /\ t_len s' = S i /\ t_head s' i = true /\ t_pcs s' o = TOkL i /\ forall u, u <> o -> t_pcs s' u = t_pcs s u).
  { intros s1 p E C1 L1 P1 O1 LT. destruct (IH (tgo s1 o p)) as (s' & O & A & B & D & F & G); try (rewrite tgo_same); auto; [lia|]. exists s'. split; [eapply onward_step; eauto|]. repeat (split; auto). intros u N. rewrite G, tgo_other by auto. rewrite P1. auto. }
  destruct (t_pcs s o) eqn:PC; cbn [owner_pc] in P; try contradiction.
  - subst i0. eapply K; [unfold tstep; rewrite PC, C; replace (S i - 1) with i by lia; reflexivity|..]; auto; cbn; auto.
  - subst i0. destruct (t_head s i) eqn:H; (eapply K; [unfold tstep; rewrite PC, H; reflexivity|..]; auto; cbn; auto).
  - subst i0. eapply K; [unfold tstep; rewrite PC; reflexivity|..]; auto; cbn; auto. split; auto. apply upd_same.
  - destruct P as [-> H]. eapply K; [unfold tstep; rewrite PC, L|..]. + destruct (Nat.ltb_spec i 1); [lia|]. destruct (Nat.leb_spec table_cap i); [lia|]. reflexivity. + auto. + auto. + auto. + cbn; auto. + cbn; auto.
  - destruct P as [-> H]. eapply K; [unfold tstep; rewrite PC, L|..]. + destruct (Nat.ltb_spec i 1); [lia|]. reflexivity. + auto. + auto. + auto. + cbn; auto. + cbn; auto.
  - destruct P as [-> H]. eapply K; [unfold tstep; rewrite PC; reflexivity|..]; auto; cbn; auto.
  - destruct P as (-> & -> & H). exists (tgo (set_tlen s (S i)) o (TOkL i)). split.
    + eapply onward_step; [unfold tstep; rewrite PC, Nat.eqb_refl; reflexivity|apply onward_refl].
    + rewrite tgo_same. cbn [t_cnt t_len t_head tgo set_tlen]. repeat (split; auto). intros u N. rewrite tgo_other; auto.
Qed.
Lemma owner_then i o t s : 1 <= i -> i < table_cap -> t_cnt s = S i -> t_len s = 1 -> owner_pc i s (t_pcs s o) -> (t <> o -> late i (t_pcs s t)) -> exists s', onward i s s' /\ t_pcs s' t = TIdle.
Proof.
  intros Hi Hc C L P T. destruct (owner_ends i o Hi Hc 7 s) as (s1 & (l1 & A1 & R1) & C1 & L1 & H1 & P1 & O1); auto; [destruct (t_pcs s o); cbn; lia|].
  destruct (exists_ends i t 11 s1) as (s2 & (l2 & A2 & R2) & E2); auto.
  - destruct (t_pcs s1 t); cbn; lia.
  - destruct (Nat.eq_dec t o) as [->|N]; [rewrite P1; cbn; auto|rewrite O1 by auto; auto].
  - exists s2. split; auto. exists (l1 ++ l2). split; [intros l I; apply in_app_iff in I; destruct I; auto|]. rewrite trun_app, R1. auto.
Qed.
(** the table exists and nobody has claimed the child: the goroutine itself does *)
Definition left2 (p : tpc) : nat := match p with TStart _ => 6 | TWait _ => 5 | TFull _ => 4 | TCnt _ => 3 | TLen _ => 2 | TCas _ _ => 1 | _ => 0 end.
Lemma claims i t : 1 <= i -> i < table_cap -> forall k s, left2 (t_pcs s t) <= k -> t_cnt s = 1 -> t_len s = 1 -> spins i (t_pcs s t) -> exists s', onward i s s' /\ t_pcs s' t = TIdle.
Proof.
  intros Hi Hc. induction k as [|k IH]; intros s LE C L P.
  { exists s. split; [apply onward_refl|]. destruct P as [[P|[P|P]]|[P|[P|[P|P]]]]; rewrite P in *; cbn in LE; auto; lia. }
  assert (K : forall p, tstep s (t, i) = Some (tgo s t p) -> spins i p -> left2 p < left2 (t_pcs s t) -> exists s', onward i s s' /\ t_pcs s' t = TIdle).
  { intros p E SP LT. destruct (IH (tgo s t p)) as (s' & O & T); try (rewrite tgo_same); auto; [lia|]. exists s'. split; auto. eapply onward_step; eauto. }
  destruct P as [[P|[P|P]]|[P|[P|[P|P]]]].
  - exists s. split; [apply onward_refl|auto].
  - apply (K (TWait i)); [unfold tstep; rewrite P, C; reflexivity|unfold spins, early; auto|rewrite P; cbn; auto].
  - apply (K (TCnt i)); [unfold tstep; rewrite P, L; reflexivity|unfold spins, early; auto|rewrite P; cbn; auto].
  - apply (K (TLen i)); [unfold tstep; rewrite P, C|unfold spins, early; auto|rewrite P; cbn; auto]. destruct (Nat.leb_spec 1 i); [reflexivity|lia].
  - apply (K (TCas i 1)); [unfold tstep; rewrite P, L; reflexivity|unfold spins, early; auto|rewrite P; cbn; auto].
  - destruct (owner_then i t t (tgo (set_cnt s (S i)) t (TOwn i))) as (s' & O & T); auto; [rewrite tgo_same; cbn; auto|congruence|]. exists s'. split; auto. eapply onward_step; [|exact O]. unfold tstep. rewrite P, C. reflexivity.
  - apply (K (TCnt i)); [unfold tstep; rewrite P, L|unfold spins, early; auto|rewrite P; cbn; auto]. destruct (Nat.leb_spec 1 i); [reflexivity|lia].
Qed.
Lemma builds i b t s : 1 <= i -> i < table_cap -> t_cnt s = 1 -> t_pcs s b = TBuild i -> (t <> b -> early i (t_pcs s t)) -> exists s', onward i s s' /\ t_pcs s' t = TIdle.
Proof.
  intros Hi Hc C P T. set (s1 := tgo (mkT (t_cnt s) 1 (upd (fun _ => SNone) 0 SInit) (t_head s) (t_pcs s) (S (t_allocs s)) (t_claims s) (t_makes s)) b (TCnt i)).
  destruct (claims i t Hi Hc 6 s1) as (s' & O & E); auto.
  - destruct (t_pcs s1 t); cbn; lia.
  - unfold s1. destruct (Nat.eq_dec t b) as [->|N]; [rewrite tgo_same; unfold spins; auto|rewrite tgo_other by auto; left; apply T; auto].
  - exists s'. split; auto. eapply onward_step; [|exact O]. unfold tstep. rewrite P. reflexivity.
Qed.
Theorem C51_same_child_partial i ls s t : 1 <= i < table_cap -> all_want i ls -> trun tinit ls = Some s ->
  exists ls' s', all_want i ls' /\ trun s ls' = Some s' /\ t_pcs s' t = TIdle.
Proof.
  intros Hi A E. assert (G : exists s', onward i s s' /\ t_pcs s' t = TIdle); [|destruct G as (s' & (l & B & R) & T); exists l, s'; auto].
  destruct Hi as [Hi Hc]. destruct (phase_run i ls s (conj Hi Hc) A E) as [C L H M P|b C L H M Pb P|C L H M P|o C L H M Po P|o C L H M Po P|o C L H M Po P|o C L H M P].
  - assert (S0 : forall s0, t_cnt s0 = 0 -> t_pcs s0 t = TStart i -> exists s', onward i s0 s' /\ t_pcs s' t = TIdle).
    { intros s0 C0 P0. destruct (builds i t t (tgo (set_cnt s0 1) t (TBuild i))) as (s' & O & T); auto; [rewrite tgo_same; auto|congruence|]. exists s'. split; auto. eapply onward_step; [|exact O]. unfold tstep. rewrite P0, C0. reflexivity. }
    destruct (P t) as [Q|[Q|Q]]; [exists s; split; [apply onward_refl|auto]|auto|]. destruct (S0 (tgo s t (TStart i))) as (s' & O & T); auto; [rewrite tgo_same; auto|]. exists s'. split; auto. eapply onward_step; [|exact O]. unfold tstep. rewrite Q, L. reflexivity.
  - apply (builds i b); auto.
  - apply (claims i t Hi Hc 6); auto. destruct (t_pcs s t); cbn; lia.
  - apply (owner_then i o); auto; [destruct Po as [Q|Q]; rewrite Q; cbn; auto|]. intros N. apply spins_late. auto.
  - apply (owner_then i o); auto; [rewrite Po; cbn; auto|]. intros N. apply spins_late. auto.
  - apply (owner_then i o); auto; [destruct Po as [Q|[Q|[Q|Q]]]; rewrite Q; cbn; auto|]. intros N. apply spins_late. auto.
  - apply (exists_ends i t 11); auto. destruct (t_pcs s t); cbn; lia.
Qed.
(** * The hypotheses are met *)
Definition idleb (p : tpc) : bool := match p with TIdle => true | _ => false end.
Fixpoint serialb (k : nat) (s : tstate) (ls : list (nat * nat)) : bool :=
  match ls with
  | [] => true
  | l :: ls' => (fst l <? k) && forallb (fun u => (u =? fst l) || idleb (t_pcs s u)) (seq 0 k) && match tstep s l with Some s' => serialb k s' ls' | None => true end
  end.
Lemma serialb_ok k : forall ls s, (forall u, k <= u -> t_pcs s u = TIdle) -> serialb k s ls = true -> serial s ls.
Proof.
  induction ls as [|[t w] ls IH]; intros s O H; cbn [serialb serial fst] in *; auto. apply andb_prop in H. destruct H as [H H3]. apply andb_prop in H. destruct H as [H1 H2]. apply Nat.ltb_lt in H1. rewrite forallb_forall in H2. split.
  - intros u N. destruct (Nat.le_gt_cases k u); auto. specialize (H2 u). rewrite in_seq in H2. assert (X : (u =? t) || idleb (t_pcs s u) = true) by (apply H2; lia). destruct (Nat.eqb_spec u t); [contradiction|]. cbn [orb] in X. destruct (t_pcs s u); try discriminate X. auto.
  - destruct (tstep s (t, w)) as [s'|] eqn:E; auto. apply IH; auto. intros u Hu. rewrite (tstep_other _ _ _ _ _ E); [auto|lia].
Qed.
(** three calls one after another: child 8, then child 4, then child 4 again *)
Definition three_calls : list (nat * nat) := sched [((0, 8), 15); ((1, 4), 10); ((0, 4), 9)].
Example C40_sequential_case : serial tinit three_calls /\ look (trun tinit three_calls) = Some (9, 9, [8;4], [8;4], [TIdle;TIdle;TIdle]).
Proof. split; [|vm_compute; reflexivity]. apply (serialb_ok 3); [auto|vm_compute; reflexivity]. Qed.
(** two goroutines that create child 4: the second one claims it again, but only the first one initialises it *)
Example C40_same_child_case : all_want 4 two_claims /\ look (trun tinit two_claims) = Some (5, 5, [4;4], [4], [TIdle;TIdle;TIdle]).
Proof.
  split; [|vm_compute; reflexivity]. intros l I. assert (F : forallb (fun l => snd l =? 4) two_claims = true) by (vm_compute; reflexivity). rewrite forallb_forall in F. apply Nat.eqb_eq. auto.
Qed.
(** the table is allocated in these runs *)
Example C40_table_case : exists s, treach s /\ t_allocs s = 1.
Proof.
  assert (L : match trun tinit three_calls with Some s => t_allocs s | None => 0 end = 1) by (vm_compute; reflexivity).
  destruct (trun tinit three_calls) as [s|] eqn:E; [|discriminate L]. exists s. split; [exists three_calls; auto|auto].
Qed.
(** a state in which both goroutines want child 4 and neither has it yet *)
Definition both_waiting : list (nat * nat) := sched [((0, 4), 4); ((1, 4), 3)].
Example C51_same_child_case : all_want 4 both_waiting /\ look (trun tinit both_waiting) = Some (1, 1, [], [], [TLen 4; TCnt 4; TIdle]).
Proof.
  split; [|vm_compute; reflexivity]. intros l I. assert (F : forallb (fun l => snd l =? 4) both_waiting = true) by (vm_compute; reflexivity). rewrite forallb_forall in F. apply Nat.eqb_eq. auto.
Qed.
