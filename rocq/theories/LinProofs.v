(** Lemmas about linearizations: histories, insertion of a call, the ideal map. *)
From Verif Require Import Base BaseProofs Util MapModel Spec ConcModel LinSpec.
From Coq Require Import PeanoNat.
Local Open Scope nat_scope.
Local Open Scope list_scope.

(** * The ideal map *)
Definition calls (L : list lincall) : list call := map l_call L.
Definition leq (m m' : lmap) : Prop := forall k c, m k c = m' k c.
Lemma leq_put m m' k c b : leq m m' -> leq (lput m k c b) (lput m' k c b).
Proof. intros E k' c'. unfold lput. destruct (_ && _)%bool; auto. Qed.
Lemma leq_step m m' o : leq m m' -> leq (fst (lin_step m o)) (fst (lin_step m' o)) /\ snd (lin_step m o) = snd (lin_step m' o).
Proof.
  intros E. destruct o; cbn [lin_step]; rewrite <- ?(E k c); auto; destruct (m k c); cbn [fst snd]; auto using leq_put.
  destruct (assign KSample g v) as [[v' ok]|]; cbn [fst snd]; auto using leq_put.
Qed.
Lemma leq_run os : forall m m', leq m m' -> leq (lrun m os) (lrun m' os) /\ louts m os = louts m' os.
Proof.
  induction os as [|o os IH]; intros m m' E; cbn [lrun louts]; auto. destruct (leq_step m m' o E) as [E1 E2]. destruct (IH _ _ E1) as [E3 E4]. rewrite E2, E4. auto.
Qed.
Lemma lrun_app m a b : lrun m (a ++ b) = lrun (lrun m a) b.
Proof. revert m. induction a as [|o a IH]; intros m; cbn [app lrun]; auto. Qed.
Lemma louts_app m a b : louts m (a ++ b) = louts m a ++ louts (lrun m a) b.
Proof. revert m. induction a as [|o a IH]; intros m; cbn [app lrun louts]; auto. rewrite IH. auto. Qed.
Lemma louts_length m os : List.length (louts m os) = List.length os.
Proof. revert m. induction os as [|o os IH]; intros m; cbn [louts List.length]; auto. Qed.
Lemma lput_same m k c b : lput m k c b k c = b.
Proof. unfold lput. rewrite !Z.eqb_refl. auto. Qed.
Lemma lput_other m k c b k' c' : (k', c') <> (k, c) -> lput m k c b k' c' = m k' c'.
Proof. intros NE. unfold lput. destruct (Z.eqb_spec k' k), (Z.eqb_spec c' c); cbn [andb]; auto. congruence. Qed.
Lemma lput_twice m k c b b' : leq (lput (lput m k c b) k c b') (lput m k c b').
Proof. intros k' c'. unfold lput. destruct (_ && _)%bool; auto. Qed.

(** a Set or Get right before a Delete of the same key leaves no trace behind the Delete *)
Definition on_key (o : call) (k c : Z) : Prop := (exists v, o = CSet k c v) \/ o = CGet k c.
Lemma before_del m o k c old : m k c = Some old -> on_key o k c ->
  snd (lin_step m (CDel k c)) = CBool true /\ snd (lin_step (fst (lin_step m o)) (CDel k c)) = CBool true /\
  leq (fst (lin_step (fst (lin_step m o)) (CDel k c))) (fst (lin_step m (CDel k c))).
Proof.
  intros E O. cbn [lin_step]. rewrite E. cbn [fst snd].
  assert (Q : exists old', fst (lin_step m o) k c = Some old' /\ leq (lput (fst (lin_step m o)) k c None) (lput m k c None)).
  { destruct O as [(v & ->)| ->]; cbn [lin_step]; rewrite ?E.
    - destruct (assign KSample old v) as [[v' ok]|]; cbn [fst]; [exists v'|exists old].
      + split; [apply lput_same|apply lput_twice].
      + split; auto. intros ? ?. auto.
    - exists old. split; auto. intros ? ?. auto. }
  destruct Q as (old' & -> & Q). auto.
Qed.
Lemma legal_snoc L x : louts lempty (calls L) = map l_res L -> snd (lin_step (lrun lempty (calls L)) (l_call x)) = l_res x ->
  louts lempty (calls (L ++ [x])) = map l_res (L ++ [x]).
Proof. intros A B. unfold calls in *. rewrite !map_app, louts_app, A. cbn [map louts]. rewrite B. auto. Qed.
Lemma app_same_length {A} (a b c d : list A) : a ++ b = c ++ d -> List.length a = List.length c -> a = c /\ b = d.
Proof.
  revert c. induction a as [|x a IH]; intros [|y c] E L; try discriminate; cbn [app] in *; auto. injection E as -> E. destruct (IH c E) as [-> ->]; auto.
Qed.
(** the legal list l1 ++ D :: l2 stays legal with x inserted before D *)
Lemma legal_before l1 l2 x d k c old : l_call d = CDel k c -> on_key (l_call x) k c -> lrun lempty (calls l1) k c = Some old ->
  snd (lin_step (lrun lempty (calls l1)) (l_call x)) = l_res x ->
  louts lempty (calls (l1 ++ d :: l2)) = map l_res (l1 ++ d :: l2) ->
  louts lempty (calls (l1 ++ x :: d :: l2)) = map l_res (l1 ++ x :: d :: l2) /\
  leq (lrun lempty (calls (l1 ++ x :: d :: l2))) (lrun lempty (calls (l1 ++ d :: l2))).
Proof.
  intros DC O E RX A. unfold calls in *. rewrite !map_app in *. cbn [map] in *. rewrite louts_app in A. apply app_same_length in A as [A1 A2]; [|rewrite louts_length, !map_length; auto].
  cbn [louts] in A2. injection A2 as A2 A3. rewrite louts_app, A1, !lrun_app. cbn [louts lrun]. rewrite RX.
  rewrite DC in *. destruct (before_del _ _ k c old E O) as (D1 & D2 & D3). rewrite D2. rewrite D1 in A2. rewrite <- A2.
  destruct (leq_run (map l_call l2) _ _ D3) as [D4 D5]. rewrite D5, A3. auto.
Qed.

Lemma leq_before l1 l2 x d k c old : l_call d = CDel k c -> on_key (l_call x) k c -> lrun lempty (calls l1) k c = Some old ->
  leq (lrun lempty (calls (l1 ++ x :: d :: l2))) (lrun lempty (calls (l1 ++ d :: l2))).
Proof.
  intros DC O E. unfold calls in *. rewrite !map_app. cbn [map]. rewrite !lrun_app. cbn [lrun]. rewrite DC. apply leq_run. eapply before_del; eauto.
Qed.
Lemma two_splits {A} (a b : A) l1 : forall l2 m1 m2, l1 ++ a :: l2 = m1 ++ b :: m2 ->
  (exists q, l1 = m1 ++ b :: q /\ m2 = q ++ a :: l2) \/ (l1 = m1 /\ a = b /\ l2 = m2) \/ (exists q, m1 = l1 ++ a :: q /\ l2 = q ++ b :: m2).
Proof.
  induction l1 as [|x l1 IH]; intros l2 [|y m1] m2 E; cbn [app] in E; injection E as E1 E2.
  - right. left. auto.
  - subst. right. right. exists m1. auto.
  - subst. left. exists l1. auto.
  - destruct (IH _ _ _ E2) as [(q & -> & ->)|[(-> & -> & ->)|(q & -> & ->)]]; subst; [left; exists q; auto|right; left; auto|right; right; exists q; auto].
Qed.

(** * Histories *)
(** the call invoked at place i is the one goroutine t is in *)
Definition open_at (H : list event) (t i : nat) (o : call) : Prop :=
  nth_error H i = Some (Inv t o) /\ forall m e, i < m -> nth_error H m = Some e -> who e <> t.
Lemma nth_lt {A} (l : list A) i x : nth_error l i = Some x -> i < List.length l.
Proof. intros E. apply nth_error_Some. congruence. Qed.
Lemma nth_snoc {A} (l : list A) e i x : nth_error (l ++ [e]) i = Some x -> (i < List.length l /\ nth_error l i = Some x) \/ (i = List.length l /\ x = e).
Proof.
  intros E. destruct (Nat.lt_ge_cases i (List.length l)) as [L|L]; [left; rewrite nth_error_app1 in E by auto; auto|right].
  pose proof (nth_lt _ _ _ E) as Q. rewrite app_length in Q. cbn [List.length] in Q. assert (i = List.length l) by lia. subst i. split; auto.
  rewrite nth_error_app2, Nat.sub_diag in E by auto. cbn in E. congruence.
Qed.
Lemma nth_old {A} (l : list A) e i x : nth_error l i = Some x -> nth_error (l ++ [e]) i = Some x.
Proof. intros E. rewrite nth_error_app1; auto. eapply nth_lt; eauto. Qed.
Lemma nth_new {A} (l : list A) e : nth_error (l ++ [e]) (List.length l) = Some e.
Proof. rewrite nth_error_app2, Nat.sub_diag by auto. auto. Qed.
Lemma open_lt H t i o : open_at H t i o -> i < List.length H.
Proof. intros [E _]. eapply nth_lt; eauto. Qed.
Lemma open_uniq H t i o i' o' : open_at H t i o -> open_at H t i' o' -> i = i' /\ o = o'.
Proof.
  intros [A B] [A' B']. destruct (Nat.lt_trichotomy i i') as [L|[->|L]].
  - exfalso. apply (B i' _ L A'). reflexivity.
  - split; congruence.
  - exfalso. apply (B' i _ L A). reflexivity.
Qed.
Lemma open_snoc H t i o e : open_at H t i o -> who e <> t -> open_at (H ++ [e]) t i o.
Proof.
  intros [A B] W. split; [apply nth_old; auto|]. intros m x L E. apply nth_snoc in E as [[_ E]|[_ ->]]; eauto.
Qed.
Lemma open_unsnoc H t i o e : open_at (H ++ [e]) t i o -> who e <> t -> open_at H t i o.
Proof.
  intros [A B] W. apply nth_snoc in A as [[L A]|[-> E]]; [|subst e; contradiction]. split; auto. intros m x LM E. apply (B m x LM). apply nth_old; auto.
Qed.
Lemma open_new H t o : open_at (H ++ [Inv t o]) t (List.length H) o.
Proof. split; [apply nth_new|]. intros m e L E. apply nth_lt in E. rewrite app_length in E. cbn [List.length] in E. lia. Qed.
Lemma answered_lt H i j r : answered H i j r -> i < j < List.length H.
Proof. intros (t & o & A & B & L & _). split; auto. eapply nth_lt; eauto. Qed.
Lemma open_not_answered H t i o j r : open_at H t i o -> ~ answered H i j r.
Proof. intros [A B] (t' & o' & A' & B' & L & _). assert (t' = t) by congruence. subst. apply (B j _ L B'). reflexivity. Qed.
Lemma answered_old H e i j r : answered H i j r -> answered (H ++ [e]) i j r.
Proof.
  intros AN. pose proof (answered_lt _ _ _ _ AN). destruct AN as (t & o & A & B & L & N). exists t, o. split; [apply nth_old; auto|]. split; [apply nth_old; auto|]. split; auto.
  intros m x LM E. apply nth_snoc in E as [[_ E]|[-> _]]; [eauto|lia].
Qed.
Lemma answered_snoc H e i j r : answered (H ++ [e]) i j r -> answered H i j r \/ (j = List.length H /\ exists t o, e = Rsp t o r /\ open_at H t i o).
Proof.
  intros (t & o & A & B & L & N). apply nth_snoc in B as [[LB B]|[-> E]].
  - left. exists t, o. split; [|split; [|split]]; auto.
    + apply nth_snoc in A as [[_ A]|[-> _]]; auto. lia.
    + intros m x LM E. apply (N m x LM). apply nth_old; auto.
  - right. split; auto. exists t, o. split; auto. apply nth_snoc in A as [[LA A]|[-> _]]; [|lia]. split; auto.
    intros m x LM EX. apply (N m x); [|apply nth_old; auto]. split; auto. eapply nth_lt; eauto.
Qed.

(** * Linearizations *)
Lemma fop_app {A} (R : A -> A -> Prop) l1 l2 : ForallOrdPairs R (l1 ++ l2) <-> ForallOrdPairs R l1 /\ ForallOrdPairs R l2 /\ forall x y, In x l1 -> In y l2 -> R x y.
Proof.
  induction l1 as [|a l1 IH]; cbn [app].
  - split; [intros F; split; [constructor|split; [auto|intros x y []]]|intros (_ & F & _); auto].
  - split.
    + intros F. inversion F as [|? ? F1 F2]; subst. apply IH in F2 as (G1 & G2 & G3). rewrite Forall_app in F1. destruct F1 as [F1 F1'].
      split; [constructor; auto|]. split; auto. intros x y [<-|I] J; [rewrite Forall_forall in F1'; auto|auto].
    + intros (F1 & F2 & F3). inversion F1 as [|? ? F4 F5]; subst. constructor.
      * apply Forall_app. split; auto. apply Forall_forall. intros y J. apply F3; auto. left. auto.
      * apply IH. split; auto. split; auto. intros x y I J. apply F3; auto. right. auto.
Qed.
Lemma fop_imp {A} (R R' : A -> A -> Prop) l : (forall x y, In x l -> In y l -> R x y -> R' x y) -> ForallOrdPairs R l -> ForallOrdPairs R' l.
Proof.
  intros H F. induction F as [|a l F1 F2 IH]; [constructor|]. constructor.
  - rewrite Forall_forall in *. intros y J. apply H; [left; auto|right; auto|auto].
  - apply IH. intros x y I J. apply H; right; auto.
Qed.
Definition ids (L : list lincall) : list nat := map l_id L.
Lemma ids_lt H L x : linearization H L -> In x L -> l_id x < List.length H.
Proof. intros LN I. destruct (ln_calls _ _ LN x I) as (t & E). eapply nth_lt; eauto. Qed.
Lemma lin_nil : linearization [] [].
Proof.
  constructor; try (intros x []; fail); try constructor; try (intros x j r []; fail).
  intros i j r AN. apply answered_lt in AN. cbn in AN. lia.
Qed.
(** a call begins *)
Lemma lin_inv H L t o : linearization H L -> linearization (H ++ [Inv t o]) L.
Proof.
  intros LN. assert (AS : forall i j r, answered (H ++ [Inv t o]) i j r -> answered H i j r).
  { intros i j r AN. apply answered_snoc in AN as [AN|(_ & ? & ? & E & _)]; [auto|discriminate]. }
  constructor.
  - apply LN.
  - intros x I. destruct (ln_calls _ _ LN x I) as (u & E). exists u. apply nth_old; auto.
  - intros i j r AN. apply (ln_all _ _ LN i j r); auto.
  - intros x j r I AN. apply (ln_res _ _ LN x j r); auto.
  - eapply fop_imp; [|apply (ln_order _ _ LN)]. intros x y _ _ Q j r AN. eauto.
  - apply LN.
Qed.
(** a call that is in the list ends *)
Lemma lin_rsp H L t i o r : linearization H L -> open_at H t i o -> In (mkLin i o r) L -> linearization (H ++ [Rsp t o r]) L.
Proof.
  intros LN OP IX.
  assert (AS : forall x j r', In x L -> answered (H ++ [Rsp t o r]) (l_id x) j r' -> answered H (l_id x) j r' \/ (j = List.length H /\ r' = l_res x)).
  { intros x j r' Ix AN. apply answered_snoc in AN as [AN|(-> & t' & o' & E & OP')]; [auto|right]. injection E as <- <- <-. split; auto.
    destruct (open_uniq _ _ _ _ _ _ OP OP') as [EI _]. subst i.
    pose proof (ln_once _ _ LN) as ND. assert (EX : x = mkLin (l_id x) o r); [|rewrite EX; auto].
    clear - ND Ix IX. induction L as [|y L IH]; [destruct Ix|]. cbn [map] in ND. apply NoDup_cons_iff in ND as [N1 N2].
    destruct Ix as [->|Ix], IX as [E|IX]; auto.
    - exfalso. apply N1. apply in_map_iff. exists (mkLin (l_id x) o r). auto.
    - exfalso. apply N1. rewrite E. cbn [l_id]. apply in_map. auto. }
  constructor.
  - apply LN.
  - intros x I. destruct (ln_calls _ _ LN x I) as (u & E). exists u. apply nth_old; auto.
  - intros i' j r' AN. apply answered_snoc in AN as [AN|(-> & t' & o' & E & OP')]; [apply (ln_all _ _ LN i' j r'); auto|]. injection E as <- <- <-.
    destruct (open_uniq _ _ _ _ _ _ OP OP') as [<- _]. eexists. split; [exact IX|auto].
  - intros x j r' Ix AN. destruct (AS x j r' Ix AN) as [AN'|[_ ->]]; auto. apply (ln_res _ _ LN x j r'); auto.
  - eapply fop_imp; [|apply (ln_order _ _ LN)]. intros x y Ix Iy Q j r' AN. destruct (AS y j r' Iy AN) as [AN'|[-> _]]; [eauto|]. eapply ids_lt; eauto.
  - apply LN.
Qed.
(** a call is put into the list *)
Lemma lin_put H l1 l2 t i o r : linearization H (l1 ++ l2) -> open_at H t i o -> ~ In i (ids (l1 ++ l2)) ->
  (forall y j r', In y l2 -> answered H (l_id y) j r' -> i < j) ->
  louts lempty (calls (l1 ++ mkLin i o r :: l2)) = map l_res (l1 ++ mkLin i o r :: l2) ->
  linearization H (l1 ++ mkLin i o r :: l2).
Proof.
  intros LN OP NI RT LG.
  assert (IN : forall x, In x (l1 ++ mkLin i o r :: l2) -> x = mkLin i o r \/ In x (l1 ++ l2)).
  { intros x I. apply in_app_or in I as [I|[<-|I]]; [right; apply in_or_app; auto|left; auto|right; apply in_or_app; auto]. }
  constructor.
  - rewrite map_app. cbn [map]. apply NoDup_Add with (a := i) (l := map l_id l1 ++ map l_id l2); [apply Add_app|]. rewrite <- map_app. split; [apply LN|exact NI].
  - intros x I. destruct (IN x I) as [->|I']; [exists t; apply OP|apply (ln_calls _ _ LN x I')].
  - intros i' j r' AN. destruct (ln_all _ _ LN i' j r' AN) as (x & I & E). exists x. split; auto. apply in_app_or in I as [I|I]; apply in_or_app; auto. right. right. auto.
  - intros x j r' I AN. destruct (IN x I) as [->|I']; [exfalso; eapply open_not_answered; eauto|apply (ln_res _ _ LN x j r'); auto].
  - pose proof (ln_order _ _ LN) as F. apply fop_app in F as (F1 & F2 & F3). apply fop_app. split; auto. split.
    + constructor; auto. apply Forall_forall. intros y I j r' AN. cbn [l_id]. eauto.
    + intros x y Ix [<-|Iy] j r' AN; [exfalso; eapply open_not_answered; eauto|]. eapply F3; eauto.
  - exact LG.
Qed.
Lemma lin_add H L t i o r : linearization H L -> open_at H t i o -> ~ In i (ids L) ->
  snd (lin_step (lrun lempty (calls L)) o) = r -> linearization H (L ++ [mkLin i o r]).
Proof.
  intros LN OP NI R. apply (lin_put H L [] t); rewrite ?app_nil_r; auto; [intros y j r' []|]. apply legal_snoc; [apply LN|exact R].
Qed.
