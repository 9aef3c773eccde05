(** Property theorems about concurrent Deletes on an RMap: C72. The model is ConcRMap.v. *)
From Verif Require Import Base ConcRMap ConcRMapProofs PropCRMap.
From Coq Require Import PeanoNat ZifyBool.
Local Open Scope Z_scope.
Local Open Scope list_scope.

(** * What a Delete answers *)
Lemma step_hist s t s' : qeff s t s' -> q_hist s' = q_hist s \/ exists e, q_hist s' = q_hist s ++ [e].
Proof.
  assert (SV : forall i v, q_hist (set_val s i v) = q_hist s) by (intros i v; apply val_same).
  intros E. destruct E; cbn [q_hist q_goto q_ret q_log new_read new_dirty add_item del_item set_lock]; rewrite ?SV; eauto.
Qed.
Lemma del_rsp s t s' u k c r : qinv s -> qeff s t s' -> In (QRsp u (QDel k c) r) (q_hist s') ->
  In (QRsp u (QDel k c) r) (q_hist s) \/ u = t /\ q_hist s' = q_hist s ++ [QRsp t (QDel k c) r] /\
    (q_pcs s t = DUnl (QDel k c) /\ r = QFalse \/
     q_pcs s t = DLoad (QDel k c) /\ (r = QPanic \/ r = QFalse /\ exists rd, q_read s = Some rd /\ qassoc k (qr_m (the_read s rd)) = None /\ qr_am (the_read s rd) = false) /\ (r = QPanic -> q_read s = None \/ in_read s k) \/
     r = QPanic /\ q_read s = None).
Proof.
  intros C E I. pose proof (qi_pc _ C t) as P. assert (SV : forall i v, q_hist (set_val s i v) = q_hist s) by (intros i v; apply val_same).
  destruct E; match goal with H : q_pcs s t = _ |- _ => rewrite H in P; cbn [qpc_ok] in P end;
   cbn [q_hist q_goto q_ret q_log new_read new_dirty add_item del_item set_lock] in I |- *; rewrite ?SV in I; auto;
   apply in_app_or in I as [I|[I|[]]]; auto; try discriminate I; injection I; intros; subst; right; split; auto; split; auto; try (destruct P as ((? & ? & Q) & _); discriminate Q).
  - right. left. split; auto. split; auto. intros _. right. exists rd, i. auto.
  - right. left. split; auto. split; [right; eauto|]. intros Q. discriminate Q.
  - destruct P as (_ & _ & _ & P). destruct P as [_ P]. exfalso. assert (Q : KRet r = KDel) by eauto. discriminate Q.
Qed.

(** Every schedule: a Delete answers false or panics. It never answers true. *)
Theorem C72_answers s t k c r : qreach s -> In (QRsp t (QDel k c) r) (q_hist s) -> r = QFalse \/ r = QPanic.
Proof.
  intros (ls & R). revert s R. induction ls as [|[u a] ls IH] using rev_ind; intros s R I; [injection R as <-; destruct I|].
  rewrite qrun_app in R. destruct (qrun qinit ls) as [s1|] eqn:R1; [|discriminate R]. cbn [qrun] in R. destruct (qstep s1 (u, a)) as [s2|] eqn:E; [|discriminate R]. injection R as <-.
  assert (C1 : qinv s1) by (apply qreach_inv; exists ls; auto).
  destruct (del_rsp _ _ _ _ _ _ _ C1 (qstep_eff _ _ _ _ E) I) as [J|(_ & _ & [[_ ->]|[(_ & [->|[-> _]] & _)|[-> _]]])]; eauto.
Qed.
Print Assumptions C72_answers.

(** * The mutex *)
(** the goroutine holds m.Lock() *)
Definition holds (p : qpc) : bool :=
  match p with
  | DRead _ | DPtr _ | DFind _ _ | DDel _ _ | DMiss _ | DUnl _ => true
  | PLock _ _ KDel => true
  | PRead _ _ _ | PPtr _ _ _ _ | PScan _ _ _ _ _ | PCas _ _ _ _ _ | PUnl _ _ | PEnd _ _ => true
  | _ => false
  end.
(** inside storeReadFromDirty called by Delete, beyond its m.Lock() *)
Definition beyond (p : qpc) : bool :=
  match p with
  | PRead _ _ KDel | PPtr _ _ KDel _ | PScan _ _ KDel _ _ | PCas _ _ KDel _ _ | PUnl _ KDel | PInit _ KDel | PLock2 _ KDel | PEnd _ KDel => true
  | _ => false
  end.
Record lkinv (s : qstate) : Prop := {
  lk_holds : forall t, holds (q_pcs s t) = true <-> q_lock s = Some t;
  lk_beyond : forall t, beyond (q_pcs s t) = false }.
Lemma lk_step s t s' p : lkinv s -> q_pcs s' = q_upd (q_pcs s) t p -> beyond p = false ->
  (q_lock s' = q_lock s /\ holds p = holds (q_pcs s t) \/ q_lock s = None /\ q_lock s' = Some t /\ holds p = true \/ q_lock s = Some t /\ q_lock s' = None /\ holds p = false) -> lkinv s'.
Proof.
  intros L P B H. constructor; intros u; rewrite P; destruct (Nat.eq_dec u t) as [->|NE]; try rewrite q_upd_same; try rewrite q_upd_other by auto; auto; try apply L;
   pose proof (lk_holds _ L) as LH; [specialize (LH t)|pose proof (LH t) as LT; specialize (LH u)].
  - destruct H as [(-> & ->)|[(_ & -> & ->)|(_ & -> & ->)]]; [exact LH|tauto|split; discriminate].
  - destruct H as [(-> & _)|[(H1 & -> & _)|(H1 & -> & _)]]; [exact LH| |]; rewrite H1 in LH; split; intros Q; [apply LH in Q; discriminate Q|injection Q as <-; congruence|apply LH in Q; congruence|discriminate Q].
Qed.
Lemma eff_lkinv s t s' : lkinv s -> qeff s t s' -> lkinv s'.
Proof.
  intros L E. pose proof (lk_holds _ L t) as LH. pose proof (lk_beyond _ L t) as LB.
  assert (SV : forall i v, q_pcs (set_val s i v) = q_pcs s /\ q_lock (set_val s i v) = q_lock s) by (intros i v; unfold set_val; destruct (nth_error (q_items s) i); auto).
  destruct E; match goal with H : q_pcs s t = _ |- _ => rewrite H in LH, LB; pose proof H as HP end;
   match goal with |- lkinv (q_goto ?x t ?p) => apply (lk_step s t _ p L) | |- lkinv (q_ret ?x t ?o ?r) => apply (lk_step s t _ QIdle L) end;
   cbn [q_pcs q_goto q_ret q_log new_read new_dirty add_item del_item set_lock q_lock]; rewrite ?(proj1 (SV _ _)), ?(proj2 (SV _ _)); try reflexivity; try exact LB.
  all: try rewrite HP; cbn [holds] in LH |- *.
  all: try (left; split; reflexivity).
  all: try (right; left; repeat split; auto; fail).
  all: try (right; right; repeat split; auto; apply LH; reflexivity).
  all: try (destruct k; cbn [beyond holds] in *; try discriminate LB; try reflexivity; try (left; split; reflexivity); try (right; left; repeat split; auto; fail); exfalso; assert (Q : q_lock s = Some t) by (apply LH; reflexivity); congruence).
Qed.
Lemma reach_lk s : qreach s -> lkinv s.
Proof.
  intros (ls & R). refine (qrun_ind lkinv _ ls qinit s _ R); [intros; eapply eff_lkinv; eauto|]. constructor; intros t; cbn; [split; discriminate|reflexivity].
Qed.

(** * A Delete that rebuilds the read map *)
(** goroutine t is inside a Delete that missed often enough to go on to rebuild the read map (rmap/rmap.go:139-146, 198) *)
Definition rebuilding (s : qstate) (t : nat) : Prop := exists k c am, q_pcs s t = PLock (QDel k c) am KDel.
(** waiting for the mutex *)
Definition waits (p : qpc) : bool := match p with PLock _ _ _ | PLock2 _ _ | DAcq _ => true | _ => false end.
Lemma rebuilding_from s t k c s' : q_pcs s t = DMiss (QDel k c) -> qstep s (t, QPromote true) = Some s' -> rebuilding s' t.
Proof. intros P E. cbn [qstep] in E. rewrite P in E. injection E as <-. exists k, c, false. apply q_upd_same. Qed.
Lemma rebuilding_lock s t : lkinv s -> rebuilding s t -> q_lock s = Some t.
Proof. intros L (k & c & am & P). apply (lk_holds _ L). rewrite P. reflexivity. Qed.
(** with the mutex held for ever, who waits does not move *)
Lemma eff_waits s t u s' : lkinv s -> q_lock s <> None -> waits (q_pcs s u) = true -> qeff s t s' -> u <> t.
Proof.
  intros L LK W E ->. destruct E; match goal with H : q_pcs s t = _ |- _ => rewrite H in W end; try discriminate W; congruence.
Qed.
Lemma eff_other s t u s' : qeff s t s' -> u <> t -> q_pcs s' u = q_pcs s u.
Proof.
  assert (SV : forall i v, q_pcs (set_val s i v) = q_pcs s) by (intros i v; apply val_same).
  intros E NE. destruct E; cbn [q_pcs q_goto q_ret q_log new_read new_dirty add_item del_item set_lock]; rewrite ?SV; apply q_upd_other; auto.
Qed.
Lemma eff_events s t s' e : qeff s t s' -> q_hist s' = q_hist s ++ e -> forall u o r, In (QRsp u o r) e -> u = t.
Proof.
  assert (SV : forall i v, q_hist (set_val s i v) = q_hist s) by (intros i v; apply val_same).
  intros E H u o r I. destruct E; cbn [q_hist q_goto q_ret q_log new_read new_dirty add_item del_item set_lock] in H; rewrite ?SV in H;
   try (rewrite <- (app_nil_r (q_hist s)) in H at 1; apply app_inv_head in H; subst e; destruct I; fail); apply app_inv_head in H; subst e; destruct I as [I|[]]; try discriminate I; injection I; auto.
Qed.
Lemma rebuilding_waits s t : rebuilding s t -> waits (q_pcs s t) = true.
Proof. intros (k & c & am & ->). reflexivity. Qed.
Lemma rebuilding_step s t u s' : lkinv s -> rebuilding s t -> qeff s u s' -> rebuilding s' t /\ lkinv s'.
Proof.
  intros L B E. split; [|eapply eff_lkinv; eauto]. pose proof (rebuilding_lock _ _ L B) as LK.
  assert (NE : t <> u) by (apply (eff_waits s u t s'); auto; [rewrite LK; discriminate|apply rebuilding_waits; auto]).
  destruct B as (k & c & am & P). exists k, c, am. rewrite (eff_other s u t s'); auto.
Qed.
Lemma run_hist ls : forall s s', qrun s ls = Some s' -> exists h, q_hist s' = q_hist s ++ h.
Proof.
  induction ls as [|[t a] ls IH]; intros s s' R; cbn [qrun] in R; [injection R as <-; exists []; rewrite app_nil_r; auto|].
  destruct (qstep s (t, a)) as [s1|] eqn:E; [|discriminate R]. destruct (qx_hist _ _ (qeff_ext _ _ _ (qstep_eff _ _ _ _ E))) as (h1 & H1). destruct (IH s1 s' R) as (h2 & H2). exists (h1 ++ h2). rewrite H2, H1, app_assoc. auto.
Qed.
(** It never returns, and neither does any call that waits for the mutex then or later: other Deletes of keys that are not
    promoted, Gets and Sets that promote. In every schedule. *)
Theorem C72_waiters_never_return s t u ls s' h : qreach s -> rebuilding s t -> waits (q_pcs s u) = true -> qrun s ls = Some s' -> q_hist s' = q_hist s ++ h ->
  (forall o r, ~ In (QRsp u o r) h) /\ waits (q_pcs s' u) = true /\ rebuilding s' t.
Proof.
  intros RE B W R H. pose proof (reach_lk _ RE) as L. clear RE. revert s h L B W R H. induction ls as [|[w a] ls IH]; intros s h L B W R H; cbn [qrun] in R.
  - injection R as <-. rewrite <- (app_nil_r (q_hist s)) in H at 1. apply app_inv_head in H. subst h. auto.
  - destruct (qstep s (w, a)) as [s1|] eqn:E; [|discriminate R]. pose proof (qstep_eff _ _ _ _ E) as EF.
    destruct (rebuilding_step _ _ _ _ L B EF) as [B1 L1]. assert (NE : u <> w) by (apply (eff_waits s w u s1); auto; rewrite (rebuilding_lock _ _ L B); discriminate).
    assert (W1 : waits (q_pcs s1 u) = true) by (rewrite (eff_other s w u s1); auto).
    destruct (qx_hist _ _ (qeff_ext _ _ _ EF)) as (e & H1). destruct (run_hist ls s1 s' R) as (h2 & H2). destruct (IH s1 h2 L1 B1 W1 R H2) as (I1 & I2). split; auto.
    rewrite H2, H1, <- app_assoc in H. apply app_inv_head in H. subst h. intros o r I. apply in_app_or in I as [I|I]; [|eapply I1; eauto]. apply NE. eapply eff_events; eauto.
Qed.
Print Assumptions C72_waiters_never_return.
Corollary C72_rebuilding_never_returns s t ls s' h : qreach s -> rebuilding s t -> qrun s ls = Some s' -> q_hist s' = q_hist s ++ h -> forall o r, ~ In (QRsp t o r) h.
Proof. intros RE B R H. exact (proj1 (C72_waiters_never_return s t t ls s' h RE B (rebuilding_waits _ _ B) R H)). Qed.
Print Assumptions C72_rebuilding_never_returns.

(** * What still works after that *)
(** nobody is about to store the first, empty read map (rmap/rmap.go:74) *)
Definition no_first (s : qstate) : Prop := forall u o, q_pcs s u <> SInit o.
Record frozen (s0 s : qstate) (t : nat) : Prop := {
  fz_lk : lkinv s; fz_b : rebuilding s t; fz_inv : qinv s;
  fz_first : no_first s; fz_read : q_read s = q_read s0; fz_reads : q_reads s = q_reads s0 }.
Lemma fz_is s0 s t : frozen s0 s t -> (forall k, in_read s k <-> in_read s0 k) /\ (amended s <-> amended s0).
Proof. intros F. unfold in_read, amended, the_read. rewrite (fz_read _ _ _ F), (fz_reads _ _ _ F). split; [intros k|]; tauto. Qed.
Lemma frozen_step s0 s t u s' : amended s0 -> frozen s0 s t -> qeff s u s' -> frozen s0 s' t.
Proof.
  intros A F E. destruct (rebuilding_step s t u s' (fz_lk _ _ _ F) (fz_b _ _ _ F) E) as [B L]. pose proof (eff_qinv _ _ _ (fz_inv _ _ _ F) E) as C.
  assert (A1 : q_read s <> None) by (rewrite (fz_read _ _ _ F); destruct A as (rd & -> & _); discriminate).
  assert (HD : holds (q_pcs s u) = true -> u = t) by (intros Q; apply (lk_holds _ (fz_lk _ _ _ F)) in Q; rewrite (rebuilding_lock _ _ (fz_lk _ _ _ F) (fz_b _ _ _ F)) in Q; congruence).
  assert (SV : forall i v, q_read (set_val s i v) = q_read s /\ q_reads (set_val s i v) = q_reads s) by (intros i v; unfold set_val; destruct (nth_error (q_items s) i); auto).
  pose proof (fz_first _ _ _ F) as NF.
  assert (X : (q_read s' = q_read s /\ q_reads s' = q_reads s) /\ forall o, q_pcs s' u <> SInit o).
  { destruct E; cbn [q_read q_reads q_pcs q_goto q_ret q_log new_read new_dirty add_item del_item set_lock]; rewrite ?(proj1 (SV _ _)), ?(proj2 (SV _ _)), ?q_upd_same; try (split; [auto|discriminate]); exfalso.
    - congruence.
    - eapply NF; eauto.
    - destruct (fz_b _ _ _ F) as (k1 & c1 & am1 & P). rewrite H in HD. rewrite (HD eq_refl) in H. congruence. }
  destruct X as ((X1 & X2) & X3). constructor; auto; [|rewrite X1; apply F|rewrite X2; apply F].
  intros w o. destruct (Nat.eq_dec w u) as [->|NE]; [apply X3|]. rewrite (eff_other s u w s'); auto.
Qed.
Lemma frozen_run s0 t ls : amended s0 -> forall s s', frozen s0 s t -> qrun s ls = Some s' -> frozen s0 s' t.
Proof.
  intros A. induction ls as [|[u a] ls IH]; intros s s' F R; cbn [qrun] in R; [injection R as <-; auto|].
  destruct (qstep s (u, a)) as [s1|] eqn:E; [|discriminate R]. apply (IH s1 s'); auto. eapply frozen_step; eauto. eapply qstep_eff; eauto.
Qed.
Lemma frozen_start s t : qreach s -> rebuilding s t -> no_first s -> frozen s s t.
Proof. intros R B N. constructor; auto; [apply reach_lk; auto|apply qreach_inv; auto]. Qed.
(** From then on the promoted keys stay the same for ever, and the only Deletes that return are those of promoted keys, which
    panic. (Unless a first Set is still about to store the empty read map.) *)
Theorem C72_frozen s t ls s' h : qreach s -> rebuilding s t -> amended s -> no_first s -> qrun s ls = Some s' -> q_hist s' = q_hist s ++ h ->
  (forall k, in_read s' k <-> in_read s k) /\ amended s' /\ forall u k c r, In (QRsp u (QDel k c) r) h -> r = QPanic /\ in_read s k.
Proof.
  intros RE B A N R H. pose proof (frozen_start s t RE B N) as F0. pose proof (frozen_run s t ls A s s' F0 R) as F. destruct (fz_is _ _ _ F) as [I1 I2]. split; auto. split; [tauto|].
  assert (G : forall s1 h1, frozen s s1 t -> qrun s1 ls = Some s' -> q_hist s' = q_hist s1 ++ h1 -> forall u k c r, In (QRsp u (QDel k c) r) h1 -> r = QPanic /\ in_read s k).
  { clear R H F F0 I1 I2 h. induction ls as [|[w a] ls IH]; intros s1 h F R H u k c r I; cbn [qrun] in R.
    - injection R as <-. rewrite <- (app_nil_r (q_hist s1)) in H at 1. apply app_inv_head in H. subst h. destruct I.
    - destruct (qstep s1 (w, a)) as [s2|] eqn:E; [|discriminate R]. pose proof (qstep_eff _ _ _ _ E) as EF. pose proof (frozen_step _ _ _ _ _ A F EF) as F2.
      destruct (qx_hist _ _ (qeff_ext _ _ _ EF)) as (e & H1). destruct (run_hist ls s2 s' R) as (h2 & H2).
      rewrite H2, H1, <- app_assoc in H. apply app_inv_head in H. subst h. apply in_app_or in I as [I|I]; [|eapply IH; eauto].
      assert (J : In (QRsp u (QDel k c) r) (q_hist s1 ++ e)) by (apply in_or_app; auto). destruct (fz_is _ _ _ F) as [G1 G2]. assert (AM : amended s1) by tauto.
      (* the event is new *)
      destruct (step_hist _ _ _ EF) as [Q|(e1 & Q)]; rewrite H1 in Q; [rewrite <- (app_nil_r (q_hist s1)) in Q at 2; apply app_inv_head in Q; subst e; destruct I|].
      apply app_inv_head in Q. subst e. destruct I as [I|[]]. subst e1.
      assert (PC : u = w) by (eapply eff_events; [exact EF|exact H1|left; reflexivity]). subst w.
      pose proof (fz_inv _ _ _ F) as C. pose proof (qi_pc _ C u) as P. destruct AM as (rd & R1 & R2).
      assert (NH : holds (q_pcs s1 u) = false).
      { destruct (holds (q_pcs s1 u)) eqn:HD; auto. exfalso. apply (lk_holds _ (fz_lk _ _ _ F)) in HD. rewrite (rebuilding_lock _ _ (fz_lk _ _ _ F) (fz_b _ _ _ F)) in HD. injection HD as <-.
        pose proof (eff_waits s1 t t s2 (fz_lk _ _ _ F)) as Q. apply Q; auto; [rewrite (rebuilding_lock _ _ (fz_lk _ _ _ F) (fz_b _ _ _ F)); discriminate|apply rebuilding_waits, F]. }
      clear - EF H1 P R1 R2 NH G1. assert (SV : forall i v, q_hist (set_val s1 i v) = q_hist s1) by (intros i v; apply val_same).
      destruct EF; match goal with H : q_pcs s1 u = _ |- _ => rewrite H in P, NH; cbn [qpc_ok] in P; cbn [holds] in NH end; try discriminate NH;
       cbn [q_hist q_goto q_ret q_log new_read new_dirty add_item del_item set_lock] in H1; rewrite ?SV in H1;
       try (rewrite <- (app_nil_r (q_hist s1)) in H1 at 1; apply app_inv_head in H1; discriminate H1); apply app_inv_head in H1; try discriminate H1; injection H1; intros; subst; try (destruct P as ((? & ? & Q) & _); discriminate Q); try congruence.
      split; auto. apply G1. exists rd0, i. auto. }
  exact (G s h F0 R H).
Qed.
Print Assumptions C72_frozen.

(** a read map that points to the dirty map is not empty *)
Record rdinv (s : qstate) : Prop := {
  ri_am : forall r, In r (q_reads s) -> qr_am r = true -> qr_m r <> [];
  ri_cas : forall t o am k r nm, q_pcs s t = PCas o am k r nm -> nm <> [] }.
Lemma eff_rdinv s t s' : rdinv s -> qeff s t s' -> rdinv s'.
Proof.
  intros R E. assert (SV : forall i v, q_reads (set_val s i v) = q_reads s) by (intros i v; apply val_same). pose proof (eff_other s t) as EO. constructor.
  - intros r. destruct E; cbn [q_reads q_goto q_ret q_log new_read new_dirty add_item del_item set_lock]; rewrite ?SV; try (apply R).
    + intros I. apply in_app_or in I as [I|[<-|[]]]; [apply R; auto|discriminate].
    + intros I. apply in_app_or in I as [I|[<-|[]]]; [apply R; auto|]. intros _. cbn [qr_m]. eapply (ri_cas _ R); eauto.
  - intros u o am k r nm P. destruct (Nat.eq_dec u t) as [->|NE]; [|rewrite (EO u s' E NE) in P; eapply (ri_cas _ R); eauto].
    destruct E; cbn [q_pcs q_goto q_ret] in P; rewrite q_upd_same in P; try discriminate P. injection P as <- <- <- <- <-. auto.
Qed.
Lemma reach_rd s : qreach s -> rdinv s.
Proof.
  intros (ls & R). refine (qrun_ind rdinv _ ls qinit s _ R); [intros; eapply eff_rdinv; eauto|]. constructor; cbn; [intros r []|discriminate].
Qed.
Lemma run_step s l s1 ls : qstep s l = Some s1 -> qrun s (l :: ls) = qrun s1 ls.
Proof. intros E. cbn [qrun]. rewrite E. reflexivity. Qed.
Lemma nth_put_same {A} (l : list (list A)) d x : (d < List.length l)%nat -> nth d (put_nth l d x) [] = x.
Proof. intros H. rewrite put_nth_nth, Nat.eqb_refl. apply Nat.ltb_lt in H. rewrite H. reflexivity. Qed.
Lemma dirty_bound s : qreach s -> (q_dirty s < List.length (q_dirts s))%nat.
Proof.
  intros (ls & R). refine (qrun_ind (fun s => (q_dirty s < List.length (q_dirts s))%nat) _ ls qinit s _ R); [|cbn; lia].
  clear. intros s t s' H E. assert (SV : forall i v, q_dirts (set_val s i v) = q_dirts s /\ q_dirty (set_val s i v) = q_dirty s) by (intros i v; unfold set_val; destruct (nth_error (q_items s) i); auto).
  destruct E; cbn [q_dirts q_dirty q_goto q_ret q_log new_read new_dirty add_item del_item set_lock]; rewrite ?(proj1 (SV _ _)), ?(proj2 (SV _ _)), ?put_nth_length, ?map_length, ?app_length; auto; cbn; lia.
Qed.
(** A Set on an RMap in use does not wait for the mutex: if it runs alone, whatever the other goroutines are stuck in, it
    returns true within five steps, and a Get that runs alone then finds the key. *)
Theorem C72_sets_return s u k c v : qreach s -> amended s -> q_pcs s u = QIdle -> exists n s2, (n <= 5)%nat /\
  qrun s ((u, QCall (QSet k c v)) :: repeat (u, QStep) n) = Some s2 /\ q_pcs s2 u = QIdle /\ q_hist s2 = q_hist s ++ [QInv u (QSet k c v); QRsp u (QSet k c v) QTrue] /\
  (q_nocol (q_hist s2) -> exists v', finds s2 k c v').
Proof.
  intros RE (rd & R & AM) P. pose proof (reach_rd _ RE) as RI. pose proof (dirty_bound _ RE) as DB. set (o := QSet k c v).
  set (s0 := q_log s (QInv u o)). set (s1 := q_goto s0 u (SLoad o)).
  assert (E1 : qstep s (u, QCall o) = Some s1) by (cbn [qstep]; rewrite P; reflexivity).
  assert (P1 : q_pcs s1 u = SLoad o) by (apply q_upd_same).
  assert (NE : qr_m (the_read s rd) <> []).
  { apply (ri_am _ RI); auto. unfold the_read in *. destruct (nth_in_or_default rd (q_reads s) (mkQR [] false)) as [I|I]; auto. rewrite I in AM. discriminate AM. }
  assert (FIN : forall n s2, (n <= 5)%nat -> qrun s ((u, QCall o) :: repeat (u, QStep) n) = Some s2 -> q_pcs s2 u = QIdle -> q_hist s2 = q_hist s ++ [QInv u o; QRsp u o QTrue] -> pres s2 k ->
    exists n s2, (n <= 5)%nat /\ qrun s ((u, QCall o) :: repeat (u, QStep) n) = Some s2 /\ q_pcs s2 u = QIdle /\ q_hist s2 = q_hist s ++ [QInv u o; QRsp u o QTrue] /\ (q_nocol (q_hist s2) -> exists v', finds s2 k c v')).
  { intros n s2 LE RN PI HH PR. exists n, s2. repeat split; auto. intros NC.
    assert (RS : qreach s2) by (destruct RE as (l0 & R0); exists (l0 ++ (u, QCall o) :: repeat (u, QStep) n); rewrite qrun_app, R0; auto).
    destruct (pres_finds s2 k c v (qreach_inv _ RS) NC) as (v' & F & _); auto; [exists u; rewrite HH; apply in_or_app; right; left; auto|]. eauto. }
  destruct (qassoc k (qr_m (the_read s rd))) as [i|] eqn:A.
  { (* promoted *) apply (FIN 1%nat (q_ret s1 u o QTrue)); [lia| |apply q_upd_same|cbn [q_hist q_ret s1 s0 q_goto q_log]; rewrite <- app_assoc; reflexivity|left; exists rd, i; auto].
    rewrite (run_step _ _ _ _ E1). cbn [repeat]. rewrite (run_step s1 _ (q_ret s1 u o QTrue)); [reflexivity|]. cbn [qstep]. rewrite P1. unfold o at 1. change (q_read s1) with (q_read s). rewrite R. change (the_read s1 rd) with (the_read s rd). rewrite A. reflexivity. }
  set (s2 := q_goto s1 u (SPtr o rd)). set (s3 := q_goto s2 u (SFind o rd (q_dirty s))).
  assert (P2 : q_pcs s2 u = SPtr o rd) by (apply q_upd_same). assert (P3 : q_pcs s3 u = SFind o rd (q_dirty s)) by (apply q_upd_same).
  assert (E2 : qstep s1 (u, QStep) = Some s2) by (cbn [qstep]; rewrite P1; unfold o at 1; change (q_read s1) with (q_read s); rewrite R; change (the_read s1 rd) with (the_read s rd); rewrite A; reflexivity).
  assert (E3 : qstep s2 (u, QStep) = Some s3) by (cbn [qstep]; rewrite P2; reflexivity).
  destruct (q_find s (q_dirty s) k c) as [i|] eqn:F.
  { (* in the dirty map *) set (s4 := q_goto s3 u (SUpd o i)). assert (P4 : q_pcs s4 u = SUpd o i) by (apply q_upd_same).
    assert (E4 : qstep s3 (u, QStep) = Some s4) by (cbn [qstep]; rewrite P3; unfold o at 1; change (q_find s3 (q_dirty s) k c) with (q_find s (q_dirty s) k c); rewrite F; reflexivity).
    assert (E5 : qstep s4 (u, QStep) = Some (q_ret (set_val s4 i v) u o QTrue)) by (cbn [qstep]; rewrite P4; reflexivity). destruct (val_same s4 i v) as (V1 & V2 & V3 & V4 & V5 & V6).
    apply (FIN 4%nat (q_ret (set_val s4 i v) u o QTrue)); [lia| |apply q_upd_same|cbn [q_hist q_ret]; rewrite V5; cbn [q_hist s4 s3 s2 s1 s0 q_goto q_log]; rewrite <- app_assoc; reflexivity|].
    - rewrite (run_step _ _ _ _ E1). cbn [repeat]. rewrite (run_step _ _ _ _ E2), (run_step _ _ _ _ E3), (run_step _ _ _ _ E4), (run_step _ _ _ _ E5). reflexivity.
    - right. destruct (val_pres s4 (q_ret (set_val s4 i v) u o QTrue) i v k eq_refl V1 V2 V3 V4) as (_ & _ & Q1 & Q2 & _). split; [apply Q2; exists rd; auto|apply Q1].
      pose proof (find_is _ _ _ _ _ F) as IS. unfold q_find in F. apply find_some in F as [I _]. unfold q_is in IS. destruct (nth_error (q_items s) i) as [x|] eqn:N; [|discriminate IS].
      exists i, x. repeat split; auto. lia. }
  (* a new item *)
  set (s4 := q_goto s3 u (SPtr2 o rd)). set (s5 := q_goto s4 u (SStore o rd (q_dirty s))). set (s6 := q_ret (add_item s5 (q_dirty s) (mkQI k c v)) u o QTrue).
  assert (P4 : q_pcs s4 u = SPtr2 o rd) by (apply q_upd_same). assert (P5 : q_pcs s5 u = SStore o rd (q_dirty s)) by (apply q_upd_same).
  assert (E4 : qstep s3 (u, QStep) = Some s4).
  { cbn [qstep]. rewrite P3. unfold o at 1. change (q_find s3 (q_dirty s) k c) with (q_find s (q_dirty s) k c). rewrite F. change (the_read s3 rd) with (the_read s rd). rewrite AM. reflexivity. }
  assert (E5 : qstep s4 (u, QStep) = Some s5) by (cbn [qstep]; rewrite P4; reflexivity).
  assert (E6 : qstep s5 (u, QStep) = Some s6).
  { cbn [qstep]. rewrite P5. unfold o at 1. change (q_find s5 (q_dirty s) k c) with (q_find s (q_dirty s) k c). rewrite F. change (the_read s5 rd) with (the_read s rd). destruct (qr_m (the_read s rd)); [congruence|reflexivity]. }
  apply (FIN 5%nat s6); [lia| |apply q_upd_same|cbn [q_hist s6 s5 s4 s3 s2 s1 s0 q_ret add_item q_goto q_log]; rewrite <- app_assoc; reflexivity|].
  - rewrite (run_step _ _ _ _ E1). cbn [repeat]. rewrite (run_step _ _ _ _ E2), (run_step _ _ _ _ E3), (run_step _ _ _ _ E4), (run_step _ _ _ _ E5), (run_step _ _ _ _ E6). reflexivity.
  - right. split; [exists rd; auto|]. exists (List.length (q_items s)), (mkQI k c v). split; [|split; auto].
    + unfold cur_dirty. cbn [q_dirts q_dirty s6 s5 s4 s3 s2 s1 s0 q_ret add_item q_goto q_log q_items]. rewrite nth_put_same by auto. apply in_or_app. right. left. auto.
    + cbn [q_items s6 s5 s4 s3 s2 s1 s0 q_ret add_item q_goto q_log]. rewrite nth_error_app2, Nat.sub_diag by auto. reflexivity.
Qed.
Print Assumptions C72_sets_return.

(** * Deletes one at a time *)
(** no two keys in the calls of h share a 64-bit hash *)
Definition one_code (h : list qevent) : Prop := forall t u o o', In (QInv t o) h -> In (QInv u o') h -> fst (key_of o) = fst (key_of o') -> snd (key_of o) = snd (key_of o').
(** a Delete of k answered false, and no Set of k was called after that *)
Definition no_set (h : list qevent) (k : Z) : Prop := forall t c v, ~ In (QInv t (QSet k c v)) h.
Definition gone (h : list qevent) (k : Z) : Prop := exists h1 t c h2, h = h1 ++ QRsp t (QDel k c) QFalse :: h2 /\ no_set h2 k.
Lemma gone_app h e k : gone (h ++ e) k -> gone h k /\ no_set e k \/ exists u c, In (QRsp u (QDel k c) QFalse) e.
Proof.
  intros (h1 & t & c & h2 & E & N). revert h E. induction h1 as [|x h1 IH]; intros h E; cbn [app] in E.
  - destruct h as [|y h]; cbn [app] in E; [right; subst e; exists t, c; left; auto|]. injection E as -> <-. left. split.
    + exists [], t, c, h. split; auto. intros u c' v I. apply (N u c' v). apply in_or_app. auto.
    + intros u c' v I. apply (N u c' v). apply in_or_app. auto.
  - destruct h as [|y h]; cbn [app] in E; [right; subst e; exists t, c; right; apply in_or_app; right; left; auto|]. injection E as -> E. destruct (IH h E) as [[A B]|A]; auto. left. split; auto.
    destruct A as (g1 & t' & c' & g2 & -> & A). exists (x :: g1), t', c', g2. auto.
Qed.
(** one item per key in a dirty map *)
Definition uniq (s : qstate) : Prop := forall d i j x y, In d (q_dirts s) -> In i d -> In j d -> nth_error (q_items s) i = Some x -> nth_error (q_items s) j = Some y -> q_k x = q_k y -> q_c x = q_c y -> i = j.
Lemma in_put {A} (l : list A) d x e : In e (put_nth l d x) -> e = x \/ In e l.
Proof.
  revert d. induction l as [|a l IH]; intros d H; [destruct d; destruct H|]. destruct d as [|d]; cbn [put_nth] in H; destruct H as [<-|H]; auto; [right; right; auto|right; left; auto|].
  destruct (IH d H); auto. right. right. auto.
Qed.
Lemma eff_uniq s t s' : qinv s -> uniq s -> qeff s t s' -> uniq s'.
Proof.
  intros C U E.
  assert (SV : forall w i v, uniq (set_val s i v) -> q_items w = q_items (set_val s i v) -> q_dirts w = q_dirts (set_val s i v) -> uniq w) by (intros w i v Q A B; unfold uniq; rewrite A, B; exact Q).
  assert (SS : forall i v, uniq (set_val s i v)).
  { intros i v d a b x y D A B N1 N2 K1 K2. unfold set_val in *. destruct (nth_error (q_items s) i) as [z|] eqn:Z; [|eapply U; eauto]. cbn [q_items q_dirts set_item] in *.
    rewrite put_nth_at in N1, N2. rewrite Z in N1, N2.
    assert (G : forall j w, (if Nat.eqb j i then Some (mkQI (q_k z) (q_c z) v) else nth_error (q_items s) j) = Some w -> exists w', nth_error (q_items s) j = Some w' /\ q_k w' = q_k w /\ q_c w' = q_c w).
    { intros j w Q. destruct (Nat.eqb_spec j i) as [->|]; [injection Q as <-; exists z; auto|exists w; auto]. }
    destruct (G _ _ N1) as (x' & X1 & X2 & X3), (G _ _ N2) as (y' & Y1 & Y2 & Y3). apply (U d a b x' y'); auto; congruence. }
  assert (AD : forall d k c v w, q_find s d k c = None -> q_items w = q_items s ++ [mkQI k c v] -> q_dirts w = put_nth (q_dirts s) d (nth d (q_dirts s) [] ++ [List.length (q_items s)]) -> uniq w).
  { intros d k c v w F I D e i j x y. rewrite I, D. intros He Hi Hj N1 N2 K1 K2.
    assert (OLD : forall d' i0, In d' (q_dirts s) -> In i0 d' -> (i0 < List.length (q_items s))%nat) by (intros d' i0 A B; apply nth_error_Some; apply (qi_dirts _ C d' i0); auto).
    apply in_put in He as [->|He].
    2:{ rewrite nth_error_app1 in N1 by (eapply OLD; eauto). rewrite nth_error_app1 in N2 by (eapply OLD; eauto). eapply U; eauto. }
    assert (ND : forall i0, In i0 (nth d (q_dirts s) []) -> exists d', In d' (q_dirts s) /\ In i0 d').
    { intros i0 J. exists (nth d (q_dirts s) []). split; auto. destruct (nth_in_or_default d (q_dirts s) []) as [Q|Q]; auto. rewrite Q in J. destruct J. }
    assert (NW : forall i0 x0, In i0 (nth d (q_dirts s) []) -> nth_error (q_items s ++ [mkQI k c v]) i0 = Some x0 -> ~ (q_k x0 = k /\ q_c x0 = c)).
    { intros i0 x0 J Q [Q1 Q2]. destruct (ND i0 J) as (d' & D1 & D2). rewrite nth_error_app1 in Q by (eapply OLD; eauto). unfold q_find in F. pose proof (find_none _ _ F i0 J) as G. unfold q_is in G. rewrite Q, Q1, Q2, !Z.eqb_refl in G. discriminate G. }
    assert (LAST : nth_error (q_items s ++ [mkQI k c v]) (List.length (q_items s)) = Some (mkQI k c v)) by (rewrite nth_error_app2, Nat.sub_diag by auto; reflexivity).
    apply in_app_or in Hi as [Hi|[<-|[]]]; apply in_app_or in Hj as [Hj|[<-|[]]]; auto.
    - destruct (ND i Hi) as (d' & D1 & D2), (ND j Hj) as (d2 & D3 & D4). rewrite nth_error_app1 in N1 by (exact (OLD d' i D1 D2)). rewrite nth_error_app1 in N2 by (exact (OLD d2 j D3 D4)).
      apply (U (nth d (q_dirts s) []) i j x y); auto. destruct (nth_in_or_default d (q_dirts s) []) as [Q|Q]; auto. rewrite Q in Hi. destruct Hi.
    - exfalso. rewrite LAST in N2. injection N2 as <-. apply (NW i x Hi N1). auto.
    - exfalso. rewrite LAST in N1. injection N1 as <-. apply (NW j y Hj N2). auto. }
  destruct E; try exact U; try (eapply SV; [apply SS|reflexivity|reflexivity]); try (eapply AD; [eassumption|reflexivity|reflexivity]).
  - intros d a b x y D A B. cbn [q_dirts q_goto del_item] in D. apply in_map_iff in D as (d' & <- & D). apply filter_In in A as [A _]. apply filter_In in B as [B _]. apply (U d' a b x y); auto.
  - intros d a b x y D A B. cbn [q_dirts q_goto new_dirty] in D. apply in_app_or in D as [D|[<-|[]]]; [apply (U d a b x y); auto|destruct A].
Qed.
Lemma reach_uniq s : qreach s -> uniq s.
Proof.
  intros (ls & R). assert (X : qinv s /\ uniq s); [|apply X]. refine (qrun_ind (fun s => qinv s /\ uniq s) _ ls qinit s _ R).
  - intros a t b [C U] E. split; [eapply eff_qinv|eapply eff_uniq]; eauto.
  - split; [apply qinit_inv|]. intros d i j x y [<-|[]] [].
Qed.

(** the invariant, with one writer at a time *)
Definition xok (s : qstate) (p : qpc) : Prop :=
  match p with
  | SLoad o | SInit o | SPtr o _ | SFind o _ _ | SUpd o _ | SPtr2 o _ | SStore o _ _ => ~ gone (q_hist s) (fst (key_of o))
  | PLock o _ _ | PRead o _ _ | PPtr o _ _ _ | PScan o _ _ _ _ | PCas o _ _ _ _ | PUnl o _ | PInit o _ | PLock2 o _ | PEnd o _ => own o (fun k => ~ gone (q_hist s) k)
  | DAcq o | DRead o | DPtr o | DFind o _ => ~ in_read s (fst (key_of o))
  | DDel o i => ~ in_read s (fst (key_of o)) /\ In i (cur_dirty s)
  | DMiss o | DUnl o => ~ in_read s (fst (key_of o)) /\ ~ in_dirty s (fst (key_of o))
  | _ => True
  end.
Record xinv (s : qstate) : Prop := {
  x_pc : forall t, xok s (q_pcs s t);
  x_gone : forall k, gone (q_hist s) k -> ~ in_read s k /\ ~ in_dirty s k }.
Lemma sh_in s s' k : same_shared s s' -> (in_read s' k <-> in_read s k) /\ (in_dirty s' k <-> in_dirty s k).
Proof. destruct s, s'. unfold same_shared. cbn. intros (-> & -> & -> & -> & ->). split; split; exact (fun x => x). Qed.
Lemma sh_xok s s' p : same_shared s s' -> (forall k, gone (q_hist s') k -> gone (q_hist s) k) -> xok s p -> xok s' p.
Proof.
  intros SH G. pose proof (fun k => proj1 (sh_in s s' k SH)) as I1. pose proof (fun k => proj2 (sh_in s s' k SH)) as I2.
  destruct p; cbn [xok]; auto; try (intros Q Q1; apply Q; apply G; exact Q1); try (apply own_imp; intros a Q Q1; apply Q; apply G; exact Q1); rewrite ?I1, ?I2; auto.
  destruct SH as (_ & _ & _ & S4 & S5). unfold cur_dirty. rewrite S4, S5. auto.
Qed.
Lemma reader_xok s p : writer p = false -> xok s p.
Proof. destruct p; cbn [writer xok]; try discriminate; auto. Qed.
Lemma xinv_step s t s' p : xinv s -> one_writer s -> q_pcs s' = q_upd (q_pcs s) t p ->
  (same_shared s s' /\ (writer (q_pcs s t) = false -> forall k, gone (q_hist s') k -> gone (q_hist s) k) \/ writer (q_pcs s t) = true) ->
  xok s' p -> (forall k, gone (q_hist s') k -> ~ in_read s' k /\ ~ in_dirty s' k) -> xinv s'.
Proof.
  intros X O P SH K G. constructor; auto. intros u. rewrite P. destruct (Nat.eq_dec u t) as [->|NE]; [rewrite q_upd_same; auto|rewrite q_upd_other by auto].
  destruct (writer (q_pcs s t)) eqn:WR; [apply reader_xok; eapply others_quiet; eauto|]. destruct SH as [[SH SG]|]; [|discriminate]. eapply sh_xok; eauto. apply X.
Qed.
Lemma xinv_read s t s' p e : xinv s -> one_writer s -> q_pcs s' = q_upd (q_pcs s) t p -> same_shared s s' -> q_hist s' = q_hist s ++ e -> xok s' p ->
  (forall u k c, In (QRsp u (QDel k c) QFalse) e -> writer (q_pcs s t) = true /\ ~ in_read s k /\ ~ in_dirty s k) -> xinv s'.
Proof.
  intros X O P SH H K D. eapply xinv_step; eauto.
  - left. split; auto. intros WR k. rewrite H. intros I. destruct (gone_app _ _ _ I) as [[I1 _]|(u & c & I1)]; auto. destruct (D u k c I1). congruence.
  - intros k. rewrite H. intros I. rewrite (proj1 (sh_in s s' k SH)), (proj2 (sh_in s s' k SH)). destruct (gone_app _ _ _ I) as [[I1 _]|(u & c & I1)]; [apply X; auto|]. apply (D u k c I1).
Qed.
Lemma gather_only s l k i : forall m, qassoc k (fold_left (fun m i => match nth_error (q_items s) i with Some x => qput (q_k x) i m | None => m end) l m) = Some i ->
  qassoc k m <> None \/ exists j x, In j l /\ nth_error (q_items s) j = Some x /\ q_k x = k.
Proof.
  induction l as [|j l IH]; intros m H; cbn [fold_left] in H; [left; congruence|]. destruct (IH _ H) as [Q|(a & x & A & B & D)]; [|right; exists a, x; split; [right; auto|auto]].
  destruct (nth_error (q_items s) j) as [x|] eqn:N; auto. rewrite qassoc_put in Q. destruct (Z.eqb_spec (q_k x) k) as [E|]; auto. right. exists j, x. split; [left|]; auto.
Qed.
Lemma gather_from s r k i : q_read s = Some r -> qassoc k (q_gather s r (q_dirty s)) = Some i -> in_read s k \/ in_dirty s k.
Proof.
  intros R H. unfold q_gather in H. apply gather_only in H as [Q|(j & x & A & B & D)]; [|right; exists j, x; auto]. left. rewrite <- the_read_error in Q. destruct (qassoc k (qr_m (the_read s r))) as [a|] eqn:E; [|congruence]. exists r, a. auto.
Qed.
Lemma val_in s s' i v k : q_items s' = q_items (set_val s i v) -> q_reads s' = q_reads s -> q_read s' = q_read s -> q_dirts s' = q_dirts s -> q_dirty s' = q_dirty s ->
  (in_read s' k -> in_read s k) /\ (in_dirty s' k -> in_dirty s k).
Proof.
  intros I R RD D DY. split; [unfold in_read, the_read; rewrite R, RD; auto|]. intros (j & x & A & N & K). unfold cur_dirty in A. rewrite D, DY in A. rewrite I in N.
  unfold set_val in N. destruct (nth_error (q_items s) i) as [z|] eqn:Z; [|exists j, x; auto]. cbn [q_items set_item] in N. rewrite put_nth_at, Z in N. destruct (Nat.eqb_spec j i) as [->|]; [|exists j, x; auto].
  injection N as <-. exists i, z. auto.
Qed.
Lemma add_in s s' d k c v x : qinv s -> (d < List.length (q_dirts s))%nat -> d = q_dirty s -> q_items s' = q_items s ++ [mkQI k c v] -> q_reads s' = q_reads s -> q_read s' = q_read s -> q_dirty s' = q_dirty s ->
  q_dirts s' = put_nth (q_dirts s) d (nth d (q_dirts s) [] ++ [List.length (q_items s)]) -> (in_read s' x -> in_read s x) /\ (in_dirty s' x -> x = k \/ in_dirty s x).
Proof.
  intros C LT -> I R RD DY D. split; [unfold in_read, the_read; rewrite R, RD; auto|]. intros (j & y & A & N & K). unfold cur_dirty in A. rewrite D, DY, nth_put_same in A by auto. rewrite I in N.
  apply in_app_or in A as [A|[<-|[]]].
  - right. exists j, y. split; auto. split; auto. rewrite nth_error_app1 in N; auto. apply nth_error_Some. apply (qi_dirts _ C (nth (q_dirty s) (q_dirts s) []) j); auto. apply nth_In; auto.
  - left. rewrite nth_error_app2, Nat.sub_diag in N by auto. injection N as <-. auto.
Qed.
Lemma code_of s i x k c t : qinv s -> one_code (q_hist s) -> nth_error (q_items s) i = Some x -> q_k x = k -> In (QInv t (QDel k c)) (q_hist s) -> q_c x = c.
Proof. intros C OC N K I. destruct (qi_val _ C i x N) as (u & J). exact (OC u t _ _ J I K). Qed.
Lemma eff_xinv s t s' : qinv s -> uniq s -> lkinv s -> one_code (q_hist s) -> winv s -> xinv s -> one_writer s -> qeff s t s' -> xinv s'.
Proof.
  intros C U LK OC W X O E. pose proof (qi_pc _ C t) as QP. pose proof (w_pc _ W t) as K. pose proof (x_pc _ X t) as XP. pose proof (lk_beyond _ LK t) as LB.
  destruct E; match goal with H : q_pcs s t = _ |- _ => rewrite H in K, QP, XP, LB; cbn [wok qpc_ok xok] in K, QP, XP end.
  Ltac xr e X O := eapply (xinv_read _ _ _ _ e X O); cbn [q_goto q_ret q_log set_lock q_hist q_pcs]; [reflexivity|repeat split|rewrite ?app_nil_r; reflexivity| |].
  Ltac xr0 X O := xr (@nil qevent) X O; [|intros ? ? ? []].
  Ltac xrr t o r X O := xr [QRsp t o r] X O; [exact I|].
  Ltac nofalse := let Q := fresh in intros ? ? ? [Q|[]]; discriminate Q.
  all: try (xr0 X O; cbn [xok]; first [exact XP|exact I|apply own_get]; fail).
  all: try (match goal with |- xinv (q_ret _ ?t ?o ?r) => xrr t o r X O; nofalse end; fail).
  - xr [QInv t (QSet k c v)] X O; [|nofalse]. cbn [xok]. cbn [q_hist q_goto q_log key_of fst]. intros Q. destruct (gone_app _ _ _ Q) as [[_ Q1]|(u & c' & [Q1|[]])]; [|discriminate Q1]. apply (Q1 t c v). left. auto.
  - xr [QInv t (QGet k c)] X O; [exact I|nofalse].
  - (* SInit *) refine (xinv_step s t _ (SLoad o) X O _ _ _ _); [reflexivity|right; rewrite H; reflexivity|exact XP|]. intros k G. split; [|apply (x_gone _ X k G)].
    intros (r & i & R & A). cbn [q_read q_goto new_read] in R. injection R as <-. change (the_read (q_goto (new_read s (mkQR [] false)) t (SLoad o)) (List.length (q_reads s))) with (the_read (new_read s (mkQR [] false)) (List.length (q_reads s))) in A.
    rewrite (proj2 (new_read_is s (mkQR [] false))) in A. discriminate A.
  - xr0 X O. cbn [xok]. intros k' c' v' [= <- <- <-]. exact XP.
  - (* SetValue *) destruct (val_same s i v) as (V1 & V2 & V3 & V4 & V5 & V6).
    refine (xinv_step s t _ QIdle X O _ _ _ _); [cbn; rewrite V6; reflexivity|right; rewrite H; reflexivity|exact I|]. intros x. cbn [q_hist q_ret]. rewrite V5. intros G.
    destruct (val_in s (q_ret (set_val s i v) t (QSet k c v) QTrue) i v x eq_refl V1 V2 V3 V4) as [Q1 Q2]. destruct (gone_app _ _ _ G) as [[G1 _]|(u & c' & [G1|[]])]; [|discriminate G1]. destruct (x_gone _ X x G1). tauto.
  - destruct (val_same s i v) as (V1 & V2 & V3 & V4 & V5 & V6).
    refine (xinv_step s t _ QIdle X O _ _ _ _); [cbn; rewrite V6; reflexivity|right; rewrite H; reflexivity|exact I|]. intros x. cbn [q_hist q_ret]. rewrite V5. intros G.
    destruct (val_in s (q_ret (set_val s i v) t (QSet k c v) QTrue) i v x eq_refl V1 V2 V3 V4) as [Q1 Q2]. destruct (gone_app _ _ _ G) as [[G1 _]|(u & c' & [G1|[]])]; [|discriminate G1]. destruct (x_gone _ X x G1). tauto.
  - destruct K as (_ & _ & _ & KD). cbn [key_of fst] in XP.
    refine (xinv_step s t _ QIdle X O _ _ _ _); [reflexivity|right; rewrite H; reflexivity|exact I|]. intros x. cbn [q_hist q_ret add_item]. intros G.
    assert (LT : (d < List.length (q_dirts s))%nat) by (rewrite KD; apply W).
    destruct (add_in s (q_ret (add_item s d (mkQI k c v)) t (QSet k c v) QTrue) d k c v x C LT KD eq_refl eq_refl eq_refl eq_refl eq_refl) as [Q1 Q2].
    destruct (gone_app _ _ _ G) as [[G1 _]|(u & c' & [G1|[]])]; [|discriminate G1]. destruct (x_gone _ X x G1) as [G2 G3]. split; [tauto|]. intros Q. destruct (Q2 Q) as [->|]; tauto.
  - destruct (val_same s i v) as (V1 & V2 & V3 & V4 & V5 & V6).
    refine (xinv_step s t _ (PLock (QSet k c v) true (KRet QTrue)) X O _ _ _ _); [cbn; rewrite V6; reflexivity|right; rewrite H; reflexivity| |].
    + cbn [xok q_hist q_goto]. rewrite V5. intros k' c' v' [= <- <- <-]. exact XP.
    + intros x. cbn [q_hist q_goto]. rewrite V5. intros G.
      destruct (val_in s (q_goto (set_val s i v) t (PLock (QSet k c v) true (KRet QTrue))) i v x eq_refl V1 V2 V3 V4) as [Q1 Q2]. destruct (x_gone _ X x G). tauto.
  - destruct K as (_ & _ & _ & KD). cbn [key_of fst] in XP.
    refine (xinv_step s t _ (PLock (QSet k c v) true (KRet QTrue)) X O _ _ _ _); [reflexivity|right; rewrite H; reflexivity| |].
    + cbn [xok q_hist q_goto add_item]. intros k' c' v' [= <- <- <-]. exact XP.
    + intros x. cbn [q_hist q_goto add_item]. intros G. assert (LT : (d < List.length (q_dirts s))%nat) by (rewrite KD; apply W).
      destruct (add_in s (q_goto (add_item s d (mkQI k c v)) t (PLock (QSet k c v) true (KRet QTrue))) d k c v x C LT KD eq_refl eq_refl eq_refl eq_refl eq_refl) as [Q1 Q2].
      destruct (x_gone _ X x G) as [G2 G3]. split; [tauto|]. intros Q. destruct (Q2 Q) as [->|]; tauto.
  - destruct QP as ((k & c & ->) & _). xr0 X O. cbn [xok]. apply own_get.
  - xr [QInv t (QDel k c)] X O; [exact I|nofalse].
  - xr0 X O. cbn [xok key_of fst]. intros (r & i & R & A). cbn [q_read q_goto] in R. rewrite H0 in R. injection R as <-. change (the_read (q_goto s t (DAcq (QDel k c))) rd) with (the_read s rd) in A. congruence.
  - (* no dirty map to look into *) xrr t (QDel k c) QFalse X O. intros u k' c' [Q|[]]. injection Q as <- <- <-. split; [rewrite H; reflexivity|]. split.
    + intros (r & i & R & A). congruence.
    + destruct K as [G _]. intros (i & x & I & _). destruct G as [G|(r & R & AM)]; [rewrite G in I; destruct I|congruence].
  - xr0 X O. cbn [xok]. split; [exact XP|]. destruct K as [[G _] _]. intros (i & x & I & _). destruct G as [G|(r & R & AM)]; [change (In i (cur_dirty s)) in I; rewrite G in I; destruct I|congruence].
  - destruct K as (_ & _ & ->). xr0 X O. cbn [xok]. split; [exact XP|]. unfold q_find in H0. apply find_some in H0 as [Hi _]. exact Hi.
  - (* not there *) destruct K as (_ & _ & ->). destruct QP as [QI _]. xr0 X O. cbn [xok key_of fst] in XP |- *. split; [exact XP|]. intros (i & x & Hi & N & KX). change (In i (cur_dirty s)) in Hi. change (nth_error (q_items s) i = Some x) in N.
    pose proof (code_of s i x k c t C OC N KX QI) as CX. unfold q_find in H0. pose proof (find_none _ _ H0 i Hi) as F. unfold q_is in F. rewrite N, KX, CX, !Z.eqb_refl in F. discriminate F.
  - (* the item is deleted *) destruct K as ((G & ND) & R & IS). destruct QP as (QI & k & c & ->). unfold ritem_ok in IS. cbn [key_of fst snd] in IS, ND, XP. destruct XP as [XP XI].
    assert (CD : cur_dirty (q_goto (del_item s i) t (DMiss (QDel k c))) = filter (fun j => negb (Nat.eqb j i)) (cur_dirty s)).
    { unfold cur_dirty. cbn [q_dirts q_dirty q_goto del_item]. exact (map_nth (filter (fun j => negb (Nat.eqb j i))) (q_dirts s) [] (q_dirty s)). }
    refine (xinv_step s t _ (DMiss (QDel k c)) X O _ _ _ _); [reflexivity|right; rewrite H; reflexivity| |].
    + cbn [xok key_of fst]. split; [exact XP|]. intros (j & x & J & N & KX). rewrite CD in J. apply filter_In in J as [J NE]. change (nth_error (q_items s) j = Some x) in N.
      pose proof (code_of s j x k c t C OC N KX QI) as CX. unfold q_is in IS. destruct (nth_error (q_items s) i) as [y|] eqn:M; [|discriminate IS]. apply andb_true_iff in IS as [I1 I2].
      assert (j = i) by (apply (U (cur_dirty s) j i x y); auto; [unfold cur_dirty; apply nth_In, W|lia|lia]). subst j. rewrite Nat.eqb_refl in NE. discriminate NE.
    + intros x G2. destruct (x_gone _ X x G2) as [G3 G4]. split; [exact G3|]. intros (j & y & J & N & KX). apply G4. exists j, y. rewrite CD in J. apply filter_In in J as [J _]. auto.
  - destruct QP as (_ & k & c & ->). xr0 X O. cbn [xok]. intros a b v Q. discriminate Q.
  - destruct QP as (_ & k & c & ->). xrr t (QDel k c) QFalse X O. intros u k' c' [Q|[]]. injection Q as <- <- <-. split; [rewrite H; reflexivity|exact XP].
  - discriminate LB.
  - (* CompareAndSwap *) destruct K as (_ & R & ->). refine (xinv_step s t _ (PUnl o k) X O _ _ _ _); [reflexivity|right; rewrite H; reflexivity|exact XP|].
    intros x G. destruct (x_gone _ X x G) as [G1 G2]. split; [|exact G2]. intros (r' & i & R' & A). cbn [q_read q_goto new_read] in R'. injection R' as <-. unfold the_read in A. cbn [q_reads q_goto new_read] in A.
    rewrite app_nth2, Nat.sub_diag in A by auto. cbn [nth qr_m] in A. destruct (gather_from s r x i R A); auto.
  - (* initDirty *) refine (xinv_step s t _ (PLock2 o k) X O _ _ _ _); [reflexivity|right; rewrite H; reflexivity|exact XP|].
    intros x G. destruct (x_gone _ X x G) as [G1 G2]. split; [exact G1|]. intros (i & y & Hi & _). unfold cur_dirty in Hi. cbn [q_dirts q_dirty q_goto new_dirty] in Hi. rewrite app_nth2, Nat.sub_diag in Hi by auto. destruct Hi.
  - destruct QP as (_ & _ & Q & _). destruct Q as (a & b & v & ->); [eauto|]. xr0 X O. cbn [xok key_of fst]. exact (XP a b v eq_refl).
  - destruct QP as (_ & _ & _ & QD). xrr t o r X O. intros u k c [Q|[]]. injection Q as <- -> ->. exfalso. assert (Q : KRet QFalse = KDel) by (apply QD; eauto). discriminate Q.
Qed.
Lemma one_code_app h e : one_code (h ++ e) -> one_code h.
Proof. intros H t u o o' A B. apply (H t u); apply in_or_app; auto. Qed.
Lemma run_xinv ls : forall s s', qreach s -> winv s -> xinv s -> q_always s ls one_writer -> one_code (q_hist s') -> qrun s ls = Some s' -> xinv s'.
Proof.
  induction ls as [|[t a] ls IH]; intros s s' RE W X A OC R; cbn [qrun] in R; [injection R as <-; auto|].
  destruct (qstep s (t, a)) as [s1|] eqn:E; [|discriminate R]. pose proof (qstep_eff _ _ _ _ E) as EF. pose proof (qreach_inv _ RE) as C.
  assert (A0 : one_writer s) by (apply (A [] ((t, a) :: ls)); auto).
  assert (A1 : q_always s1 ls one_writer).
  { intros p q s2 -> R2. apply (A ((t, a) :: p) q s2); auto. cbn [qrun]. rewrite E. auto. }
  assert (A2 : one_writer s1) by (apply (A1 [] ls); auto).
  assert (RE1 : qreach s1) by (destruct RE as (l0 & R0); exists (l0 ++ [(t, a)]); rewrite qrun_app, R0; cbn [qrun]; rewrite E; auto).
  apply (IH s1 s'); auto; [eapply eff_winv; eauto|]. eapply eff_xinv; eauto; [apply reach_uniq; auto|apply reach_lk; auto|].
  destruct (run_hist ls s1 s' R) as (h2 & H2). destruct (qx_hist _ _ (qeff_ext _ _ _ EF)) as (h1 & H1). rewrite H2, H1, <- app_assoc in OC. exact (one_code_app _ _ OC).
Qed.
(** If at every moment at most one goroutine is inside a Set, a Delete or a promotion, and no two keys share a 64-bit hash,
    then after a Delete has answered false no Get that runs alone finds the key, until the next Set of it - whatever Gets run. *)
Theorem C72_deleted ls s t k c h1 h2 : qrun qinit ls = Some s -> q_always qinit ls one_writer -> one_code (q_hist s) ->
  q_hist s = h1 ++ QRsp t (QDel k c) QFalse :: h2 -> no_set h2 k -> forall u v, q_pcs s u = QIdle -> get_alone s u k c <> Some (QBox v) /\ get_alone s u k c <> Some (QVal (Some v) true).
Proof.
  intros R A OC EH NS u v P.
  assert (X : xinv s).
  { refine (run_xinv ls qinit s _ qinit_winv _ A OC R); [exists []; reflexivity|]. constructor; [intros w; exact I|]. intros x (a & b & c' & d & E & _). destruct a; discriminate E. }
  destruct (x_gone _ X k) as [N1 N2]; [exists h1, t, c, h2; auto|].
  assert (G : ~ (get_alone s u k c = Some (QBox v) \/ get_alone s u k c = Some (QVal (Some v) true))).
  { intros G. destruct (finds_pres s u k c v P G) as [[Q|[_ Q]] _]; auto. }
  tauto.
Qed.
Print Assumptions C72_deleted.

(** * Without that: refuted *)
(** the natural claim: once no call is running, a key whose Delete answered false, with no Set of it called since, is not found *)
Definition deleted_gone : Prop := forall s t k c h1 h2 v, qreach s -> q_quiet s -> one_code (q_hist s) -> q_hist s = h1 ++ QRsp t (QDel k c) QFalse :: h2 -> no_set h2 k -> ~ finds s k c v.
Definition code_b (h : list qevent) : bool :=
  let cs := flat_map (fun e => match e with QInv _ o => [key_of o] | _ => [] end) h in
  forallb (fun a => forallb (fun b => negb (fst a =? fst b) || (snd a =? snd b)) cs) cs.
Lemma code_dec h : code_b h = true -> one_code h.
Proof.
  unfold code_b. rewrite forallb_forall. intros H t u o o' I J E. 
  assert (IN : forall w p, In (QInv w p) h -> In (key_of p) (flat_map (fun e => match e with QInv _ o => [key_of o] | _ => [] end) h)) by (intros w p Q; apply in_flat_map; exists (QInv w p); split; [auto|left; auto]).
  specialize (H _ (IN _ _ I)). rewrite forallb_forall in H. specialize (H _ (IN _ _ J)). lia.
Qed.
(** a Delete looks into the read map, then a Get promotes the key, then the Delete goes on: the new read map has no dirty map, so
    that it answers false and deletes nothing *)
Definition late_delete : list qlabel := two_set ++ call_ 1 (QDel 2 2) ++ steps 1 1 ++ get_promotes 2 ++ steps 1 3.
Theorem C72_deleted_refuted : ~ deleted_gone.
Proof.
  intros H. assert (R : qrun qinit late_delete = Some (after late_delete)) by (apply after_is; vm_compute; reflexivity).
  assert (QU : q_quiet (after late_delete)) by (apply quiet_after; vm_compute; reflexivity).
  refine (H (after late_delete) 1%nat 2 2 (firstn 7 (q_hist (after late_delete))) [] 20 _ QU _ _ _ _).
  - exists late_delete. exact R.
  - apply code_dec. vm_compute. reflexivity.
  - vm_compute. reflexivity.
  - intros t c v [].
  - intros t P. left. assert (T : forall t, get_alone (after late_delete) t 2 2 = Some (QBox 20)); [|apply T]. clear.
    intros t. assert (QU : q_pcs (after late_delete) t = QIdle) by (apply quiet_after; vm_compute; reflexivity).
    assert (EX : exists rd i x, q_read (after late_delete) = Some rd /\ qassoc 2 (qr_m (the_read (after late_delete) rd)) = Some i /\ nth_error (q_items (after late_delete)) i = Some x /\ q_k x = 2 /\ q_c x = 2 /\ q_v x = 20) by (do 3 eexists; vm_compute; repeat split; reflexivity).
    destruct EX as (rd & i & x & E1 & E2 & E3 & E4 & E5 & <-). eapply alone_read; eauto.
Qed.
Print Assumptions C72_deleted_refuted.

(** * The hypotheses are met *)
(** two keys, one promoted; the Delete of the other one goes on to rebuild the read map. A second Delete waits for ever, a
    Set of a new key still returns, and so does a Get of the promoted key. *)
Definition stuck_run : list qlabel := two_set ++ call_ 1 (QDel 2 2) ++ steps 1 6 ++ [(1%nat, QPromote true)].
Definition stuck_more : list qlabel := call_ 2 (QDel 3 3) ++ steps 2 1 ++ call_ 3 (QSet 4 4 40) ++ steps 3 5 ++ call_ 4 (QGet 1 1) ++ steps 4 2 ++ call_ 4 (QDel 1 1) ++ steps 4 1.
Definition no_first_b (ls : list qlabel) : bool := forallb (fun t => match q_pcs (after ls) t with SInit _ => false | _ => true end) (map fst ls).
Lemma no_first_dec ls : valid qinit ls = true -> no_first_b ls = true -> no_first (after ls).
Proof.
  intros V H u o P. pose proof (after_is ls V) as R. destruct (in_dec Nat.eq_dec u (map fst ls)) as [I|I].
  - unfold no_first_b in H. rewrite forallb_forall in H. specialize (H u I). rewrite P in H. discriminate H.
  - rewrite (run_other ls qinit _ u R I) in P. discriminate P.
Qed.
Example C72_case : qreach (after stuck_run) /\ rebuilding (after stuck_run) 1 /\ amended (after stuck_run) /\ no_first (after stuck_run) /\
  qrun (after stuck_run) stuck_more = Some (after (stuck_run ++ stuck_more)) /\ waits (q_pcs (after (stuck_run ++ stuck_more)) 2) = true /\
  q_hist (after (stuck_run ++ stuck_more)) = q_hist (after stuck_run) ++ [QInv 2 (QDel 3 3); QInv 3 (QSet 4 4 40); QRsp 3 (QSet 4 4 40) QTrue; QInv 4 (QGet 1 1); QRsp 4 (QGet 1 1) (QBox 10); QInv 4 (QDel 1 1); QRsp 4 (QDel 1 1) QPanic].
Proof.
  assert (V1 : valid qinit stuck_run = true) by (vm_compute; reflexivity). assert (V2 : valid qinit (stuck_run ++ stuck_more) = true) by (vm_compute; reflexivity).
  split; [exists stuck_run; apply after_is; exact V1|]. split; [do 3 eexists; vm_compute; reflexivity|]. split; [eexists; vm_compute; split; reflexivity|].
  split; [apply no_first_dec; [exact V1|vm_compute; reflexivity]|]. split; [|vm_compute; split; reflexivity].
  pose proof (after_is _ V2) as R. rewrite qrun_app, (after_is _ V1) in R. exact R.
Qed.
(** C72_deleted: the run of C57, in which key 3 is Set and deleted *)
Example C72_deleted_case : exists h1 h2, qrun qinit one_writer_run_ex = Some (after one_writer_run_ex) /\ q_always qinit one_writer_run_ex one_writer /\ one_code (q_hist (after one_writer_run_ex)) /\
  q_hist (after one_writer_run_ex) = h1 ++ QRsp 1 (QDel 3 3) QFalse :: h2 /\ In (QRsp 1 (QSet 3 3 30) QTrue) h1 /\ no_set h2 3.
Proof.
  exists (firstn 9 (q_hist (after one_writer_run_ex))), (skipn 10 (q_hist (after one_writer_run_ex))). split; [apply after_is; vm_compute; reflexivity|].
  split; [apply one_writer_run; vm_compute; reflexivity|]. split; [apply code_dec; vm_compute; reflexivity|]. split; [vm_compute; reflexivity|]. split; [vm_compute; tauto|].
  intros t c v I. vm_compute in I. repeat (destruct I as [I|I]; [discriminate I|]). destruct I.
Qed.
