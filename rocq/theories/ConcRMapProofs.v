(** Invariants of ConcRMap for every schedule. *)
From Verif Require Import Base ConcRMap.
From Coq Require Import PeanoNat ZifyBool.
Local Open Scope Z_scope.
Local Open Scope list_scope.

Definition q_log (s : qstate) (e : qevent) : qstate := mkQ (q_items s) (q_reads s) (q_read s) (q_dirts s) (q_dirty s) (q_lock s) (q_pcs s) (q_hist s ++ [e]).

(** * The steps, as a relation *)
Inductive qeff (s : qstate) (t : nat) : qstate -> Prop :=
| F_set k c v : q_pcs s t = QIdle -> qeff s t (q_goto (q_log s (QInv t (QSet k c v))) t (SLoad (QSet k c v)))
| F_get k c : q_pcs s t = QIdle -> qeff s t (q_goto (q_log s (QInv t (QGet k c))) t (GLoad (QGet k c)))
| F_nil k c v : q_pcs s t = SLoad (QSet k c v) -> q_read s = None -> qeff s t (q_goto s t (SInit (QSet k c v)))
| F_old k c v rd i : q_pcs s t = SLoad (QSet k c v) -> q_read s = Some rd -> qassoc k (qr_m (the_read s rd)) = Some i -> qeff s t (q_ret s t (QSet k c v) QTrue)
| F_new k c v rd : q_pcs s t = SLoad (QSet k c v) -> q_read s = Some rd -> qassoc k (qr_m (the_read s rd)) = None -> qeff s t (q_goto s t (SPtr (QSet k c v) rd))
| F_init o : q_pcs s t = SInit o -> qeff s t (q_goto (new_read s (mkQR [] false)) t (SLoad o))
| F_ptr o rd : q_pcs s t = SPtr o rd -> qeff s t (q_goto s t (SFind o rd (q_dirty s)))
| F_hit k c v rd d i : q_pcs s t = SFind (QSet k c v) rd d -> q_find s d k c = Some i -> qeff s t (q_goto s t (SUpd (QSet k c v) i))
| F_miss_am k c v rd d : q_pcs s t = SFind (QSet k c v) rd d -> q_find s d k c = None -> qr_am (the_read s rd) = true -> qeff s t (q_goto s t (SPtr2 (QSet k c v) rd))
| F_miss k c v rd d : q_pcs s t = SFind (QSet k c v) rd d -> q_find s d k c = None -> qr_am (the_read s rd) = false -> qeff s t (q_goto s t (PLock (QSet k c v) true (KStore rd)))
| F_upd k c v i : q_pcs s t = SUpd (QSet k c v) i -> qeff s t (q_ret (set_val s i v) t (QSet k c v) QTrue)
| F_ptr2 o rd : q_pcs s t = SPtr2 o rd -> qeff s t (q_goto s t (SStore o rd (q_dirty s)))
| F_st_upd k c v rd d i : q_pcs s t = SStore (QSet k c v) rd d -> q_find s d k c = Some i -> qr_m (the_read s rd) <> [] -> qeff s t (q_ret (set_val s i v) t (QSet k c v) QTrue)
| F_st_add k c v rd d : q_pcs s t = SStore (QSet k c v) rd d -> q_find s d k c = None -> qr_m (the_read s rd) <> [] -> qeff s t (q_ret (add_item s d (mkQI k c v)) t (QSet k c v) QTrue)
| F_st_upd0 k c v rd d i : q_pcs s t = SStore (QSet k c v) rd d -> q_find s d k c = Some i -> qr_m (the_read s rd) = [] -> qeff s t (q_goto (set_val s i v) t (PLock (QSet k c v) true (KRet QTrue)))
| F_st_add0 k c v rd d : q_pcs s t = SStore (QSet k c v) rd d -> q_find s d k c = None -> qr_m (the_read s rd) = [] -> qeff s t (q_goto (add_item s d (mkQI k c v)) t (PLock (QSet k c v) true (KRet QTrue)))
| F_g_nil k c : q_pcs s t = GLoad (QGet k c) -> q_read s = None -> qeff s t (q_ret s t (QGet k c) QPanic)
| F_g_hit k c rd i : q_pcs s t = GLoad (QGet k c) -> q_read s = Some rd -> qassoc k (qr_m (the_read s rd)) = Some i -> q_is s k c i = true -> qeff s t (q_goto s t (GVal (QGet k c) i))
| F_g_am k c rd : q_pcs s t = GLoad (QGet k c) -> q_read s = Some rd -> (forall i, qassoc k (qr_m (the_read s rd)) = Some i -> q_is s k c i = false) -> qr_am (the_read s rd) = true -> qeff s t (q_goto s t (GLoad2 (QGet k c)))
| F_g_no k c rd : q_pcs s t = GLoad (QGet k c) -> q_read s = Some rd -> (forall i, qassoc k (qr_m (the_read s rd)) = Some i -> q_is s k c i = false) -> qr_am (the_read s rd) = false -> qeff s t (q_ret s t (QGet k c) (QVal None false))
| F_g_val o i x : q_pcs s t = GVal o i -> nth_error (q_items s) i = Some x -> qeff s t (q_ret s t o (QBox (q_v x)))
| F_g2_nil k c : q_pcs s t = GLoad2 (QGet k c) -> q_read s = None -> qeff s t (q_ret s t (QGet k c) QPanic)
| F_g2_in k c rd i : q_pcs s t = GLoad2 (QGet k c) -> q_read s = Some rd -> qassoc k (qr_m (the_read s rd)) = Some i -> qeff s t (q_ret s t (QGet k c) (QVal None true))
| F_g2_am k c rd : q_pcs s t = GLoad2 (QGet k c) -> q_read s = Some rd -> qassoc k (qr_m (the_read s rd)) = None -> qr_am (the_read s rd) = true -> qeff s t (q_goto s t (GPtr (QGet k c)))
| F_g2_no k c rd : q_pcs s t = GLoad2 (QGet k c) -> q_read s = Some rd -> qassoc k (qr_m (the_read s rd)) = None -> qr_am (the_read s rd) = false -> qeff s t (q_ret s t (QGet k c) (QVal None false))
| F_g_ptr o : q_pcs s t = GPtr o -> qeff s t (q_goto s t (GFind o (q_dirty s)))
| F_g_find k c d i : q_pcs s t = GFind (QGet k c) d -> q_find s d k c = Some i -> qeff s t (q_goto s t (GRd (QGet k c) i))
| F_g_panic k c d : q_pcs s t = GFind (QGet k c) d -> q_find s d k c = None -> qeff s t (q_ret s t (QGet k c) QPanic)
| F_g_rd o i x : q_pcs s t = GRd o i -> nth_error (q_items s) i = Some x -> qeff s t (q_goto s t (GMiss o (q_v x)))
| F_g_prom o v : q_pcs s t = GMiss o v -> qeff s t (q_goto s t (PLock o false (KRet (QVal (Some v) true))))
| F_g_ret o v : q_pcs s t = GMiss o v -> qeff s t (q_ret s t o (QVal (Some v) true))
| F_del k c : q_pcs s t = QIdle -> qeff s t (q_goto (q_log s (QInv t (QDel k c))) t (DLoad (QDel k c)))
| F_d_nil k c : q_pcs s t = DLoad (QDel k c) -> q_read s = None -> qeff s t (q_ret s t (QDel k c) QPanic)
| F_d_in k c rd i : q_pcs s t = DLoad (QDel k c) -> q_read s = Some rd -> qassoc k (qr_m (the_read s rd)) = Some i -> qeff s t (q_ret s t (QDel k c) QPanic)
| F_d_am k c rd : q_pcs s t = DLoad (QDel k c) -> q_read s = Some rd -> qassoc k (qr_m (the_read s rd)) = None -> qr_am (the_read s rd) = true -> qeff s t (q_goto s t (DAcq (QDel k c)))
| F_d_no k c rd : q_pcs s t = DLoad (QDel k c) -> q_read s = Some rd -> qassoc k (qr_m (the_read s rd)) = None -> qr_am (the_read s rd) = false -> qeff s t (q_ret s t (QDel k c) QFalse)
| F_d_lock o : q_pcs s t = DAcq o -> q_lock s = None -> qeff s t (q_goto (set_lock s (Some t)) t (DRead o))
| F_d_rnil o : q_pcs s t = DRead o -> q_read s = None -> qeff s t (q_ret (set_lock s None) t o QPanic)
| F_d_ram o rd : q_pcs s t = DRead o -> q_read s = Some rd -> qr_am (the_read s rd) = true -> qeff s t (q_goto s t (DPtr o))
| F_d_rno o rd : q_pcs s t = DRead o -> q_read s = Some rd -> qr_am (the_read s rd) = false -> qeff s t (q_goto s t (DUnl o))
| F_d_ptr o : q_pcs s t = DPtr o -> qeff s t (q_goto s t (DFind o (q_dirty s)))
| F_d_find k c d i : q_pcs s t = DFind (QDel k c) d -> q_find s d k c = Some i -> qeff s t (q_goto s t (DDel (QDel k c) i))
| F_d_none k c d : q_pcs s t = DFind (QDel k c) d -> q_find s d k c = None -> qeff s t (q_goto s t (DMiss (QDel k c)))
| F_d_del o i : q_pcs s t = DDel o i -> qeff s t (q_goto (del_item s i) t (DMiss o))
| F_d_prom o : q_pcs s t = DMiss o -> qeff s t (q_goto s t (PLock o false KDel))
| F_d_miss o : q_pcs s t = DMiss o -> qeff s t (q_goto s t (DUnl o))
| F_d_unl o : q_pcs s t = DUnl o -> qeff s t (q_ret (set_lock s None) t o QFalse)
| F_end_del o : q_pcs s t = PEnd o KDel -> qeff s t (q_goto (set_lock s None) t (DUnl o))
| F_lock o am k : q_pcs s t = PLock o am k -> q_lock s = None -> qeff s t (q_goto (set_lock s (Some t)) t (PRead o am k))
| F_read o am k r : q_pcs s t = PRead o am k -> q_read s = Some r -> qeff s t (q_goto s t (PPtr o am k r))
| F_rpanic o am k : q_pcs s t = PRead o am k -> q_read s = None -> qeff s t (q_ret (set_lock s None) t o QPanic)
| F_pptr o am k r : q_pcs s t = PPtr o am k r -> qeff s t (q_goto s t (PScan o am k r (q_dirty s)))
| F_empty o am k r d : q_pcs s t = PScan o am k r d -> q_gather s r d = [] -> qeff s t (q_goto s t (PEnd o k))
| F_scan o am k r d : q_pcs s t = PScan o am k r d -> q_gather s r d <> [] -> qeff s t (q_goto s t (PCas o am k r (q_gather s r d)))
| F_cas o am k r nm : q_pcs s t = PCas o am k r nm -> q_read s = Some r ->
    qeff s t (q_goto (new_read s (mkQR nm (match qr_m (the_read s r) with [] => true | _ => am end))) t (PUnl o k))
| F_retry o am k r nm : q_pcs s t = PCas o am k r nm -> q_read s <> Some r -> qeff s t (q_goto s t (PRead o am k))
| F_unl o k : q_pcs s t = PUnl o k -> qeff s t (q_goto (set_lock s None) t (PInit o k))
| F_pinit o k : q_pcs s t = PInit o k -> qeff s t (q_goto (new_dirty s) t (PLock2 o k))
| F_lock2 o k : q_pcs s t = PLock2 o k -> q_lock s = None -> qeff s t (q_goto (set_lock s (Some t)) t (PEnd o k))
| F_end_store o rd : q_pcs s t = PEnd o (KStore rd) -> qeff s t (q_goto (set_lock s None) t (SPtr2 o rd))
| F_end_ret o r : q_pcs s t = PEnd o (KRet r) -> qeff s t (q_ret (set_lock s None) t o r).

Lemma qstep_eff s t a s' : qstep s (t, a) = Some s' -> qeff s t s'.
Proof.
  unfold qstep. destruct (q_pcs s t) eqn:EP; try (destruct a; discriminate).
  - destruct a as [o| |]; try discriminate. destruct o; intros E; injection E as <-; [apply F_set|apply F_get|apply F_del]; auto.
  - destruct o as [k c v|k c|k c]; destruct a; try discriminate. destruct (q_read s) as [rd|] eqn:R; [|intros E; injection E as <-; apply F_nil; auto].
    destruct (qassoc k (qr_m (the_read s rd))) eqn:A; intros E; injection E as <-; [eapply F_old|eapply F_new]; eauto.
  - destruct a; try discriminate. intros E; injection E as <-. apply F_init; auto.
  - destruct a; try discriminate. intros E; injection E as <-. apply F_ptr; auto.
  - destruct o as [k c v|k c|k c]; destruct a; try discriminate. destruct (q_find s d k c) eqn:F; [intros E; injection E as <-; eapply F_hit; eauto|].
    destruct (qr_am (the_read s rd)) eqn:A; intros E; injection E as <-; [eapply F_miss_am|eapply F_miss]; eauto.
  - destruct o as [k c v|k c|k c]; destruct a; try discriminate. intros E; injection E as <-. apply F_upd; auto.
  - destruct a; try discriminate. intros E; injection E as <-. apply F_ptr2; auto.
  - destruct o as [k c v|k c|k c]; destruct a; try discriminate. destruct (q_find s d k c) eqn:F; destruct (qr_m (the_read s rd)) eqn:M; intros E; injection E as <-.
    + eapply F_st_upd0; eauto.
    + eapply F_st_upd; eauto. rewrite M. discriminate.
    + eapply F_st_add0; eauto.
    + eapply F_st_add; eauto. rewrite M. discriminate.
  - destruct o as [k c v|k c|k c]; destruct a; try discriminate. destruct (q_read s) as [rd|] eqn:R; [|intros E; injection E as <-; apply F_g_nil; auto].
    destruct (qassoc k (qr_m (the_read s rd))) as [i|] eqn:A.
    + destruct (q_is s k c i) eqn:I; [intros E; injection E as <-; eapply F_g_hit; eauto|].
      destruct (qr_am (the_read s rd)) eqn:AM; intros E; injection E as <-; [eapply F_g_am|eapply F_g_no]; eauto; intros j; rewrite A; intros [= <-]; auto.
    + destruct (qr_am (the_read s rd)) eqn:AM; intros E; injection E as <-; [eapply F_g_am|eapply F_g_no]; eauto; intros j; rewrite A; discriminate.
  - destruct a; try discriminate. destruct (nth_error (q_items s) i) eqn:N; [|discriminate]. intros E; injection E as <-. eapply F_g_val; eauto.
  - destruct o as [k c v|k c|k c]; destruct a; try discriminate. destruct (q_read s) as [rd|] eqn:R; [|intros E; injection E as <-; apply F_g2_nil; auto].
    destruct (qassoc k (qr_m (the_read s rd))) as [i|] eqn:A; [intros E; injection E as <-; eapply F_g2_in; eauto|].
    destruct (qr_am (the_read s rd)) eqn:AM; intros E; injection E as <-; [eapply F_g2_am|eapply F_g2_no]; eauto.
  - destruct a; try discriminate. intros E; injection E as <-. apply F_g_ptr; auto.
  - destruct o as [k c v|k c|k c]; destruct a; try discriminate. destruct (q_find s d k c) eqn:F; intros E; injection E as <-; [eapply F_g_find|eapply F_g_panic]; eauto.
  - destruct a; try discriminate. destruct (nth_error (q_items s) i) eqn:N; [|discriminate]. intros E; injection E as <-. eapply F_g_rd; eauto.
  - destruct a as [| |b]; try discriminate. destruct b; intros E; injection E as <-; [apply F_g_prom|apply F_g_ret]; auto.
  - destruct o as [k c v|k c|k c]; destruct a; try discriminate. destruct (q_read s) as [rd|] eqn:R; [|intros E; injection E as <-; apply F_d_nil; auto].
    destruct (qassoc k (qr_m (the_read s rd))) as [i|] eqn:A; [intros E; injection E as <-; eapply F_d_in; eauto|].
    destruct (qr_am (the_read s rd)) eqn:AM; intros E; injection E as <-; [eapply F_d_am|eapply F_d_no]; eauto.
  - destruct a; try discriminate. destruct (q_lock s) eqn:L; [discriminate|]. intros E; injection E as <-. eapply F_d_lock; eauto.
  - destruct a; try discriminate. destruct (q_read s) as [rd|] eqn:R; [destruct (qr_am (the_read s rd)) eqn:AM|]; intros E; injection E as <-; [eapply F_d_ram|eapply F_d_rno|eapply F_d_rnil]; eauto.
  - destruct a; try discriminate. intros E; injection E as <-. apply F_d_ptr; auto.
  - destruct o as [k c v|k c|k c]; destruct a; try discriminate. destruct (q_find s d k c) eqn:F; intros E; injection E as <-; [eapply F_d_find|eapply F_d_none]; eauto.
  - destruct a; try discriminate. intros E; injection E as <-. apply F_d_del; auto.
  - destruct a as [| |b]; try discriminate. destruct b; intros E; injection E as <-; [apply F_d_prom|apply F_d_miss]; auto.
  - destruct a; try discriminate. intros E; injection E as <-. apply F_d_unl; auto.
  - destruct a; try discriminate. destruct (q_lock s) eqn:L; [discriminate|]. intros E; injection E as <-. eapply F_lock; eauto.
  - destruct a; try discriminate. destruct (q_read s) eqn:R; intros E; injection E as <-; [eapply F_read|eapply F_rpanic]; eauto.
  - destruct a; try discriminate. intros E; injection E as <-. apply F_pptr; auto.
  - destruct a; try discriminate. destruct (q_gather s r d) eqn:G; intros E; injection E as <-; [eapply F_empty; eauto|rewrite <- G; eapply F_scan; eauto; congruence].
  - destruct a; try discriminate. destruct (q_read s) as [r'|] eqn:R; [destruct (Nat.eqb_spec r' r) as [->|NE]|]; intros E; injection E as <-.
    + apply F_cas; auto.
    + eapply F_retry; eauto. congruence.
    + eapply F_retry; eauto. congruence.
  - destruct a; try discriminate. intros E; injection E as <-. apply F_unl; auto.
  - destruct a; try discriminate. intros E; injection E as <-. apply F_pinit; auto.
  - destruct a; try discriminate. destruct (q_lock s) eqn:L; [discriminate|]. intros E; injection E as <-. eapply F_lock2; eauto.
  - destruct a; try discriminate. destruct k; intros E; injection E as <-; [apply F_end_store|apply F_end_ret|apply F_end_del]; auto.
Qed.
Lemma qrun_app ls1 : forall s ls2, qrun s (ls1 ++ ls2) = match qrun s ls1 with Some s' => qrun s' ls2 | None => None end.
Proof. induction ls1 as [|l ls IH]; intros s ls2; cbn [app qrun]; auto. destruct (qstep s l); auto. Qed.
Lemma qrun_ind (P : qstate -> Prop) : (forall s t s', P s -> qeff s t s' -> P s') -> forall ls s s', P s -> qrun s ls = Some s' -> P s'.
Proof.
  intros H. induction ls as [|[t a] ls IH]; intros s s' HP E; cbn [qrun] in E; [injection E as <-; auto|].
  destruct (qstep s (t, a)) as [s1|] eqn:E1; [|discriminate]. eapply IH; [|exact E]. eapply H; eauto. eapply qstep_eff; eauto.
Qed.

(** * Lists *)
Lemma put_nth_length {A} (l : list A) i x : List.length (put_nth l i x) = List.length l.
Proof. revert i. induction l as [|y l IH]; intros [|i]; cbn; auto. Qed.
Lemma put_nth_at {A} (l : list A) i x j : nth_error (put_nth l i x) j = if Nat.eqb j i then (match nth_error l i with Some _ => Some x | None => None end) else nth_error l j.
Proof.
  revert i j. induction l as [|y l IH]; intros i j.
  - cbn [put_nth]. destruct i, j; cbn; auto. destruct (Nat.eqb j i); auto.
  - destruct i as [|i], j as [|j]; cbn [put_nth nth_error Nat.eqb]; auto.
Qed.
Lemma put_nth_nth {A} (l : list A) i x j d : nth j (put_nth l i x) d = if Nat.eqb j i && Nat.ltb i (List.length l) then x else nth j l d.
Proof.
  revert i j. induction l as [|y l IH]; intros i j.
  - cbn. destruct i, j; cbn; rewrite ?andb_false_r; auto.
  - destruct i as [|i], j as [|j]; cbn [put_nth nth Nat.eqb]; auto. rewrite IH. cbn [List.length]. change (S i <? S (List.length l))%nat with (i <? List.length l)%nat. auto.
Qed.
Lemma qassoc_in k m i : qassoc k m = Some i -> In (k, i) m.
Proof.
  induction m as [|[k' j] m IH]; cbn [qassoc]; [discriminate|]. destruct (Z.eqb_spec k' k) as [->|]; [intros [= ->]; left; auto|right; auto].
Qed.
Lemma qassoc_put k i m k' : qassoc k' (qput k i m) = if k =? k' then Some i else qassoc k' m.
Proof.
  induction m as [|[k2 j] m IH]; cbn [qput qassoc]; auto. destruct (Z.eqb_spec k2 k) as [->|]; cbn [qassoc].
  - destruct (k =? k'); auto.
  - rewrite IH. destruct (Z.eqb_spec k2 k') as [->|]; auto. destruct (Z.eqb_spec k k'); congruence.
Qed.
Lemma in_qput k i m p : In p (qput k i m) -> p = (k, i) \/ In p m.
Proof.
  induction m as [|[k2 j] m IH]; cbn [qput]; [intros [<-|[]]; auto|]. destruct (k2 =? k); intros [<-|H]; auto; [right; right; auto|right; left; auto|].
  destruct (IH H) as [|]; auto. right. right. auto.
Qed.

(** * What persists *)
Definition ikeep (x y : qitem) : Prop := q_k y = q_k x /\ q_c y = q_c x.
Record qext (s s' : qstate) : Prop := {
  qx_items : forall i x, nth_error (q_items s) i = Some x -> exists y, nth_error (q_items s') i = Some y /\ ikeep x y;
  qx_reads : exists l, q_reads s' = q_reads s ++ l;
  qx_hist : exists h, q_hist s' = q_hist s ++ h }.
Lemma qext_refl s : qext s s.
Proof. constructor; [intros i x H; exists x; split; [auto|split; auto]|exists []; rewrite app_nil_r; auto|exists []; rewrite app_nil_r; auto]. Qed.
Lemma qext_trans a b c : qext a b -> qext b c -> qext a c.
Proof.
  intros X Y. constructor.
  - intros i x H. destruct (qx_items _ _ X i x H) as (y & H1 & (K1 & C1)). destruct (qx_items _ _ Y i y H1) as (z & H2 & (K2 & C2)). exists z. split; auto. split; congruence.
  - destruct (qx_reads _ _ X) as (l & E), (qx_reads _ _ Y) as (l' & E'). exists (l ++ l'). rewrite E', E, app_assoc. auto.
  - destruct (qx_hist _ _ X) as (l & E), (qx_hist _ _ Y) as (l' & E'). exists (l ++ l'). rewrite E', E, app_assoc. auto.
Qed.
Lemma qext_shared s s' : q_items s' = q_items s -> q_reads s' = q_reads s -> (exists h, q_hist s' = q_hist s ++ h) -> qext s s'.
Proof. intros A B C. constructor; auto; [rewrite A; intros i x H; exists x; split; [auto|split; auto]|exists []; rewrite B, app_nil_r; auto]. Qed.
Lemma set_val_item s i v j x : nth_error (q_items s) j = Some x -> exists y, nth_error (q_items (set_val s i v)) j = Some y /\ ikeep x y /\ (q_v y = q_v x \/ (j = i /\ q_v y = v)).
Proof.
  intros H. unfold set_val. destruct (nth_error (q_items s) i) as [z|] eqn:E.
  - cbn [q_items set_item]. rewrite put_nth_at, E. destruct (Nat.eqb_spec j i) as [->|].
    + rewrite E in H. injection H as ->. eexists. split; [reflexivity|]. split; [split; auto|auto].
    + exists x. split; [auto|split; [split; auto|auto]].
  - exists x. split; [auto|split; [split; auto|auto]].
Qed.
Lemma qext_val s i v : qext s (set_val s i v).
Proof.
  constructor.
  - intros j x H. destruct (set_val_item s i v j x H) as (y & A & B & _). eauto.
  - unfold set_val. destruct (nth_error (q_items s) i); exists []; rewrite app_nil_r; auto.
  - unfold set_val. destruct (nth_error (q_items s) i); exists []; rewrite app_nil_r; auto.
Qed.
Lemma qext_add s d x : qext s (add_item s d x).
Proof.
  constructor; cbn [q_items q_reads q_hist add_item]; try (exists []; rewrite app_nil_r; auto; fail).
  intros i y H. exists y. split; [|split; auto]. rewrite nth_error_app1; auto. apply nth_error_Some. congruence.
Qed.
Lemma qext_read s r : qext s (new_read s r).
Proof.
  constructor; cbn [q_items q_reads q_hist new_read]; [|eauto|exists []; rewrite app_nil_r; auto].
  intros i y H. exists y. split; [auto|split; auto].
Qed.
Lemma qext_goto s s' t p : qext s s' -> qext s (q_goto s' t p).
Proof. intros X. eapply qext_trans; [exact X|]. apply qext_shared; auto. exists []. rewrite app_nil_r. auto. Qed.
Lemma qext_ret s s' t o r : qext s s' -> qext s (q_ret s' t o r).
Proof. intros X. eapply qext_trans; [exact X|]. apply qext_shared; auto. eexists. reflexivity. Qed.
Lemma qeff_ext s t s' : qeff s t s' -> qext s s'.
Proof.
  intros E. destruct E; try (apply qext_goto); try (apply qext_ret);
    try apply qext_refl; try apply qext_val; try apply qext_add; try apply qext_read;
    try (apply qext_shared; auto; [exists []; rewrite app_nil_r; reflexivity]); apply qext_shared; auto; eexists; reflexivity.
Qed.
Lemma qrun_ext ls : forall s s', qrun s ls = Some s' -> qext s s'.
Proof.
  induction ls as [|[t a] ls IH]; intros s s' E; cbn [qrun] in E; [injection E as <-; apply qext_refl|].
  destruct (qstep s (t, a)) as [s1|] eqn:E1; [|discriminate]. eapply qext_trans; [|apply IH; exact E]. eapply qeff_ext, qstep_eff; eauto.
Qed.

(** * Invariant *)
Definition iok (s : qstate) (k : Z) (i : nat) : Prop := exists x, nth_error (q_items s) i = Some x /\ q_k x = k.
Definition mok (s : qstate) (m : list (Z * nat)) : Prop := forall k i, In (k, i) m -> iok s k i.
Definition key_of (o : qcall) : Z * Z := match o with QSet k c _ | QGet k c | QDel k c => (k, c) end.
Definition set_called (h : list qevent) (k c v : Z) : Prop := exists t, In (QInv t (QSet k c v)) h.
Definition res_ok (h : list qevent) (o : qcall) (r : qres) : Prop :=
  forall k c v, o = QGet k c -> (exists b, r = QVal (Some v) b) \/ r = QBox v -> set_called h k c v.
Definition cont_ok (s : qstate) (o : qcall) (k : qcont) : Prop := match k with KStore _ | KDel => True | KRet r => res_ok (q_hist s) o r end.
Definition ritem_ok (s : qstate) (o : qcall) (i : nat) : Prop := q_is s (fst (key_of o)) (snd (key_of o)) i = true.
Definition qpc_ok (s : qstate) (t : nat) (p : qpc) : Prop :=
  match p with
  | QIdle => True
  | SLoad o | SInit o | SPtr o _ | SFind o _ _ | SPtr2 o _ | SStore o _ _ => In (QInv t o) (q_hist s) /\ exists k c v, o = QSet k c v
  | SUpd o i => (In (QInv t o) (q_hist s) /\ exists k c v, o = QSet k c v) /\ ritem_ok s o i
  | GLoad o | GLoad2 o | GPtr o | GFind o _ => exists k c, o = QGet k c
  | GVal o i | GRd o i => (exists k c, o = QGet k c) /\ ritem_ok s o i
  | GMiss o v => (exists k c, o = QGet k c) /\ res_ok (q_hist s) o (QVal (Some v) true)
  | DLoad o | DAcq o | DRead o | DPtr o | DFind o _ | DDel o _ | DMiss o | DUnl o => In (QInv t o) (q_hist s) /\ exists k c, o = QDel k c
  | PLock o _ k | PRead o _ k | PPtr o _ k _ | PScan o _ k _ _ | PUnl o k | PInit o k | PLock2 o k | PEnd o k =>
      ((forall a b c, o = QSet a b c -> In (QInv t o) (q_hist s)) /\ (k = KDel -> In (QInv t o) (q_hist s))) /\ cont_ok s o k /\ ((exists rd, k = KStore rd) -> exists a b c, o = QSet a b c) /\ (k = KDel <-> exists a b, o = QDel a b)
  | PCas o _ k _ nm => (((forall a b c, o = QSet a b c -> In (QInv t o) (q_hist s)) /\ (k = KDel -> In (QInv t o) (q_hist s))) /\ cont_ok s o k /\ ((exists rd, k = KStore rd) -> exists a b c, o = QSet a b c) /\ (k = KDel <-> exists a b, o = QDel a b)) /\ mok s nm
  end.
Record qinv (s : qstate) : Prop := {
  qi_reads : forall r, In r (q_reads s) -> mok s (qr_m r);
  qi_dirts : forall d i, In d (q_dirts s) -> In i d -> nth_error (q_items s) i <> None;
  qi_val : forall i x, nth_error (q_items s) i = Some x -> set_called (q_hist s) (q_k x) (q_c x) (q_v x);
  qi_pc : forall t, qpc_ok s t (q_pcs s t);
  qi_res : forall t o r, In (QRsp t o r) (q_hist s) -> res_ok (q_hist s) o r }.

Lemma iok_ext s s' k i : qext s s' -> iok s k i -> iok s' k i.
Proof. intros X (x & A & B). destruct (qx_items _ _ X i x A) as (y & C & (D & _)). exists y. split; auto. congruence. Qed.
Lemma mok_ext s s' m : qext s s' -> mok s m -> mok s' m.
Proof. intros X H k i I. eapply iok_ext; eauto. Qed.
Lemma called_ext s s' k c v : qext s s' -> set_called (q_hist s) k c v -> set_called (q_hist s') k c v.
Proof. intros X (t & I). destruct (qx_hist _ _ X) as (h & ->). exists t. apply in_or_app. auto. Qed.
Lemma hist_ext s s' e : qext s s' -> In e (q_hist s) -> In e (q_hist s').
Proof. intros X I. destruct (qx_hist _ _ X) as (h & ->). apply in_or_app. auto. Qed.
Lemma res_ext s s' o r : qext s s' -> res_ok (q_hist s) o r -> res_ok (q_hist s') o r.
Proof. intros X H k c v E1 E2. eapply called_ext; eauto. Qed.
Lemma is_ext s s' k c i : qext s s' -> q_is s k c i = true -> q_is s' k c i = true.
Proof.
  unfold q_is. intros X H. destruct (nth_error (q_items s) i) as [x|] eqn:E; [|discriminate]. destruct (qx_items _ _ X i x E) as (y & -> & (-> & ->)). auto.
Qed.
Lemma cont_ext s s' o k : qext s s' -> cont_ok s o k -> cont_ok s' o k.
Proof. intros X. destruct k; cbn [cont_ok]; auto. apply res_ext; auto. Qed.
Lemma qpc_ext s s' t p : qext s s' -> qpc_ok s t p -> qpc_ok s' t p.
Proof.
  intros X. pose proof (hist_ext s s' (QInv t (QGet 0 0)) X) as _.
  destruct p; cbn [qpc_ok]; auto; intuition eauto using hist_ext, res_ext, cont_ext, mok_ext; try (eapply is_ext; eauto).
Qed.
Lemma the_read_mok s rd : qinv s -> mok s (qr_m (the_read s rd)).
Proof.
  intros C. unfold the_read. destruct (nth_in_or_default rd (q_reads s) (mkQR [] false)) as [I| ->]; [apply (qi_reads _ C); auto|intros k i []].
Qed.
Lemma gather_mok s l : forall m, mok s m -> mok s (fold_left (fun m i => match nth_error (q_items s) i with Some x => qput (q_k x) i m | None => m end) l m).
Proof.
  induction l as [|j l IH]; intros m H; cbn [fold_left]; auto. apply IH. destruct (nth_error (q_items s) j) as [x|] eqn:E; auto.
  intros k i I. destruct (in_qput _ _ _ _ I) as [[= -> ->]|]; auto. exists x. auto.
Qed.
Lemma q_gather_mok s r d : qinv s -> mok s (q_gather s r d).
Proof.
  intros C. unfold q_gather. apply gather_mok. destruct (nth_error (q_reads s) r) as [x|] eqn:E; [|intros k i []]. apply (qi_reads _ C). eapply nth_error_In; eauto.
Qed.
Lemma find_is s d k c i : q_find s d k c = Some i -> q_is s k c i = true.
Proof. unfold q_find. intros H. apply find_some in H. apply H. Qed.
Lemma q_upd_same f t p : q_upd f t p t = p.
Proof. unfold q_upd. rewrite Nat.eqb_refl. auto. Qed.
Lemma q_upd_other f t p u : u <> t -> q_upd f t p u = f u.
Proof. unfold q_upd. intros H. destruct (Nat.eqb_spec u t); congruence. Qed.

(** the pc of t after a step *)
Lemma qinv_step s t s' p : qinv s -> qext s s' -> q_pcs s' = q_upd (q_pcs s) t p ->
  (forall r, In r (q_reads s') -> mok s' (qr_m r)) -> (forall d i, In d (q_dirts s') -> In i d -> nth_error (q_items s') i <> None) ->
  (forall i x, nth_error (q_items s') i = Some x -> set_called (q_hist s') (q_k x) (q_c x) (q_v x)) ->
  qpc_ok s' t p -> (forall u o r, In (QRsp u o r) (q_hist s') -> res_ok (q_hist s') o r) -> qinv s'.
Proof.
  intros C X P A B V K R. constructor; auto. intros u. rewrite P. destruct (Nat.eq_dec u t) as [->|NE]; [rewrite q_upd_same; auto|rewrite q_upd_other by auto].
  eapply qpc_ext; eauto. apply C.
Qed.
Lemma qinv_same s t s' p e : qinv s -> q_items s' = q_items s -> q_reads s' = q_reads s -> (forall d i, In d (q_dirts s') -> In i d -> exists d', In d' (q_dirts s) /\ In i d') ->
  q_hist s' = q_hist s ++ e -> q_pcs s' = q_upd (q_pcs s) t p -> qpc_ok s' t p -> (forall u o r, In (QRsp u o r) e -> res_ok (q_hist s') o r) -> qinv s'.
Proof.
  intros C I R D H P K E. assert (X : qext s s') by (apply qext_shared; eauto). eapply qinv_step; eauto.
  - rewrite R. intros r Hr. eapply mok_ext; eauto. apply C; auto.
  - intros d i Hd Hi. destruct (D d i Hd Hi) as (d' & A & B). rewrite I. eapply (qi_dirts _ C); eauto.
  - rewrite I. intros i x N. eapply called_ext; eauto. apply (qi_val _ C i x N).
  - intros u o r. rewrite H. intros Hin. apply in_app_or in Hin as [Hin|Hin]; [|rewrite <- H; eauto]. rewrite <- H. eapply res_ext; eauto. eapply (qi_res _ C); eauto.
Qed.
Lemma res_true h o : res_ok h o QTrue.
Proof. intros k c v _ [(b & E)|E]; discriminate E. Qed.
Lemma res_panic h o : res_ok h o QPanic.
Proof. intros k c v _ [(b & E)|E]; discriminate E. Qed.
Lemma res_nil h o b : res_ok h o (QVal None b).
Proof. intros k c v _ [(b' & E)|E]; discriminate E. Qed.
Lemma val_inv s t s1 s' p e i k c v : qinv s -> s1 = set_val s i v -> ritem_ok s (QSet k c v) i -> set_called (q_hist s) k c v ->
  q_items s' = q_items s1 -> q_reads s' = q_reads s1 -> q_dirts s' = q_dirts s1 -> q_hist s' = q_hist s1 ++ e -> q_pcs s' = q_upd (q_pcs s1) t p ->
  qpc_ok s' t p -> (forall u o r, In (QRsp u o r) e -> res_ok (q_hist s') o r) -> qinv s'.
Proof.
  intros C -> RI SC I R D H P K E.
  assert (HH : q_hist (set_val s i v) = q_hist s /\ q_reads (set_val s i v) = q_reads s /\ q_dirts (set_val s i v) = q_dirts s /\ q_pcs (set_val s i v) = q_pcs s) by (unfold set_val; destruct (nth_error (q_items s) i); cbn; auto).
  destruct HH as (H1 & H2 & H3 & H4). rewrite H4 in P. rewrite H1 in H. rewrite H2 in R. rewrite H3 in D.
  assert (X : qext s s').
  { eapply qext_trans; [apply (qext_val s i v)|]. apply qext_shared; auto; [congruence|]. exists e. rewrite H1. auto. }
  eapply qinv_step; eauto.
  - rewrite R. intros r Hr. eapply mok_ext; eauto. apply C; auto.
  - rewrite D. intros d j Hd Hj. pose proof (qi_dirts _ C d j Hd Hj) as N. destruct (nth_error (q_items s) j) as [x|] eqn:Q; [|congruence].
    destruct (qx_items _ _ X j x Q) as (y & -> & _). discriminate.
  - rewrite I. intros j y N. unfold ritem_ok in RI. cbn [key_of fst snd] in RI. unfold q_is in RI. destruct (nth_error (q_items s) i) as [z|] eqn:Z; [|discriminate RI].
    unfold set_val in N. rewrite Z in N. cbn [q_items set_item] in N. rewrite put_nth_at, Z in N. destruct (Nat.eqb_spec j i) as [->|].
    + injection N as <-. cbn [q_k q_c q_v]. apply andb_true_iff in RI as [R1 R2]. replace (q_k z) with k by lia. replace (q_c z) with c by lia. eapply called_ext; eauto.
    + eapply called_ext; eauto. apply (qi_val _ C j y N).
  - intros u o r. rewrite H. intros Hin. apply in_app_or in Hin as [Hin|Hin]; [|rewrite <- H; eauto]. rewrite <- H. eapply res_ext; eauto. eapply (qi_res _ C); eauto.
Qed.
Lemma put_dirts_in {A} (l : list (list A)) d x e : In e (put_nth l d (nth d l [] ++ [x])) -> forall y, In y e -> y = x \/ exists e', In e' l /\ In y e'.
Proof.
  revert d. induction l as [|a l IH]; intros d H y Hy; [destruct d; destruct H|]. destruct d as [|d]; cbn [put_nth nth] in H.
  - destruct H as [<-|H]; [apply in_app_or in Hy as [Hy|[<-|[]]]; auto; right; exists a; split; [left|]; auto|right; exists e; split; [right|]; auto].
  - destruct H as [<-|H]; [right; exists a; split; [left|]; auto|]. destruct (IH d H y Hy) as [|(e' & A1 & A2)]; auto. right. exists e'. split; [right|]; auto.
Qed.
Lemma add_inv s t s' p e d k c v : qinv s -> set_called (q_hist s) k c v ->
  q_items s' = q_items s ++ [mkQI k c v] -> q_reads s' = q_reads s -> q_dirts s' = q_dirts (add_item s d (mkQI k c v)) -> q_hist s' = q_hist s ++ e ->
  q_pcs s' = q_upd (q_pcs s) t p -> qpc_ok s' t p -> (forall u o r, In (QRsp u o r) e -> res_ok (q_hist s') o r) -> qinv s'.
Proof.
  intros C SC I R D H P K E.
  assert (X : qext s s').
  { eapply qext_trans; [apply (qext_add s d (mkQI k c v))|]. apply qext_shared; auto. exists e. auto. }
  eapply qinv_step; eauto.
  - rewrite R. intros r Hr. eapply mok_ext; eauto. apply C; auto.
  - rewrite D, I. cbn [q_dirts add_item]. intros d' j Hd Hj. destruct (put_dirts_in _ _ _ _ Hd j Hj) as [->|(e' & A1 & A2)].
    + rewrite nth_error_app2, Nat.sub_diag by auto. discriminate.
    + pose proof (qi_dirts _ C e' j A1 A2) as N. rewrite nth_error_app1; auto. apply nth_error_Some. auto.
  - rewrite I. intros j y N. destruct (Nat.lt_ge_cases j (List.length (q_items s))) as [L|L].
    + rewrite nth_error_app1 in N by auto. eapply called_ext; eauto. apply (qi_val _ C j y N).
    + rewrite nth_error_app2 in N by auto. destruct (j - List.length (q_items s))%nat as [|q]; cbn in N; [|destruct q; discriminate N]. injection N as <-. cbn [q_k q_c q_v]. eapply called_ext; eauto.
  - intros u o r. rewrite H. intros Hin. apply in_app_or in Hin as [Hin|Hin]; [|rewrite <- H; eauto]. rewrite <- H. eapply res_ext; eauto. eapply (qi_res _ C); eauto.
Qed.
Lemma read_inv s t s' p r : qinv s -> q_items s' = q_items s -> q_reads s' = q_reads s ++ [r] -> q_dirts s' = q_dirts s -> q_hist s' = q_hist s ->
  q_pcs s' = q_upd (q_pcs s) t p -> mok s (qr_m r) -> qpc_ok s' t p -> qinv s'.
Proof.
  intros C I R D H P M K.
  assert (X : qext s s').
  { constructor; [rewrite I; intros i x N; exists x; split; [auto|split; auto]|eauto|exists []; rewrite H, app_nil_r; auto]. }
  eapply qinv_step; eauto.
  - rewrite R. intros r' Hr. apply in_app_or in Hr as [Hr|[<-|[]]]; eapply mok_ext; eauto. apply C; auto.
  - rewrite D, I. apply C.
  - rewrite I, H. apply C.
  - rewrite H. apply C.
Qed.
Lemma res_false h o : res_ok h o QFalse.
Proof. intros k c v _ [(b & E)|E]; discriminate E. Qed.
Lemma del_dirts l i d j : In d (map (filter (fun j => negb (Nat.eqb j i))) l) -> In j d -> exists d', In d' l /\ In j d'.
Proof. intros H J. apply in_map_iff in H as (d' & <- & I). apply filter_In in J as [J _]. eauto. Qed.
Ltac nodel := split; [let Q := fresh in intros Q; discriminate Q|let Q := fresh in intros (? & ? & Q); discriminate Q].
Ltac same C e := eapply (qinv_same _ _ _ _ e C); cbn [q_goto q_ret q_log set_lock q_items q_reads q_dirts q_hist q_pcs]; [reflexivity|reflexivity|eauto|rewrite ?app_nil_r; reflexivity|reflexivity| |].
Lemma eff_qinv s t s' : qinv s -> qeff s t s' -> qinv s'.
Proof.
  intros C E. pose proof (qeff_ext _ _ _ E) as X. pose proof (qi_pc _ C t) as P.
  destruct E; match goal with H : q_pcs s t = _ |- _ => rewrite H in P; cbn [qpc_ok] in P end;
   try (same C (@nil qevent); [cbn [qpc_ok]|intros u o' r' []]);
   try (match goal with |- qinv (q_ret ?a t ?o ?r) => same C [QRsp t o r]; [exact I|intros u o' r' [[= <- <- <-]|[]]] end).
  all: try exact P.
  all: try (apply res_true). all: try (apply res_false). all: try (apply res_panic). all: try (apply res_nil).
  - same C [QInv t (QSet k c v)]; [|intros u o r [Q|[]]; discriminate Q]. cbn [qpc_ok]. split; [apply in_or_app; right; left; auto|eauto].
  - same C [QInv t (QGet k c)]; [|intros u o r [Q|[]]; discriminate Q]. cbn [qpc_ok]. eauto.
  - eapply read_inv with (p := SLoad o) (r := mkQR [] false); eauto; try reflexivity. intros k i [].
  - split; auto. unfold ritem_ok. cbn [key_of fst snd]. unfold q_is. cbn [q_items q_goto]. exact (find_is _ _ _ _ _ H0).
  - split; [split; [intros a b d0 _; apply P|intros Q; discriminate Q]|]. split; [exact I|]. split; [intros _; eauto|nodel].
  - destruct P as ([P1 P2] & P3). eapply val_inv with (k := k) (c := c) (v := v) (i := i) (p := QIdle); eauto; try reflexivity; [exists t; auto|]. intros u o' r' [[= <- <- <-]|[]]. apply res_true.
  - destruct P as (P1 & P2). eapply val_inv with (k := k) (c := c) (v := v) (i := i) (p := QIdle); eauto; try reflexivity; [exact (find_is _ _ _ _ _ H0)|exists t; auto|]. intros u o' r' [[= <- <- <-]|[]]. apply res_true.
  - destruct P as (P1 & P2). eapply add_inv with (k := k) (c := c) (v := v) (d := d) (p := QIdle); eauto; try reflexivity; [exists t; auto|]. intros u o' r' [[= <- <- <-]|[]]. apply res_true.
  - destruct P as (P1 & P2). eapply val_inv with (k := k) (c := c) (v := v) (i := i) (e := []) (p := PLock (QSet k c v) true (KRet QTrue)); eauto; try reflexivity; [exact (find_is _ _ _ _ _ H0)|exists t; auto|cbn [q_hist q_goto]; rewrite app_nil_r; reflexivity| |intros u o' r' []].
    cbn [qpc_ok]. split; [split; [intros a b d0 _; eapply hist_ext; [exact X|exact P1]|intros Q; discriminate Q]|]. split; [apply res_true|]. split; [intros (rd' & Q); discriminate Q|nodel].
  - destruct P as (P1 & P2). eapply add_inv with (k := k) (c := c) (v := v) (d := d) (e := []) (p := PLock (QSet k c v) true (KRet QTrue)); eauto; try reflexivity; [exists t; auto|cbn [q_hist q_goto add_item]; rewrite app_nil_r; reflexivity| |intros u o' r' []].
    cbn [qpc_ok]. split; [split; [intros a b d0 _; eapply hist_ext; [exact X|exact P1]|intros Q; discriminate Q]|]. split; [apply res_true|]. split; [intros (rd' & Q); discriminate Q|nodel].
  - split; auto. 
  - destruct P as (P1 & P2). intros k c v EO [(b & Q)|Q]; [discriminate Q|]. injection Q as <-. unfold ritem_ok, q_is in P2. rewrite EO in P2. cbn [key_of fst snd] in P2.
    rewrite H0 in P2. apply andb_true_iff in P2 as [Q1 Q2]. replace k with (q_k x) by lia. replace c with (q_c x) by lia. refine (called_ext s _ _ _ _ X _). apply (qi_val _ C i x H0).
  - split; [eauto|]. exact (find_is _ _ _ _ _ H0).
  - destruct P as (P1 & P2). split; auto. intros k c v EO [(b & Q)|Q]; [|discriminate Q]. injection Q as <- _. unfold ritem_ok, q_is in P2. rewrite EO in P2. cbn [key_of fst snd] in P2.
    rewrite H0 in P2. apply andb_true_iff in P2 as [Q1 Q2]. replace k with (q_k x) by lia. replace c with (q_c x) by lia. eapply called_ext; eauto. apply (qi_val _ C i x H0).
  - destruct P as ((k & c & ->) & P2). split; [split; [intros a b d Q; discriminate Q|intros Q; discriminate Q]|]. split; [exact P2|]. split; [intros (rd' & Q); discriminate Q|nodel].
  - refine (res_ext s _ _ _ X _). apply P.
  - same C [QInv t (QDel k c)]; [|intros u o r [Q|[]]; discriminate Q]. cbn [qpc_ok]. split; [apply in_or_app; right; left; auto|eauto].
  - eapply (qinv_same s t _ (DMiss o) []); auto; try reflexivity; cbn [q_dirts q_hist del_item q_goto]; [|rewrite app_nil_r; auto|intros u o' r' []]. intros d j. apply del_dirts.
  - destruct P as (P0 & k & c & ->). split; [split; intros; exact P0|]. split; [exact I|]. split; [intros (rd' & Q); discriminate Q|]. split; eauto.
  - destruct P as ((_ & P1) & P2 & P3 & P4). split; [apply P1; reflexivity|apply P4; reflexivity].
  - split; [exact P|]. intros k' i' Hin. eapply iok_ext; [exact X|]. exact (q_gather_mok s r d C k' i' Hin).
  - eapply read_inv with (p := PUnl o k); eauto; try reflexivity; apply P.
  - apply P.
  - eapply (qinv_same s t _ (PLock2 o k) []); auto; try reflexivity; cbn [q_dirts q_hist new_dirty q_goto]; [|rewrite app_nil_r; auto|intros u o' r' []].
    intros d i Hd Hi. apply in_app_or in Hd as [Hd|[<-|[]]]; [eauto|destruct Hi].
  - destruct P as ((P1 & _) & P2 & P3 & _). destruct P3 as (a & b & d & ->); [eauto|]. split; [eapply P1; reflexivity|eauto].
  - refine (res_ext s _ _ _ X _). apply P.
Qed.
Lemma qinit_inv : qinv qinit.
Proof.
  constructor; cbn [q_reads q_dirts q_items q_pcs q_hist qinit]; try (intros; contradiction); try (intros t; exact I).
  - intros d i [<-|[]] [].
  - intros i x N. destruct i; discriminate N.
Qed.
Definition qreach (s : qstate) : Prop := exists ls, qrun qinit ls = Some s.
Lemma qreach_inv s : qreach s -> qinv s.
Proof. intros (ls & R). refine (qrun_ind qinv _ ls qinit s qinit_inv R). intros; eapply eff_qinv; eauto. Qed.
