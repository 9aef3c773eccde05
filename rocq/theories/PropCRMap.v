(** Property theorems about concurrent Set and Get on an RMap: C57-C59. The model is ConcRMap.v. *)
From Verif Require Import Base ConcRMap ConcRMapProofs.
From Coq Require Import PeanoNat ZifyBool.
Local Open Scope Z_scope.
Local Open Scope list_scope.

(** * Vocabulary *)
Definition q_quiet (s : qstate) : Prop := forall t, q_pcs s t = QIdle.
(** goroutine t runs alone until its call returns; a Get that missed does not promote *)
Fixpoint q_alone (s : qstate) (t fuel : nat) : option qstate :=
  match fuel with
  | O => None
  | S f => match q_pcs s t with
           | QIdle => Some s
           | GMiss _ _ => match qstep s (t, QPromote false) with Some s' => q_alone s' t f | None => None end
           | _ => match qstep s (t, QStep) with Some s' => q_alone s' t f | None => None end
           end
  end.
Definition last_res (s : qstate) : option qres := match rev (q_hist s) with QRsp _ _ r :: _ => Some r | _ => None end.
(** what a Get answers if it runs alone from s *)
Definition get_alone (s : qstate) (t : nat) (k c : Z) : option qres :=
  match qstep s (t, QCall (QGet k c)) with
  | Some s1 => match q_alone s1 t 10 with Some s2 => last_res s2 | None => None end
  | None => None
  end.
(** a Get that runs alone finds v: as the value or in its holder *)
Definition finds (s : qstate) (k c v : Z) : Prop :=
  forall t, q_pcs s t = QIdle -> get_alone s t k c = Some (QBox v) \/ get_alone s t k c = Some (QVal (Some v) true).
Definition q_always (s : qstate) (ls : list qlabel) (P : qstate -> Prop) : Prop := forall p q s', ls = p ++ q -> qrun s p = Some s' -> P s'.
(** no two keys with one 64-bit hash *)
Definition q_nocol (h : list qevent) : Prop := forall t u k c c' v v', In (QInv t (QSet k c v)) h -> In (QInv u (QSet k c' v')) h -> c = c'.

(** * C59: values *)
(** Every schedule: a value that a Get reports was the argument of a Set of that key called before. *)
Theorem C59_values s h1 t k c r h2 v : qreach s -> q_hist s = h1 ++ QRsp t (QGet k c) r :: h2 ->
  r = QBox v \/ (exists b, r = QVal (Some v) b) -> exists u, In (QInv u (QSet k c v)) h1.
Proof.
  intros (ls & R). revert s h2 R. induction ls as [|[u a] ls IH] using rev_ind; intros s h2 R E V.
  - injection R as <-. destruct h1; discriminate E.
  - rewrite qrun_app in R. destruct (qrun qinit ls) as [s1|] eqn:R1; [|discriminate R]. cbn [qrun] in R. destruct (qstep s1 (u, a)) as [s2|] eqn:ST; [|discriminate R]. injection R as <-.
    apply qstep_eff in ST. assert (C : qinv s1) by (apply qreach_inv; exists ls; auto). pose proof (eff_qinv _ _ _ C ST) as C2.
    assert (HH : q_hist s2 = q_hist s1 \/ exists e, q_hist s2 = q_hist s1 ++ [e]).
    { assert (SV : forall i v0, q_hist (set_val s1 i v0) = q_hist s1) by (intros i v0; unfold set_val; destruct (nth_error (q_items s1) i); auto).
      destruct ST; cbn [q_hist q_goto q_ret q_log new_read new_dirty add_item set_lock]; rewrite ?SV; eauto. }
    destruct HH as [HH|(e & HH)]; [rewrite HH in E; eauto|]. destruct h2 as [|x h2 _] using rev_ind.
    + rewrite HH in E. apply app_inj_tail in E as [E1 E2]. subst e.
      assert (RO : res_ok (q_hist s2) (QGet k c) r) by (apply (qi_res _ C2 t); rewrite HH; apply in_or_app; right; left; auto).
      destruct (RO k c v eq_refl) as (w & I); [destruct V as [->|(b & ->)]; eauto|]. exists w. rewrite HH in I. apply in_app_or in I as [I|[I|[]]]; [rewrite <- E1; auto|discriminate I].
    + rewrite HH in E. rewrite app_comm_cons, app_assoc in E. apply app_inj_tail in E as [E1 E2]. eauto.
Qed.
Print Assumptions C59_values.

(** * Where a key is *)
Definition cur_dirty (s : qstate) : list nat := nth (q_dirty s) (q_dirts s) [].
Definition in_read (s : qstate) (k : Z) : Prop := exists rd i, q_read s = Some rd /\ qassoc k (qr_m (the_read s rd)) = Some i.
Definition in_dirty (s : qstate) (k : Z) : Prop := exists i x, In i (cur_dirty s) /\ nth_error (q_items s) i = Some x /\ q_k x = k.
Definition amended (s : qstate) : Prop := exists rd, q_read s = Some rd /\ qr_am (the_read s rd) = true.
Definition pres (s : qstate) (k : Z) : Prop := in_read s k \/ amended s /\ in_dirty s k.

Lemma alone_step s t s1 f : q_pcs s t <> QIdle -> (forall o v, q_pcs s t <> GMiss o v) -> qstep s (t, QStep) = Some s1 -> q_alone s t (S f) = q_alone s1 t f.
Proof. intros A B E. cbn [q_alone]. rewrite E. destruct (q_pcs s t) eqn:P; try congruence; try reflexivity; exfalso; eapply B; eauto. Qed.
Lemma alone_idle s t f : q_pcs s t = QIdle -> q_alone s t (S f) = Some s.
Proof. intros P. cbn [q_alone]. rewrite P. auto. Qed.
Lemma alone_miss s t f o v : q_pcs s t = GMiss o v -> q_alone s t (S f) = q_alone (q_ret s t o (QVal (Some v) true)) t f.
Proof. intros P. cbn [q_alone qstep]. rewrite P. reflexivity. Qed.
(** the answer of a Get that runs alone *)
Lemma alone_read s t k c rd i x : q_pcs s t = QIdle -> q_read s = Some rd -> qassoc k (qr_m (the_read s rd)) = Some i -> nth_error (q_items s) i = Some x -> q_k x = k -> q_c x = c ->
  get_alone s t k c = Some (QBox (q_v x)).
Proof.
  intros P R A N K C. unfold get_alone. cbn [qstep]. rewrite P. 
  set (s0 := mkQ (q_items s) (q_reads s) (q_read s) (q_dirts s) (q_dirty s) (q_lock s) (q_pcs s) (q_hist s ++ [QInv t (QGet k c)])).
  set (s1 := q_goto s0 t (GLoad (QGet k c))). assert (P1 : q_pcs s1 t = GLoad (QGet k c)) by (apply q_upd_same).
  rewrite (alone_step s1 t (q_goto s1 t (GVal (QGet k c) i))); [|rewrite P1; discriminate|rewrite P1; discriminate|].
  2:{ cbn [qstep]. rewrite P1. change (q_read s1) with (q_read s). rewrite R. change (the_read s1 rd) with (the_read s rd). rewrite A.
      unfold q_is. change (q_items s1) with (q_items s). rewrite N, K, C, !Z.eqb_refl. reflexivity. }
  set (s2 := q_goto s1 t (GVal (QGet k c) i)). assert (P2 : q_pcs s2 t = GVal (QGet k c) i) by (apply q_upd_same).
  rewrite (alone_step s2 t (q_ret s2 t (QGet k c) (QBox (q_v x)))); [|rewrite P2; discriminate|rewrite P2; discriminate|].
  2:{ cbn [qstep]. rewrite P2. change (q_items s2) with (q_items s). rewrite N. reflexivity. }
  rewrite alone_idle by (apply q_upd_same). unfold last_res. cbn [q_hist q_ret]. rewrite rev_unit. reflexivity.
Qed.
Lemma alone_dirty s t k c rd i x : q_pcs s t = QIdle -> q_read s = Some rd -> qassoc k (qr_m (the_read s rd)) = None -> qr_am (the_read s rd) = true ->
  q_find s (q_dirty s) k c = Some i -> nth_error (q_items s) i = Some x -> get_alone s t k c = Some (QVal (Some (q_v x)) true).
Proof.
  intros P R A AM F N. unfold get_alone. cbn [qstep]. rewrite P. 
  set (s0 := mkQ (q_items s) (q_reads s) (q_read s) (q_dirts s) (q_dirty s) (q_lock s) (q_pcs s) (q_hist s ++ [QInv t (QGet k c)])).
  set (s1 := q_goto s0 t (GLoad (QGet k c))). assert (P1 : q_pcs s1 t = GLoad (QGet k c)) by (apply q_upd_same).
  rewrite (alone_step s1 t (q_goto s1 t (GLoad2 (QGet k c)))); [|rewrite P1; discriminate|rewrite P1; discriminate|].
  2:{ cbn [qstep]. rewrite P1. change (q_read s1) with (q_read s). rewrite R. change (the_read s1 rd) with (the_read s rd). rewrite A, AM. reflexivity. }
  set (s2 := q_goto s1 t (GLoad2 (QGet k c))). assert (P2 : q_pcs s2 t = GLoad2 (QGet k c)) by (apply q_upd_same).
  rewrite (alone_step s2 t (q_goto s2 t (GPtr (QGet k c)))); [|rewrite P2; discriminate|rewrite P2; discriminate|].
  2:{ cbn [qstep]. rewrite P2. change (q_read s2) with (q_read s). rewrite R. change (the_read s2 rd) with (the_read s rd). rewrite A, AM. reflexivity. }
  set (s3 := q_goto s2 t (GPtr (QGet k c))). assert (P3 : q_pcs s3 t = GPtr (QGet k c)) by (apply q_upd_same).
  rewrite (alone_step s3 t (q_goto s3 t (GFind (QGet k c) (q_dirty s)))); [|rewrite P3; discriminate|rewrite P3; discriminate|cbn [qstep]; rewrite P3; reflexivity].
  set (s4 := q_goto s3 t (GFind (QGet k c) (q_dirty s))). assert (P4 : q_pcs s4 t = GFind (QGet k c) (q_dirty s)) by (apply q_upd_same).
  rewrite (alone_step s4 t (q_goto s4 t (GRd (QGet k c) i))); [|rewrite P4; discriminate|rewrite P4; discriminate|].
  2:{ cbn [qstep]. rewrite P4. change (q_find s4 (q_dirty s) k c) with (q_find s (q_dirty s) k c). rewrite F. reflexivity. }
  set (s5 := q_goto s4 t (GRd (QGet k c) i)). assert (P5 : q_pcs s5 t = GRd (QGet k c) i) by (apply q_upd_same).
  rewrite (alone_step s5 t (q_goto s5 t (GMiss (QGet k c) (q_v x)))); [|rewrite P5; discriminate|rewrite P5; discriminate|].
  2:{ cbn [qstep]. rewrite P5. change (q_items s5) with (q_items s). rewrite N. reflexivity. }
  set (s6 := q_goto s5 t (GMiss (QGet k c) (q_v x))). assert (P6 : q_pcs s6 t = GMiss (QGet k c) (q_v x)) by (apply q_upd_same).
  rewrite (alone_miss s6 t _ _ _ P6).
  rewrite alone_idle by (apply q_upd_same). unfold last_res. cbn [q_hist q_ret]. rewrite rev_unit. reflexivity.
Qed.
Lemma find_ex {A} (f : A -> bool) l x : In x l -> f x = true -> exists y, find f l = Some y /\ In y l /\ f y = true.
Proof.
  intros I E. destruct (find f l) as [y|] eqn:F; [exists y; split; auto; apply find_some in F; auto|]. pose proof (find_none f l F x I). congruence.
Qed.
(** a key with a place is found, with a value it was Set to *)
Lemma pres_finds s k c v0 : qinv s -> q_nocol (q_hist s) -> set_called (q_hist s) k c v0 -> pres s k -> exists v, finds s k c v /\ set_called (q_hist s) k c v.
Proof.
  intros C NC (t0 & I0) H.
  assert (IT : forall i x, nth_error (q_items s) i = Some x -> q_k x = k -> q_c x = c /\ set_called (q_hist s) k c (q_v x)).
  { intros i x N K. destruct (qi_val _ C i x N) as (t & I). rewrite K in I. pose proof (NC _ _ _ _ _ _ _ I I0) as Q. split; auto. exists t. rewrite Q in I. auto. }
  destruct H as [(rd & i & R & A)|[(rd & R & AM) (i & x & I & N & K)]].
  - destruct (the_read_mok s rd C k i (qassoc_in _ _ _ A)) as (x & N & K). destruct (IT i x N K) as [Cx Sx]. exists (q_v x). split; auto.
    intros t P. left. eapply alone_read; eauto.
  - destruct (qassoc k (qr_m (the_read s rd))) as [j|] eqn:A.
    + destruct (the_read_mok s rd C k j (qassoc_in _ _ _ A)) as (y & M & Ky). destruct (IT j y M Ky) as [Cx Sx]. exists (q_v y). split; auto. intros t P. left. eapply alone_read; eauto.
    + destruct (IT i x N K) as [Cx _]. destruct (find_ex (q_is s k c) (cur_dirty s) i I) as (j & F & J & E); [unfold q_is; rewrite N, K, Cx, !Z.eqb_refl; auto|].
      unfold q_is in E. destruct (nth_error (q_items s) j) as [y|] eqn:M; [|discriminate E]. apply andb_true_iff in E as [E1 E2]. destruct (IT j y M) as [_ Sy]; [lia|].
      exists (q_v y). split; auto. intros t P. right. eapply alone_dirty; eauto.
Qed.

(** * C57: Sets *)
(** the goroutine is inside a Set or a Delete, or inside a promotion (storeReadFromDirty) *)
Definition writer (p : qpc) : bool :=
  match p with
  | QIdle | GLoad _ | GVal _ _ | GLoad2 _ | GPtr _ | GFind _ _ | GRd _ _ | GMiss _ _ => false
  | _ => true
  end.
Definition one_writer (s : qstate) : Prop := forall t u, writer (q_pcs s t) = true -> writer (q_pcs s u) = true -> t = u.
(** the key k has been Set, and no Delete of a key with its hash was called after that *)
Definition no_del (h : list qevent) (k : Z) : Prop := forall t c, ~ In (QInv t (QDel k c)) h.
Definition done (h : list qevent) (k : Z) : Prop := exists h1 t c v h2, h = h1 ++ QRsp t (QSet k c v) QTrue :: h2 /\ no_del h2 k.
Definition set_done (s : qstate) (k : Z) : Prop := done (q_hist s) k.
Lemma done_app h e k : done (h ++ e) k -> done h k /\ no_del e k \/ exists u c v, In (QRsp u (QSet k c v) QTrue) e.
Proof.
  intros (h1 & t & c & v & h2 & E & N). revert h E. induction h1 as [|x h1 IH]; intros h E; cbn [app] in E.
  - destruct h as [|y h]; cbn [app] in E; [right; subst e; exists t, c, v; left; auto|]. injection E as -> <-. left. split.
    + exists [], t, c, v, h. split; auto. intros u c' I. apply (N u c'). apply in_or_app. auto.
    + intros u c' I. apply (N u c'). apply in_or_app. auto.
  - destruct h as [|y h]; cbn [app] in E; [right; subst e; exists t, c, v; right; apply in_or_app; right; left; auto|]. injection E as -> E. destruct (IH h E) as [[A B]|A]; auto. left. split; auto.
    destruct A as (g1 & t' & c' & v' & g2 & -> & A). exists (x :: g1), t', c', v', g2. auto.
Qed.
Lemma done_in h k : done h k -> exists t c v, In (QRsp t (QSet k c v) QTrue) h.
Proof. intros (h1 & t & c & v & h2 & -> & _). exists t, c, v. apply in_or_app. right. left. auto. Qed.

Definition ground (s : qstate) : Prop := cur_dirty s = [] \/ amended s.
Definition own (o : qcall) (P : Z -> Prop) : Prop := forall k c v, o = QSet k c v -> P k.
Definition before_cas (s : qstate) (o : qcall) (am : bool) (k : qcont) : Prop :=
  q_read s <> None /\ match k with
                      | KStore rd => q_read s = Some rd /\ cur_dirty s = [] /\ am = true
                      | _ => own o (fun k => in_read s k \/ in_dirty s k)
                      end.
Definition after_cas (s : qstate) (o : qcall) (k : qcont) : Prop :=
  q_read s <> None /\ (forall x, in_dirty s x -> in_read s x) /\
  match k with KStore rd => amended s /\ cur_dirty s = [] | _ => own o (in_read s) end.
Definition wok (s : qstate) (p : qpc) : Prop :=
  match p with
  | QIdle | GLoad _ => True
  | GVal _ _ | GLoad2 _ | GPtr _ | GFind _ _ | GRd _ _ | GMiss _ _ => q_read s <> None
  | SLoad _ => ground s
  | SInit _ => ground s /\ q_read s = None
  | SPtr _ rd => ground s /\ q_read s = Some rd
  | SFind _ rd d => ground s /\ q_read s = Some rd /\ d = q_dirty s
  | SUpd o i => ground s /\ own o (pres s)
  | SPtr2 _ rd => ground s /\ q_read s <> None /\ (qr_m (the_read s rd) <> [] -> amended s)
  | SStore _ rd d => ground s /\ q_read s <> None /\ (qr_m (the_read s rd) <> [] -> amended s) /\ d = q_dirty s
  | DLoad o => ground s /\ ~ set_done s (fst (key_of o))
  | DAcq o | DRead o | DPtr o => (ground s /\ ~ set_done s (fst (key_of o))) /\ q_read s <> None
  | DFind o d => (ground s /\ ~ set_done s (fst (key_of o))) /\ q_read s <> None /\ d = q_dirty s
  | DDel o i => (ground s /\ ~ set_done s (fst (key_of o))) /\ q_read s <> None /\ ritem_ok s o i
  | DMiss _ => ground s /\ q_read s <> None
  | DUnl _ => ground s
  | PLock o am k | PRead o am k => before_cas s o am k
  | PPtr o am k r => before_cas s o am k /\ q_read s = Some r
  | PScan o am k r d => before_cas s o am k /\ q_read s = Some r /\ d = q_dirty s
  | PCas o am k r nm => before_cas s o am k /\ q_read s = Some r /\ nm = q_gather s r (q_dirty s)
  | PUnl o k | PInit o k => after_cas s o k
  | PLock2 o k => after_cas s o k /\ ground s
  | PEnd o k => ground s /\ q_read s <> None /\ match k with KStore rd => qr_m (the_read s rd) <> [] -> amended s | _ => own o (pres s) end
  end.
Record winv (s : qstate) : Prop := {
  w_pc : forall t, wok s (q_pcs s t);
  w_ground : (forall t, writer (q_pcs s t) = false) -> ground s;
  w_done : forall k, set_done s k -> pres s k;
  w_dirty : (q_dirty s < List.length (q_dirts s))%nat }.

(** steps that leave the shared state alone *)
Definition same_shared (s s' : qstate) : Prop :=
  q_items s' = q_items s /\ q_reads s' = q_reads s /\ q_read s' = q_read s /\ q_dirts s' = q_dirts s /\ q_dirty s' = q_dirty s.
Lemma sh_ground s s' : same_shared s s' -> ground s -> ground s'.
Proof. destruct s, s'. unfold same_shared. cbn. intros (-> & -> & -> & -> & ->). exact (fun x => x). Qed.
Lemma sh_pres s s' k : same_shared s s' -> pres s k -> pres s' k.
Proof. destruct s, s'. unfold same_shared. cbn. intros (-> & -> & -> & -> & ->). exact (fun x => x). Qed.
Lemma own_imp o (P Q : Z -> Prop) : (forall k, P k -> Q k) -> own o P -> own o Q.
Proof. intros H X k c v E. apply H. eapply X; eauto. Qed.
Lemma sh_wok s s' p : same_shared s s' -> (forall k, set_done s' k -> set_done s k) -> wok s p -> wok s' p.
Proof.
  destruct s, s'. unfold same_shared. cbn. intros (-> & -> & -> & -> & ->) D. destruct p; try exact (fun x => x); cbn [wok]; intuition.
Qed.
Lemma others_quiet s t u : one_writer s -> writer (q_pcs s t) = true -> u <> t -> writer (q_pcs s u) = false.
Proof. intros O W NE. destruct (writer (q_pcs s u)) eqn:E; auto. exfalso. apply NE. apply O; auto. Qed.
(** a pc that does not mind what a writer does, as long as there is a read map *)
Lemma reader_wok s s' p : writer p = false -> (q_read s <> None -> q_read s' <> None) -> wok s p -> wok s' p.
Proof. destruct p; cbn [wok writer]; try discriminate; auto. Qed.
(** one step of t *)
Lemma winv_step s t s' p : winv s -> one_writer s -> one_writer s' -> q_pcs s' = q_upd (q_pcs s) t p ->
  (same_shared s s' /\ (writer (q_pcs s t) = false -> forall k, set_done s' k -> set_done s k) \/ writer (q_pcs s t) = true) -> (q_read s <> None -> q_read s' <> None) ->
  wok s' p -> (writer p = false -> writer (q_pcs s t) = true -> ground s') ->
  (forall k, set_done s' k -> pres s' k) -> (q_dirty s' < List.length (q_dirts s'))%nat -> winv s'.
Proof.
  intros W O O' P SH RN K G D DD. constructor; auto.
  - intros u. rewrite P. destruct (Nat.eq_dec u t) as [->|NE]; [rewrite q_upd_same; auto|rewrite q_upd_other by auto].
    destruct (writer (q_pcs s t)) eqn:WR; [apply (reader_wok s s'); auto; [eapply others_quiet; eauto|apply W]|]. destruct SH as [[SH SD]|]; [|discriminate].
    eapply sh_wok; eauto; apply W.
  - intros A. pose proof (A t) as At. rewrite P, q_upd_same in At. destruct (writer (q_pcs s t)) eqn:WR; [apply G; auto|].
    destruct SH as [[SH _]|]; [|discriminate]. eapply sh_ground; eauto. apply (w_ground _ W). intros u. destruct (Nat.eq_dec u t) as [->|NE]; auto.
    specialize (A u). rewrite P, q_upd_other in A by auto. auto.
Qed.
(** the steps of a Get, the calls, and the reading steps of a Set *)
Lemma winv_read s t s' p e : winv s -> one_writer s -> one_writer s' -> q_pcs s' = q_upd (q_pcs s) t p -> same_shared s s' -> q_hist s' = q_hist s ++ e ->
  wok s' p -> (writer p = false -> writer (q_pcs s t) = true -> ground s') ->
  (forall u k c v, In (QRsp u (QSet k c v) QTrue) e -> writer (q_pcs s t) = true /\ pres s' k) -> winv s'.
Proof.
  intros W O O' P SH H K G D. eapply winv_step; eauto.
  - left. split; auto. intros WR k. unfold set_done. rewrite H. intros I. destruct (done_app _ _ _ I) as [[I1 _]|(u & c & v & I1)]; auto. destruct (D u k c v I1). congruence.
  - destruct SH as (_ & _ & -> & _). auto.
  - intros k. unfold set_done. rewrite H. intros I. destruct (done_app _ _ _ I) as [[I1 _]|(u & c & v & I1)]; [|eapply D; eauto]. eapply sh_pres; eauto. apply (w_done _ W). auto.
  - destruct SH as (_ & _ & _ & -> & ->). apply W.
Qed.
Lemma gather_keeps s l k : forall m, qassoc k m <> None -> qassoc k (fold_left (fun m i => match nth_error (q_items s) i with Some x => qput (q_k x) i m | None => m end) l m) <> None.
Proof.
  induction l as [|j l IH]; intros m H; cbn [fold_left]; auto. apply IH. destruct (nth_error (q_items s) j) as [x|]; auto. rewrite qassoc_put. destruct (q_k x =? k); [discriminate|auto].
Qed.
Lemma gather_adds s l i x : In i l -> nth_error (q_items s) i = Some x -> forall m, qassoc (q_k x) (fold_left (fun m i => match nth_error (q_items s) i with Some x => qput (q_k x) i m | None => m end) l m) <> None.
Proof.
  induction l as [|j l IH]; intros I N m; [destruct I|]. cbn [fold_left]. destruct I as [->|I]; [|apply IH; auto].
  rewrite N. apply gather_keeps. rewrite qassoc_put, Z.eqb_refl. discriminate.
Qed.
Lemma the_read_error s r : qr_m (the_read s r) = match nth_error (q_reads s) r with Some x => qr_m x | None => [] end.
Proof.
  unfold the_read. destruct (nth_error (q_reads s) r) as [x|] eqn:E; [rewrite (nth_error_nth _ _ _ E); auto|]. rewrite nth_overflow; [auto|]. apply nth_error_None; auto.
Qed.
Lemma gather_has s r k : q_read s = Some r -> in_read s k \/ in_dirty s k -> qassoc k (q_gather s r (q_dirty s)) <> None.
Proof.
  intros R [(r' & i & R' & A)|(i & x & I & N & <-)].
  - rewrite R in R'. injection R' as <-. unfold q_gather. apply gather_keeps. rewrite <- the_read_error, A. discriminate.
  - unfold q_gather. eapply gather_adds; eauto.
Qed.
Lemma become_writer s t s' p : one_writer s' -> q_pcs s' = q_upd (q_pcs s) t p -> writer p = true -> writer (q_pcs s t) = false -> forall u, writer (q_pcs s u) = false.
Proof.
  intros O P W N u. destruct (Nat.eq_dec u t) as [->|NE]; auto. destruct (writer (q_pcs s u)) eqn:E; auto. exfalso. apply NE.
  apply O; rewrite P; [rewrite q_upd_other by auto; auto|rewrite q_upd_same; auto].
Qed.
(** SetValue *)
Lemma val_same s i v : q_reads (set_val s i v) = q_reads s /\ q_read (set_val s i v) = q_read s /\ q_dirts (set_val s i v) = q_dirts s /\ q_dirty (set_val s i v) = q_dirty s /\ q_hist (set_val s i v) = q_hist s /\ q_pcs (set_val s i v) = q_pcs s.
Proof. unfold set_val. destruct (nth_error (q_items s) i); cbn; auto 10. Qed.
Lemma val_pres s s' i v k : q_items s' = q_items (set_val s i v) -> q_reads s' = q_reads s -> q_read s' = q_read s -> q_dirts s' = q_dirts s -> q_dirty s' = q_dirty s -> 
  (pres s k -> pres s' k) /\ (in_read s k -> in_read s' k) /\ (in_dirty s k -> in_dirty s' k) /\ (amended s -> amended s') /\ (ground s -> ground s') /\ cur_dirty s' = cur_dirty s.
Proof.
  intros I R C D E.
  assert (A1 : in_read s k -> in_read s' k) by (unfold in_read, the_read; rewrite R, C; auto).
  assert (A2 : amended s -> amended s') by (unfold amended, the_read; rewrite R, C; auto).
  assert (A3 : cur_dirty s' = cur_dirty s) by (unfold cur_dirty; rewrite D, E; auto).
  assert (A4 : in_dirty s k -> in_dirty s' k).
  { intros (j & x & J & N & K). destruct (set_val_item s i v j x N) as (y & M & (Q & _) & _). exists j, y. rewrite A3, I. repeat split; auto. congruence. }
  unfold pres, ground. rewrite A3. tauto.
Qed.
(** StoreItem of a new item into the current dirty map *)
Lemma add_pres s s' x : (q_dirty s < List.length (q_dirts s))%nat -> q_items s' = q_items s ++ [x] -> q_reads s' = q_reads s -> q_read s' = q_read s ->
  q_dirts s' = q_dirts (add_item s (q_dirty s) x) -> q_dirty s' = q_dirty s ->
  (forall k, in_read s k -> in_read s' k) /\ (forall k, in_dirty s k -> in_dirty s' k) /\ (amended s -> amended s') /\ in_dirty s' (q_k x).
Proof.
  intros L I R C D E.
  assert (A3 : cur_dirty s' = cur_dirty s ++ [List.length (q_items s)]).
  { unfold cur_dirty. rewrite D, E. cbn [q_dirts add_item]. rewrite put_nth_nth, Nat.eqb_refl. apply Nat.ltb_lt in L. rewrite L. auto. }
  split; [unfold in_read, the_read; rewrite R, C; auto|]. split; [|split; [unfold amended, the_read; rewrite R, C; auto|]].
  - intros k (j & y & J & N & K). exists j, y. rewrite A3, I. split; [apply in_or_app; auto|]. split; auto. rewrite nth_error_app1; auto. apply nth_error_Some. congruence.
  - exists (List.length (q_items s)), x. rewrite A3, I. split; [apply in_or_app; right; left; auto|]. rewrite nth_error_app2, Nat.sub_diag by auto. auto.
Qed.
Lemma new_read_is s r : q_read (new_read s r) = Some (List.length (q_reads s)) /\ the_read (new_read s r) (List.length (q_reads s)) = r.
Proof. split; auto. unfold the_read. cbn [q_reads new_read]. rewrite app_nth2, Nat.sub_diag by auto. auto. Qed.
Lemma own_get k c P : own (QGet k c) P.
Proof. intros a b v E. discriminate E. Qed.
Lemma eff_winv s t s' : qinv s -> winv s -> one_writer s -> one_writer s' -> qeff s t s' -> winv s'.
Proof.
  intros C W O O' E. pose proof (qi_pc _ C t) as QP. pose proof (w_pc _ W t) as K.
  destruct E; match goal with H : q_pcs s t = _ |- _ => rewrite H in K, QP; cbn [wok qpc_ok] in K, QP end.
  Ltac rd e W O O' := eapply (winv_read _ _ _ _ e W O O'); cbn [q_goto q_ret q_log set_lock q_hist q_pcs]; [reflexivity|repeat split|rewrite ?app_nil_r; reflexivity| | |].
  Ltac rd0 W O O' := rd (@nil qevent) W O O'; [|try discriminate|intros ? ? ? ? []].
  Ltac rdr t o r W O O' := rd [QRsp t o r] W O O'; [exact I| |].
  Ltac getr := let Q := fresh in intros ? ? ? ? [Q|[]]; discriminate Q.
  - rd [QInv t (QSet k c v)] W O O'; [|discriminate|getr]. cbn [wok]. eapply sh_ground; [|apply (w_ground _ W)]; [repeat split|]. eapply become_writer; [exact O'|reflexivity|reflexivity|rewrite H; reflexivity].
  - rd [QInv t (QGet k c)] W O O'; [exact I|rewrite H; discriminate|getr].
  - rd0 W O O'. cbn [wok]. auto.
  - rdr t (QSet k c v) QTrue W O O'; [intros _ _; exact K|]. intros u k' c' v' [Q|[]]. injection Q as -> <- <- <-. split; [rewrite H; reflexivity|]. left. exists rd, i. auto.
  - rd0 W O O'. cbn [wok]. auto.
  - (* SInit *) destruct K as [G R0].
    assert (D0 : cur_dirty s = []) by (destruct G as [|(r & Q & _)]; [auto|congruence]).
    refine (winv_step s t _ (SLoad o) W O O' _ _ _ _ _ _ _); [reflexivity|right; rewrite H; reflexivity|cbn; discriminate|left; exact D0|discriminate| |apply W].
    intros k I. destruct (w_done _ W k I) as [(r & i & Q & _)|[(r & Q & _) _]]; congruence.
  - rd0 W O O'. cbn [wok]. destruct K. auto.
  - rd0 W O O'. cbn [wok]. destruct K as (G & R & ->). split; [exact G|]. intros k' c' v' [= <- <- <-]. right.
    unfold q_find in H0. pose proof (find_is _ _ _ _ _ H0) as IS. apply find_some in H0 as [I _]. unfold q_is in IS. destruct (nth_error (q_items s) i) as [x|] eqn:N; [|discriminate IS].
    split; [destruct G as [G|G]; [unfold cur_dirty in G; rewrite G in I; destruct I|exact G]|]. exists i, x. repeat split; auto. lia.
  - rd0 W O O'. cbn [wok]. destruct K as (G & R & ->). split; [exact G|]. split; [cbn; congruence|]. intros _. exists rd. auto.
  - rd0 W O O'. cbn [wok before_cas]. destruct K as (G & R & ->). split; [cbn; congruence|]. split; [exact R|]. split; [|reflexivity].
    destruct G as [G|(r & Q & A)]; [exact G|congruence].
  - (* SUpd *) destruct K as [G OW]. destruct (val_same s i v) as (V1 & V2 & V3 & V4 & V5 & V6).
    assert (VP : forall k0, _) by (intros k0; exact (val_pres s (q_ret (set_val s i v) t (QSet k c v) QTrue) i v k0 eq_refl V1 V2 V3 V4)).
    refine (winv_step s t _ (QIdle) W O O' _ _ _ _ _ _ _); [cbn; rewrite V6; reflexivity|right; rewrite H; reflexivity|cbn; rewrite V2; auto|exact I|intros _ _; apply (VP 0); auto| |cbn; rewrite V3, V4; apply W].
    intros k' HI. apply VP. unfold set_done in HI. cbn [q_hist q_ret] in HI. rewrite V5 in HI. apply done_app in HI as [[HI _]|(u & c' & v' & [HI|[]])]; [apply (w_done _ W); auto|].
    injection HI as <- <- <- <-. eapply OW. reflexivity.
  - rd0 W O O'. cbn [wok]. destruct K as (G & R & A). auto.
  - (* StoreItem finds it *) destruct K as (G & R & A & ->). specialize (A H1). destruct (val_same s i v) as (V1 & V2 & V3 & V4 & V5 & V6).
    assert (VP : forall k0, _) by (intros k0; exact (val_pres s (q_ret (set_val s i v) t (QSet k c v) QTrue) i v k0 eq_refl V1 V2 V3 V4)).
    refine (winv_step s t _ (QIdle) W O O' _ _ _ _ _ _ _); [cbn; rewrite V6; reflexivity|right; rewrite H; reflexivity|cbn; rewrite V2; auto|exact I|intros _ _; apply (VP 0); auto| |cbn; rewrite V3, V4; apply W].
    intros k' HI. apply VP. unfold set_done in HI. cbn [q_hist q_ret] in HI. rewrite V5 in HI. apply done_app in HI as [[HI _]|(u & c' & v' & [HI|[]])]; [apply (w_done _ W); auto|].
    injection HI as <- <- <- <-. right. split; auto. unfold q_find in H0. pose proof (find_is _ _ _ _ _ H0) as IS. apply find_some in H0 as [Hi _]. unfold q_is in IS. destruct (nth_error (q_items s) i) as [x|] eqn:N; [|discriminate IS].
    exists i, x. repeat split; auto. lia.
  - (* new item, returns *) destruct K as (G & R & A & ->). specialize (A H1).
    destruct (add_pres s (q_ret (add_item s (q_dirty s) (mkQI k c v)) t (QSet k c v) QTrue) (mkQI k c v) (w_dirty _ W) eq_refl eq_refl eq_refl eq_refl eq_refl) as (P1 & P2 & P3 & P4).
    refine (winv_step s t _ (QIdle) W O O' _ _ _ _ _ _ _); [reflexivity|right; rewrite H; reflexivity|auto|exact I|intros _ _; right; auto| |cbn; rewrite put_nth_length; apply W].
    intros k' HI. unfold set_done in HI. cbn [q_hist q_ret add_item] in HI. apply done_app in HI as [[HI _]|(u & c' & v' & [HI|[]])].
    + destruct (w_done _ W k' HI) as [Q|[Q1 Q2]]; [left; auto|right; auto].
    + injection HI as <- <- <- <-. right. auto.
  - (* found, read map empty *) destruct K as (G & R & A & ->). destruct (val_same s i v) as (V1 & V2 & V3 & V4 & V5 & V6).
    assert (VP : forall k0, _) by (intros k0; exact (val_pres s (q_goto (set_val s i v) t (PLock (QSet k c v) true (KRet QTrue))) i v k0 eq_refl V1 V2 V3 V4)).
    refine (winv_step s t _ (PLock (QSet k c v) true (KRet QTrue)) W O O' _ _ _ _ _ _ _); [cbn; rewrite V6; reflexivity|right; rewrite H; reflexivity|cbn; rewrite V2; auto| |discriminate| |cbn; rewrite V3, V4; apply W].
    + cbn [wok before_cas]. split; [cbn; rewrite V2; auto|]. intros k' c' v' [= <- <- <-]. right. apply VP.
      unfold q_find in H0. pose proof (find_is _ _ _ _ _ H0) as IS. apply find_some in H0 as [Hi _]. unfold q_is in IS. destruct (nth_error (q_items s) i) as [x|] eqn:N; [|discriminate IS].
      exists i, x. repeat split; auto. lia.
    + intros k' HI. apply VP. unfold set_done in HI. cbn [q_hist q_goto] in HI. rewrite V5 in HI. apply (w_done _ W); auto.
  - (* new item, read map empty *) destruct K as (G & R & A & ->).
    destruct (add_pres s (q_goto (add_item s (q_dirty s) (mkQI k c v)) t (PLock (QSet k c v) true (KRet QTrue))) (mkQI k c v) (w_dirty _ W) eq_refl eq_refl eq_refl eq_refl eq_refl) as (P1 & P2 & P3 & P4).
    refine (winv_step s t _ (PLock (QSet k c v) true (KRet QTrue)) W O O' _ _ _ _ _ _ _); [reflexivity|right; rewrite H; reflexivity|auto| |discriminate| |cbn; rewrite put_nth_length; apply W].
    + cbn [wok before_cas]. split; [exact R|]. intros k' c' v' [= <- <- <-]. right. exact P4.
    + intros k' HI. destruct (w_done _ W k' HI) as [Q|[Q1 Q2]]; [left; auto|right; auto].
  - rdr t (QGet k c) QPanic W O O'; [rewrite H; discriminate|getr].
  - rd0 W O O'. cbn. congruence. rewrite H. discriminate.
  - rd0 W O O'. cbn. congruence. rewrite H. discriminate.
  - rdr t (QGet k c) (QVal None false) W O O'; [rewrite H; discriminate|getr].
  - rdr t o (QBox (q_v x)) W O O'; [rewrite H; discriminate|getr].
  - rdr t (QGet k c) QPanic W O O'; [rewrite H; discriminate|getr].
  - rdr t (QGet k c) (QVal None true) W O O'; [rewrite H; discriminate|getr].
  - rd0 W O O'. cbn. congruence. rewrite H. discriminate.
  - rdr t (QGet k c) (QVal None false) W O O'; [rewrite H; discriminate|getr].
  - rd0 W O O'. exact K. rewrite H. discriminate.
  - rd0 W O O'. exact K. rewrite H. discriminate.
  - rdr t (QGet k c) QPanic W O O'; [rewrite H; discriminate|getr].
  - rd0 W O O'. exact K. rewrite H. discriminate.
  - destruct QP as ((k & c & ->) & _). rd0 W O O'. split; [exact K|]. apply own_get.
  - destruct QP as ((k & c & ->) & _). rdr t (QGet k c) (QVal (Some v) true) W O O'; [rewrite H; discriminate|getr].
  - rd [QInv t (QDel k c)] W O O'; [|discriminate|getr]. cbn [wok]. split; [eapply sh_ground; [|apply (w_ground _ W)]; [repeat split|]; eapply become_writer; [exact O'|reflexivity|reflexivity|rewrite H; reflexivity]|].
    unfold set_done. cbn [q_hist q_goto q_log]. intros Q. destruct (done_app _ _ _ Q) as [[_ Q1]|(u & c' & v' & [Q1|[]])]; [|discriminate Q1]. apply (Q1 t c). left. auto.
  - rdr t (QDel k c) QPanic W O O'; [intros _ _; apply K|getr].
  - rdr t (QDel k c) QPanic W O O'; [intros _ _; apply K|getr].
  - rd0 W O O'. split; [exact K|cbn; congruence].
  - rdr t (QDel k c) QFalse W O O'; [intros _ _; apply K|getr].
  - rd0 W O O'. exact K.
  - exfalso. apply (proj2 K). exact H0.
  - rd0 W O O'. exact K.
  - rd0 W O O'. apply K.
  - rd0 W O O'. split; [apply K|]. split; [apply K|reflexivity].
  - rd0 W O O'. split; [apply K|]. split; [apply K|]. exact (find_is _ _ _ _ _ H0).
  - rd0 W O O'. split; apply K.
  - (* the item is deleted *) destruct K as ((G & ND) & R & IS). destruct QP as (_ & k & c & ->). unfold ritem_ok in IS. cbn [key_of fst snd] in IS, ND.
    assert (CD : cur_dirty (q_goto (del_item s i) t (DMiss (QDel k c))) = filter (fun j => negb (Nat.eqb j i)) (cur_dirty s)).
    { unfold cur_dirty. cbn [q_dirts q_dirty q_goto del_item]. exact (map_nth (filter (fun j => negb (Nat.eqb j i))) (q_dirts s) [] (q_dirty s)). }
    assert (G' : ground (q_goto (del_item s i) t (DMiss (QDel k c)))).
    { destruct G as [G|G]; [left; rewrite CD, G; reflexivity|right; exact G]. }
    refine (winv_step s t _ (DMiss (QDel k c)) W O O' _ _ _ _ _ _ _); [reflexivity|right; rewrite H; reflexivity|auto|split; [exact G'|exact R]|discriminate| |cbn; rewrite map_length; apply W].
    intros x HI. destruct (w_done _ W x HI) as [Q|[Q1 (j & y & J1 & J2 & J3)]]; [left; exact Q|right]. split; [exact Q1|]. exists j, y. split; [|auto]. rewrite CD. apply filter_In. split; auto.
    destruct (Nat.eqb_spec j i) as [->|]; auto. exfalso. apply ND. unfold q_is in IS. rewrite J2 in IS. apply andb_true_iff in IS as [IS _]. replace k with x by lia. exact HI.
  - destruct QP as (_ & k & c & ->). rd0 W O O'. split; [apply K|]. intros a b v Q. discriminate Q.
  - rd0 W O O'. apply K.
  - destruct QP as (_ & k & c & ->). rdr t (QDel k c) QFalse W O O'; [intros _ _; apply K|getr].
  - rd0 W O O'. apply K.
  - rd0 W O O'. exact K.
  - rd0 W O O'. split; [exact K|exact H0].
  - exfalso. apply (proj1 K). exact H0.
  - rd0 W O O'. destruct K as [K1 K2]. split; [exact K1|]. split; [exact K2|reflexivity].
  - (* nothing to promote *) destruct K as ((R & K1) & K2 & ->).
    assert (D0 : cur_dirty s = []).
    { destruct (cur_dirty s) as [|i l] eqn:D; auto. exfalso. assert (V : nth_error (q_items s) i <> None) by (apply (qi_dirts _ C (cur_dirty s) i); [unfold cur_dirty; apply nth_In, W|rewrite D; left; auto]).
      destruct (nth_error (q_items s) i) as [x|] eqn:N; [|congruence]. apply (gather_has s r (q_k x) K2); [right; exists i, x; rewrite D; split; [left; auto|auto]|rewrite H0; reflexivity]. }
    rd0 W O O'. split; [left; exact D0|]. split; [exact R|]. destruct k as [rd|r0|].
    + destruct K1 as (Q1 & Q2 & Q3). intros NE. exfalso. apply NE. assert (rd = r) by congruence. subst rd. change (qr_m (the_read s r) = []).
      destruct (qr_m (the_read s r)) as [|[k i] m] eqn:M; auto. exfalso. apply (gather_has s r k K2); [|rewrite H0; reflexivity]. left. exists r, i. split; auto. rewrite M. cbn [qassoc]. rewrite Z.eqb_refl. auto.
    + intros k c v Q. exfalso. apply (gather_has s r k K2); [eapply K1; eauto|rewrite H0; reflexivity].
    + intros k c v Q. exfalso. apply (gather_has s r k K2); [eapply K1; eauto|rewrite H0; reflexivity].
  - rd0 W O O'. destruct K as (K1 & K2 & ->). split; [exact K1|]. split; [exact K2|reflexivity].
  - (* CompareAndSwap *) destruct K as ((R & K1) & K2 & ->). set (nr := mkQR (q_gather s r (q_dirty s)) (match qr_m (the_read s r) with [] => true | _ => am end)).
    destruct (new_read_is s nr) as [N1 N2]. set (s' := q_goto (new_read s nr) t (PUnl o k)).
    assert (IR : forall x, in_read s x \/ in_dirty s x -> in_read s' x).
    { intros x Hx. pose proof (gather_has s r x K2 Hx) as Q. destruct (qassoc x (q_gather s r (q_dirty s))) as [i|] eqn:QA; [|congruence]. exists (List.length (q_reads s)), i. split; [exact N1|].
      change (the_read s' (List.length (q_reads s))) with (the_read (new_read s nr) (List.length (q_reads s))). rewrite N2. exact QA. }
    assert (DI : forall x, in_dirty s' x -> in_dirty s x) by (intros x Hx; exact Hx).
    refine (winv_step s t _ (PUnl o k) W O O' _ _ _ _ _ _ _); [reflexivity|right; rewrite H; reflexivity|cbn; discriminate| |discriminate| |apply W].
    + cbn [wok]. split; [cbn; discriminate|]. split; [intros x Hx; apply IR; auto|]. destruct k as [rd|r0|].
      * destruct K1 as (Q1 & Q2 & Q3). split; [|exact Q2]. exists (List.length (q_reads s)). split; [exact N1|]. change (qr_am (the_read (new_read s nr) (List.length (q_reads s))) = true).
        rewrite N2. cbn [qr_am nr]. rewrite Q3. destruct (qr_m (the_read s r)); reflexivity.
      * eapply own_imp; [exact IR|exact K1].
      * eapply own_imp; [exact IR|exact K1].
    + intros x HI. left. apply IR. destruct (w_done _ W x HI) as [Q|[_ Q]]; auto.
  - exfalso. destruct K as (_ & K2 & _). congruence.
  - rd0 W O O'. exact K.
  - (* initDirty *) destruct K as (R & KD & K1). set (s' := q_goto (new_dirty s) t (PLock2 o k)).
    assert (D0 : cur_dirty s' = []) by (unfold cur_dirty; cbn [s' q_dirts q_dirty new_dirty q_goto]; rewrite app_nth2, Nat.sub_diag by auto; reflexivity).
    assert (ND : forall x, ~ in_dirty s' x) by (intros x (i & y & Hi & _); rewrite D0 in Hi; destruct Hi).
    refine (winv_step s t _ (PLock2 o k) W O O' _ _ _ _ _ _ _); [reflexivity|right; rewrite H; reflexivity|auto| |discriminate| |cbn; rewrite app_length; cbn; lia].
    + cbn [wok after_cas]. split; [|left; exact D0]. split; [exact R|]. split; [intros x Hx; destruct (ND x Hx)|]. destruct k as [rd|r0|]; [destruct K1 as [Q1 Q2]; split; [exact Q1|exact D0]|exact K1|exact K1].
    + intros x HI. left. destruct (w_done _ W x HI) as [Q|[_ Q]]; [exact Q|exact (KD x Q)].
  - rd0 W O O'. destruct K as [(R & KD & K1) G]. split; [exact G|]. split; [exact R|]. destruct k as [rd|r0|]; [intros _; apply K1| |]; intros k c v Q; left; eapply K1; eauto.
  - rd0 W O O'. exact K.
  - destruct K as (G & R & K1). rdr t o r W O O'; [intros _ _; exact G|]. intros u k c v [Q|[]]. injection Q as <- -> ->. split; [rewrite H; reflexivity|]. exact (K1 k c v eq_refl).
Qed.
Lemma qinit_winv : winv qinit.
Proof.
  constructor; cbn; auto; [left; reflexivity|]. intros k I. destruct (done_in _ _ I) as (t & c & v & []).
Qed.
Lemma run_winv ls : forall s s', qinv s -> winv s -> q_always s ls one_writer -> qrun s ls = Some s' -> winv s' /\ qinv s'.
Proof.
  induction ls as [|[t a] ls IH]; intros s s' C W A R; cbn [qrun] in R; [injection R as <-; auto|].
  destruct (qstep s (t, a)) as [s1|] eqn:E; [|discriminate R]. pose proof (qstep_eff _ _ _ _ E) as EF.
  assert (A0 : one_writer s) by (apply (A [] ((t, a) :: ls)); auto).
  assert (A1 : q_always s1 ls one_writer).
  { intros p q s2 -> R2. apply (A ((t, a) :: p) q s2); auto. cbn [qrun]. rewrite E. auto. }
  assert (A2 : one_writer s1) by (apply (A1 [] ls); auto).
  apply (IH s1 s'); auto; [eapply eff_qinv; eauto|eapply eff_winv; eauto].
Qed.
(** If at every moment at most one goroutine is inside a Set, a Delete or a promotion, and no two keys share a 64-bit hash,
    then at every moment every key whose Set has returned, and for which no Delete was called after that, is found by a Get
    that runs alone, with a value it was Set to - whatever Gets are running. Missing for C57: overlapping Sets and
    promotions (false, below). *)
Theorem C57_one_writer_partial ls s t k c v h1 h2 : qrun qinit ls = Some s -> q_always qinit ls one_writer -> q_nocol (q_hist s) ->
  q_hist s = h1 ++ QRsp t (QSet k c v) QTrue :: h2 -> no_del h2 k -> exists v', finds s k c v' /\ exists u, In (QInv u (QSet k c v')) (q_hist s).
Proof.
  intros R A NC EH ND. destruct (run_winv ls qinit s qinit_inv qinit_winv A R) as [W C].
  assert (I : In (QRsp t (QSet k c v) QTrue) (q_hist s)) by (rewrite EH; apply in_or_app; right; left; auto).
  assert (SC : exists v0, set_called (q_hist s) k c v0).
  { (* the Set that returned was called *)
    exists v. clear W NC A EH ND. revert s R C I. induction ls as [|[u a] ls IH] using rev_ind; intros s R C I; [injection R as <-; destruct I|].
    rewrite qrun_app in R. destruct (qrun qinit ls) as [s1|] eqn:R1; [|discriminate R]. cbn [qrun] in R. destruct (qstep s1 (u, a)) as [s2|] eqn:E; [|discriminate R]. injection R as <-.
    pose proof (qstep_eff _ _ _ _ E) as EF. assert (C1 : qinv s1) by (apply qreach_inv; exists ls; auto). pose proof (qeff_ext _ _ _ EF) as X.
    assert (OR : In (QRsp t (QSet k c v) QTrue) (q_hist s1) \/ In (QInv u (QSet k c v)) (q_hist s1) \/ exists r, q_pcs s1 u = PEnd (QSet k c v) (KRet r)).
    { pose proof (qi_pc _ C1 u) as P. assert (SV : forall j w, q_hist (set_val s1 j w) = q_hist s1) by (intros j w; apply val_same).
      destruct EF; match goal with H : q_pcs s1 u = _ |- _ => rewrite H in P; cbn [qpc_ok] in P end; cbn [q_hist q_goto q_ret q_log new_read new_dirty add_item set_lock] in I; rewrite ?SV in I; auto;
       apply in_app_or in I as [I|[I|[]]]; auto; try discriminate I; injection I; intros; subst; right; try (left; tauto).
      right. eauto. }
    destruct OR as [OR|[OR|(r & OR)]].
    - destruct (IH s1 eq_refl C1 OR) as (w & Hw). exists w. eapply hist_ext; eauto.
    - exists u. eapply hist_ext; eauto.
    - exists u. eapply hist_ext; [exact X|]. pose proof (qi_pc _ C1 u) as P. rewrite OR in P. destruct P as ((P & _) & _). eapply P. reflexivity. }
  destruct SC as (v0 & SC). destruct (pres_finds s k c v0 C NC SC) as (v' & F & S); [apply (w_done _ W); exists h1, t, c, v, h2; auto|]. exists v'. split; auto.
Qed.
Print Assumptions C57_one_writer_partial.

(** * C58: Gets *)
(** every call made by the schedule is a Get *)
Definition only_gets (ls : list qlabel) : Prop := forall t o, In (t, QCall o) ls -> exists k c, o = QGet k c.
Definition get_pc (p : qpc) : Prop :=
  match p with
  | QIdle | GLoad _ | GVal _ _ | GLoad2 _ | GPtr _ | GFind _ _ | GRd _ _ | GMiss _ _ => True
  | PLock _ _ k | PRead _ _ k | PPtr _ _ k _ | PScan _ _ k _ _ | PCas _ _ k _ _ | PUnl _ k | PInit _ k | PLock2 _ k | PEnd _ k => exists v, k = KRet (QVal (Some v) true)
  | _ => False
  end.
Definition swapped (p : qpc) : bool := match p with PUnl _ _ | PInit _ _ => true | _ => false end.
Definition in_dirt (s : qstate) (d : nat) (k : Z) : Prop := exists i x, In i (nth d (q_dirts s) []) /\ nth_error (q_items s) i = Some x /\ q_k x = k.
Definition gok (s : qstate) (k : Z) (p : qpc) : Prop :=
  match p with
  | PPtr _ _ _ r => (r < List.length (q_reads s))%nat
  | PScan _ _ _ r d => (r < List.length (q_reads s))%nat /\ (q_read s = Some r -> in_read s k \/ in_dirt s d k)
  | PCas _ _ _ r nm => (r < List.length (q_reads s))%nat /\ (q_read s = Some r -> qassoc k nm <> None)
  | _ => True
  end.
Record ginv (s : qstate) (k : Z) : Prop := {
  g_pc : forall t, get_pc (q_pcs s t);
  g_key : in_read s k \/ amended s /\ in_dirty s k /\ forall t, swapped (q_pcs s t) = false;
  g_ok : forall t, gok s k (q_pcs s t);
  g_read : forall r, q_read s = Some r -> (r < List.length (q_reads s))%nat }.
Lemma gather_gets s r d k : q_read s = Some r -> in_read s k \/ in_dirt s d k -> qassoc k (q_gather s r d) <> None.
Proof.
  intros R [(r' & i & R' & A)|(i & x & I & N & <-)].
  - rewrite R in R'. injection R' as <-. unfold q_gather. apply gather_keeps. rewrite <- the_read_error, A. discriminate.
  - unfold q_gather. eapply gather_adds; eauto.
Qed.
Lemma gok_same s s' k p : q_items s' = q_items s -> q_reads s' = q_reads s -> q_read s' = q_read s -> q_dirts s' = q_dirts s -> gok s k p -> gok s' k p.
Proof. destruct s, s'. cbn. intros -> -> -> ->. destruct p; exact (fun x => x). Qed.
Lemma ginv_same s k t s' p : ginv s k -> q_items s' = q_items s -> q_reads s' = q_reads s -> q_read s' = q_read s -> q_dirts s' = q_dirts s -> q_dirty s' = q_dirty s ->
  q_pcs s' = q_upd (q_pcs s) t p -> get_pc p -> (swapped p = true -> swapped (q_pcs s t) = true) -> gok s k p -> ginv s' k.
Proof.
  intros G I R RD D DY P GP SW K. constructor.
  - intros u. rewrite P. destruct (Nat.eq_dec u t) as [->|NE]; [rewrite q_upd_same; auto|rewrite q_upd_other by auto; apply G].
  - destruct (g_key _ _ G) as [H|(A & B & C)].
    + left. destruct H as (r & i & H1 & H2). exists r, i. unfold the_read in *. rewrite RD, R. auto.
    + right. split; [destruct A as (r & A1 & A2); exists r; unfold the_read in *; rewrite RD, R; auto|]. split; [unfold in_dirty, cur_dirty in *; rewrite I, D, DY; auto|].
      intros u. rewrite P. destruct (Nat.eq_dec u t) as [->|NE]; [rewrite q_upd_same|rewrite q_upd_other by auto; apply C]. destruct (swapped p) eqn:E; auto. rewrite <- (C t). symmetry. auto.
  - intros u. rewrite P. destruct (Nat.eq_dec u t) as [->|NE]; [rewrite q_upd_same|rewrite q_upd_other by auto]; apply (gok_same s s'); auto. apply G.
  - intros r. rewrite RD, R. apply G.
Qed.
Lemma swapped_in_read s k t : ginv s k -> swapped (q_pcs s t) = true -> in_read s k.
Proof. intros G S. destruct (g_key _ _ G) as [|(_ & _ & C)]; auto. rewrite C in S. discriminate S. Qed.
Lemma eff_ginv s k t s' : qeff s t s' -> ginv s k -> (q_pcs s t = QIdle -> exists kk c, q_pcs s' t = GLoad (QGet kk c)) -> ginv s' k.
Proof.
  intros E G NS. pose proof (g_pc _ _ G t) as GP. pose proof (g_ok _ _ G t) as GO.
  destruct E; match goal with H : q_pcs s t = _ |- _ => rewrite H in GP, GO; cbn [get_pc gok] in GP, GO end; try (destruct GP; fail).
  all: try (match goal with G : ginv _ _ |- ginv (q_goto ?x ?u ?p) _ => apply (ginv_same _ _ u _ p G); try reflexivity; try exact Logic.I; try assumption; try (cbn; discriminate) end; fail).
  all: try (match goal with G : ginv _ _ |- ginv (q_ret ?x ?u ?o ?r) _ => apply (ginv_same _ _ u _ QIdle G); try reflexivity; try exact I; try (cbn; discriminate) end; fail).
  - exfalso. destruct (NS H) as (kk & cc & Q). cbn [q_pcs q_goto] in Q. rewrite q_upd_same in Q. discriminate Q.
  - apply (ginv_same s k t _ (PLock o false (KRet (QVal (Some v) true))) G); try reflexivity; [eexists; reflexivity|discriminate].
  - exfalso. destruct (NS H) as (kk & cc & Q). cbn [q_pcs q_goto] in Q. rewrite q_upd_same in Q. discriminate Q.
  - destruct GP as (r & Q). discriminate Q.
  - apply (ginv_same s k t _ (PPtr o am k0 r) G); try reflexivity; [exact GP|discriminate|]. cbn [gok]. apply (g_read _ _ G); auto.
  - apply (ginv_same s k t _ (PScan o am k0 r (q_dirty s)) G); try reflexivity; [exact GP|discriminate|]. cbn [gok]. split; auto. intros _. destruct (g_key _ _ G) as [|(_ & B & _)]; auto.
  - apply (ginv_same s k t _ (PCas o am k0 r (q_gather s r d)) G); try reflexivity; [exact GP|discriminate|]. cbn [gok]. destruct GO as [GO1 GO2]. split; auto. intros R. apply gather_gets; auto.
  - (* CompareAndSwap *) set (nr := mkQR nm (match qr_m (the_read s r) with [] => true | _ => am end)). destruct (new_read_is s nr) as [N1 N2]. destruct GO as [GO1 GO2]. specialize (GO2 H0).
    assert (IR : in_read (q_goto (new_read s nr) t (PUnl o k0)) k).
    { destruct (qassoc k nm) as [i|] eqn:A; [|congruence]. exists (List.length (q_reads s)), i. split; [exact N1|].
      change (the_read (q_goto (new_read s nr) t (PUnl o k0)) (List.length (q_reads s))) with (the_read (new_read s nr) (List.length (q_reads s))). rewrite N2. exact A. }
    constructor.
    + intros u. cbn [q_pcs q_goto]. destruct (Nat.eq_dec u t) as [->|NE]; [rewrite q_upd_same; exact GP|rewrite q_upd_other by auto; apply G].
    + left. exact IR.
    + intros u. cbn [q_pcs q_goto]. destruct (Nat.eq_dec u t) as [->|NE]; [rewrite q_upd_same; exact I|rewrite q_upd_other by auto]. change (q_pcs (new_read s nr) u) with (q_pcs s u).
      pose proof (g_ok _ _ G u) as GU. destruct (q_pcs s u); cbn [gok] in *; auto; cbn [q_reads q_read q_goto new_read]; rewrite app_length; cbn [List.length].
      * lia.
      * split; [lia|]. intros _. left. exact IR.
      * split; [lia|]. intros Q. injection Q as Q. lia.
    + intros r0. cbn [q_reads q_read q_goto new_read]. rewrite app_length. intros [= <-]. cbn. lia.
  - apply (ginv_same s k t _ (PInit o k0) G); try reflexivity; [exact GP|rewrite H; reflexivity].
  - (* initDirty *) assert (IR : in_read s k) by (apply (swapped_in_read s k t G); rewrite H; reflexivity). constructor.
    + intros u. cbn [q_pcs q_goto]. destruct (Nat.eq_dec u t) as [->|NE]; [rewrite q_upd_same; exact GP|rewrite q_upd_other by auto; apply G].
    + left. exact IR.
    + intros u. cbn [q_pcs q_goto]. destruct (Nat.eq_dec u t) as [->|NE]; [rewrite q_upd_same; exact I|rewrite q_upd_other by auto]. change (q_pcs (new_dirty s) u) with (q_pcs s u).
      pose proof (g_ok _ _ G u) as GU. destruct (q_pcs s u); cbn [gok] in *; auto. split; [apply GU|]. intros _. left. exact IR.
    + exact (g_read _ _ G).
  - destruct GP as (r & Q). discriminate Q.
Qed.
Lemma run_ginv ls : forall s k s', only_gets ls -> ginv s k -> qrun s ls = Some s' -> ginv s' k.
Proof.
  induction ls as [|[t a] ls IH]; intros s k s' O G R; cbn [qrun] in R; [injection R as <-; auto|].
  destruct (qstep s (t, a)) as [s1|] eqn:E; [|discriminate R]. apply (IH s1 k s'); auto; [intros u o I; apply (O u o); right; auto|].
  refine (eff_ginv s k t s1 (qstep_eff _ _ _ _ E) G _). intros P. cbn [qstep] in E. rewrite P in E. destruct a as [o| |]; try discriminate E.
  destruct (O t o (or_introl eq_refl)) as (k' & c' & ->). injection E as <-. cbn [q_pcs q_goto]. rewrite q_upd_same. eauto.
Qed.
(** a key that a Get finds has a place *)
Lemma finds_pres s t k c v : q_pcs s t = QIdle -> get_alone s t k c = Some (QBox v) \/ get_alone s t k c = Some (QVal (Some v) true) ->
  pres s k /\ exists i x, nth_error (q_items s) i = Some x /\ q_k x = k /\ q_c x = c.
Proof.
  intros P H. unfold get_alone in H. cbn [qstep] in H. rewrite P in H.
  set (s0 := mkQ (q_items s) (q_reads s) (q_read s) (q_dirts s) (q_dirty s) (q_lock s) (q_pcs s) (q_hist s ++ [QInv t (QGet k c)])) in H.
  set (s1 := q_goto s0 t (GLoad (QGet k c))) in H. assert (P1 : q_pcs s1 t = GLoad (QGet k c)) by (apply q_upd_same).
  assert (LR : forall x o r f, match q_alone (q_ret x t o r) t (S f) with Some s2 => last_res s2 | None => None end = Some r).
  { intros x o r f. rewrite alone_idle by (apply q_upd_same). unfold last_res. cbn [q_hist q_ret]. rewrite rev_unit. reflexivity. }
  assert (RO : q_read s = None \/ exists rd, q_read s = Some rd) by (destruct (q_read s); eauto). destruct RO as [R|(rd & R)].
  { exfalso. rewrite (alone_step s1 t (q_ret s1 t (QGet k c) QPanic)) in H; [|rewrite P1; discriminate|rewrite P1; discriminate|cbn [qstep]; rewrite P1; change (q_read s1) with (q_read s); rewrite R; reflexivity].
      rewrite LR in H. destruct H as [H|H]; discriminate H. }
  destruct (qassoc k (qr_m (the_read s rd))) as [i|] eqn:A.
  { split; [left; exists rd, i; auto|]. destruct (q_is s k c i) eqn:IS.
    - unfold q_is in IS. destruct (nth_error (q_items s) i) as [x|] eqn:N; [|discriminate IS]. exists i, x. repeat split; auto; lia.
    - exfalso. assert (IS1 : q_is s1 k c i = false) by exact IS. destruct (qr_am (the_read s rd)) eqn:AM.
      + rewrite (alone_step s1 t (q_goto s1 t (GLoad2 (QGet k c)))) in H; [|rewrite P1; discriminate|rewrite P1; discriminate|].
        2:{ cbn [qstep]. rewrite P1. change (q_read s1) with (q_read s). rewrite R. change (the_read s1 rd) with (the_read s rd). rewrite A, IS1, AM. reflexivity. }
        set (s2 := q_goto s1 t (GLoad2 (QGet k c))) in H. assert (P2 : q_pcs s2 t = GLoad2 (QGet k c)) by (apply q_upd_same).
        rewrite (alone_step s2 t (q_ret s2 t (QGet k c) (QVal None true))) in H; [|rewrite P2; discriminate|rewrite P2; discriminate|].
        2:{ cbn [qstep]. rewrite P2. change (q_read s2) with (q_read s). rewrite R. change (the_read s2 rd) with (the_read s rd). rewrite A. reflexivity. }
        rewrite LR in H. destruct H as [H|H]; discriminate H.
      + rewrite (alone_step s1 t (q_ret s1 t (QGet k c) (QVal None false))) in H; [|rewrite P1; discriminate|rewrite P1; discriminate|].
        2:{ cbn [qstep]; rewrite P1; change (q_read s1) with (q_read s); rewrite R. change (the_read s1 rd) with (the_read s rd). rewrite A, IS1, AM. reflexivity. }
        rewrite LR in H. destruct H as [H|H]; discriminate H. }
  destruct (qr_am (the_read s rd)) eqn:AM.
  2:{ exfalso. rewrite (alone_step s1 t (q_ret s1 t (QGet k c) (QVal None false))) in H; [|rewrite P1; discriminate|rewrite P1; discriminate|].
      2:{ cbn [qstep]; rewrite P1; change (q_read s1) with (q_read s); rewrite R. change (the_read s1 rd) with (the_read s rd). rewrite A, AM. reflexivity. }
      rewrite LR in H. destruct H as [H|H]; discriminate H. }
  destruct (q_find s (q_dirty s) k c) as [i|] eqn:F.
  { pose proof (find_is _ _ _ _ _ F) as IS. unfold q_find in F. apply find_some in F as [I _]. unfold q_is in IS. destruct (nth_error (q_items s) i) as [x|] eqn:N; [|discriminate IS].
    split; [right; split; [exists rd; auto|]|]; exists i, x; repeat split; auto; lia. }
  exfalso.
  rewrite (alone_step s1 t (q_goto s1 t (GLoad2 (QGet k c)))) in H; [|rewrite P1; discriminate|rewrite P1; discriminate|].
  2:{ cbn [qstep]. rewrite P1. change (q_read s1) with (q_read s). rewrite R. change (the_read s1 rd) with (the_read s rd). rewrite A, AM. reflexivity. }
  set (s2 := q_goto s1 t (GLoad2 (QGet k c))) in H. assert (P2 : q_pcs s2 t = GLoad2 (QGet k c)) by (apply q_upd_same).
  rewrite (alone_step s2 t (q_goto s2 t (GPtr (QGet k c)))) in H; [|rewrite P2; discriminate|rewrite P2; discriminate|].
  2:{ cbn [qstep]. rewrite P2. change (q_read s2) with (q_read s). rewrite R. change (the_read s2 rd) with (the_read s rd). rewrite A, AM. reflexivity. }
  set (s3 := q_goto s2 t (GPtr (QGet k c))) in H. assert (P3 : q_pcs s3 t = GPtr (QGet k c)) by (apply q_upd_same).
  rewrite (alone_step s3 t (q_goto s3 t (GFind (QGet k c) (q_dirty s)))) in H; [|rewrite P3; discriminate|rewrite P3; discriminate|cbn [qstep]; rewrite P3; reflexivity].
  set (s4 := q_goto s3 t (GFind (QGet k c) (q_dirty s))) in H. assert (P4 : q_pcs s4 t = GFind (QGet k c) (q_dirty s)) by (apply q_upd_same).
  rewrite (alone_step s4 t (q_ret s4 t (QGet k c) QPanic)) in H; [|rewrite P4; discriminate|rewrite P4; discriminate|].
  2:{ cbn [qstep]. rewrite P4. change (q_find s4 (q_dirty s) k c) with (q_find s (q_dirty s) k c). rewrite F. reflexivity. }
  rewrite LR in H. destruct H as [H|H]; discriminate H.
Qed.
Lemma read_bound s : qreach s -> forall r, q_read s = Some r -> (r < List.length (q_reads s))%nat.
Proof.
  intros (ls & R). refine (qrun_ind (fun s => forall r, q_read s = Some r -> (r < List.length (q_reads s))%nat) _ ls qinit s _ R); [|discriminate].
  clear. intros s t s' H E. assert (SV : forall j w, q_read (set_val s j w) = q_read s /\ q_reads (set_val s j w) = q_reads s) by (intros j w; destruct (val_same s j w) as (A & B & _); auto).
  destruct E; cbn [q_read q_reads q_goto q_ret q_log new_read new_dirty add_item set_lock]; try (rewrite (proj1 (SV _ _)), (proj2 (SV _ _))); auto;
   intros r0 [= <-]; rewrite app_length; cbn; lia.
Qed.
(** no new Set is called *)
Lemma gets_hist ls : forall s s', only_gets ls -> qrun s ls = Some s' -> forall t k c v, In (QInv t (QSet k c v)) (q_hist s') -> In (QInv t (QSet k c v)) (q_hist s).
Proof.
  induction ls as [|[u a] ls IH]; intros s s' O R t k c v I; cbn [qrun] in R; [injection R as <-; auto|].
  destruct (qstep s (u, a)) as [s1|] eqn:E; [|discriminate R]. assert (I1 : In (QInv t (QSet k c v)) (q_hist s1)) by (eapply IH; eauto; intros w o J; apply (O w o); right; auto).
  pose proof (qstep_eff _ _ _ _ E) as EF.
  assert (NC : forall kk cc vv, s1 <> q_goto (q_log s (QInv u (QSet kk cc vv))) u (SLoad (QSet kk cc vv)) \/ q_pcs s u <> QIdle).
  { intros kk cc vv. destruct (q_pcs s u) eqn:P; try (right; discriminate). left. intros ->. cbn [qstep] in E. rewrite P in E. destruct a as [o| |]; try discriminate E.
    destruct (O u o (or_introl eq_refl)) as (k' & c' & ->). injection E as E. apply (f_equal (fun f => f u)) in E. rewrite !q_upd_same in E. discriminate E. }
  assert (SV : forall j w, q_hist (set_val s j w) = q_hist s) by (intros j w; apply val_same).
  destruct EF; cbn [q_hist q_goto q_ret q_log new_read new_dirty add_item set_lock] in I1; rewrite ?SV in I1; auto; apply in_app_or in I1 as [I1|[I1|[]]]; auto; try discriminate I1.
  exfalso. destruct (NC k0 c0 v0) as [Q|Q]; [apply Q; reflexivity|congruence].
Qed.
(** Gets do not lose keys: start from any reachable moment at which no call is running; then let any number of goroutines run
    Gets only, in any schedule. A key that a Get found at the start is found, at every moment later, by a Get that runs alone,
    with a value that was Set for it. (No two keys with one 64-bit hash.) *)
Theorem C58_gets_keep_keys s0 ls s k c v : qreach s0 -> q_quiet s0 -> q_nocol (q_hist s0) -> only_gets ls -> qrun s0 ls = Some s ->
  finds s0 k c v -> exists v', finds s k c v' /\ exists u, In (QInv u (QSet k c v')) (q_hist s0).
Proof.
  intros RE QU NC OG R F. pose proof (qreach_inv _ RE) as C0. destruct (finds_pres s0 0 k c v (QU 0%nat) (F 0%nat (QU 0%nat))) as (PR & i & x & N & K & CC).
  assert (SC : set_called (q_hist s0) k c (q_v x)) by (rewrite <- K, <- CC; apply (qi_val _ C0 i x N)).
  assert (G0 : ginv s0 k).
  { constructor.
    - intros t. rewrite QU. exact I.
    - destruct PR as [|[A B]]; auto. right. split; auto. split; auto. intros t. rewrite QU. reflexivity.
    - intros t. rewrite QU. exact I.
    - apply (read_bound s0 RE). }
  pose proof (run_ginv ls s0 k s OG G0 R) as G.
  assert (RS : qreach s) by (destruct RE as (l0 & R0); exists (l0 ++ ls); rewrite qrun_app, R0; auto). pose proof (qreach_inv _ RS) as C.
  assert (HS : forall t a b d, In (QInv t (QSet a b d)) (q_hist s) -> In (QInv t (QSet a b d)) (q_hist s0)) by (intros; eapply gets_hist; eauto).
  destruct (pres_finds s k c (q_v x) C) as (v' & F' & (u & S')).
  - intros t u k' a b v1 v2 I1 I2. eapply NC; eauto.
  - assert (X : exists h, q_hist s = q_hist s0 ++ h).
    { clear - R. revert s0 R. induction ls as [|[t a] ls IH]; intros s0 R; cbn [qrun] in R; [injection R as <-; exists []; rewrite app_nil_r; auto|].
      destruct (qstep s0 (t, a)) as [s1|] eqn:E; [|discriminate R]. destruct (qx_hist _ _ (qeff_ext _ _ _ (qstep_eff _ _ _ _ E))) as (h1 & H1). destruct (IH s1 R) as (h2 & H2). exists (h1 ++ h2). rewrite H2, H1, app_assoc. auto. }
    destruct X as (h & X). destruct SC as (t & SC). exists t. rewrite X. apply in_or_app. auto.
  - destruct (g_key _ _ G) as [Q|(A & B & _)]; [left; auto|right; auto].
  - exists v'. split; auto. exists u. auto.
Qed.
Print Assumptions C58_gets_keep_keys.
(** A key that was Set once keeps its value. *)
Corollary C58_gets_keep_value s0 ls s k c v : qreach s0 -> q_quiet s0 -> q_nocol (q_hist s0) -> only_gets ls -> qrun s0 ls = Some s ->
  (forall u v', In (QInv u (QSet k c v')) (q_hist s0) -> v' = v) -> finds s0 k c v -> finds s k c v.
Proof.
  intros RE QU NC OG R ONE F. destruct (C58_gets_keep_keys s0 ls s k c v RE QU NC OG R F) as (v' & F' & (u & I)). rewrite <- (ONE u v' I). exact F'.
Qed.
Print Assumptions C58_gets_keep_value.
(** What the Gets themselves answer meanwhile for such a key: a value that was Set for it, or (nil, true), or they panic - the
    last two are possible, see below. Never "not found". *)
Lemma start_ginv s0 k c v : qreach s0 -> q_quiet s0 -> finds s0 k c v -> ginv s0 k /\ exists w, set_called (q_hist s0) k c w.
Proof.
  intros RE QU F. pose proof (qreach_inv _ RE) as C0. destruct (finds_pres s0 0 k c v (QU 0%nat) (F 0%nat (QU 0%nat))) as (PR & i & x & N & K & CC).
  split; [|exists (q_v x); rewrite <- K, <- CC; apply (qi_val _ C0 i x N)]. constructor.
  - intros t. rewrite QU. exact I.
  - destruct PR as [|[A B]]; auto. right. split; auto. split; auto. intros t. rewrite QU. reflexivity.
  - intros t. rewrite QU. exact I.
  - apply (read_bound s0 RE).
Qed.
Lemma get_rsp s t s' k c v e : qinv s -> ginv s k -> q_nocol (q_hist s) -> set_called (q_hist s) k c v -> qeff s t s' -> q_hist s' = q_hist s ++ [e] -> forall u r, e = QRsp u (QGet k c) r -> r <> QVal None false /\ r <> QTrue /\ r <> QFalse.
Proof.
  intros C G NC (t0 & SC) E H u r ->. assert (SV : forall i w, q_hist (set_val s i w) = q_hist s) by (intros i w; apply val_same). pose proof (g_pc _ _ G t) as GP. pose proof (qi_pc _ C t) as P.
  assert (KEY : forall rd, q_read s = Some rd -> qr_am (the_read s rd) = false -> exists i, qassoc k (qr_m (the_read s rd)) = Some i /\ q_is s k c i = true).
  { intros rd R AM. destruct (g_key _ _ G) as [(r' & i & R' & A)|((r' & R' & A) & _)]; rewrite R in R'; injection R' as <-; [|congruence]. exists i. split; auto.
    destruct (the_read_mok s rd C k i (qassoc_in _ _ _ A)) as (x & N & K). destruct (qi_val _ C i x N) as (w & J). rewrite K in J. pose proof (NC _ _ _ _ _ _ _ J SC) as Q. unfold q_is. rewrite N, K, Q, !Z.eqb_refl. reflexivity. }
  destruct E; cbn [q_hist q_goto q_ret q_log new_read new_dirty add_item del_item set_lock] in H; rewrite ?SV in H;
   try (rewrite <- (app_nil_r (q_hist s)) in H at 1; apply app_inv_head in H; discriminate H); apply app_inv_head in H; try discriminate H; injection H; intros; subst; try (repeat split; discriminate).
  - exfalso. destruct (KEY rd H1 H3) as (i & A & B). rewrite (H2 i A) in B. discriminate B.
  - exfalso. destruct (KEY rd H1 H3) as (i & A & B). congruence.
  - rewrite H0 in P. cbn [qpc_ok] in P. destruct P as (_ & k1 & c1 & Q). discriminate Q.
  - rewrite H0 in GP. cbn [get_pc] in GP. destruct GP as (w & Q). injection Q as ->. repeat split; discriminate.
Qed.
Theorem C58_answers s0 ls s h t k c v r : qreach s0 -> q_quiet s0 -> q_nocol (q_hist s0) -> only_gets ls -> qrun s0 ls = Some s -> finds s0 k c v ->
  q_hist s = q_hist s0 ++ h -> In (QRsp t (QGet k c) r) h ->
  r = QPanic \/ r = QVal None true \/ exists w, (r = QBox w \/ r = QVal (Some w) true) /\ exists u, In (QInv u (QSet k c w)) (q_hist s0).
Proof.
  intros RE QU NC OG R F H I.
  assert (NB : r <> QVal None false /\ r <> QTrue /\ r <> QFalse /\ forall w, r <> QVal (Some w) false).
  { destruct (start_ginv s0 k c v RE QU F) as (G0 & w0 & SC0).
    assert (HS : forall p q s1, ls = p ++ q -> qrun s0 p = Some s1 -> forall t a b d, In (QInv t (QSet a b d)) (q_hist s1) -> In (QInv t (QSet a b d)) (q_hist s0)).
    { intros p q s1 -> R1. apply (gets_hist p s0 s1); auto. intros w o J. apply (OG w o). apply in_or_app. auto. }
    revert s h R H I. clear F. induction ls as [|[u a] ls IH] using rev_ind; intros s h R H I.
    - injection R as <-. rewrite <- (app_nil_r (q_hist s0)) in H at 1. apply app_inv_head in H. subst h. destruct I.
    - rewrite qrun_app in R. destruct (qrun s0 ls) as [s1|] eqn:R1; [|discriminate R]. cbn [qrun] in R. destruct (qstep s1 (u, a)) as [s2|] eqn:E; [|discriminate R]. injection R as <-.
      assert (OG1 : only_gets ls) by (intros w o J; apply (OG w o); apply in_or_app; auto).
      assert (HS1 : forall p q s1, ls = p ++ q -> qrun s0 p = Some s1 -> forall t a b d, In (QInv t (QSet a b d)) (q_hist s1) -> In (QInv t (QSet a b d)) (q_hist s0)).
      { intros p q s3 -> R3. apply (HS p (q ++ [(u, a)]) s3); [rewrite <- app_assoc; reflexivity|exact R3]. }
      destruct (qx_hist _ _ (qrun_ext ls s0 s1 R1)) as (h1 & H1). pose proof (qstep_eff _ _ _ _ E) as EF.
      assert (RS : qreach s1) by (destruct RE as (l0 & R0); exists (l0 ++ ls); rewrite qrun_app, R0; auto). pose proof (qreach_inv _ RS) as C1.
      pose proof (run_ginv ls s0 k s1 OG1 G0 R1) as G1.
      assert (NC1 : q_nocol (q_hist s1)).
      { intros x y k' a1 b1 v1 v2 J1 J2. apply (NC x y k' a1 b1 v1 v2); eapply (HS ls [(u, a)]); eauto. }
      assert (SC1 : set_called (q_hist s1) k c w0) by (destruct SC0 as (x & J); exists x; rewrite H1; apply in_or_app; auto).
      assert (SE : q_hist s2 = q_hist s1 \/ exists e, q_hist s2 = q_hist s1 ++ [e]).
      { assert (SV : forall i v0, q_hist (set_val s1 i v0) = q_hist s1) by (intros i v0; apply val_same).
        destruct EF; cbn [q_hist q_goto q_ret q_log new_read new_dirty add_item del_item set_lock]; rewrite ?SV; eauto. }
      destruct SE as [SE|(e & SE)].
      + apply (IH OG1 HS1 s1 h eq_refl); auto. rewrite <- SE. exact H.
      + assert (HH : h = h1 ++ [e]) by (rewrite SE, H1, <- app_assoc in H; apply app_inv_head in H; auto). rewrite HH in I. apply in_app_or in I as [I|[I|[]]]; [apply (IH OG1 HS1 s1 h1 eq_refl); auto|].
        destruct (get_rsp s1 u s2 k c w0 e C1 G1 NC1 SC1 EF SE t r I) as (A & B & D). repeat split; auto. intros w ->. subst e.
        pose proof (g_pc _ _ G1 u) as GP. clear - EF SE GP. assert (SV : forall i v0, q_hist (set_val s1 i v0) = q_hist s1) by (intros i v0; apply val_same).
        destruct EF; cbn [q_hist q_goto q_ret q_log new_read new_dirty add_item del_item set_lock] in SE; rewrite ?SV in SE;
         try (rewrite <- (app_nil_r (q_hist s1)) in SE at 1; apply app_inv_head in SE; discriminate SE); apply app_inv_head in SE; try discriminate SE.
        injection SE as -> -> ->. rewrite H in GP. destruct GP as (w' & Q). discriminate Q. }
  assert (VAL : forall w, r = QBox w \/ (exists b, r = QVal (Some w) b) -> exists u, In (QInv u (QSet k c w)) (q_hist s0)).
  { intros w V. assert (RS : qreach s) by (destruct RE as (l0 & R0); exists (l0 ++ ls); rewrite qrun_app, R0; auto). apply in_split in I as (ha & hb & ->). rewrite app_assoc in H.
    destruct (C59_values s (q_hist s0 ++ ha) t k c r hb w RS H V) as (u & J). exists u. apply (gets_hist ls s0 s OG R). rewrite H. apply in_or_app. auto. }
  destruct NB as (N1 & N2 & N3 & N4). destruct r as [| |o b|w|]; try congruence; auto.
  - destruct o as [w|]; destruct b; try congruence; auto; try (destruct (N4 w eq_refl); fail). right. right. exists w. split; auto. apply VAL. eauto.
  - right. right. exists w. split; auto.
Qed.
Print Assumptions C58_answers.
Corollary C57_one_writer_value_partial ls s t k c v h1 h2 : qrun qinit ls = Some s -> q_always qinit ls one_writer -> q_nocol (q_hist s) ->
  q_hist s = h1 ++ QRsp t (QSet k c v) QTrue :: h2 -> no_del h2 k -> (forall u v', In (QInv u (QSet k c v')) (q_hist s) -> v' = v) -> finds s k c v.
Proof.
  intros R A NC EH ND ONE. destruct (C57_one_writer_partial ls s t k c v h1 h2 R A NC EH ND) as (v' & F & (u & J)). rewrite <- (ONE u v' J). exact F.
Qed.
Print Assumptions C57_one_writer_value_partial.

(** * Deciders for concrete runs *)
Definition steps (t n : nat) : list qlabel := repeat (t, QStep) n.
Definition call_ (t : nat) (o : qcall) : list qlabel := [(t, QCall o)].
Definition after (ls : list qlabel) : qstate := match qrun qinit ls with Some s => s | None => qinit end.
Definition valid (s : qstate) (ls : list qlabel) : bool := match qrun s ls with Some _ => true | None => false end.
Lemma step_other s t a s' u : qstep s (t, a) = Some s' -> u <> t -> q_pcs s' u = q_pcs s u.
Proof.
  intros E NE. apply qstep_eff in E. assert (SV : forall j w, q_pcs (set_val s j w) = q_pcs s) by (intros j w; apply val_same).
  destruct E; cbn [q_pcs q_goto q_ret q_log new_read new_dirty add_item set_lock]; rewrite ?SV; apply q_upd_other; auto.
Qed.
Lemma run_other ls : forall s s' u, qrun s ls = Some s' -> ~ In u (map fst ls) -> q_pcs s' u = q_pcs s u.
Proof.
  induction ls as [|[t a] ls IH]; intros s s' u R N; cbn [qrun] in R; [injection R as <-; auto|]. destruct (qstep s (t, a)) as [s1|] eqn:E; [|discriminate R]. cbn [map fst In] in N.
  rewrite (IH s1 s' u R); [|tauto]. eapply step_other; eauto.
Qed.
Definition idle_b (p : qpc) : bool := match p with QIdle => true | _ => false end.
Definition quiet_b (ls : list qlabel) : bool := forallb (fun t => idle_b (q_pcs (after ls) t)) (map fst ls).
Lemma after_is ls : valid qinit ls = true -> qrun qinit ls = Some (after ls).
Proof. unfold valid, after. destruct (qrun qinit ls); [auto|discriminate]. Qed.
Lemma quiet_after ls : valid qinit ls = true -> quiet_b ls = true -> q_quiet (after ls).
Proof.
  intros V Q t. pose proof (after_is ls V) as R. destruct (in_dec Nat.eq_dec t (map fst ls)) as [I|N]; [|rewrite (run_other ls qinit _ t R N); reflexivity].
  unfold quiet_b in Q. rewrite forallb_forall in Q. specialize (Q t I). cbn beta in Q. destruct (q_pcs (after ls) t); try discriminate Q. reflexivity.
Qed.
Definition nocol_b (h : list qevent) : bool :=
  forallb (fun e => forallb (fun e' => match e, e' with QInv _ (QSet k c _), QInv _ (QSet k' c' _) => negb (k =? k') || (c =? c') | _, _ => true end) h) h.
Lemma nocol_dec h : nocol_b h = true -> q_nocol h.
Proof.
  unfold nocol_b. rewrite forallb_forall. intros H t u k c c' v v' I J. specialize (H _ I). rewrite forallb_forall in H. specialize (H _ J). cbn beta iota in H. lia.
Qed.
(** the states passed *)
Fixpoint qstates (s : qstate) (ls : list qlabel) : list qstate :=
  s :: match ls with [] => [] | l :: ls' => match qstep s l with Some s' => qstates s' ls' | None => [] end end.
Lemma always_qstates ls : forall s (P : qstate -> Prop), (forall x, In x (qstates s ls) -> P x) -> q_always s ls P.
Proof.
  induction ls as [|l ls IH]; intros s P H p q s' E R.
  - destruct p; [|discriminate E]. injection R as <-. apply H. left. auto.
  - destruct p as [|l' p]; [injection R as <-; apply H; left; auto|]. injection E as <- E. cbn [qrun] in R. destruct (qstep s l) as [s1|] eqn:ST; [|discriminate R].
    apply (IH s1 P) with (p := p) (q := q); auto. intros x I. apply H. cbn [qstates]. rewrite ST. right. auto.
Qed.
Definition one_writer_b (ts : list nat) (s : qstate) : bool :=
  forallb (fun t => forallb (fun u => negb (writer (q_pcs s t)) || negb (writer (q_pcs s u)) || Nat.eqb t u) ts) ts.
Lemma states_other ls : forall s x u, In x (qstates s ls) -> ~ In u (map fst ls) -> q_pcs x u = q_pcs s u.
Proof.
  induction ls as [|[t a] ls IH]; intros s x u I N; cbn [qstates] in I; [destruct I as [<-|[]]; auto|]. destruct I as [<-|I]; auto. destruct (qstep s (t, a)) as [s1|] eqn:E; [|destruct I].
  cbn [map fst In] in N. rewrite (IH s1 x u I); [|tauto]. eapply step_other; eauto.
Qed.
Lemma one_writer_run ls : forallb (one_writer_b (map fst ls)) (qstates qinit ls) = true -> q_always qinit ls one_writer.
Proof.
  rewrite forallb_forall. intros H. apply always_qstates. intros x I t u W1 W2.
  assert (J : forall w, writer (q_pcs x w) = true -> In w (map fst ls)).
  { intros w W. destruct (in_dec Nat.eq_dec w (map fst ls)); auto. rewrite (states_other ls qinit x w I n) in W. discriminate W. }
  specialize (H x I). unfold one_writer_b in H. rewrite forallb_forall in H. specialize (H t (J t W1)). rewrite forallb_forall in H. specialize (H u (J u W2)). rewrite W1, W2 in H. cbn in H. apply Nat.eqb_eq. auto.
Qed.
(** what a Get alone answers, for a decider *)
Definition misses (r : option qres) : bool := match r with Some (QBox _) | Some (QVal (Some _) true) => false | _ => true end.
Lemma misses_not s t k c : q_pcs s t = QIdle -> misses (get_alone s t k c) = true -> ~ exists v, finds s k c v.
Proof. intros P M (v & F). destruct (F t P) as [E|E]; rewrite E in M; discriminate M. Qed.

(** * C57 refuted *)
(** the natural claim: once no call is running, every key whose Set has returned is found, if nothing was deleted *)
Definition sets_found : Prop := forall s t k c v, qreach s -> q_quiet s -> q_nocol (q_hist s) -> (forall k', no_del (q_hist s) k') ->
  In (QRsp t (QSet k c v) QTrue) (q_hist s) -> exists v', finds s k c v'.
Definition no_del_b (h : list qevent) : bool := forallb (fun e => match e with QInv _ (QDel _ _) => false | _ => true end) h.
Lemma no_del_dec h : no_del_b h = true -> forall k, no_del h k.
Proof. unfold no_del_b. rewrite forallb_forall. intros H k t c I. specialize (H _ I). discriminate H. Qed.
Lemma sets_lost ls t k c v : valid qinit ls = true -> quiet_b ls = true -> nocol_b (q_hist (after ls)) = true -> no_del_b (q_hist (after ls)) = true -> In (QRsp t (QSet k c v) QTrue) (q_hist (after ls)) ->
  misses (get_alone (after ls) 0 k c) = true -> ~ sets_found.
Proof.
  intros V Q N ND I M H. assert (QU : q_quiet (after ls)) by (apply quiet_after; auto). refine (misses_not (after ls) 0 k c (QU 0%nat) M (H (after ls) t k c v _ QU (nocol_dec _ N) (no_del_dec _ ND) I)).
  exists ls. apply after_is; auto.
Qed.
(** two first Sets: the second one to store the empty read map throws away the read map that holds the other key *)
Definition first_race : list qlabel := call_ 1 (QSet 1 1 10) ++ steps 1 1 ++ call_ 2 (QSet 2 2 20) ++ steps 2 21 ++ steps 1 20.
Theorem C57_first_sets_refuted : ~ sets_found.
Proof.
  apply (sets_lost first_race 2 2 2 20); vm_compute; try reflexivity. tauto.
Qed.
Print Assumptions C57_first_sets_refuted.
(** on a map that is in use: a Set that holds the old dirty map while a Get promotes it stores where nobody looks any more *)
Definition promote_race : list qlabel :=
  (call_ 1 (QSet 1 1 10) ++ steps 1 21) ++ call_ 1 (QSet 2 2 20) ++ steps 1 4 ++ call_ 2 (QSet 3 3 30) ++ steps 2 5 ++
  call_ 2 (QGet 3 3) ++ steps 2 5 ++ [(2%nat, QPromote true)] ++ steps 2 9 ++ steps 1 1.
Theorem C57_promotion_refuted : ~ sets_found.
Proof.
  apply (sets_lost promote_race 1 2 2 20); vm_compute; try reflexivity. tauto.
Qed.
Print Assumptions C57_promotion_refuted.

(** * C58 refuted *)
(** the natural claims: while only Gets run, a Get of a key that is there finds it *)
Definition gets_answer (good : qres -> Prop) : Prop := forall s0 ls s h t k c v r, qreach s0 -> q_quiet s0 -> q_nocol (q_hist s0) -> only_gets ls -> qrun s0 ls = Some s ->
  finds s0 k c v -> q_hist s = q_hist s0 ++ h -> In (QRsp t (QGet k c) r) h -> good r.
Definition only_gets_b (ls : list qlabel) : bool := forallb (fun l => match snd l with QCall (QSet _ _ _) => false | QCall (QDel _ _) => false | _ => true end) ls.
Lemma only_gets_dec ls : only_gets_b ls = true -> only_gets ls.
Proof. unfold only_gets_b. rewrite forallb_forall. intros H t o I. specialize (H _ I). cbn in H. destruct o; [discriminate H|eauto|discriminate H]. Qed.
Lemma finds_quiet s k c v : (forall t, q_pcs s t = QIdle) -> pres s k -> qinv s -> q_nocol (q_hist s) -> set_called (q_hist s) k c v -> (forall v', set_called (q_hist s) k c v' -> v' = v) -> finds s k c v.
Proof. intros Q P C N SC ONE. destruct (pres_finds s k c v C N SC P) as (v' & F & S). rewrite <- (ONE v' S). exact F. Qed.
Lemma gets_bad ls1 ls2 t k c v r (good : qres -> Prop) : valid qinit ls1 = true -> quiet_b ls1 = true -> nocol_b (q_hist (after ls1)) = true -> only_gets_b ls2 = true -> valid qinit (ls1 ++ ls2) = true ->
  get_alone (after ls1) 0 k c = Some (QVal (Some v) true) -> (forall v', In v' (flat_map (fun e => match e with QInv _ (QSet k' c' v') => if (k =? k') && (c =? c') then [v'] else [] | _ => [] end) (q_hist (after ls1))) -> v' = v) ->
  In (QRsp t (QGet k c) r) (skipn (List.length (q_hist (after ls1))) (q_hist (after (ls1 ++ ls2)))) -> ~ good r -> ~ gets_answer good.
Proof.
  intros V1 Q N O V2 GA ONE I NG H. assert (QU : q_quiet (after ls1)) by (apply quiet_after; auto). pose proof (after_is _ V1) as R1. pose proof (after_is _ V2) as R2.
  assert (RE : qreach (after ls1)) by (exists ls1; auto). pose proof (qreach_inv _ RE) as C.
  pose proof R2 as R3. rewrite qrun_app, R1 in R3.
  destruct (finds_pres (after ls1) 0 k c v (QU 0%nat) (or_intror GA)) as (PR & i & x & NX & KX & CX).
  assert (ONE' : forall v', set_called (q_hist (after ls1)) k c v' -> v' = v).
  { intros v' (u & J). apply ONE. apply in_flat_map. eexists. split; [exact J|]. cbn. rewrite !Z.eqb_refl. left. auto. }
  assert (SX : set_called (q_hist (after ls1)) k c (q_v x)) by (rewrite <- KX, <- CX; apply (qi_val _ C i x NX)).
  assert (F : finds (after ls1) k c v) by (apply finds_quiet; auto; [apply nocol_dec; auto|rewrite <- (ONE' _ SX); auto]).
  assert (X : exists h, q_hist (after (ls1 ++ ls2)) = q_hist (after ls1) ++ h).
  { clear - R3. revert R3. generalize (after (ls1 ++ ls2)). generalize (after ls1). clear ls1. intros s0 s R. revert s0 R.
    induction ls2 as [|[t a] ls IH]; intros s0 R; cbn [qrun] in R; [injection R as <-; exists []; rewrite app_nil_r; auto|].
    destruct (qstep s0 (t, a)) as [s1|] eqn:E; [|discriminate R]. destruct (qx_hist _ _ (qeff_ext _ _ _ (qstep_eff _ _ _ _ E))) as (h1 & H1). destruct (IH s1 R) as (h2 & H2). exists (h1 ++ h2). rewrite H2, H1, app_assoc. auto. }
  destruct X as (h & X). rewrite X in I. rewrite skipn_app, skipn_all, Nat.sub_diag in I. cbn [app skipn] in I.
  apply NG. exact (H (after ls1) ls2 _ h t k c v r RE QU (nocol_dec _ N) (only_gets_dec _ O) R3 F X I).
Qed.
Definition two_set : list qlabel := call_ 1 (QSet 1 1 10) ++ steps 1 21 ++ call_ 1 (QSet 2 2 20) ++ steps 1 5.
Definition get_promotes (t : nat) : list qlabel := call_ t (QGet 2 2) ++ steps t 5 ++ [(t, QPromote true)] ++ steps t 9.
(** two Gets of one key: while one promotes, the other looks into the new, empty dirty map and dereferences nil *)
Theorem C58_panic_refuted : ~ gets_answer (fun r => r <> QPanic).
Proof.
  apply (gets_bad two_set (call_ 1 (QGet 2 2) ++ steps 1 2 ++ get_promotes 2 ++ steps 1 2) 1 2 2 20 QPanic); try (vm_compute; reflexivity).
  - vm_compute. intros v' [<-|[]]. reflexivity.
  - vm_compute. tauto.
  - intros H. apply H. reflexivity.
Qed.
Print Assumptions C58_panic_refuted.
(** and one step earlier it answers "found" with a nil value *)
Theorem C58_nil_refuted : ~ gets_answer (fun r => r <> QVal None true).
Proof.
  apply (gets_bad two_set (call_ 1 (QGet 2 2) ++ steps 1 1 ++ get_promotes 2 ++ steps 1 1) 1 2 2 20 (QVal None true)); try (vm_compute; reflexivity).
  - vm_compute. intros v' [<-|[]]. reflexivity.
  - vm_compute. tauto.
  - intros H. apply H. reflexivity.
Qed.
Print Assumptions C58_nil_refuted.

(** * The hypotheses are met *)
(** C57: a Set, a second Set and a Get that interleaves with it, then a Set and a Delete of a third key, and a Get that
    promotes: one writer at every moment, both keys found *)
Definition one_writer_run_ex : list qlabel :=
  call_ 1 (QSet 1 1 10) ++ steps 1 21 ++ call_ 2 (QGet 1 1) ++ call_ 1 (QSet 2 2 20) ++ steps 1 2 ++ steps 2 1 ++ steps 1 3 ++ steps 2 1 ++
  call_ 1 (QSet 3 3 30) ++ steps 1 5 ++ call_ 1 (QDel 3 3) ++ steps 1 6 ++ [(1%nat, QPromote false)] ++ steps 1 1 ++ get_promotes 2.
Example C57_hypotheses_met : exists s h1 h2, qrun qinit one_writer_run_ex = Some s /\ q_always qinit one_writer_run_ex one_writer /\ q_nocol (q_hist s) /\
  q_hist s = h1 ++ QRsp 1 (QSet 2 2 20) QTrue :: h2 /\ no_del h2 2 /\ In (QRsp 1 (QDel 3 3) QFalse) h2 /\ In (QRsp 2 (QGet 1 1) (QBox 10)) (q_hist s) /\
  get_alone s 0 2 2 = Some (QBox 20).
Proof.
  exists (after one_writer_run_ex), (firstn 4 (q_hist (after one_writer_run_ex))), (skipn 5 (q_hist (after one_writer_run_ex))). split; [apply after_is; vm_compute; reflexivity|].
  split; [apply one_writer_run; vm_compute; reflexivity|].
  split; [apply nocol_dec; vm_compute; reflexivity|]. split; [vm_compute; reflexivity|]. split; [|vm_compute; repeat split; tauto].
  intros t c I. vm_compute in I. repeat (destruct I as [I|I]; [discriminate I|]). destruct I.
Qed.
(** C58: the two Gets of the panic above: key 2 is found before and after *)
Example C58_hypotheses_met : exists s, qreach (after two_set) /\ q_quiet (after two_set) /\ q_nocol (q_hist (after two_set)) /\
  only_gets (call_ 1 (QGet 2 2) ++ steps 1 2 ++ get_promotes 2 ++ steps 1 2) /\
  qrun (after two_set) (call_ 1 (QGet 2 2) ++ steps 1 2 ++ get_promotes 2 ++ steps 1 2) = Some s /\ get_alone (after two_set) 0 2 2 = Some (QVal (Some 20) true) /\ get_alone s 0 2 2 = Some (QBox 20).
Proof.
  exists (after (two_set ++ call_ 1 (QGet 2 2) ++ steps 1 2 ++ get_promotes 2 ++ steps 1 2)).
  split; [exists two_set; apply after_is; vm_compute; reflexivity|]. split; [apply quiet_after; vm_compute; reflexivity|]. split; [apply nocol_dec; vm_compute; reflexivity|].
  split; [apply only_gets_dec; vm_compute; reflexivity|]. split; [|split; vm_compute; reflexivity].
  pose proof (after_is (two_set ++ call_ 1 (QGet 2 2) ++ steps 1 2 ++ get_promotes 2 ++ steps 1 2)) as R. rewrite qrun_app in R. rewrite (after_is two_set) in R by (vm_compute; reflexivity). apply R. vm_compute. reflexivity.
Qed.
(** C59: a Get beside a Set of the same key reports the old or the new value *)
Example C59_hypotheses_met : let s := after one_writer_run_ex in exists h1 h2, qreach s /\ q_hist s = h1 ++ QRsp 2 (QGet 1 1) (QBox 10) :: h2 /\ In (QInv 1 (QSet 2 2 20)) h1.
Proof.
  cbn zeta. exists (firstn 5 (q_hist (after one_writer_run_ex))), (skipn 6 (q_hist (after one_writer_run_ex))).
  split; [exists one_writer_run_ex; apply after_is; vm_compute; reflexivity|]. split; vm_compute; [reflexivity|tauto].
Qed.
