(** Lemmas for the theorems about concurrent calls: what a step of another goroutine can change, the walk of a lone
    inserter, duplicates, the search option, Len. *)
From Verif Require Import Base BaseProofs Util UtilProofs Bucket MapModel ConcModel ConcSpec ConcProofs.
From Coq Require Import ZifyBool Sorted PeanoNat.
Local Open Scope Z_scope.
Local Open Scope list_scope.
Local Opaque reverse64.

Lemma visible_hit s k c i : visible s k c i <-> hit s k c i = true.
Proof.
  unfold visible, hit, matches, n_ign. rewrite andb_true_iff, in_order_In. destruct (node s i) as [n|].
  - rewrite !andb_true_iff, negb_true_iff, orb_false_iff, !Z.eqb_eq. split.
    + intros (A & m & X & B & C & D & E). injection X as <-. auto.
    + intros (A & ((D & E) & B) & C). split; auto. exists n. auto.
  - split; [intros (_ & m & X & _); discriminate|intros [_ X]; discriminate].
Qed.
Lemma always_now g s ls P : always g s ls P -> P s.
Proof. intros A. apply (A [] ls s); auto. Qed.
Lemma always_next g s l ls P s1 : always g s (l :: ls) P -> cstep g s l = Some s1 -> always g s1 ls P.
Proof. intros A E p q s' X R. apply (A (l :: p) q s'); [subst; auto|]. cbn [crun]. rewrite E. auto. Qed.
Lemma always_ind g (J P : cstate -> Prop) ls : (forall s t a s', In (t, a) ls -> J s -> P s -> P s' -> cstep g s (t, a) = Some s' -> J s') ->
  forall s s', J s -> always g s ls P -> crun g s ls = Some s' -> J s'.
Proof.
  induction ls as [|[t a] ls IH]; intros H s s' H0 A R; cbn [crun] in R; [injection R as <-; auto|].
  destruct (cstep g s (t, a)) as [s1|] eqn:E; [|discriminate]. pose proof (always_now _ _ _ _ A) as P0. pose proof (always_next _ _ _ _ _ _ A E) as A1.
  apply (IH (fun s0 u b s2 I => H s0 u b s2 (or_intror I)) s1 s'); auto. eapply H; eauto; [left; auto|]. eapply always_now; eauto.
Qed.

Lemma inserting_owns p : inserting p = false <-> owns p = None.
Proof. destruct p; cbn; split; congruence. Qed.

(** * Frames *)
Lemma eff_other g s t s' u : eff g s t s' -> u <> t -> pcs s' u = pcs s u.
Proof.
  intros E NE. destruct E; cbn [pcs goto ret log_ alloc set_opt set_node]; rewrite ?upd_pc_other by auto; auto.
  - destruct (after_pc s t o) as (p & -> & _); rewrite upd_pc_other by auto; auto.
  - destruct (after_pc (insert s i r) t o) as (p & -> & _); rewrite upd_pc_other by auto; auto.
  - destruct (after_pc (insert s i r) t o) as (p & -> & _); rewrite upd_pc_other by auto; auto.
Qed.
Lemma eff_quiet g s t s' : eff g s t s' -> inserting (pcs s t) = false -> inserting (pcs s' t) = false -> order s' = order s /\ copt s' = copt s.
Proof.
  intros E A B. destruct E; try (split; reflexivity); try (rewrite H in A; discriminate A);
    exfalso; cbn [pcs goto alloc log_] in B; rewrite upd_pc_same in B; discriminate B.
Qed.
Lemma eff_rev g s t s' i n : eff g s t s' -> node s i = Some n -> exists n', node s' i = Some n' /\ n_rev n' = n_rev n /\ n_conf n' = n_conf n /\ n_dum n' = n_dum n /\ (n_del n = true -> n_del n' = true).
Proof. intros E N. destruct (ex_heap _ _ (eff_ext _ _ _ _ E) i n N) as (n' & A & B). exists n'. auto. Qed.

(** items become invisible only by a Delete of the same pair of hashes *)
Definition deleting (k c : Z) (p : pc) : Prop := exists o, pending p = Some o /\ same_pair k c o /\ exists i, p = Mark o i.
Lemma eff_visible g s t s' k c i : cinv s -> eff g s t s' -> ~ deleting k c (pcs s t) -> visible s k c i -> visible s' k c i.
Proof.
  intros C E ND (I & n & N & A & B & D & L). split; [eapply subseq_in; [apply (ex_order _ _ (eff_ext _ _ _ _ E))|auto]|].
  destruct (eff_rev g s t s' i n E N) as (n' & N' & A' & B' & D' & _). exists n'. split; auto. split; [congruence|]. split; [congruence|]. split; [congruence|].
  assert (G : n' = n \/ n_del n' = n_del n \/ exists o, pcs s t = Mark o i).
  { destruct E; try (left; unfold node in *; cbn [heap goto ret log_ alloc set_opt] in N'; congruence).
    - left. unfold node in *. cbn [heap goto ret log_ alloc] in N'. rewrite nth_error_app1 in N' by (apply nth_error_Some; congruence). congruence.
    - left. unfold node in *. cbn [heap goto ret log_ alloc] in N'. rewrite nth_error_app1 in N' by (apply nth_error_Some; congruence). congruence.
    - unfold node in *. cbn [heap ret set_node] in N'. rewrite set_nth_at, H0 in N'. destruct (Nat.eqb_spec i i0) as [->|]; [|left; congruence].
      injection N' as <-. right. left. cbn. congruence.
    - unfold node in *. cbn [heap ret set_node] in N'. rewrite set_nth_at, H0 in N'. destruct (Nat.eqb_spec i i0) as [->|]; [|left; congruence].
      right. right. eauto.
    - left. unfold node in *. destruct (after_shared s t o) as (X & _). rewrite X in N'. congruence.
    - left. unfold node in *. destruct (after_shared (insert s i0 r) t o) as (X & _). rewrite X in N'. cbn [heap insert] in N'. congruence.
    - left. unfold node in *. destruct (after_shared (insert s i0 r) t o) as (X & _). rewrite X in N'. cbn [heap insert] in N'. congruence. }
  destruct G as [->|[->|(o & P)]]; auto. exfalso. apply ND. pose proof (ci_pc _ C t) as PO. rewrite P in PO. cbn [pc_ok] in PO.
  destruct PO as [_ (_ & n0 & k' & c' & N0 & K & R1 & R2 & _)]. exists o. rewrite P. split; auto. split; [|eauto]. exists k', c'. split; auto. split; congruence.
Qed.

(** * The last node of the list is the last sentinel *)
Definition max_pos : Z := 2 ^ 64 - 1.
Definition ends_max (s : cstate) : Prop := exists l m n, order s = l ++ [m] /\ node s m = Some n /\ n_rev n = max_pos.
Lemma ins_bef_last r i l m : exists l', ins_bef r i (l ++ [m]) = l' ++ [m].
Proof.
  induction l as [|x l (l' & IH)]; cbn [app ins_bef].
  - destruct (Nat.eqb m r); [exists [i]; auto|exists []; auto].
  - destruct (Nat.eqb x r); [exists (i :: x :: l); auto|]. rewrite IH. exists (x :: l'). auto.
Qed.
Lemma order_step g s t s' : eff g s t s' -> order s' = order s \/ exists i r, owns (pcs s t) = Some i /\ order s' = ins_bef r i (order s).
Proof.
  intros E. destruct E; try (left; reflexivity).
  - left. apply after_shared.
  - right. exists i, r. rewrite H. split; auto. apply (after_shared (insert s i r)).
  - right. exists i, r. rewrite H. split; auto. apply (after_shared (insert s i r)).
Qed.
Lemma eff_ends g s t s' : eff g s t s' -> ends_max s -> ends_max s'.
Proof.
  intros E (l & m & n & A & B & C). destruct (eff_rev g s t s' m n E B) as (n' & B' & C' & _).
  destruct (order_step g s t s' E) as [O|(i & r & _ & O)]; rewrite A in O.
  - exists l, m, n'. split; auto. split; auto. congruence.
  - destruct (ins_bef_last r i l m) as (l' & X). exists l', m, n'. split; [congruence|]. split; auto. congruence.
Qed.
Lemma cinit_ends : ends_max cinit.
Proof. exists (seq 0 16), 16%nat, (mkN max_pos 0 GNil true false). split; [vm_compute; reflexivity|]. split; vm_compute; reflexivity. Qed.

(** * A lone inserter *)
Definition before_ok (s : cstate) (i cur : nat) : Prop :=
  forall p np ni, prev_of cur (order s) = Some p -> node s p = Some np -> node s i = Some ni -> n_rev np <= n_rev ni.
Lemma prev_next x l y : NoDup l -> next_of x l = Some y -> prev_of y l = Some x.
Proof.
  intros ND H. assert (In x l). { revert H. clear ND. induction l as [|z l IH]; cbn [next_of]; [discriminate|]. destruct (Nat.eqb_spec z x); [left; auto|]. intros H. right. auto. }
  apply in_split in H0 as (l1 & l2 & ->). pose proof ND as ND'. apply NoDup_remove_2 in ND'. rewrite next_of_split in H by (intros X; apply ND', in_or_app; auto).
  destruct l2 as [|z l2]; [discriminate|]. cbn in H. injection H as ->. change (l1 ++ x :: y :: l2) with (l1 ++ [x] ++ y :: l2) in *. rewrite app_assoc in *.
  rewrite prev_of_split by auto. rewrite rev_app_distr. reflexivity.
Qed.
Lemma next_none x l m : NoDup (l ++ [m]) -> In x (l ++ [m]) -> next_of x (l ++ [m]) = None -> x = m.
Proof.
  induction l as [|z l IH]; cbn [app next_of].
  - intros _ [->|[]] _. auto.
  - intros ND I. inversion ND; subst. destruct (Nat.eqb_spec z x) as [->|NE].
    + intros H. destruct l; discriminate.
    + destruct I as [->|I]; [congruence|]. auto.
Qed.
(** where goroutine t, doing Set k c v, is *)
Definition lone (s : cstate) (t : nat) (o : call) : Prop :=
  match pcs s t with
  | Load o' => o' = o
  | Upd o' i => o' = o /\ match o with CSet k c _ => visible s k c i | _ => False end
  | Save o' i _ => o' = o
  | Walk o' i cur _ => o' = o /\ copt s = false /\ (before_ok s i cur \/ exists ni nc, node s i = Some ni /\ node s cur = Some nc /\ n_rev nc <= n_rev ni)
  | Restore o' i n pos _ => o' = o /\ (n = O -> exists r, pos = Some r /\ before_ok s i r)
  | Chk o' i r => o' = o /\ check s i r = true
  | Ins o' i r => o' = o
  | Cnt o' => o' = o /\ match o with CSet k c _ => exists i, visible s k c i | _ => False end
  | Idle => match o with CSet k c _ => exists i, visible s k c i | _ => False end
  | Rd _ _ | Mark _ _ => False
  end.

Lemma prev_in x l : forall p, prev_of x l = Some p -> In p l.
Proof.
  induction l as [|y l IH]; intros p; [discriminate|]. destruct l as [|z l]; [discriminate|]. cbn [prev_of]. destruct (Nat.eqb z x); [intros [= ->]; left; auto|].
  intros H. right. apply IH. exact H.
Qed.
(** a step of another goroutine that is not inserting *)
Lemma lone_other g s u s' t o : cinv s -> u <> t -> eff g s u s' -> inserting (pcs s u) = false -> inserting (pcs s' u) = false ->
  (forall k c v, o = CSet k c v -> ~ deleting k c (pcs s u)) -> lone s t o -> lone s' t o.
Proof.
  intros C NE E I1 I2 ND L. destruct (eff_quiet g s u s' E I1 I2) as [OO OC]. pose proof (eff_ext _ _ _ _ E) as X.
  assert (VS : forall k c v i, o = CSet k c v -> visible s k c i -> visible s' k c i) by (intros; eapply eff_visible; eauto).
  assert (BO : forall i cur, node s i <> None -> before_ok s i cur -> before_ok s' i cur).
  { intros i cur NI B p np ni. rewrite OO. intros H1 H2 H3. assert (IP : In p (order s)) by (eapply prev_in; eauto).
    pose proof (ci_valid _ C p IP) as V. destruct (node s p) as [np0|] eqn:N1; [|congruence]. destruct (node s i) as [ni0|] eqn:N2; [|congruence].
    destruct (ex_heap _ _ X p np0 N1) as (a & A1 & A2 & _). destruct (ex_heap _ _ X i ni0 N2) as (b & B1 & B2 & _).
    specialize (B p np0 ni0 H1 N1 N2). assert (a = np) by congruence. assert (b = ni) by congruence. subst. lia. }
  assert (OW : forall i, owns (pcs s t) = Some i -> node s i <> None) by (intros i H; apply (owned_not_in s t i C H)).
  unfold lone in *. rewrite (eff_other g s u s' t E) by auto. destruct (pcs s t) as [|o'|o' i|o' i|o' i|o' i n|o' i cur pv|o' i n pos pv|o' i r|o' i r|o'] eqn:EP; auto.
  - destruct o; auto. destruct L as (i & L). exists i. eauto.
  - destruct L as [-> L]. split; auto. destruct o; auto. eauto.
  - destruct L as (-> & L1 & L2). split; auto. split; [congruence|]. destruct L2 as [L2|(ni & nc & N1 & N2 & L2)]; [left; apply BO; auto|right].
    destruct (ex_heap _ _ X i ni N1) as (a & A1 & A2 & _). destruct (ex_heap _ _ X cur nc N2) as (b & B1 & B2 & _). exists a, b. split; auto. split; auto. lia.
  - destruct L as (-> & L). split; auto. intros Z. destruct (L Z) as (r & R1 & R2). exists r. split; [auto|]. apply BO; auto.
  - destruct L as (-> & L). split; auto. unfold check in *. rewrite OO. destruct (node s i) as [ni|] eqn:N1; [|discriminate]. destruct (node s r) as [nr|] eqn:N2; [|discriminate].
    destruct (ex_heap _ _ X i ni N1) as (a & -> & A2 & _). destruct (ex_heap _ _ X r nr N2) as (b & -> & B2 & _). rewrite A2, B2.
    destruct (prev_of r (order s)) as [p|]; auto. destruct (node s p) as [np|] eqn:N3; [|rewrite andb_false_r in L; discriminate].
    destruct (ex_heap _ _ X p np N3) as (d & -> & D2 & _). rewrite D2. auto.
  - destruct L as [-> L]. split; auto. destruct o; auto. destruct L as (i & L). exists i. eauto.
Qed.
Lemma check_before s i r ni nr : cinv s -> node s i = Some ni -> node s r = Some nr -> n_rev ni <= n_rev nr -> before_ok s i r -> In r (order s) -> check s i r = true.
Proof.
  intros C N1 N2 L B I. unfold check. rewrite N1, N2. apply andb_true_iff. split; [lia|]. destruct (prev_of r (order s)) as [p|] eqn:P; auto.
  assert (IP : In p (order s)) by (eapply prev_in; eauto).
  pose proof (ci_valid _ C p IP) as V. destruct (node s p) as [np|] eqn:N3; [|congruence]. specialize (B p np ni P N3 N1). lia.
Qed.
Lemma visible_ins s t o i r k c v : cinv s -> owns (pcs s t) = Some i -> In r (order s) -> o = CSet k c v -> node s i = new_node o -> visible (after_insert (insert s i r) t o) k c i.
Proof.
  intros C OW IR -> NN. destruct (after_shared (insert s i r) t (CSet k c v)) as (SH & SO & _). split.
  - rewrite SO. cbn [order insert]. destruct (ins_bef_split r i (order s) IR) as (l1 & l2 & _ & -> & _). apply in_or_app. right. left. auto.
  - unfold node in *. rewrite SH. cbn [heap insert]. cbn [new_node] in NN. rewrite NN. eexists. split; [reflexivity|]. cbn. auto.
Qed.
(** a step of the inserter *)
Lemma lone_self g s t s' k c v : cinv s -> ends_max s -> reverse64 k < max_pos -> eff g s t s' -> pcs s t <> Idle -> lone s t (CSet k c v) -> lone s' t (CSet k c v).
Proof.
  intros C EM KM E NI L. pose proof (ci_pc _ C t) as P. unfold lone in L.
  destruct E; rewrite H in L, P; cbn [pc_ok] in P; try congruence; try contradiction; try (injection L as <- <- <-).
  - unfold lone. cbn [pcs goto]. rewrite upd_pc_same. split; auto. apply visible_hit. auto.
  - unfold lone. cbn [pcs goto]. rewrite upd_pc_same. auto.
  - destruct L as [L1 L2]. injection L1 as -> -> ->. unfold lone. cbn [pcs ret]. rewrite upd_pc_same. exists i. destruct L2 as (I & n0 & N & Q). split; [exact I|].
    assert (n0 = n) by congruence. subst n0. unfold node. cbn [heap ret set_node]. rewrite set_nth_at, Nat.eqb_refl. unfold node in N. rewrite N. eexists. split; [reflexivity|]. exact Q.
  - destruct L as [L1 L2]. injection L1 as -> -> ->. unfold lone. cbn [pcs ret]. rewrite upd_pc_same. exists i. exact L2.
  - unfold lone. cbn [pcs goto set_opt]. rewrite upd_pc_same. split; auto. discriminate.
  - unfold lone. cbn [pcs goto set_opt]. rewrite upd_pc_same. split; auto. split; [reflexivity|]. right. exists ni, ns. auto.
  - destruct L as (-> & L1 & L2). unfold lone. cbn [pcs goto]. rewrite upd_pc_same. split; auto. intros _. exists cur. split; auto.
    destruct L2 as [L2|(ni' & nc' & A & B & D)]; [exact L2|]. exfalso. assert (ni' = ni) by congruence. assert (nc' = nc) by congruence. subst. lia.
  - destruct L as (-> & L1 & L2). unfold lone. cbn [pcs goto]. rewrite upd_pc_same. split; auto. split; [exact L1|]. left. intros p np ni'. cbn [order goto].
    intros A B D. rewrite (prev_next cur (order s) nx (ci_nodup _ C) H3) in A. injection A as <-. change (node s cur = Some np) in B. change (node s i = Some ni') in D.
    assert (np = nc) by congruence. assert (ni' = ni) by congruence. subst. destruct H2 as [X|X]; [rewrite L1 in X; discriminate X|exact X].
  - exfalso. destruct L as (-> & L1 & L2). destruct P as (_ & (_ & F & _) & IC). destruct EM as (l & m & nm & E1 & E2 & E3). rewrite E1 in *.
    assert (cur = m). { eapply next_none; [|exact IC|exact H3]. rewrite <- E1. apply C. } subst m. cbn [new_node] in F.
    destruct H2 as [X|X]; [rewrite L1 in X; discriminate X|]. assert (nc = nm) by congruence. assert (X2 : n_rev ni = reverse64 k) by (rewrite F in H0; injection H0 as <-; auto). subst. lia.
  - destruct L as [-> _]. unfold lone. cbn [pcs goto set_opt]. rewrite upd_pc_same. auto.
  - destruct L as [-> L]. destruct (L eq_refl) as (r0 & [= <-] & B). unfold lone. cbn [pcs goto set_opt]. rewrite upd_pc_same. split; auto.
    destruct P as (_ & F & Q). destruct (Q r eq_refl) as (IR & ni & nr & N1 & N2 & LT). change (check s i r = true). eapply check_before; eauto. lia.
  - exfalso. destruct L as [-> L]. destruct (L eq_refl) as (r0 & X & _). discriminate X.
  - exfalso. destruct L as [_ L]. congruence.
  - destruct L as [-> L]. destruct P as (_ & (_ & F & _) & IR). pose proof (visible_ins s t (CSet k c v) i r k c v C) as V. rewrite H in V. specialize (V eq_refl IR eq_refl F).
    unfold lone. cbn [after_insert pcs goto]. rewrite upd_pc_same. split; auto. exists i. exact V.
  - destruct L as [-> _]. unfold lone. cbn [pcs goto]. rewrite upd_pc_same. auto.
  - subst o. destruct P as (_ & (_ & F & _) & IR). pose proof (visible_ins s t (CSet k c v) i r k c v C) as V. rewrite H in V. specialize (V eq_refl IR eq_refl F).
    unfold lone. cbn [after_insert pcs goto]. rewrite upd_pc_same. split; auto. exists i. exact V.
  - destruct L as [-> L]. unfold lone. cbn [pcs ret]. rewrite upd_pc_same. exact L.
Qed.

(** * Duplicates *)
Lemma pending_owns s t i : cinv s -> owns (pcs s t) = Some i -> exists o, pending (pcs s t) = Some o /\ inserting (pcs s t) = true /\ fresh s o i.
Proof.
  intros C H. pose proof (ci_pc _ C t) as P. destruct (pcs s t) as [|o|o j|o j|o j|o j n|o j cur pv|o j n pos pv|o j r|o j r|o]; cbn [owns pc_ok pending inserting] in *; try discriminate; injection H as ->;
    exists o; tauto.
Qed.
Lemma eff_new g s t s' k c i : cinv s -> eff g s t s' -> visible s' k c i -> visible s k c i \/
  exists k' v, owns (pcs s t) = Some i /\ pending (pcs s t) = Some (CSet k' c v) /\ inserting (pcs s t) = true /\ reverse64 k' = reverse64 k /\ inserting (pcs s' t) = false.
Proof.
  intros C E (I & n & N & A & B & D & L).
  assert (AFT : forall o r j, order s' = ins_bef r j (order s) -> heap s' = heap s -> owns (pcs s t) = Some j -> In r (order s) -> pending (pcs s t) = Some o -> inserting (pcs s' t) = false ->
    visible s k c i \/ exists k' v, owns (pcs s t) = Some i /\ pending (pcs s t) = Some (CSet k' c v) /\ inserting (pcs s t) = true /\ reverse64 k' = reverse64 k /\ inserting (pcs s' t) = false).
  { intros o r j OO HH OW IR PD IS. destruct (pending_owns s t j C OW) as (o' & P1 & P2 & _ & P3 & _). assert (o' = o) by congruence. subst o'.
    unfold node in N. rewrite HH in N. rewrite OO in I. destruct (ins_bef_split r j (order s) IR) as (l1 & l2 & E1 & E2 & _). rewrite E2 in I.
    destruct (Nat.eq_dec i j) as [->|NE].
    - right. unfold node in P3. rewrite P3 in N. destruct o as [k' c' v| | |]; cbn [new_node] in N; try discriminate; injection N as <-; [|discriminate D].
      cbn in A, B. subst c'. exists k', v. repeat split; auto.
    - left. split; [|exists n; auto]. rewrite E1, in_app_iff in *. cbn [In] in *. intuition congruence. }
  destruct E; try (left; split; [exact I|exists n; split; [exact N|auto]]).
  - left. cbn [order goto alloc log_] in I. split; auto. exists n. split; auto. unfold node in *. cbn [heap goto alloc log_] in N.
    rewrite nth_error_app1 in N; auto. apply (ci_valid _ C) in I. unfold node in I. apply nth_error_Some. auto.
  - left. cbn [order goto alloc log_] in I. split; auto. exists n. split; auto. unfold node in *. cbn [heap goto alloc log_] in N.
    rewrite nth_error_app1 in N; auto. apply (ci_valid _ C) in I. unfold node in I. apply nth_error_Some. auto.
  - left. split; [exact I|]. unfold node in *. cbn [heap ret set_node] in N. rewrite set_nth_at, H0 in N. destruct (Nat.eqb i i0) eqn:Q; [|exists n; auto].
    apply Nat.eqb_eq in Q. subst i0. injection N as <-. cbn in *. exists n0. auto.
  - left. split; [exact I|]. unfold node in *. cbn [heap ret set_node] in N. rewrite set_nth_at, H0 in N. destruct (Nat.eqb i i0) eqn:Q; [|exists n; auto].
    injection N as <-. discriminate L.
  - left. destruct (after_shared s t o) as (X & Y & _). unfold node in N. rewrite X in N. rewrite Y in I. split; auto. exists n. auto.
  - destruct (after_shared (insert s i0 r) t o) as (X & Y & _). pose proof (ci_pc _ C t) as P. rewrite H in P. destruct P as (_ & _ & IR).
    destruct (after_pc (insert s i0 r) t o) as (p & PP & _ & PI). apply (AFT o r i0); auto; try (rewrite H; reflexivity). rewrite PP, upd_pc_same. destruct PI as [->| ->]; auto.
  - destruct (after_shared (insert s i0 r) t o) as (X & Y & _). pose proof (ci_pc _ C t) as P. rewrite H in P. destruct P as (_ & _ & IR).
    destruct (after_pc (insert s i0 r) t o) as (p & PP & _ & PI). apply (AFT o r i0); auto; try (rewrite H; reflexivity). rewrite PP, upd_pc_same. destruct PI as [->| ->]; auto.
Qed.
(** no two goroutines are adding the same key *)
Definition exclusive (s : cstate) : Prop := forall t u k c v k' v', t <> u ->
  pending (pcs s t) = Some (CSet k c v) -> inserting (pcs s t) = true -> pending (pcs s u) = Some (CSet k' c v') -> inserting (pcs s u) = true -> reverse64 k <> reverse64 k'.
Definition uniq (s : cstate) : Prop :=
  (forall k c i j, visible s k c i -> visible s k c j -> i = j) /\
  (forall t k c v j, pending (pcs s t) = Some (CSet k c v) -> inserting (pcs s t) = true -> ~ visible s k c j).
Lemma visible_cong s k k' c i : reverse64 k = reverse64 k' -> visible s k c i -> visible s k' c i.
Proof. unfold visible. intros ->. auto. Qed.
Lemma eff_pending g s t s' k c v : cinv s -> eff g s t s' -> pending (pcs s' t) = Some (CSet k c v) -> inserting (pcs s' t) = true ->
  (pending (pcs s t) = Some (CSet k c v) /\ inserting (pcs s t) = true) \/ (pcs s t = Load (CSet k c v) /\ may_miss g s k c = true).
Proof.
  intros C E. destruct E; rewrite ?H; cbn [pcs goto ret log_ alloc set_opt set_node]; rewrite ?upd_pc_same; cbn [pending inserting]; intros A B; auto; try discriminate.
  - injection A as <- <- <-. auto.
  - destruct (after_pc s t o) as (p & Q & _ & [->| ->]); rewrite Q, upd_pc_same in B; discriminate.
  - destruct (after_pc (insert s i r) t o) as (p & Q & _ & [->| ->]); rewrite Q, upd_pc_same in B; discriminate.
  - destruct (after_pc (insert s i r) t o) as (p & Q & _ & [->| ->]); rewrite Q, upd_pc_same in B; discriminate.
Qed.
Lemma no_hit g s k c j : c_lax g = false -> may_miss g s k c = true -> ~ visible s k c j.
Proof.
  unfold may_miss. intros -> M V. apply negb_true_iff in M. pose proof (proj1 V) as I. apply visible_hit in V.
  assert (existsb (hit s k c) (order s) = true) by (apply existsb_exists; exists j; auto). congruence.
Qed.
Lemma eff_uniq g s t s' : c_lax g = false -> cinv s -> exclusive s -> exclusive s' -> eff g s t s' -> uniq s -> uniq s'.
Proof.
  intros LX C X X' E [U1 U2]. split.
  - intros k c i j Vi Vj. destruct (eff_new g s t s' k c i C E Vi) as [Vi'|(k1 & v1 & O1 & P1 & I1 & R1 & _)]; destruct (eff_new g s t s' k c j C E Vj) as [Vj'|(k2 & v2 & O2 & P2 & I2 & R2 & _)].
    + eauto.
    + exfalso. eapply (U2 t k2 c v2 i); eauto. eapply visible_cong; [|exact Vi']. auto.
    + exfalso. eapply (U2 t k1 c v1 j); eauto. eapply visible_cong; [|exact Vj']. auto.
    + congruence.
  - intros u k c v j P I V. destruct (Nat.eq_dec u t) as [->|NE].
    + destruct (eff_new g s t s' k c j C E V) as [V'|(k1 & v1 & _ & _ & _ & _ & F)]; [|congruence].
      destruct (eff_pending g s t s' k c v C E P I) as [[P' I']|[P' M]]; [eapply U2; eauto|]. eapply no_hit; eauto.
    + rewrite (eff_other g s t s' u E NE) in P, I. destruct (eff_new g s t s' k c j C E V) as [V'|(k1 & v1 & O1 & P1 & I1 & R1 & _)]; [eapply U2; eauto|].
      eapply (X t u k1 c v1 k v); eauto.
Qed.
Lemma cinit_uniq : uniq cinit.
Proof.
  split; [|discriminate]. intros k c i j (_ & n & N & _ & _ & D & _) _. exfalso. unfold node, cinit in N. cbn [heap] in N. apply nth_error_In in N. apply in_map_iff in N as (e & <- & _). discriminate D.
Qed.

(** * The search option *)
Definition saved (p : pc) : option bool := match p with Walk _ _ _ pv | Restore _ _ _ _ pv => Some pv | _ => None end.
Definition one_find (s : cstate) : Prop := forall t u, in_find (pcs s t) = true -> in_find (pcs s u) = true -> t = u.
Definition optinv (s : cstate) : Prop :=
  (forall t, in_find (pcs s t) = true -> copt s = false /\ saved (pcs s t) = Some true) /\ ((forall t, in_find (pcs s t) = false) -> copt s = true).
Lemma eff_opt g s t s' : eff g s t s' ->
  (copt s' = copt s /\ in_find (pcs s' t) = in_find (pcs s t) /\ saved (pcs s' t) = saved (pcs s t)) \/
  (in_find (pcs s t) = false /\ in_find (pcs s' t) = true /\ copt s' = false /\ saved (pcs s' t) = Some (copt s)) \/
  (exists pv, in_find (pcs s t) = true /\ in_find (pcs s' t) = false /\ saved (pcs s t) = Some pv /\ copt s' = pv).
Proof.
  intros E. destruct E; rewrite ?H; cbn [pcs goto ret log_ alloc set_opt set_node copt]; rewrite ?upd_pc_same; cbn [in_find saved]; auto; try (right; left; auto; fail).
  - right. right. eauto.
  - right. right. eauto.
  - right. right. eauto.
  - destruct (after_shared s t o) as (_ & _ & X & _). destruct (after_pc s t o) as (p & Q & _ & [->| ->]); rewrite Q, upd_pc_same; left; auto.
  - destruct (after_shared (insert s i r) t o) as (_ & _ & X & _). destruct (after_pc (insert s i r) t o) as (p & Q & _ & [->| ->]); rewrite Q, upd_pc_same; left; auto.
  - destruct (after_shared (insert s i r) t o) as (_ & _ & X & _). destruct (after_pc (insert s i r) t o) as (p & Q & _ & [->| ->]); rewrite Q, upd_pc_same; left; auto.
Qed.
Lemma eff_optinv g s t s' : one_find s -> one_find s' -> eff g s t s' -> optinv s -> optinv s'.
Proof.
  intros O O' E [A B]. pose proof (fun u => eff_other g s t s' u E) as OT. destruct (eff_opt g s t s' E) as [(X1 & X2 & X3)|[(X1 & X2 & X3 & X4)|(pv & X1 & X2 & X3 & X4)]].
  - split.
    + intros u F. rewrite X1. destruct (Nat.eq_dec u t) as [->|NE]; [rewrite X2 in F; rewrite X3; auto|]. rewrite OT in * by auto. auto.
    + intros F. rewrite X1. apply B. intros u. specialize (F u). destruct (Nat.eq_dec u t) as [->|NE]; [congruence|]. rewrite OT in F by auto. auto.
  - assert (NF : forall u, in_find (pcs s u) = false).
    { intros u. destruct (in_find (pcs s u)) eqn:F; auto. destruct (Nat.eq_dec u t) as [->|NE]; [congruence|]. exfalso. apply NE. apply O'; auto. rewrite OT; auto. }
    split.
    + intros u F. split; auto. assert (u = t) by (apply O'; auto). subst u. rewrite X4. f_equal. apply B; auto.
    + intros F. specialize (F t). congruence.
  - split.
    + intros u F. destruct (Nat.eq_dec u t) as [->|NE]; [congruence|]. exfalso. apply NE. apply O; auto. rewrite <- OT; auto.
    + intros _. destruct (A t X1) as [_ Y]. congruence.
Qed.
Definition stuck_opt (s : cstate) : Prop := copt s = false /\ forall t, in_find (pcs s t) = true -> saved (pcs s t) = Some false.
Lemma eff_stuck g s t s' : eff g s t s' -> stuck_opt s -> stuck_opt s'.
Proof.
  intros E [A B]. pose proof (fun u => eff_other g s t s' u E) as OT. destruct (eff_opt g s t s' E) as [(X1 & X2 & X3)|[(X1 & X2 & X3 & X4)|(pv & X1 & X2 & X3 & X4)]]; split; try congruence;
    try (intros u F; destruct (Nat.eq_dec u t) as [->|NE]; [|rewrite OT in * by auto; auto]); try congruence.
  - rewrite X3. apply B. congruence.
  - specialize (B t X1). congruence.
Qed.

(** * Len *)
Definition is_cnt (p : pc) : bool := match p with Cnt _ => true | _ => false end.
Definition b2n (b : bool) : nat := if b then 1%nat else 0%nat.
Lemma count_upd (f g : nat -> bool) t ts : NoDup ts -> In t ts -> (forall u, u <> t -> f u = g u) ->
  (List.length (filter f ts) + b2n (g t) = List.length (filter g ts) + b2n (f t))%nat.
Proof.
  intros ND I H. assert (SAME : forall l, ~ In t l -> filter f l = filter g l).
  { intros l NI. apply filter_ext_in. intros u Hu. apply H. intros ->. contradiction. }
  induction ts as [|x ts IH]; [destruct I|]. inversion ND as [|? ? N1 N2]; subst. cbn [filter]. destruct (Nat.eq_dec x t) as [->|NE].
  - rewrite (SAME ts N1). destruct (f t), (g t); cbn [b2n List.length]; lia.
  - destruct I as [I|I]; [congruence|]. specialize (IH N2 I). rewrite (H x NE). destruct (g x); cbn [List.length]; lia.
Qed.
Definition plain_node (s : cstate) (i : nat) : bool := match node s i with Some n => negb (n_dum n) | None => false end.
Lemma stored_ext s s' : (forall i, In i (order s) -> plain_node s' i = plain_node s i) -> order s' = order s -> stored s' = stored s.
Proof. intros A B. unfold stored. rewrite B. apply filter_ext_in. exact A. Qed.
Lemma plain_ext s s' i : ext s s' -> node s i <> None -> plain_node s' i = plain_node s i.
Proof.
  intros E N. unfold plain_node. destruct (node s i) as [n|] eqn:X; [|congruence]. destruct (ex_heap _ _ E i n X) as (n' & -> & (_ & _ & D & _)). congruence.
Qed.
Definition lenok (s : cstate) : Prop :=
  exists ts, NoDup ts /\ (forall t, pcs s t <> Idle -> In t ts) /\ Z.of_nat (List.length (stored s)) <= clen s + Z.of_nat (List.length (filter (fun t => is_cnt (pcs s t)) ts)).
(** the amounts by which one step changes the three numbers *)
Lemma eff_counts g s t s' : cinv s -> eff g s t s' ->
  Z.of_nat (List.length (stored s')) - Z.of_nat (List.length (stored s)) <= clen s' - clen s + Z.of_nat (b2n (is_cnt (pcs s' t))) - Z.of_nat (b2n (is_cnt (pcs s t))).
Proof.
  intros C E. pose proof (eff_ext _ _ _ _ E) as X. assert (PL : forall i, In i (order s) -> plain_node s' i = plain_node s i) by (intros i I; apply plain_ext; auto; apply (ci_valid _ C); auto).
  assert (AFT : forall o i r, s' = after_insert (insert s i r) t o -> (pcs s t = Chk o i r \/ pcs s t = Ins o i r) ->
    Z.of_nat (List.length (stored s')) - Z.of_nat (List.length (stored s)) <= clen s' - clen s + Z.of_nat (b2n (is_cnt (pcs s' t))) - Z.of_nat (b2n (is_cnt (pcs s t)))).
  { intros o i r -> PC. pose proof (ci_pc _ C t) as P. assert (F : fresh s o i /\ In r (order s)) by (destruct PC as [PC|PC]; rewrite PC in P; cbn [pc_ok] in P; tauto).
    destruct F as ((NN & F & _) & IR). destruct (ins_bef_split r i (order s) IR) as (l1 & l2 & E1 & E2 & _). destruct (after_shared (insert s i r) t o) as (SH & SO & _ & SL).
    cbn [heap order clen insert] in SH, SO, SL. rewrite SL. assert (CT : is_cnt (pcs s t) = false) by (destruct PC as [PC|PC]; rewrite PC; auto). rewrite CT. cbn [b2n].
    unfold stored. rewrite SO, E2, E1, !filter_app, !app_length. cbn [filter]. fold (plain_node s) in *. fold (plain_node (after_insert (insert s i r) t o)).
    assert (S1 : filter (plain_node (after_insert (insert s i r) t o)) l1 = filter (plain_node s) l1) by (apply filter_ext_in; intros j Hj; apply PL; rewrite E1; apply in_or_app; auto).
    assert (S2 : filter (plain_node (after_insert (insert s i r) t o)) l2 = filter (plain_node s) l2) by (apply filter_ext_in; intros j Hj; apply PL; rewrite E1; apply in_or_app; right; right; auto).
    assert (S3 : plain_node (after_insert (insert s i r) t o) r = plain_node s r) by (apply PL; auto).
    assert (S4 : plain_node (after_insert (insert s i r) t o) i = plain_node s i) by (apply plain_ext; auto).
    change (fun i0 : nat => match node (after_insert (insert s i r) t o) i0 with Some n => negb (n_dum n) | None => false end) with (plain_node (after_insert (insert s i r) t o)).
    change (fun i0 : nat => match node s i0 with Some n => negb (n_dum n) | None => false end) with (plain_node s).
    change (match node (after_insert (insert s i r) t o) i with Some n => negb (n_dum n) | None => false end) with (plain_node (after_insert (insert s i r) t o) i).
    change (match node (after_insert (insert s i r) t o) r with Some n => negb (n_dum n) | None => false end) with (plain_node (after_insert (insert s i r) t o) r).
    change (match node s r with Some n => negb (n_dum n) | None => false end) with (plain_node s r).
    rewrite S1, S2, S3, S4. destruct o as [k c v|k c|k c|rv]; cbn [new_node] in F; try congruence.
    - cbn [after_insert pcs goto]. rewrite upd_pc_same. cbn [is_cnt b2n]. destruct (plain_node s i), (plain_node s r); cbn [List.length]; lia.
    - cbn [after_insert pcs ret]. rewrite upd_pc_same. cbn [is_cnt b2n]. assert (S5 : plain_node s i = false) by (unfold plain_node; rewrite F; reflexivity). rewrite S5. destruct (plain_node s r); cbn [List.length]; lia. }
  destruct E; try (rewrite (stored_ext s _ PL eq_refl), H; cbn [pcs goto ret log_ alloc set_opt set_node clen]; rewrite upd_pc_same; cbn [is_cnt b2n]; lia).
  - rewrite (stored_ext s _ PL) by apply after_shared. destruct (after_shared s t o) as (_ & _ & _ & ->). rewrite H. cbn [is_cnt b2n]. lia.
  - eapply AFT; eauto.
  - eapply AFT; eauto.
Qed.
Lemma eff_lenok g s t s' : cinv s -> eff g s t s' -> lenok s -> lenok s'.
Proof.
  intros C E (ts & ND & ALL & LE). pose proof (eff_counts g s t s' C E) as D. pose proof (fun u => eff_other g s t s' u E) as OT.
  destruct (in_dec Nat.eq_dec t ts) as [I|NI].
  - exists ts. split; auto. split.
    + intros u Hu. destruct (Nat.eq_dec u t) as [->|NE]; auto. rewrite OT in Hu by auto. auto.
    + pose proof (count_upd (fun u => is_cnt (pcs s u)) (fun u => is_cnt (pcs s' u)) t ts ND I) as Q. cbn beta in Q.
      specialize (Q (fun u NE => f_equal is_cnt (eq_sym (OT u NE)))). lia.
  - exists (t :: ts). split; [constructor; auto|]. split.
    + intros u Hu. destruct (Nat.eq_dec u t) as [->|NE]; [left; auto|]. rewrite OT in Hu by auto. right. auto.
    + assert (PI : pcs s t = Idle) by (destruct (pcs s t) eqn:Q; auto; exfalso; apply NI, ALL; rewrite Q; discriminate).
      rewrite PI in D. cbn [is_cnt b2n] in D. cbn [filter].
      assert (Q : filter (fun u => is_cnt (pcs s' u)) ts = filter (fun u => is_cnt (pcs s u)) ts) by (apply filter_ext_in; intros u Hu; rewrite OT; auto; intros ->; contradiction).
      destruct (is_cnt (pcs s' t)); cbn [b2n List.length] in *; rewrite Q; lia.
Qed.
Lemma cinit_lenok : lenok cinit.
Proof. exists []. split; [constructor|]. split; [intros t H; exfalso; apply H; reflexivity|]. vm_compute. discriminate. Qed.
