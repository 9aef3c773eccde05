(** Invariants of ConcModel for every schedule. *)
From Verif Require Import Base BaseProofs Util Bucket MapModel ConcModel ConcSpec.
From Coq Require Import ZifyBool Sorted PeanoNat.
Local Open Scope Z_scope.
Local Open Scope list_scope.
Local Opaque reverse64.

(** * The steps, as a relation *)
Definition is_dummy (o : call) : bool := match o with CDummy _ => true | _ => false end.
Definition log_ (s : cstate) (e : event) : cstate := mkC (heap s) (order s) (clen s) (copt s) (pcs s) (hist s ++ [e]).

Inductive eff (g : cfg) (s : cstate) (t : nat) : cstate -> Prop :=
| E_call o : pcs s t = Idle -> is_dummy o = false -> eff g s t (goto (log_ s (Inv t o)) t (Load o))
| E_dummy rv : pcs s t = Idle ->
    eff g s t (goto (alloc (log_ s (Inv t (CDummy rv))) (mkN rv 0 GNil true false)) t (Save (CDummy rv) (List.length (heap s)) 0))
| E_hit_set k c v i : pcs s t = Load (CSet k c v) -> hit s k c i = true -> eff g s t (goto s t (Upd (CSet k c v) i))
| E_hit_get k c i : pcs s t = Load (CGet k c) -> hit s k c i = true -> eff g s t (goto s t (Rd (CGet k c) i))
| E_hit_del k c i : pcs s t = Load (CDel k c) -> hit s k c i = true -> eff g s t (goto s t (Mark (CDel k c) i))
| E_alloc k c v : pcs s t = Load (CSet k c v) -> may_miss g s k c = true ->
    eff g s t (goto (alloc s (mkN (reverse64 k) c v false false)) t (Save (CSet k c v) (List.length (heap s)) 1))
| E_miss_get k c : pcs s t = Load (CGet k c) -> may_miss g s k c = true -> eff g s t (ret s t (CGet k c) (CVal GNil false))
| E_miss_del k c : pcs s t = Load (CDel k c) -> may_miss g s k c = true -> eff g s t (ret s t (CDel k c) (CBool false))
| E_upd k c v i n v' ok : pcs s t = Upd (CSet k c v) i -> node s i = Some n -> set_value KSample (n_val n) v = Some (v', ok) ->
    eff g s t (ret (set_node s i (mkN (n_rev n) (n_conf n) v' (n_dum n) (n_del n))) t (CSet k c v) (CBool ok))
| E_upd_panic k c v i n : pcs s t = Upd (CSet k c v) i -> node s i = Some n -> set_value KSample (n_val n) v = None ->
    eff g s t (ret s t (CSet k c v) CPanic)
| E_rd o i n : pcs s t = Rd o i -> node s i = Some n -> eff g s t (ret s t o (CVal (n_val n) true))
| E_mark o i n : pcs s t = Mark o i -> node s i = Some n ->
    eff g s t (ret (set_node s i (mkN (n_rev n) (n_conf n) (n_val n) (n_dum n) true)) t o (CBool true))
| E_save1 o i m : pcs s t = Save o i (S m) -> eff g s t (goto (set_opt s false) t (Restore o i (S m) None (copt s)))
| E_save0 o i st ni ns : pcs s t = Save o i 0 -> node s i = Some ni -> node s st = Some ns -> in_order s st = true ->
    n_rev ns <= n_rev ni -> eff g s t (goto (set_opt s false) t (Walk o i st (copt s)))
| E_found o i cur pv ni nc : pcs s t = Walk o i cur pv -> node s i = Some ni -> node s cur = Some nc ->
    copt s && n_ign nc = false -> n_rev ni < n_rev nc -> eff g s t (goto s t (Restore o i 0 (Some cur) pv))
| E_walk o i cur pv ni nc nx : pcs s t = Walk o i cur pv -> node s i = Some ni -> node s cur = Some nc ->
    (copt s && n_ign nc = true \/ n_rev nc <= n_rev ni) -> next_of cur (order s) = Some nx -> eff g s t (goto s t (Walk o i nx pv))
| E_end o i cur pv ni nc : pcs s t = Walk o i cur pv -> node s i = Some ni -> node s cur = Some nc ->
    (copt s && n_ign nc = true \/ n_rev nc <= n_rev ni) -> next_of cur (order s) = None -> eff g s t (goto s t (Restore o i 0 None pv))
| E_again o i m pos pv : pcs s t = Restore o i (S m) pos pv -> eff g s t (goto (set_opt s pv) t (Save o i m))
| E_pos o i r pv : pcs s t = Restore o i 0 (Some r) pv -> eff g s t (goto (set_opt s pv) t (Chk o i r))
| E_nopos o i r pv : pcs s t = Restore o i 0 None pv -> in_order s r = true -> eff g s t (goto (set_opt s pv) t (Chk o i r))
| E_drop o i r : pcs s t = Chk o i r -> check s i r = false -> eff g s t (after_insert s t o)
| E_ins o i r : pcs s t = Chk o i r -> check s i r = true -> c_atomic g = true -> eff g s t (after_insert (insert s i r) t o)
| E_go o i r : pcs s t = Chk o i r -> check s i r = true -> c_atomic g = false -> eff g s t (goto s t (Ins o i r))
| E_doins o i r : pcs s t = Ins o i r -> eff g s t (after_insert (insert s i r) t o)
| E_cnt o : pcs s t = Cnt o ->
    eff g s t (ret (mkC (heap s) (order s) (clen s + 1) (copt s) (pcs s) (hist s)) t o (CBool true)).

Lemma cstep_eff g s t a s' : cstep g s (t, a) = Some s' -> eff g s t s'.
Proof.
  unfold cstep. destruct (pcs s t) as [|o|o i|o i|o i|o i n|o i cur pv|o i n pos pv|o i r|o i r|o] eqn:EP.
  - destruct a as [o| | | |]; try discriminate. destruct o as [k c v|k c|k c|rv]; cbn [new_node]; intros E; injection E as <-.
    + apply (E_call g s t (CSet k c v)); auto.
    + apply (E_call g s t (CGet k c)); auto.
    + apply (E_call g s t (CDel k c)); auto.
    + apply E_dummy; auto.
  - destruct a as [o'| |i| |i]; try (destruct o; discriminate).
    + destruct o as [k c v|k c|k c|rv]; try discriminate; destruct (hit s k c i) eqn:H; try discriminate; intros E; injection E as <-.
      * apply E_hit_set; auto.
      * apply E_hit_get; auto.
      * apply E_hit_del; auto.
    + destruct o as [k c v|k c|k c|rv]; try discriminate; destruct (may_miss g s k c) eqn:H; try discriminate; cbn [new_node]; intros E; injection E as <-.
      * apply E_alloc; auto.
      * apply E_miss_get; auto.
      * apply E_miss_del; auto.
  - destruct o as [k c v|k c|k c|rv]; destruct a as [o'| | | |]; try discriminate.
    destruct (node s i) as [n|] eqn:N; try discriminate. destruct (set_value KSample (n_val n) v) as [[v' ok]|] eqn:V; intros E; injection E as <-.
    + eapply E_upd; eauto.
    + eapply E_upd_panic; eauto.
  - destruct a as [o'| | | |]; try discriminate. destruct (node s i) as [n|] eqn:N; try discriminate. intros E; injection E as <-. eapply E_rd; eauto.
  - destruct a as [o'| | | |]; try discriminate. destruct (node s i) as [n|] eqn:N; try discriminate. intros E; injection E as <-. eapply E_mark; eauto.
  - destruct a as [o'| | | |st]; try discriminate. destruct n as [|m].
    + destruct (node s i) as [ni|] eqn:N1; try discriminate. destruct (node s st) as [ns|] eqn:N2; try discriminate.
      destruct (in_order s st) eqn:IO; try discriminate. cbn [andb]. destruct (n_rev ns <=? n_rev ni) eqn:L; try discriminate.
      intros E; injection E as <-. eapply E_save0; eauto. lia.
    + intros E; injection E as <-. apply E_save1; auto.
  - destruct a as [o'| | | |]; try discriminate. destruct (node s i) as [ni|] eqn:N1; try discriminate. destruct (node s cur) as [nc|] eqn:N2; try discriminate.
    destruct (copt s && n_ign nc) eqn:SK; cbn [negb andb].
    + destruct (next_of cur (order s)) as [nx|] eqn:NX; intros E; injection E as <-.
      * eapply E_walk; eauto.
      * eapply E_end; eauto.
    + destruct (n_rev ni <? n_rev nc) eqn:L.
      * intros E; injection E as <-. eapply E_found; eauto. lia.
      * destruct (next_of cur (order s)) as [nx|] eqn:NX; intros E; injection E as <-.
        -- eapply E_walk; eauto. right. lia.
        -- eapply E_end; eauto. right. lia.
  - destruct a as [o'| | | |r]; try (destruct n, pos; discriminate).
    + destruct n as [|m]; [destruct pos as [r|]; try discriminate|]; intros E; injection E as <-.
      * apply E_pos; auto.
      * eapply E_again; eauto.
    + destruct n as [|m]; [|destruct pos; discriminate]. destruct pos as [q|]; try discriminate. destruct (in_order s r) eqn:IO; try discriminate.
      intros E; injection E as <-. apply E_nopos; auto.
  - destruct a as [o'| | | |]; try discriminate. destruct (check s i r) eqn:CK.
    + destruct (c_atomic g) eqn:EA; intros E; injection E as <-; [eapply E_ins|eapply E_go]; eauto.
    + intros E; injection E as <-. eapply E_drop; eauto.
  - destruct a as [o'| | | |]; try discriminate. intros E; injection E as <-. eapply E_doins; eauto.
  - destruct a as [o'| | | |]; try discriminate. intros E; injection E as <-. apply E_cnt; auto.
Qed.
Lemma crun_app g ls1 : forall s ls2, crun g s (ls1 ++ ls2) = match crun g s ls1 with Some s' => crun g s' ls2 | None => None end.
Proof. induction ls1 as [|l ls IH]; intros s ls2; cbn [app crun]; auto. destruct (cstep g s l); auto. Qed.
Lemma crun_ind g (P : cstate -> Prop) : (forall s t s', P s -> eff g s t s' -> P s') -> forall ls s s', P s -> crun g s ls = Some s' -> P s'.
Proof.
  intros H. induction ls as [|[t a] ls IH]; intros s s' HP E; cbn [crun] in E; [injection E as <-; auto|].
  destruct (cstep g s (t, a)) as [s1|] eqn:E1; [|discriminate]. eapply IH; [|exact E]. eapply H; eauto. eapply cstep_eff; eauto.
Qed.

(** * Lists *)
Lemma subseq_refl {A} (l : list A) : subseq l l.
Proof. induction l; constructor; auto. Qed.
Lemma subseq_trans {A} (l2 l3 : list A) : subseq l2 l3 -> forall l1, subseq l1 l2 -> subseq l1 l3.
Proof.
  induction 1; intros l1 S; inversion S; subst; constructor; auto.
Qed.
Lemma subseq_in {A} (l l' : list A) x : subseq l l' -> In x l -> In x l'.
Proof. induction 1; intros H'; [destruct H'| |right; auto]. destruct H' as [->|]; [left|right]; auto. Qed.
Lemma subseq_map {A B} (f : A -> B) l l' : subseq l l' -> subseq (map f l) (map f l').
Proof. induction 1; cbn [map]; constructor; auto. Qed.

Lemma in_order_In s i : in_order s i = true <-> In i (order s).
Proof.
  unfold in_order. rewrite existsb_exists. split; [intros (x & H & E); apply Nat.eqb_eq in E; subst; auto|].
  intros H. exists i. rewrite Nat.eqb_refl. auto.
Qed.
Lemma ins_bef_split r i l : In r l -> exists l1 l2, l = l1 ++ r :: l2 /\ ins_bef r i l = l1 ++ i :: r :: l2 /\ ~ In r l1.
Proof.
  induction l as [|x l IH]; intros H; [destruct H|]. cbn [ins_bef]. destruct (Nat.eqb_spec x r) as [->|N].
  - exists [], l. auto.
  - destruct H as [H|H]; [congruence|]. destruct (IH H) as (l1 & l2 & -> & E & NI). exists (x :: l1), l2. rewrite E.
    split; auto. split; auto. intros [->|]; auto.
Qed.
Lemma ins_bef_none r i l : ~ In r l -> ins_bef r i l = l.
Proof.
  induction l as [|x l IH]; intros H; auto. cbn [ins_bef]. destruct (Nat.eqb_spec x r) as [->|N]; [exfalso; apply H; left; auto|].
  rewrite IH; auto. intros H'. apply H. right; auto.
Qed.
Lemma ins_bef_sub r i l : subseq l (ins_bef r i l).
Proof.
  induction l as [|x l IH]; cbn [ins_bef]; [constructor|]. destruct (Nat.eqb x r); constructor; auto. apply subseq_refl.
Qed.
Lemma prev_of_split l1 r l2 : NoDup (l1 ++ r :: l2) -> prev_of r (l1 ++ r :: l2) = hd_error (rev l1).
Proof.
  induction l1 as [|x l1 IH]; intros N.
  - cbn [app rev hd_error]. inversion N as [|? ? N1 N2]; subst. clear N. 
    cbn [prev_of]. destruct l2 as [|y l2]; auto. destruct (Nat.eqb_spec y r) as [->|NE]; [exfalso; apply N1; left; auto|].
    assert (F : forall l, ~ In r l -> prev_of r l = None).
    { induction l as [|a l IHl]; intros H; auto. cbn [prev_of]. destruct l as [|b l]; auto.
      destruct (Nat.eqb_spec b r) as [->|]; [exfalso; apply H; right; left; auto|]. apply IHl. intros H'. apply H. right; auto. }
    apply F; auto.
  - cbn [app] in *. inversion N as [|? ? N1 N2]; subst. cbn [rev]. specialize (IH N2).
    destruct l1 as [|y l1]; cbn [app] in *.
    + cbn [prev_of rev app hd_error]. rewrite Nat.eqb_refl. auto.
    + cbn [prev_of]. destruct (Nat.eqb_spec y r) as [->|NE].
      * exfalso. inversion N2 as [|? ? M1 M2]; subst. apply M1. apply in_or_app. right. left. auto.
      * cbn [prev_of] in IH. rewrite IH. cbn [rev]. destruct (rev l1 ++ [y]) as [|z q] eqn:E; [destruct (rev l1); discriminate|]. reflexivity.
Qed.
Lemma next_of_split l1 x l2 : ~ In x l1 -> next_of x (l1 ++ x :: l2) = hd_error l2.
Proof.
  induction l1 as [|y l1 IH]; intros H; cbn [app next_of]; [rewrite Nat.eqb_refl; auto|].
  destruct (Nat.eqb_spec y x) as [->|]; [exfalso; apply H; left; auto|]. apply IH. intros H'. apply H. right; auto.
Qed.
Lemma next_of_in x l y : next_of x l = Some y -> In y l.
Proof.
  induction l as [|z l IH]; cbn [next_of]; [discriminate|]. destruct (Nat.eqb z x); [|intros H; right; auto].
  destruct l as [|w l]; cbn [hd_error]; [discriminate|]. intros E; injection E as ->. right. left. auto.
Qed.
Lemma set_nth_length {A} (l : list A) i x : List.length (set_nth l i x) = List.length l.
Proof. revert i. induction l as [|y l IH]; intros [|i]; cbn; auto. Qed.
Lemma set_nth_at {A} (l : list A) i x j : nth_error (set_nth l i x) j = if Nat.eqb j i then (match nth_error l i with Some _ => Some x | None => None end) else nth_error l j.
Proof.
  revert i j. induction l as [|y l IH]; intros i j.
  - cbn [set_nth]. destruct i, j; cbn; auto. destruct (Nat.eqb j i); auto.
  - destruct i as [|i], j as [|j]; cbn [set_nth nth_error Nat.eqb]; auto.
Qed.

(** * Persistence *)
(** Nothing but the value and the deleted mark of an item changes. *)
Definition same_item (n n' : cnode) : Prop :=
  n_rev n' = n_rev n /\ n_conf n' = n_conf n /\ n_dum n' = n_dum n /\ (n_del n = true -> n_del n' = true).
Record ext (s s' : cstate) : Prop := {
  ex_heap : forall i n, node s i = Some n -> exists n', node s' i = Some n' /\ same_item n n';
  ex_order : subseq (order s) (order s');
  ex_hist : exists h, hist s' = hist s ++ h;
  ex_len : clen s <= clen s' }.
Lemma same_item_refl n : same_item n n.
Proof. unfold same_item. auto. Qed.
Lemma ext_refl s : ext s s.
Proof. constructor; [|apply subseq_refl|exists []; rewrite app_nil_r; auto|lia]. intros i n H. exists n. split; [auto|apply same_item_refl]. Qed.
Lemma ext_trans s1 s2 s3 : ext s1 s2 -> ext s2 s3 -> ext s1 s3.
Proof.
  intros A B. constructor.
  - intros i n H. destruct (ex_heap _ _ A i n H) as (n' & H' & S1). destruct (ex_heap _ _ B i n' H') as (n'' & H'' & S2).
    exists n''. split; auto. unfold same_item in *. destruct S1 as (a & b & c & d), S2 as (a' & b' & c' & d'). repeat split; try congruence. auto.
  - eapply subseq_trans; [apply (ex_order _ _ B)|apply (ex_order _ _ A)].
  - destruct (ex_hist _ _ A) as (h & E1), (ex_hist _ _ B) as (h' & E2). exists (h ++ h'). rewrite E2, E1, app_assoc. auto.
  - pose proof (ex_len _ _ A). pose proof (ex_len _ _ B). lia.
Qed.
Lemma ext_shared s s' : heap s' = heap s -> order s' = order s -> clen s' = clen s -> (exists h, hist s' = hist s ++ h) -> ext s s'.
Proof.
  intros A B C D. constructor; auto; try lia; [|rewrite B; apply subseq_refl].
  unfold node. rewrite A. intros i n H. exists n. split; auto. apply same_item_refl.
Qed.
Lemma ext_set s t o r i n v d : node s i = Some n -> (n_del n = true -> d = true) ->
  ext s (ret (set_node s i (mkN (n_rev n) (n_conf n) v (n_dum n) d)) t o r).
Proof.
  intros N D. constructor; cbn [order hist clen ret set_node]; [|apply subseq_refl|eexists; reflexivity|lia].
  intros j m H. unfold node in *. cbn [heap ret set_node]. rewrite set_nth_at. destruct (Nat.eqb_spec j i) as [->|].
  - rewrite N. rewrite N in H. injection H as <-. eexists. split; [reflexivity|]. unfold same_item. cbn. auto.
  - exists m. split; auto. apply same_item_refl.
Qed.
Lemma ext_alloc s n : ext s (alloc s n).
Proof.
  constructor; cbn [order hist clen alloc]; [|apply subseq_refl|exists []; rewrite app_nil_r; auto|lia].
  intros j m H. unfold node in *. cbn [heap alloc]. exists m. split; [|apply same_item_refl]. rewrite nth_error_app1; auto. apply nth_error_Some. congruence.
Qed.
Lemma ext_after s t o s0 : ext s s0 -> ext s (after_insert s0 t o).
Proof.
  intros E. eapply ext_trans; [exact E|]. destruct o; cbn [after_insert]; apply ext_shared; auto; try (exists []; rewrite app_nil_r; reflexivity); eexists; reflexivity.
Qed.
Lemma ext_insert s i r : ext s (insert s i r).
Proof.
  constructor; cbn [order hist clen insert heap]; [|apply ins_bef_sub|exists []; rewrite app_nil_r; auto|lia].
  intros j m H. exists m. split; auto. apply same_item_refl.
Qed.
Lemma eff_ext g s t s' : eff g s t s' -> ext s s'.
Proof.
  intros E. destruct E; try (apply ext_shared; auto; [exists []; rewrite app_nil_r; reflexivity]); try (apply ext_shared; auto; [eexists; reflexivity]).
  - eapply ext_trans; [apply (ext_shared s (log_ s (Inv t (CDummy rv)))); auto; exists [Inv t (CDummy rv)]; reflexivity|].
    eapply ext_trans; [apply (ext_alloc _ (mkN rv 0 GNil true false))|]. apply ext_shared; auto. exists []; rewrite app_nil_r; reflexivity.
  - eapply ext_trans; [apply (ext_alloc _ (mkN (reverse64 k) c v false false))|]. apply ext_shared; auto. exists []; rewrite app_nil_r; reflexivity.
  - eapply ext_set; eauto.
  - eapply ext_set; eauto.
  - apply ext_after, ext_refl.
  - apply ext_after, ext_insert.
  - apply ext_after, ext_insert.
  - constructor; cbn [order hist clen ret]; [|apply subseq_refl|eexists; reflexivity|lia].
    intros i n N. exists n. split; [exact N|apply same_item_refl].
Qed.
Lemma crun_ext g ls s s' : crun g s ls = Some s' -> ext s s'.
Proof.
  revert s. induction ls as [|[t a] ls IH]; intros s E; cbn [crun] in E; [injection E as <-; apply ext_refl|].
  destruct (cstep g s (t, a)) as [s1|] eqn:E1; [|discriminate]. eapply ext_trans; [|apply IH; exact E]. eapply eff_ext, cstep_eff; eauto.
Qed.

(** * The invariant *)
Definition owns (p : pc) : option nat :=
  match p with
  | Save _ i _ | Walk _ i _ _ | Restore _ i _ _ _ | Chk _ i _ | Ins _ i _ => Some i
  | _ => None
  end.
Definition fresh (s : cstate) (o : call) (i : nat) : Prop := node s i <> None /\ node s i = new_node o /\ ~ In i (order s).
Definition found (s : cstate) (o : call) (i : nat) : Prop :=
  In i (order s) /\ exists n k c, node s i = Some n /\ key_call o = Some (k, c) /\ n_rev n = reverse64 k /\ n_conf n = c /\ n_dum n = false.
Definition right_of (s : cstate) (i r : nat) : Prop :=
  exists ni nr, node s i = Some ni /\ node s r = Some nr /\ n_rev ni < n_rev nr.
Definition pc_ok (s : cstate) (t : nat) (p : pc) : Prop :=
  match p with
  | Idle => True
  | Load o | Cnt o => In (Inv t o) (hist s)
  | Upd o i | Rd o i | Mark o i => In (Inv t o) (hist s) /\ found s o i
  | Save o i _ => In (Inv t o) (hist s) /\ fresh s o i
  | Walk o i cur _ => In (Inv t o) (hist s) /\ fresh s o i /\ In cur (order s)
  | Restore o i _ pos _ => In (Inv t o) (hist s) /\ fresh s o i /\ forall r, pos = Some r -> In r (order s) /\ right_of s i r
  | Chk o i r | Ins o i r => In (Inv t o) (hist s) /\ fresh s o i /\ In r (order s)
  end.
Record cinv (s : cstate) : Prop := {
  ci_nodup : NoDup (order s);
  ci_valid : forall i, In i (order s) -> node s i <> None;
  ci_pc : forall t, pc_ok s t (pcs s t);
  ci_own : forall t u i, owns (pcs s t) = Some i -> owns (pcs s u) = Some i -> t = u;
  ci_val : forall i n, node s i = Some n -> n_dum n = false ->
             exists t k, In (Inv t (CSet k (n_conf n) (n_val n))) (hist s) /\ n_rev n = reverse64 k }.

Lemma ext_hist_in s s' e : ext s s' -> In e (hist s) -> In e (hist s').
Proof. intros E H. destruct (ex_hist _ _ E) as (h & ->). apply in_or_app; auto. Qed.
Lemma ext_found s s' o i : ext s s' -> found s o i -> found s' o i.
Proof.
  intros E (I & n & k & c & N & K & A & B & C). destruct (ex_heap _ _ E i n N) as (n' & N' & (a & b & d & _)).
  split; [eapply subseq_in; [apply (ex_order _ _ E)|auto]|]. exists n', k, c. repeat split; auto; congruence.
Qed.
Lemma ext_right s s' i r : ext s s' -> right_of s i r -> right_of s' i r.
Proof.
  intros E (ni & nr & N1 & N2 & L). destruct (ex_heap _ _ E i ni N1) as (n1 & M1 & (a & _)). destruct (ex_heap _ _ E r nr N2) as (n2 & M2 & (b & _)).
  exists n1, n2. repeat split; auto. lia.
Qed.
Lemma pc_frame s s' t p : ext s s' -> pc_ok s t p ->
  (forall i, owns p = Some i -> node s' i = node s i /\ (~ In i (order s) -> ~ In i (order s'))) -> pc_ok s' t p.
Proof.
  intros E P F.
  assert (FR : forall o i, owns p = Some i -> fresh s o i -> fresh s' o i).
  { intros o i H (A & B & C). destruct (F i H) as [N O]. unfold fresh. rewrite N. auto. }
  assert (S : forall x, In x (order s) -> In x (order s')) by (intros x; apply subseq_in, (ex_order _ _ E)).
  destruct p as [|o|o i|o i|o i|o i n|o i cur pv|o i n pos pv|o i r|o i r|o]; cbn [pc_ok owns] in *; auto;
    try (eapply ext_hist_in; eauto; fail);
    try (destruct P as [P1 P2]; split; [eapply ext_hist_in; eauto|]; try (eapply ext_found; eauto; fail)).
  - auto.
  - destruct P2 as [A B]. auto.
  - destruct P2 as [A B]. split; auto. intros r Hr. destruct (B r Hr) as [C D]. split; auto. eapply ext_right; eauto.
  - destruct P2 as [A B]. auto.
  - destruct P2 as [A B]. auto.
Qed.

(** steps that touch only the pc of t (and the option, the history, Len) *)
Lemma upd_pc_same f t p : upd_pc f t p t = p.
Proof. unfold upd_pc. rewrite Nat.eqb_refl. auto. Qed.
Lemma upd_pc_other f t p u : u <> t -> upd_pc f t p u = f u.
Proof. unfold upd_pc. intros H. destruct (Nat.eqb_spec u t); congruence. Qed.
Lemma cinv_local s s' t p : cinv s -> heap s' = heap s -> order s' = order s -> (exists h, hist s' = hist s ++ h) -> pcs s' = upd_pc (pcs s) t p ->
  pc_ok s' t p -> (forall i, owns p = Some i -> owns (pcs s t) = Some i) -> cinv s'.
Proof.
  intros C EH EO EX EP OK OW. assert (NS : forall i, node s' i = node s i) by (intros i; unfold node; rewrite EH; auto).
  assert (HI : forall e, In e (hist s) -> In e (hist s')) by (intros e; destruct EX as (h & ->); intros; apply in_or_app; auto).
  constructor.
  - rewrite EO. apply C.
  - rewrite EO. intros i Hi. rewrite NS. apply (ci_valid _ C); auto.
  - intros u. rewrite EP. destruct (Nat.eq_dec u t) as [->|NE]; [rewrite upd_pc_same; auto|]. rewrite upd_pc_other by auto.
    pose proof (ci_pc _ C u) as P. unfold pc_ok, found, fresh, right_of in *. destruct (pcs s u) as [|o|o i|o i|o i|o i n|o i cur pv|o i n pos pv|o i r|o i r|o]; rewrite ?EO in *; auto.
    + destruct P as [P1 (P2 & n & k & c & P3)]. split; auto. split; auto. exists n, k, c. rewrite NS. auto.
    + destruct P as [P1 (P2 & n & k & c & P3)]. split; auto. split; auto. exists n, k, c. rewrite NS. auto.
    + destruct P as [P1 (P2 & n & k & c & P3)]. split; auto. split; auto. exists n, k, c. rewrite NS. auto.
    + rewrite NS. destruct P; auto.
    + rewrite NS. destruct P; auto.
    + rewrite NS. destruct P as (P1 & P2 & P3). split; auto. split; auto. intros r Hr. destruct (P3 r Hr) as (Q1 & ni & nr & Q2).
      split; auto. exists ni, nr. rewrite !NS. auto.
    + rewrite NS. destruct P; auto.
    + rewrite NS. destruct P; auto.
  - intros u u' i. rewrite EP. destruct (Nat.eq_dec u t) as [->|N1], (Nat.eq_dec u' t) as [->|N2]; rewrite ?upd_pc_same, ?upd_pc_other by auto; auto; intros A B.
    + apply (ci_own _ C t u' i); auto.
    + apply (ci_own _ C u t i); auto.
    + apply (ci_own _ C u u' i); auto.
  - intros i n. rewrite NS. intros A B. destruct (ci_val _ C i n A B) as (u & k & H1 & H2). exists u, k. auto.
Qed.
Lemma hit_found s k c i o : hit s k c i = true -> key_call o = Some (k, c) -> found s o i.
Proof.
  unfold hit, matches, found. rewrite andb_true_iff, in_order_In. intros [I M] K. split; auto. destruct (node s i) as [n|]; [|discriminate].
  exists n, k, c. rewrite !andb_true_iff, negb_true_iff in M. destruct M as [[M1 M2] M3]. unfold n_ign in M1. apply orb_false_iff in M1 as [M1 _].
  repeat split; auto; lia.
Qed.
Lemma set_value_from old v v' ok : set_value KSample old v = Some (v', ok) -> v' = old \/ v' = v.
Proof. cbn. destruct v; [intros E; injection E as <- _; auto|]. destruct old; [intros E; injection E as <- _; auto|]. destruct (_ =? _); intros E; [injection E as <- _; auto|discriminate]. Qed.

Lemma owned_not_in s t i : cinv s -> owns (pcs s t) = Some i -> ~ In i (order s) /\ node s i <> None.
Proof.
  intros C H. pose proof (ci_pc _ C t) as P. destruct (pcs s t) as [|o|o j|o j|o j|o j n|o j cur pv|o j n pos pv|o j r|o j r|o]; cbn [owns pc_ok] in *; try discriminate; injection H as ->;
    unfold fresh in P; tauto.
Qed.
(** storing in an item of the list *)
Lemma cinv_set s t o r i n v d : cinv s -> node s i = Some n -> In i (order s) -> (n_del n = true -> d = true) ->
  (n_dum n = false -> exists u k, In (Inv u (CSet k (n_conf n) v)) (hist s) /\ n_rev n = reverse64 k) ->
  cinv (ret (set_node s i (mkN (n_rev n) (n_conf n) v (n_dum n) d)) t o r).
Proof.
  intros C N I D V. set (s' := ret _ _ _ _). assert (E : ext s s') by (eapply ext_set; eauto).
  assert (NN : forall j, node s' j = if Nat.eqb j i then Some (mkN (n_rev n) (n_conf n) v (n_dum n) d) else node s j).
  { intros j. unfold s', node. cbn [heap ret set_node]. rewrite set_nth_at. unfold node in N. rewrite N. auto. }
  assert (OO : order s' = order s) by reflexivity.
  constructor.
  - rewrite OO. apply C.
  - rewrite OO. intros j Hj. rewrite NN. destruct (Nat.eqb j i); [discriminate|]. apply (ci_valid _ C); auto.
  - intros u. change (pcs s' u) with (upd_pc (pcs s) t Idle u). destruct (Nat.eq_dec u t) as [->|NE]; [rewrite upd_pc_same; exact Logic.I|]. rewrite upd_pc_other by auto.
    apply (pc_frame s s' u _ E (ci_pc _ C u)). intros j Hj. destruct (owned_not_in s u j C Hj) as [A B]. split; [|rewrite OO; auto].
    rewrite NN. destruct (Nat.eqb_spec j i) as [->|]; [contradiction|auto].
  - intros u u' j. change (pcs s') with (upd_pc (pcs s) t Idle). unfold upd_pc. destruct (Nat.eqb u t); [discriminate|]. destruct (Nat.eqb u' t); [discriminate|]. apply (ci_own _ C).
  - intros j m. rewrite NN. destruct (Nat.eqb j i).
    + intros X. injection X as <-. cbn [n_dum n_conf n_val n_rev]. intros Z. destruct (V Z) as (u & k & A & B). exists u, k. split; auto. eapply ext_hist_in; eauto.
    + intros A B. destruct (ci_val _ C j m A B) as (u & k & H1 & H2). exists u, k. split; auto. eapply ext_hist_in; eauto.
Qed.
(** a new item *)
Lemma cinv_alloc s s1 t o n m : cinv s -> heap s1 = heap s -> order s1 = order s -> pcs s1 = pcs s -> ext s s1 -> new_node o = Some n -> In (Inv t o) (hist s1) ->
  owns (pcs s t) = None -> cinv (goto (alloc s1 n) t (Save o (List.length (heap s)) m)).
Proof.
  intros C EH EO EP E1 NN HI OW. set (s' := goto _ _ _). assert (E : ext s s').
  { eapply ext_trans; [exact E1|]. eapply ext_trans; [apply (ext_alloc s1 n)|]. apply ext_shared; auto. exists []; rewrite app_nil_r; reflexivity. }
  assert (NL : node s' (List.length (heap s)) = Some n).
  { unfold s', node. cbn [heap goto alloc]. rewrite EH. rewrite nth_error_app2, Nat.sub_diag by lia. auto. }
  assert (NO : forall j, j <> List.length (heap s) -> node s' j = node s j).
  { intros j Hj. unfold s', node. cbn [heap goto alloc]. rewrite EH. destruct (Nat.lt_ge_cases j (List.length (heap s))) as [L|L].
    - rewrite nth_error_app1; auto.
    - rewrite nth_error_app2 by lia. replace (nth_error (heap s) j) with (@None cnode) by (symmetry; apply nth_error_None; lia).
      destruct (j - List.length (heap s))%nat eqn:X; [lia|]. cbn. destruct n0; auto. }
  assert (NB : forall j, node s j <> None -> j <> List.length (heap s)).
  { intros j Hj ->. apply Hj. unfold node. apply nth_error_None. lia. }
  assert (OO : order s' = order s) by exact EO.
  assert (PP : forall u, pcs s' u = upd_pc (pcs s) t (Save o (List.length (heap s)) m) u) by (intros u; unfold s'; cbn [pcs goto alloc]; rewrite EP; auto).
  constructor.
  - rewrite OO. apply C.
  - rewrite OO. intros j Hj. pose proof (ci_valid _ C j Hj) as X. rewrite NO; auto.
  - intros u. rewrite PP. destruct (Nat.eq_dec u t) as [->|NE].
    + rewrite upd_pc_same. cbn [pc_ok]. split; [exact HI|]. unfold fresh. rewrite NL, OO. split; [discriminate|]. split; auto.
      intros H. apply (ci_valid _ C) in H. apply NB in H. congruence.
    + rewrite upd_pc_other by auto. apply (pc_frame s s' u _ E (ci_pc _ C u)). intros j Hj. destruct (owned_not_in s u j C Hj) as [A B].
      split; [apply NO; auto|rewrite OO; auto].
  - intros u u' j. rewrite !PP. destruct (Nat.eq_dec u t) as [->|N1], (Nat.eq_dec u' t) as [->|N2]; rewrite ?upd_pc_same, ?upd_pc_other by auto; auto; cbn [owns]; intros A B.
    + injection A as <-. exfalso. destruct (owned_not_in s u' _ C B) as [_ X]. apply NB in X. congruence.
    + injection B as <-. exfalso. destruct (owned_not_in s u _ C A) as [_ X]. apply NB in X. congruence.
    + apply (ci_own _ C u u' j); auto.
  - intros j x A B. destruct (Nat.eq_dec j (List.length (heap s))) as [->|NE].
    + rewrite NL in A. injection A as <-. destruct o as [k c v|k c|k c|rv]; cbn [new_node] in NN; try discriminate; injection NN as <-; [|discriminate B].
      exists t, k. split; auto.
    + rewrite NO in A by auto. destruct (ci_val _ C j x A B) as (u & k & H1 & H2). exists u, k. split; auto. eapply ext_hist_in; eauto.
Qed.
Lemma after_shared s t o : heap (after_insert s t o) = heap s /\ order (after_insert s t o) = order s /\ copt (after_insert s t o) = copt s /\ clen (after_insert s t o) = clen s.
Proof. destruct o; auto. Qed.
Lemma after_pc s t o : exists p, pcs (after_insert s t o) = upd_pc (pcs s) t p /\ owns p = None /\ (p = Idle \/ p = Cnt o).
Proof. destruct o; cbn [after_insert]; eexists; (split; [reflexivity|split; auto]). Qed.
Lemma after_hist s t o : exists h, hist (after_insert s t o) = hist s ++ h.
Proof. destruct o; cbn [after_insert]; try (exists []; rewrite app_nil_r; reflexivity); eexists; reflexivity. Qed.
Lemma cinv_insert s t o i r : cinv s -> owns (pcs s t) = Some i -> In r (order s) -> In (Inv t o) (hist s) -> cinv (after_insert (insert s i r) t o).
Proof.
  intros C OW IR HI. set (s' := after_insert _ _ _). assert (E : ext s s') by (apply ext_after, ext_insert).
  destruct (owned_not_in s t i C OW) as [NI NV]. destruct (ins_bef_split r i (order s) IR) as (l1 & l2 & E1 & E2 & _).
  destruct (after_shared (insert s i r) t o) as (SH & SO & _). fold s' in SH, SO. cbn [heap order insert] in SH, SO.
  destruct (after_pc (insert s i r) t o) as (p & SP & OP & PI). fold s' in SP. cbn [pcs insert] in SP.
  assert (NS : forall j, node s' j = node s j) by (intros j; unfold node; rewrite SH; auto).
  assert (IN : forall j, In j (order s') <-> j = i \/ In j (order s)).
  { intros j. rewrite SO, E2, E1, !in_app_iff. cbn [In]. intuition. }
  constructor.
  - rewrite SO, E2. pose proof (ci_nodup _ C) as N. rewrite E1 in N. apply NoDup_Add with (a := i) (l := l1 ++ r :: l2); [apply Add_app|]. split; auto. rewrite <- E1. auto.
  - intros j Hj. rewrite NS. apply IN in Hj as [->|Hj]; auto. apply (ci_valid _ C); auto.
  - intros u. rewrite SP. destruct (Nat.eq_dec u t) as [->|NE].
    + rewrite upd_pc_same. destruct PI as [->| ->]; [exact Logic.I|]. cbn [pc_ok]. eapply ext_hist_in; eauto.
    + rewrite upd_pc_other by auto. apply (pc_frame s s' u _ E (ci_pc _ C u)). intros j Hj. split; auto.
      intros NJ H. apply IN in H as [->|H]; auto. apply NE. apply (ci_own _ C u t i); auto.
  - intros u u' j. rewrite SP. destruct (Nat.eq_dec u t) as [->|N1], (Nat.eq_dec u' t) as [->|N2]; rewrite ?upd_pc_same, ?upd_pc_other by auto; rewrite ?OP; auto; try discriminate.
    apply (ci_own _ C).
  - intros j n. rewrite NS. intros A B. destruct (ci_val _ C j n A B) as (u & k & H1 & H2). exists u, k. split; auto. eapply ext_hist_in; eauto.
Qed.

Lemma eff_cinv g s t s' : cinv s -> eff g s t s' -> cinv s'.
Proof.
  intros C E. pose proof (ci_pc _ C t) as P. destruct E; try match goal with H : pcs s t = _ |- _ => rewrite H in P; cbn [pc_ok] in P end.
  - eapply (cinv_local s _ t (Load o) C); auto; [eexists; reflexivity| |discriminate]. cbn. apply in_or_app. right. left. auto.
  - eapply (cinv_alloc s (log_ s (Inv t (CDummy rv))) t (CDummy rv)); auto.
    + apply ext_shared; auto. eexists; reflexivity.
    + cbn. apply in_or_app. right. left. auto.
    + rewrite H. auto.
  - eapply (cinv_local s _ t _ C); auto; [exists []; rewrite app_nil_r; reflexivity|reflexivity| |discriminate]. split; [exact P|]. eapply (hit_found s); eauto.
  - eapply (cinv_local s _ t _ C); auto; [exists []; rewrite app_nil_r; reflexivity|reflexivity| |discriminate]. split; [exact P|]. eapply (hit_found s); eauto.
  - eapply (cinv_local s _ t _ C); auto; [exists []; rewrite app_nil_r; reflexivity|reflexivity| |discriminate]. split; [exact P|]. eapply (hit_found s); eauto.
  - eapply (cinv_alloc s s t (CSet k c v)); auto; [apply ext_refl|]. rewrite H. auto.
  - eapply (cinv_local s _ t Idle C); auto; [eexists; reflexivity|exact I|discriminate].
  - eapply (cinv_local s _ t Idle C); auto; [eexists; reflexivity|exact I|discriminate].
  - destruct P as [P1 (P2 & n' & k' & c' & P3 & P4 & P5 & P6 & P7)]. assert (n' = n) by congruence. subst n'. injection P4 as <- <-.
    apply cinv_set; auto. intros Z. apply set_value_from in H1 as [->| ->]; [apply (ci_val _ C i n); auto|].
    exists t, k. rewrite P6. auto.
  - eapply (cinv_local s _ t Idle C); auto; [eexists; reflexivity|exact I|discriminate].
  - eapply (cinv_local s _ t Idle C); auto; [eexists; reflexivity|exact I|discriminate].
  - destruct P as [P1 (P2 & P3)]. apply cinv_set; auto. intros Z. apply (ci_val _ C i n); auto.
  - eapply (cinv_local s _ t _ C); auto; [exists []; rewrite app_nil_r; reflexivity|reflexivity| |rewrite H; auto].
    destruct P as [P1 P2]. split; [exact P1|]. split; [exact P2|]. discriminate.
  - eapply (cinv_local s _ t _ C); auto; [exists []; rewrite app_nil_r; reflexivity|reflexivity| |rewrite H; auto].
    destruct P as [P1 P2]. split; [exact P1|]. split; [exact P2|]. apply in_order_In. auto.
  - eapply (cinv_local s _ t _ C); auto; [exists []; rewrite app_nil_r; reflexivity|reflexivity| |rewrite H; auto].
    destruct P as (P1 & P2 & P3). split; [exact P1|]. split; [exact P2|]. intros r X. injection X as <-. split; [exact P3|]. exists ni, nc. auto.
  - eapply (cinv_local s _ t _ C); auto; [exists []; rewrite app_nil_r; reflexivity|reflexivity| |rewrite H; auto].
    destruct P as (P1 & P2 & P3). split; [exact P1|]. split; [exact P2|]. eapply next_of_in; eauto.
  - eapply (cinv_local s _ t _ C); auto; [exists []; rewrite app_nil_r; reflexivity|reflexivity| |rewrite H; auto].
    destruct P as (P1 & P2 & P3). split; [exact P1|]. split; [exact P2|]. discriminate.
  - eapply (cinv_local s _ t _ C); auto; [exists []; rewrite app_nil_r; reflexivity|reflexivity| |rewrite H; auto].
    destruct P as (P1 & P2 & P3). split; [exact P1|exact P2].
  - eapply (cinv_local s _ t _ C); auto; [exists []; rewrite app_nil_r; reflexivity|reflexivity| |rewrite H; auto].
    destruct P as (P1 & P2 & P3). split; [exact P1|]. split; [exact P2|]. apply (P3 r); auto.
  - eapply (cinv_local s _ t _ C); auto; [exists []; rewrite app_nil_r; reflexivity|reflexivity| |rewrite H; auto].
    destruct P as (P1 & P2 & P3). split; [exact P1|]. split; [exact P2|]. apply in_order_In; auto.
  - destruct (after_shared s t o) as (A1 & A2 & _). destruct (after_pc s t o) as (p & A3 & A4 & A5).
    eapply (cinv_local s _ t p C); auto; [apply after_hist| |rewrite A4; discriminate].
    destruct A5 as [->| ->]; [exact I|]. cbn [pc_ok]. destruct P as (P1 & _). destruct (after_hist s t o) as (h & ->). apply in_or_app. auto.
  - destruct P as (P1 & P2 & P3). apply cinv_insert; auto. rewrite H. auto.
  - eapply (cinv_local s _ t _ C); auto; [exists []; rewrite app_nil_r; reflexivity|reflexivity|exact P|rewrite H; auto].
  - destruct P as (P1 & P2 & P3). apply cinv_insert; auto. rewrite H. auto.
  - eapply (cinv_local s _ t Idle C); auto; [eexists; reflexivity|exact I|discriminate].
Qed.
Lemma cinit_inv : cinv cinit.
Proof.
  constructor.
  - apply seq_NoDup.
  - intros i H. unfold cinit, node in *. cbn [order heap] in *. apply in_seq in H. apply nth_error_Some. rewrite map_length. lia.
  - intros t. exact I.
  - discriminate.
  - intros i n H D. exfalso. unfold node, cinit in H. cbn [heap] in H. apply nth_error_In in H. apply in_map_iff in H as (e & <- & _). discriminate D.
Qed.
Lemma reach_inv g ls s : crun g cinit ls = Some s -> cinv s.
Proof. intros E. eapply (crun_ind g cinv); [|apply cinit_inv|exact E]. intros s0 t s1 H1 H2. eapply eff_cinv; eauto. Qed.
