(** C48: Sets in other parts of the position space. *)
From Verif Require Import Base BaseProofs Util UtilProofs Bucket MapModel ConcModel ConcSpec ConcProofs ConcMore PropConc.
From Coq Require Import ZifyBool Sorted PeanoNat.
Local Open Scope Z_scope.
Local Open Scope list_scope.
Local Opaque reverse64.

(** the position of the item a call may add *)
Definition place (o : call) : option Z :=
  match o with CSet k _ _ => Some (reverse64 k) | CDummy rv => Some rv | _ => None end.
(** While goroutine t does Set k c v: nobody else is in the middle of a find when t is; whoever adds an item adds it
    not after k's position or on the other side of a boundary between two of the sixteen top-level buckets; nobody deletes the key. *)
Definition apart (t : nat) (k c : Z) (s : cstate) : Prop := forall u, u <> t ->
  (in_find (pcs s t) = true -> in_find (pcs s u) = false) /\
  (forall o p, inserting (pcs s u) = true -> pending (pcs s u) = Some o -> place o = Some p ->
     p <= reverse64 k \/ exists i, 1 <= i <= 15 /\ reverse64 k < i * 2 ^ 60 < p) /\
  (forall o, pending (pcs s u) = Some o -> is_delete o = true -> ~ same_pair k c o).

Lemma prev_ins r j cur l : In r l -> cur <> j -> prev_of cur (ins_bef r j l) = if Nat.eqb cur r then Some j else prev_of cur l.
Proof.
  intros I NJ. induction l as [|x l IH]; [destruct I|]. cbn [ins_bef]. destruct (Nat.eqb_spec x r) as [->|NX].
  - cbn [prev_of]. rewrite (Nat.eqb_sym r cur). destruct (Nat.eqb cur r); auto.
  - destruct I as [I|I]; [congruence|]. specialize (IH I). destruct l as [|y l]; [destruct I|]. cbn [ins_bef] in *.
    destruct (Nat.eqb_spec y r) as [->|NY].
    + change (prev_of cur (x :: j :: r :: l)) with (if Nat.eqb j cur then Some x else prev_of cur (j :: r :: l)).
      destruct (Nat.eqb_spec j cur) as [X|_]; [congruence|]. rewrite IH. destruct (Nat.eqb_spec cur r) as [->|N]; auto.
      cbn [prev_of]. destruct (Nat.eqb_spec r cur) as [X|_]; [congruence|]. auto.
    + change (prev_of cur (x :: y :: ins_bef r j l)) with (if Nat.eqb y cur then Some x else prev_of cur (y :: ins_bef r j l)).
      change (prev_of cur (x :: y :: l)) with (if Nat.eqb y cur then Some x else prev_of cur (y :: l)).
      rewrite IH. destruct (Nat.eqb_spec cur r) as [->|N]; auto. destruct (Nat.eqb_spec y r); [congruence|auto].
Qed.
Lemma order_step_in g s t s' : cinv s -> eff g s t s' -> order s' = order s \/
  exists i r, owns (pcs s t) = Some i /\ In r (order s) /\ order s' = ins_bef r i (order s).
Proof.
  intros C E. pose proof (ci_pc _ C t) as P. destruct E; try (left; reflexivity).
  - left. apply after_shared.
  - right. exists i, r. rewrite H in *. split; auto. split; [apply P|]. apply (after_shared (insert s i r)).
  - right. exists i, r. rewrite H in *. split; auto. split; [apply P|]. apply (after_shared (insert s i r)).
Qed.
Lemma sorted_app_le l1 l2 : StronglySorted Z.le (l1 ++ l2) -> (forall a b, In a l1 -> In b l2 -> a <= b) /\ StronglySorted Z.le l1 /\ StronglySorted Z.le l2.
Proof.
  induction l1 as [|x l1 IH]; cbn [app]; intros S; [split; [intros a b []|split; [constructor|auto]]|].
  apply StronglySorted_inv in S as [S F]. destruct (IH S) as (A & B & D). rewrite Forall_forall in F. split; [|split; [constructor; auto|auto]].
  - intros a b [<-|Ha] Hb; [apply F; apply in_or_app; auto|auto].
  - apply Forall_forall. intros z Hz. apply F. apply in_or_app; auto.
Qed.
Lemma prev_last l1 r l2 q : ~ In r l1 -> prev_of r ((l1 ++ [q]) ++ r :: l2) = Some q \/ In r (l1 ++ [q]).
Proof.
  intros N. destruct (Nat.eq_dec q r) as [->|NE]; [right; apply in_or_app; right; left; auto|left].
  induction l1 as [|x l1 IH]; cbn [app].
  - cbn [prev_of]. rewrite Nat.eqb_refl. auto.
  - assert (E : exists y z, (l1 ++ [q]) ++ r :: l2 = y :: z /\ y <> r).
    { destruct l1 as [|y l1]; cbn [app]; eexists _, _; (split; [reflexivity|]); auto. intros ->. apply N. right; left; auto. }
    destruct E as (y & z & E & NY). specialize (IH (fun X => N (or_intror X))). rewrite E in *.
    change (prev_of r (x :: y :: z)) with (if Nat.eqb y r then Some x else prev_of r (y :: z)). destruct (Nat.eqb_spec y r); [congruence|auto].
Qed.

(** the item before [cur] stays at or before the position of t's item *)
Lemma far_before g s u s' i cur ni : cinv s -> eff g s u s' -> StronglySorted Z.le (positions s') ->
  node s i = Some ni -> In cur (order s) ->
  (forall j nj, owns (pcs s u) = Some j -> node s j = Some nj ->
     n_rev nj <= n_rev ni \/ exists d nd, In d (order s) /\ node s d = Some nd /\ n_rev ni < n_rev nd < n_rev nj) ->
  before_ok s i cur -> before_ok s' i cur.
Proof.
  intros C E SO NI IC FAR B p np ni' HP HNP HNI. pose proof (eff_ext _ _ _ _ E) as X.
  destruct (ex_heap _ _ X i ni NI) as (b & B1 & B2 & _). assert (b = ni') by congruence. subst b. rewrite B2.
  assert (KEEP : forall x, In x (order s) -> exists n n', node s x = Some n /\ node s' x = Some n' /\ n_rev n' = n_rev n).
  { intros x Hx. pose proof (ci_valid _ C x Hx) as V. destruct (node s x) as [n|] eqn:N; [|congruence].
    destruct (ex_heap _ _ X x n N) as (n' & A1 & A2 & _). exists n, n'. auto. }
  assert (OLD : forall q, prev_of cur (order s) = Some q -> exists n, node s' q = Some n /\ n_rev n <= n_rev ni).
  { intros q Hq. destruct (KEEP q (prev_in _ _ _ Hq)) as (n & n' & A1 & A2 & A3). exists n'. split; auto. rewrite A3. apply (B q n ni); auto. }
  destruct (order_step_in g s u s' C E) as [OO|(j & r & OW & IR & OO)].
  - rewrite OO in HP. destruct (OLD p HP) as (n & N1 & N2). assert (n = np) by congruence. subst. auto.
  - destruct (owned_not_in s u j C OW) as [NJ NIJ].
    rewrite OO, prev_ins in HP by (auto; intros ->; contradiction).
    destruct (Nat.eqb_spec cur r) as [->|NR]; [|destruct (OLD p HP) as (n & N1 & N2); assert (n = np) by congruence; subst; auto].
    injection HP as <-. destruct (node s j) as [nj|] eqn:EJ; [|congruence].
    destruct (ex_heap _ _ X j nj EJ) as (nj' & A1 & A2 & _). assert (nj' = np) by congruence. subst nj'. rewrite A2.
    destruct (FAR j nj OW EJ) as [L|(d & nd & ID & ND & L)]; auto. exfalso.
    destruct (ins_bef_split r j (order s) IR) as (l1 & l2 & E1 & E2 & NL1).
    unfold positions in SO. rewrite OO, E2, map_app in SO. cbn [map] in SO. apply sorted_app_le in SO as (S1 & S2 & S3).
    destruct (KEEP d ID) as (n & n' & D1 & D2 & D3). assert (n = nd) by congruence. subst n.
    assert (PD : pos_at s' d = n_rev nd) by (unfold pos_at; rewrite D2; auto).
    assert (PJ : pos_at s' j = n_rev nj) by (unfold pos_at; rewrite A1; auto).
    rewrite E1 in ID. apply in_app_or in ID as [ID|ID].
    + destruct l1 as [|q l1 _] using rev_ind; [destruct ID|]. rewrite map_app in S2. cbn [map] in S2. apply sorted_app_le in S2 as (S4 & _).
      assert (NL : ~ In r (l1 ++ [q])).
      { pose proof (ci_nodup _ C) as NDO. rewrite E1 in NDO. apply NoDup_remove_2 in NDO. intros Z. apply NDO, in_or_app; auto. }
      destruct (prev_last l1 r l2 q ltac:(intros Z; apply NL, in_or_app; auto)) as [PQ|PQ]; [|contradiction].
      rewrite <- E1 in PQ. destruct (OLD q PQ) as (n & N1 & N2).
      assert (pos_at s' q = n_rev n) by (unfold pos_at; rewrite N1; auto).
      apply in_app_or in ID as [ID|[->|[]]]; [|lia].
      specialize (S4 (pos_at s' d) (pos_at s' q) (in_map _ _ _ ID) (or_introl eq_refl)). lia.
    + change (pos_at s' j :: pos_at s' r :: map (pos_at s') l2) with (pos_at s' j :: map (pos_at s') (r :: l2)) in S3.
      apply StronglySorted_inv in S3 as [_ F]. rewrite Forall_forall in F. specialize (F _ (in_map (pos_at s') _ _ ID)). lia.
Qed.

(** the sentinels of the sixteen top-level buckets stay in the list *)
Definition fenced (s : cstate) : Prop := forall i, 1 <= i <= 15 -> exists d nd, In d (order s) /\ node s d = Some nd /\ n_rev nd = i * 2 ^ 60.
Lemma cinit_fenced : fenced cinit.
Proof.
  intros i Hi. assert (A : forallb (fun i => existsb (fun d => match node cinit d with Some n => n_rev n =? Z.of_nat i * 2 ^ 60 | None => false end) (order cinit)) (seq 1 15) = true) by (vm_compute; reflexivity).
  rewrite forallb_forall in A. specialize (A (Z.to_nat i) ltac:(apply in_seq; lia)). apply existsb_exists in A as (d & I & Q).
  destruct (node cinit d) as [n|] eqn:N; [|discriminate]. exists d, n. split; auto. split; auto. rewrite Z2Nat.id in Q by lia. apply Z.eqb_eq in Q. auto.
Qed.
Lemma eff_fenced g s t s' : eff g s t s' -> fenced s -> fenced s'.
Proof.
  intros E F i Hi. destruct (F i Hi) as (d & nd & A & B & D). destruct (eff_rev g s t s' d nd E B) as (n' & B' & D' & _).
  exists d, n'. split; [|split; [auto|congruence]]. eapply subseq_in; [apply (ex_order _ _ (eff_ext _ _ _ _ E))|auto].
Qed.

(** a step of another goroutine *)
Lemma eff_copt g s u s' : eff g s u s' -> in_find (pcs s u) = false -> copt s = false -> copt s' = false.
Proof.
  intros E F. destruct E; cbn [copt goto ret log_ alloc set_opt set_node]; auto; try (rewrite H in F; discriminate F).
  - destruct o; auto.
  - destruct o; auto.
  - destruct o; auto.
Qed.
Lemma lone_far g s u s' t k c v : cinv s -> u <> t -> eff g s u s' -> StronglySorted Z.le (positions s') -> fenced s ->
  apart t k c s -> ~ deleting k c (pcs s u) -> lone s t (CSet k c v) -> lone s' t (CSet k c v).
Proof.
  intros C NE E SO FE AP ND L. pose proof (eff_ext _ _ _ _ E) as X. destruct (AP u NE) as (AF & AI & _).
  assert (VS : forall i, visible s k c i -> visible s' k c i) by (intros; eapply eff_visible; eauto).
  assert (FAR : forall ni, n_rev ni = reverse64 k -> forall j nj, owns (pcs s u) = Some j -> node s j = Some nj ->
     n_rev nj <= n_rev ni \/ exists d nd, In d (order s) /\ node s d = Some nd /\ n_rev ni < n_rev nd < n_rev nj).
  { intros ni En j nj OW NJ. destruct (pending_owns s u j C OW) as (o & P1 & P2 & _ & P3 & _). rewrite NJ in P3.
    destruct (AI o (n_rev nj) P2 P1) as [Q|(z & Hz & Q)].
    - destruct o; cbn [new_node place] in *; try discriminate; injection P3 as ->; auto.
    - left. lia.
    - right. destruct (FE z Hz) as (d & nd & D1 & D2 & D3). exists d, nd. split; auto. split; auto. lia. }
  pose proof (ci_pc _ C t) as P.
  assert (FR : forall o i, fresh s o i -> o = CSet k c v -> exists ni, node s i = Some ni /\ n_rev ni = reverse64 k).
  { intros o i (_ & F & _) ->. cbn [new_node] in F. eexists. split; [exact F|reflexivity]. }
  unfold lone in *. rewrite (eff_other g s u s' t E) by auto.
  destruct (pcs s t) as [|o'|o' i|o' i|o' i|o' i n|o' i cur pv|o' i n pos pv|o' i r|o' i r|o'] eqn:EP; auto; cbn [pc_ok] in P.
  - destruct L as (i & L). exists i. auto.
  - destruct L as [-> L]. split; auto.
  - destruct L as (-> & L1 & L2). split; auto. destruct P as (_ & F & IC). destruct (FR _ _ F eq_refl) as (ni & N1 & N2).
    split; [apply (eff_copt g s u s' E); auto|].
    destruct L2 as [L2|(ni0 & nc & N3 & N4 & L2)]; [left; eapply far_before; eauto|right].
    destruct (ex_heap _ _ X i ni0 N3) as (a & A1 & A2 & _). destruct (ex_heap _ _ X cur nc N4) as (b & B1 & B2 & _). exists a, b. split; auto. split; auto. lia.
  - destruct L as (-> & L). split; auto. intros Z. destruct (L Z) as (r & R1 & R2). exists r. split; [auto|].
    destruct P as (_ & F & Q). destruct (FR _ _ F eq_refl) as (ni & N1 & N2). destruct (Q r R1) as [IR _]. eapply far_before; eauto.
  - destruct L as (-> & L). split; auto. destruct P as (_ & F & IR). destruct (FR _ _ F eq_refl) as (ni & N1 & N2).
    assert (BB : before_ok s i r /\ exists nr, node s r = Some nr /\ n_rev ni <= n_rev nr).
    { unfold check in L. rewrite N1 in L. destruct (node s r) as [nr|] eqn:N3; [|discriminate]. apply andb_true_iff in L as [La Lb].
      split; [|exists nr; split; auto; lia]. intros p np ni' H1 H2 H3. rewrite H1, H2 in Lb. assert (ni' = ni) by congruence. subst. lia. }
    destruct BB as (BB & nr & N3 & N4).
    assert (B' : before_ok s' i r) by (eapply far_before; eauto).
    destruct (ex_heap _ _ X i ni N1) as (a & A1 & A2 & _). destruct (ex_heap _ _ X r nr N3) as (b & B1 & B2 & _).
    eapply (check_before s' i r a b); eauto; [eapply eff_cinv; eauto|lia|]. eapply subseq_in; [apply (ex_order _ _ X)|auto].
  - destruct L as [-> L]. split; auto. destruct L as (i & L). exists i. auto.
Qed.

(** Any number of goroutines may add items at positions up to k's, or beyond a boundary of the sixteen top-level
    buckets, and Get, update, and delete other keys: as long as the list stays in order, the key is readable when the Set has
    returned. Missing for C48: finds that overlap (then it is false, above). *)
Theorem C48_far_sets_sorted_partial g s t k c v ls s' : reachable g s -> 0 <= k < 2 ^ 64 - 1 ->
  crun g s ((t, ACall (CSet k c v)) :: ls) = Some s' -> (forall o, ~ In (t, ACall o) ls) -> pcs s' t = Idle ->
  always g s ((t, ACall (CSet k c v)) :: ls) (apart t k c) ->
  always g s ((t, ACall (CSet k c v)) :: ls) (fun x => StronglySorted Z.le (positions x)) -> exists i, visible s' k c i.
Proof.
  intros (l0 & R0) Hk R NC ID A AS. pose proof (reach_inv g l0 s R0) as C0. cbn [crun] in R. destruct (cstep g s (t, ACall (CSet k c v))) as [s1|] eqn:E; [|discriminate].
  pose proof (always_next _ _ _ _ _ _ A E) as A1. pose proof (always_next _ _ _ _ _ _ AS E) as A2. assert (RK : reverse64 k < max_pos) by (apply top_pos; exact Hk).
  assert (EM0 : ends_max s) by (eapply (crun_ind g ends_max); [|apply cinit_ends|exact R0]; intros; eapply eff_ends; eauto).
  assert (FE0 : fenced s) by (eapply (crun_ind g fenced); [|apply cinit_fenced|exact R0]; intros; eapply eff_fenced; eauto).
  assert (L1 : lone s1 t (CSet k c v)).
  { unfold cstep in E. destruct (pcs s t); try discriminate; try (destruct o; discriminate E); try (destruct n; try destruct pos; discriminate E). injection E as <-. unfold lone. cbn [pcs goto]. rewrite upd_pc_same. reflexivity. }
  assert (AB : always g s1 ls (fun x => apart t k c x /\ StronglySorted Z.le (positions x))).
  { intros p q x X Y. split; [apply (A1 p q x X Y)|apply (A2 p q x X Y)]. }
  assert (G : (lone s' t (CSet k c v) /\ cinv s' /\ ends_max s' /\ fenced s') /\ reachable g s').
  { eapply (always_ind g (fun s => (lone s t (CSet k c v) /\ cinv s /\ ends_max s /\ fenced s) /\ reachable g s) _ ls); [| |exact AB|exact R].
    - intros s2 u a s3 I ((L & C & EM & FE) & RE) [U _] [U' SO] ST. pose proof (cstep_eff g s2 u a s3 ST) as EF.
      split; [split; [|split; [eapply eff_cinv; eauto|split; [eapply eff_ends; eauto|eapply eff_fenced; eauto]]]|].
      + destruct (Nat.eq_dec u t) as [->|NE].
        * eapply lone_self; eauto. intros PI. unfold cstep in ST. rewrite PI in ST. destruct a as [o| | | |]; try discriminate. apply (NC o). auto.
        * eapply (lone_far g s2 u s3 t); eauto. intros (o & PD & SP & i & PM). destruct (U u NE) as (_ & _ & D).
          apply (D o PD); auto. eapply marks_delete; eauto.
      + destruct RE as (l & Hl). exists (l ++ [(u, a)]). rewrite crun_app, Hl. cbn [crun]. rewrite ST. auto.
    - split; [split; [exact L1|split; [eapply eff_cinv; [exact C0|eapply cstep_eff; eauto]|split; [eapply eff_ends; [eapply cstep_eff; eauto|exact EM0]|eapply eff_fenced; [eapply cstep_eff; eauto|exact FE0]]]]|].
      exists (l0 ++ [(t, ACall (CSet k c v))]). rewrite crun_app, R0. cbn [crun]. rewrite E. auto. }
  destruct G as ((L & _) & _). unfold lone in L. rewrite ID in L. exact L.
Qed.
Print Assumptions C48_far_sets_sorted_partial.

(** With the order check and the insertion taken as one step the list is always in order. *)
Theorem C48_far_sets_partial g s t k c v ls s' : c_atomic g = true -> reachable g s -> 0 <= k < 2 ^ 64 - 1 ->
  crun g s ((t, ACall (CSet k c v)) :: ls) = Some s' -> (forall o, ~ In (t, ACall o) ls) -> pcs s' t = Idle ->
  always g s ((t, ACall (CSet k c v)) :: ls) (apart t k c) -> exists i, visible s' k c i.
Proof.
  intros AT RE Hk R NC ID A. eapply C48_far_sets_sorted_partial; eauto.
  intros p q x X Y. apply (C33_sorted_one_step g x AT). destruct RE as (l0 & R0). exists (l0 ++ p). rewrite crun_app, R0. auto.
Qed.
Print Assumptions C48_far_sets_partial.

(** such a run: while goroutine 1 sets the key at position 10, goroutine 2 adds a key in another sixteenth of the
    position space and goroutine 3 updates it and reads; the finds of 1 and 2 do not overlap, everything else does *)
Definition fence_b (a p : Z) : bool := existsb (fun i => (a <? Z.of_nat i * 2 ^ 60) && (Z.of_nat i * 2 ^ 60 <? p)) (seq 1 15).
Lemma fence_dec a p : fence_b a p = true -> exists i, 1 <= i <= 15 /\ a < i * 2 ^ 60 < p.
Proof.
  intros Q. apply existsb_exists in Q as (i & I1 & I2). apply in_seq in I1. exists (Z.of_nat i). apply andb_true_iff in I2 as [A B].
  apply Z.ltb_lt in A, B. split; [lia|split; assumption].
Qed.
Definition adds_b (a : Z) (q : pc) : bool :=
  negb (inserting q) ||
  match pending q with Some o => match place o with Some p => (p <=? a) || fence_b a p | None => true end | None => true end.
Lemma adds_dec a q o p : adds_b a q = true -> inserting q = true -> pending q = Some o -> place o = Some p ->
  p <= a \/ exists i, 1 <= i <= 15 /\ a < i * 2 ^ 60 < p.
Proof.
  unfold adds_b. intros Q H1 H2 H3. rewrite H1, H2, H3 in Q. cbn [negb orb] in Q. apply orb_true_iff in Q as [Q|Q]; [left; apply Z.leb_le; exact Q|right; apply fence_dec; exact Q].
Qed.
Definition apart_b (t : nat) (k c : Z) (s : cstate) : bool :=
  forallb (fun u => Nat.eqb u t ||
    (negb (in_find (pcs s t)) || negb (in_find (pcs s u))) &&
    adds_b (reverse64 k) (pcs s u) &&
    match pending (pcs s u) with Some (CDel _ c') => negb (c' =? c) | _ => true end) [0; 1; 2; 3]%nat.
Lemma apart_decide g s ls t k c : small_threads ls = true -> (forall u, (4 <= u)%nat -> pcs s u = Idle) ->
  forallb (apart_b t k c) (states g s ls) = true -> always g s ls (apart t k c).
Proof.
  intros ST AB F. apply always_states. intros x I. pose proof (proj1 (forallb_forall _ _) F x I) as B. intros u NE.
  destruct (Nat.lt_ge_cases u 4) as [L|L].
  - assert (IU : In u [0; 1; 2; 3]%nat) by (clear - L; destruct u as [|[|[|[|]]]]; cbn; auto; lia). pose proof (proj1 (forallb_forall _ _) B u IU) as Q. cbn beta in Q.
    apply orb_true_iff in Q as [Q|Q]; [apply Nat.eqb_eq in Q; congruence|]. apply andb_true_iff in Q as [Q Q3]. apply andb_true_iff in Q as [Q1 Q2].
    split; [|split].
    + intros H. rewrite H in Q1. destruct (in_find (pcs x u)); auto.
    + intros o p H1 H2 H3. exact (adds_dec _ _ _ _ Q2 H1 H2 H3).
    + intros o PD D (k' & c' & KC & _ & CC). rewrite PD in Q3. destruct o as [| |k0 c0|]; try discriminate D. cbn [key_call] in KC. injection KC as <- <-. apply negb_true_iff, Z.eqb_neq in Q3. congruence.
  - rewrite (states_above g ls s x u ST L I), AB by auto. split; [auto|split; discriminate].
Qed.
Definition far_key : Z := at_ (5 * 2 ^ 60 + 3).
Definition away_before : list label := steps strict (call_ (steps strict (call_ [] 3 (CSet (at_ (9 * 2 ^ 60)) 8 (GV 1 2))) 3 60) 2 (CSet far_key 8 (GV 1 3))) 2 12.
Definition away_run : list label :=
  let l1 := call_ away_before 1 (CSet (at_ 10) 7 (GV 1 1)) in
  let l2 := steps strict l1 1 7 in
  let l3 := steps strict l2 2 1 in
  let l4 := steps strict (call_ l3 3 (CSet (at_ (9 * 2 ^ 60)) 8 (GV 1 5))) 3 2 in
  skipn (List.length away_before) (steps strict l4 1 40).
Example C48_far_case : let s := after strict away_before in let ls := (1%nat, ACall (CSet (at_ 10) 7 (GV 1 1))) :: tl away_run in
  reachable strict s /\ (exists s', crun strict s ls = Some s' /\ pcs s' 1%nat = Idle) /\ (forall o, ~ In (1%nat, ACall o) (tl away_run)) /\
  always strict s ls (apart 1 (at_ 10) 7) /\
  existsb (fun x => inserting (pcs x 1%nat) && inserting (pcs x 2%nat)) (states strict s ls) = true /\
  existsb (fun x => inserting (pcs x 1%nat) && negb (inserting (pcs x 2%nat))) (states strict s ls) = true.
Proof.
  cbv zeta. split; [exists away_before; apply valid_run; vm_compute; reflexivity|]. split; [|split; [|split; [|split]]].
  - eexists. split; [vm_compute; reflexivity|vm_compute; reflexivity].
  - intros o I. assert (X : existsb (fun l => Nat.eqb (fst l) 1 && match snd l with ACall _ => true | _ => false end) (tl away_run) = true) by (apply existsb_exists; eexists; split; [exact I|reflexivity]).
    vm_compute in X. discriminate X.
  - apply apart_decide; [vm_compute; reflexivity| |vm_compute; reflexivity].
    intros u L. assert (R : crun strict cinit away_before = Some (after strict away_before)) by (apply valid_run; vm_compute; reflexivity).
    rewrite (idle_above strict away_before cinit _ u); [reflexivity|vm_compute; reflexivity|exact R|exact L].
  - vm_compute. reflexivity.
  - vm_compute. reflexivity.
Qed.
