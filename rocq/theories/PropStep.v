(** C64: on a default map no call waits for another. *)
From Verif Require Import Base BaseProofs Util UtilProofs Bucket MapModel Spec ConcModel ConcSpec ConcProofs ConcMore PropConc.
From Coq Require Import PeanoNat.
Local Open Scope nat_scope.
Local Open Scope list_scope.
Local Opaque reverse64.

(** sentinels are at 64-bit positions *)
Definition okpos (ls : list label) : Prop := forall t rv, In (t, ACall (CDummy rv)) ls -> (0 <= rv)%Z.
Definition nonneg (s : cstate) : Prop :=
  (exists z n, In z (order s) /\ node s z = Some n /\ n_rev n = 0%Z) /\ (forall i n, node s i = Some n -> (0 <= n_rev n)%Z).
Lemma cinit_nonneg : nonneg cinit.
Proof.
  split.
  - exists 0, (mkN 0 0 GNil true false). split; [vm_compute; auto|]. split; vm_compute; reflexivity.
  - intros i n N. unfold node, cinit in N. cbn [heap] in N. apply nth_error_In in N. apply in_map_iff in N as (e & <- & I). cbn [n_rev].
    assert (F : forallb (fun e => (0 <=? e_rev e)%Z) init_items = true) by (vm_compute; reflexivity). rewrite forallb_forall in F. apply Z.leb_le, F. auto.
Qed.
Lemma eff_heap g s t s' i n : eff g s t s' -> node s' i = Some n -> (exists n0, node s i = Some n0 /\ n_rev n = n_rev n0) \/
  (exists k, n_rev n = reverse64 k) \/ (exists rv, pcs s t = Idle /\ In (Inv t (CDummy rv)) (hist s') /\ n_rev n = rv).
Proof.
  intros E N. destruct E; try (left; exists n; split; [exact N|reflexivity]).
  - unfold node in N. cbn [heap goto alloc log_] in N. destruct (Nat.lt_ge_cases i (List.length (heap s))) as [L|L]; [rewrite nth_error_app1 in N by auto; left; exists n; auto|].
    right. right. rewrite nth_error_app2 in N by auto. destruct (i - List.length (heap s)) as [|j]; [|destruct j; discriminate]. injection N as <-. exists rv. split; auto. split; auto.
    cbn [hist goto alloc log_]. apply in_or_app. right. left. auto.
  - unfold node in N. cbn [heap goto alloc log_] in N. destruct (Nat.lt_ge_cases i (List.length (heap s))) as [L|L]; [rewrite nth_error_app1 in N by auto; left; exists n; auto|].
    right. left. rewrite nth_error_app2 in N by auto. destruct (i - List.length (heap s)) as [|j]; [|destruct j; discriminate]. injection N as <-. exists k. auto.
  - unfold node in *. cbn [heap ret set_node] in N. rewrite set_nth_at in N. destruct (Nat.eqb_spec i i0) as [->|]; [rewrite H0 in N; injection N as <-; left; exists n0; auto|left; exists n; auto].
  - unfold node in *. cbn [heap ret set_node] in N. rewrite set_nth_at in N. destruct (Nat.eqb_spec i i0) as [->|]; [rewrite H0 in N; injection N as <-; left; exists n0; auto|left; exists n; auto].
  - left. unfold node in *. destruct (after_shared s t o) as (X & _). rewrite X in N. exists n. auto.
  - left. unfold node in *. destruct (after_shared (insert s i0 r) t o) as (X & _). rewrite X in N. exists n. auto.
  - left. unfold node in *. destruct (after_shared (insert s i0 r) t o) as (X & _). rewrite X in N. exists n. auto.
Qed.
Lemma step_nonneg g s t a s' : cstep g s (t, a) = Some s' -> (forall rv, a = ACall (CDummy rv) -> (0 <= rv)%Z) -> nonneg s -> nonneg s'.
Proof.
  intros ST OK [(z & n & I & N & R) ALL]. pose proof (cstep_eff _ _ _ _ _ ST) as E. split.
  - destruct (eff_rev g s t s' z n E N) as (n' & N' & R' & _). exists z, n'. split; [eapply subseq_in; [apply (ex_order _ _ (eff_ext _ _ _ _ E))|auto]|]. split; auto. congruence.
  - intros i m M. destruct (eff_heap g s t s' i m E M) as [(n0 & N0 & ->)|[(k & ->)|(rv & PI & _ & RV)]]; [eauto|apply reverse64_range|].
    unfold cstep in ST. rewrite PI in ST. destruct a as [o| | | |]; try discriminate. destruct o as [k c v|k c|k c|rv']; cbn [new_node] in ST; injection ST as <-; try (eapply ALL; exact M).
    unfold node in M. cbn [heap goto alloc] in M. destruct (Nat.lt_ge_cases i (List.length (heap s))) as [L|L]; [rewrite nth_error_app1 in M by auto; eapply ALL; exact M|].
    rewrite nth_error_app2 in M by auto. destruct (i - List.length (heap s)) as [|j]; [|destruct j; discriminate]. injection M as <-. cbn [n_rev]. apply OK. auto.
Qed.
Lemma run_nonneg g ls : forall s s', okpos ls -> nonneg s -> crun g s ls = Some s' -> nonneg s'.
Proof.
  induction ls as [|[t a] ls IH]; intros s s' OK N R; cbn [crun] in R; [injection R as <-; auto|]. destruct (cstep g s (t, a)) as [s1|] eqn:E; [|discriminate].
  apply (IH s1 s'); auto; [intros u rv I; apply (OK u rv); right; auto|]. eapply step_nonneg; eauto. intros rv ->. apply (OK t rv). left. auto.
Qed.

Lemma upd_is_set g s t o i : reachable g s -> pcs s t = Upd o i -> exists a b v, o = CSet a b v.
Proof.
  intros (l & RX). revert o i. apply (crun_ind g (fun x => forall o i, pcs x t = Upd o i -> exists a b d, o = CSet a b d)) with (ls := l) (s := cinit); [|discriminate|exact RX].
  clear. intros s0 u s1 H0 E o0 i0. destruct (Nat.eq_dec t u) as [<-|NE]; [|rewrite (eff_other _ _ _ _ _ E NE); apply H0].
  destruct E; cbn [pcs goto ret log_ alloc set_opt set_node]; rewrite ?upd_pc_same; try discriminate.
  - intros X. injection X as <- <-. eauto.
  - destruct (after_pc s0 t o) as (p & Q1 & _ & [->| ->]); rewrite Q1, upd_pc_same; discriminate.
  - destruct (after_pc (insert s0 i r) t o) as (p & Q1 & _ & [->| ->]); rewrite Q1, upd_pc_same; discriminate.
  - destruct (after_pc (insert s0 i r) t o) as (p & Q1 & _ & [->| ->]); rewrite Q1, upd_pc_same; discriminate.
Qed.
(** A goroutine inside a call can always go on, whatever the others are doing. *)
Theorem C64_can_go_on g ls s t : okpos ls -> crun g cinit ls = Some s -> pcs s t <> Idle -> exists a s', cstep g s (t, a) = Some s'.
Proof.
  intros OK R NI. assert (C : cinv s) by (exact (reach_inv g ls s R)). destruct (run_nonneg g ls _ _ OK cinit_nonneg R) as [(z & nz & IZ & NZ & RZ) ALL].
  pose proof (ci_pc _ C t) as P. unfold cstep. destruct (pcs s t) as [|o|o i|o i|o i|o i n|o i cur pv|o i n pos pv|o i r|o i r|o] eqn:EP; cbn [pc_ok] in P; try congruence.
  - assert (Q : forall k c, may_miss g s k c = true \/ exists i, hit s k c i = true).
    { intros k c. unfold may_miss. destruct (existsb (hit s k c) (order s)) eqn:H; [right|left; apply orb_true_r]. apply existsb_exists in H as (i & _ & H). eauto. }
    destruct o as [k c v|k c|k c|rv].
    + destruct (Q k c) as [H|(i & H)]; [exists AMiss|exists (AHit i)]; rewrite H; cbn [new_node]; eauto.
    + destruct (Q k c) as [H|(i & H)]; [exists AMiss|exists (AHit i)]; rewrite H; eauto.
    + destruct (Q k c) as [H|(i & H)]; [exists AMiss|exists (AHit i)]; rewrite H; eauto.
    + exfalso. (* a sentinel is not searched for *)
      assert (G : forall x, reachable g x -> pcs x t <> Load (CDummy rv)).
      { intros x (l & RX). refine (crun_ind g (fun x => pcs x t <> Load (CDummy rv)) _ l cinit x _ RX); [|discriminate].
        intros s0 u s1 H0 E. destruct (Nat.eq_dec t u) as [<-|NE]; [|rewrite (eff_other _ _ _ _ _ E NE); auto].
        destruct E; cbn [pcs goto ret log_ alloc set_opt set_node]; rewrite ?upd_pc_same; try discriminate.
        - intros X. injection X as ->. discriminate.
        - destruct (after_pc s0 t o) as (p & Q1 & _ & [->| ->]); rewrite Q1, upd_pc_same; discriminate.
        - destruct (after_pc (insert s0 i r) t o) as (p & Q1 & _ & [->| ->]); rewrite Q1, upd_pc_same; discriminate.
        - destruct (after_pc (insert s0 i r) t o) as (p & Q1 & _ & [->| ->]); rewrite Q1, upd_pc_same; discriminate. }
      apply (G s); [eexists; eauto|auto].
  - destruct P as [IH (_ & n & k & c & N & K & _)]. exists AStep. 
    destruct (upd_is_set g s t o i (ex_intro _ ls R) EP) as (a & b & v & ->).
    rewrite N. destruct (set_value KSample (n_val n) v) as [[v' ok]|]; eauto.
  - destruct P as [_ (_ & n & k & c & N & _)]. exists AStep. rewrite N. eauto.
  - destruct P as [_ (_ & n & k & c & N & _)]. exists AStep. rewrite N. eauto.
  - destruct P as [_ (F1 & _)]. exists (AAt z). destruct n as [|n]; [|eauto]. destruct (node s i) as [ni|] eqn:N; [|congruence]. rewrite NZ.
    rewrite (proj2 (in_order_In s z) IZ), RZ. rewrite (proj2 (Z.leb_le _ _) (ALL i ni N)). cbn [andb]. eauto.
  - destruct P as (_ & (F1 & _) & IC). exists AStep. destruct (node s i) as [ni|]; [|congruence]. pose proof (ci_valid _ C cur IC) as V. destruct (node s cur) as [nc|]; [|congruence].
    destruct (_ && _)%bool; eauto. destruct (next_of cur (order s)); eauto.
  - destruct n as [|n]; [destruct pos as [r|]|].
    + exists AStep. eauto.
    + exists (AAt z). rewrite (proj2 (in_order_In s z) IZ). eauto.
    + exists AStep. eauto.
  - exists AStep. destruct (check s i r); eauto.
  - exists AStep. eauto.
  - exists AStep. eauto.
Qed.

(** * How many steps a call takes *)
Definition mine (t : nat) (ls : list label) : nat := List.length (filter (fun l => Nat.eqb (fst l) t) ls).
(** nodes behind x *)
Fixpoint behind (x : nat) (l : list nat) : nat :=
  match l with [] => 0 | y :: l' => if Nat.eqb y x then List.length l' else behind x l' end.
Lemma behind_next x l y : NoDup l -> next_of x l = Some y -> S (behind y l) = behind x l.
Proof.
  induction l as [|z l IH]; cbn [next_of behind]; [discriminate|]. intros ND. inversion ND as [|? ? N1 N2]; subst. destruct (Nat.eqb_spec z x) as [->|NE].
  - destruct l as [|w l]; [discriminate|]. cbn [hd_error]. intros E. injection E as ->. destruct (Nat.eqb_spec x y) as [->|_]; [exfalso; apply N1; left; auto|]. cbn [behind List.length]. rewrite Nat.eqb_refl. auto.
  - intros E. destruct (Nat.eqb_spec z y) as [->|_]; [|auto]. exfalso. apply N1. eapply next_of_in; eauto.
Qed.
Lemma behind_ins x r i l : x <> i -> behind x (ins_bef r i l) <= S (behind x l).
Proof.
  intros NE. induction l as [|z l IH]; cbn [ins_bef behind]; [lia|]. destruct (Nat.eqb_spec z r) as [->|NR].
  - cbn [behind]. destruct (Nat.eqb_spec i x); [congruence|]. destruct (Nat.eqb r x); lia.
  - cbn [behind]. destruct (Nat.eqb z x); [|auto]. assert (Q : List.length (ins_bef r i l) <= S (List.length l)); [|lia].
    clear. induction l as [|y l IH]; cbn [ins_bef List.length]; [lia|]. destruct (Nat.eqb y r); cbn [List.length]; lia.
Qed.
Lemma behind_le x l : behind x l <= List.length l.
Proof. induction l as [|z l IH]; cbn [behind List.length]; [lia|]. destruct (Nat.eqb z x); lia. Qed.
(** the own steps a call has before it, in the present list *)
Definition left_ (s : cstate) (t : nat) : nat :=
  match pcs s t with
  | Idle => 0
  | Load o => match o with CSet _ _ _ => 9 + List.length (order s) | _ => 2 end
  | Upd _ _ | Rd _ _ | Mark _ _ | Cnt _ => 1
  | Save _ _ n => 6 + 2 * n + List.length (order s)
  | Walk _ _ cur _ => 5 + behind cur (order s)
  | Restore _ _ n _ _ => match n with 0 => 4 | S m => 7 + 2 * m + List.length (order s) end
  | Chk _ _ _ => 3
  | Ins _ _ _ => 2
  end.
Definition n_ok (s : cstate) : Prop := forall t o i n, pcs s t = Save o i n -> n <= 1.
Lemma len_step g s t s' : cinv s -> eff g s t s' -> List.length (order s) <= List.length (order s').
Proof.
  intros C E. assert (S : subseq (order s) (order s')) by apply (ex_order _ _ (eff_ext _ _ _ _ E)). clear E. induction S; cbn [List.length]; lia.
Qed.
Lemma left_other g s u s' t : cinv s -> eff g s u s' -> t <> u -> left_ s' t + List.length (order s) <= left_ s t + List.length (order s').
Proof.
  intros C E NE. pose proof (len_step g s u s' C E) as LS. unfold left_. rewrite (eff_other _ _ _ _ _ E NE).
  pose proof (ci_pc _ C t) as P. destruct (pcs s t) as [|o|o i|o i|o i|o i n|o i cur pv|o i n pos pv|o i r|o i r|o] eqn:EP; try lia.
  - destruct o; lia.
  - destruct P as (_ & _ & IC). destruct (order_step g s u s' E) as [->|(j & r & OW & OO)]; [lia|].
    assert (NJ : cur <> j). { intros ->. destruct (owned_not_in s u j C OW) as [Q1 Q2]. tauto. }
    rewrite OO. pose proof (behind_ins cur r j (order s) NJ) as B.
    destruct (in_dec Nat.eq_dec r (order s)) as [IR|NR].
    + destruct (ins_bef_split r j (order s) IR) as (l1 & l2 & E1 & E2 & _). assert (Q : List.length (ins_bef r j (order s)) = S (List.length (order s))).
      { rewrite E2, E1. rewrite !app_length. cbn [List.length]. lia. } lia.
    + rewrite (ins_bef_none r j (order s) NR). lia.
  - destruct n; lia.
Qed.
Lemma left_self g s t s' : cinv s -> eff g s t s' -> pcs s t <> Idle -> S (left_ s' t) + List.length (order s) <= left_ s t + List.length (order s').
Proof.
  intros C E NI. pose proof (len_step g s t s' C E) as LS. unfold left_. pose proof (behind_le) as BL.
  destruct E; try congruence; rewrite H; cbn [pcs goto ret log_ alloc set_opt set_node order]; rewrite ?upd_pc_same; try lia.
  - specialize (BL st (order s)). lia.
  - pose proof (behind_next cur (order s) nx (ci_nodup _ C) H3). lia.
  - destruct (after_pc s t o) as (p & Q & _ & [->| ->]); rewrite Q, upd_pc_same; lia.
  - destruct (after_pc (insert s i r) t o) as (p & Q & _ & [->| ->]); rewrite Q, upd_pc_same; lia.
  - destruct (after_pc (insert s i r) t o) as (p & Q & _ & [->| ->]); rewrite Q, upd_pc_same; lia.
Qed.
Lemma steps_left g ls : forall s s' t, cinv s -> always g s ls (fun x => pcs x t <> Idle) -> crun g s ls = Some s' ->
  mine t ls + left_ s' t + List.length (order s) <= left_ s t + List.length (order s').
Proof.
  induction ls as [|[u a] ls IH]; intros s s' t C A R; cbn [crun] in R; [injection R as <-; cbn; lia|]. destruct (cstep g s (u, a)) as [s1|] eqn:E; [|discriminate].
  pose proof (always_now _ _ _ _ A) as P0. pose proof (always_next _ _ _ _ _ _ A E) as A1. apply cstep_eff in E as EF. pose proof (eff_cinv g s u s1 C EF) as C1.
  specialize (IH s1 s' t C1 A1 R). unfold mine in *. cbn [filter fst]. destruct (Nat.eqb_spec u t) as [->|NE]; cbn [List.length].
  - pose proof (left_self g s t s1 C EF P0). lia.
  - pose proof (left_other g s u s1 t C EF (not_eq_sym NE)). lia.
Qed.
Lemma left_bound s t : pcs s t <> Idle -> (forall o i n, pcs s t = Save o i n -> n <= 1) -> (forall o i n pos pv, pcs s t = Restore o i n pos pv -> n <= 1) -> left_ s t <= 9 + List.length (order s).
Proof.
  intros NI H1 H2. unfold left_. destruct (pcs s t) as [|o|o i|o i|o i|o i n|o i cur pv|o i n pos pv|o i r|o i r|o] eqn:EP; try lia.
  - destruct o; lia.
  - specialize (H1 o i n eq_refl). lia.
  - pose proof (behind_le cur (order s)). lia.
  - specialize (H2 o i n pos pv eq_refl). destruct n; lia.
Qed.
Lemma small_n g s : reachable g s -> forall t, (forall o i n, pcs s t = Save o i n -> n <= 1) /\ (forall o i n pos pv, pcs s t = Restore o i n pos pv -> n <= 1).
Proof.
  intros (ls & R). refine (crun_ind g (fun s => forall t, (forall o i n, pcs s t = Save o i n -> n <= 1) /\ (forall o i n pos pv, pcs s t = Restore o i n pos pv -> n <= 1)) _ ls cinit s _ R); [|intros t; split; discriminate].
  clear. intros s u s' H E t. destruct (Nat.eq_dec t u) as [->|NE]; [|rewrite (eff_other _ _ _ _ _ E NE); auto]. destruct (H u) as [H1 H2]. clear H.
  destruct E; cbn [pcs goto ret log_ alloc set_opt set_node]; rewrite ?upd_pc_same; try (split; discriminate).
  - split; [|discriminate]. intros o i n X. injection X as <- <- <-. lia.
  - split; [|discriminate]. intros o i n X. injection X as <- <- <-. lia.
  - split; [discriminate|]. intros o' i' n' pos pv X. injection X as <- <- <- <- <-. eapply H1; eauto.
  - split; [discriminate|]. intros o' i' n' pos pv' X. injection X as <- <- <- <- <-. lia.
  - split; [discriminate|]. intros o' i' n' pos pv' X. injection X as <- <- <- <- <-. lia.
  - split; [|discriminate]. intros o' i' n' X. injection X as <- <- <-. specialize (H2 _ _ _ _ _ H). lia.
  - destruct (after_pc s u o) as (p & Q & _ & [->| ->]); rewrite Q, upd_pc_same; split; discriminate.
  - destruct (after_pc (insert s i r) u o) as (p & Q & _ & [->| ->]); rewrite Q, upd_pc_same; split; discriminate.
  - destruct (after_pc (insert s i r) u o) as (p & Q & _ & [->| ->]); rewrite Q, upd_pc_same; split; discriminate.
Qed.
(** As long as goroutine t is inside its call it has made at most 9 steps and one for every node the list has by then. *)
Theorem C64_steps g s t ls s' : reachable g s -> always g s ls (fun x => pcs x t <> Idle) -> crun g s ls = Some s' ->
  mine t ls < 9 + List.length (order s').
Proof.
  intros RS A R. assert (C : cinv s) by (destruct RS as (l0 & R0); exact (reach_inv g l0 s R0)). pose proof (steps_left g ls s s' t C A R) as Q. destruct (small_n g s RS t) as [S1 S2].
  pose proof (left_bound s t (always_now _ _ _ _ A) S1 S2) as B. assert (P' : pcs s' t <> Idle) by (apply (A ls [] s'); [rewrite app_nil_r; auto|auto]).
  assert (1 <= left_ s' t). { unfold left_. destruct (pcs s' t) as [|o|o i|o i|o i|o i n|o i cur pv|o i n pos pv|o i r|o i r|o]; try congruence; try lia. - destruct o; lia. - destruct n; lia. }
  lia.
Qed.
(** Get and Delete, and a Set of a key that is found, are answered by the second step after the call, whatever the list is and the others do. *)
Definition reads (p : pc) : Prop :=
  match p with Load (CGet _ _) | Load (CDel _ _) | Upd _ _ | Rd _ _ | Mark _ _ => True | _ => False end.
Theorem C64_read_steps g s t ls s' : reachable g s -> reads (pcs s t) -> always g s ls (fun x => pcs x t <> Idle) -> crun g s ls = Some s' ->
  mine t ls <= 1 /\ reads (pcs s' t).
Proof.
  intros RS RD A R. 
  set (w := fun x => match pcs x t with Load (CGet _ _) | Load (CDel _ _) => 2 | Upd _ _ | Rd _ _ | Mark _ _ => 1 | _ => 0 end).
  assert (Q : forall ls s, reads (pcs s t) -> always g s ls (fun x => pcs x t <> Idle) -> crun g s ls = Some s' -> mine t ls + w s' <= w s /\ reads (pcs s' t)).
  { clear. induction ls as [|[u a] ls IH]; intros s RD A R; cbn [crun] in R; [injection R as <-; cbn; auto|]. destruct (cstep g s (u, a)) as [s1|] eqn:E; [|discriminate].
    pose proof (always_next _ _ _ _ _ _ A E) as A1. pose proof (always_now _ _ _ _ A1) as P1. cbn beta in P1. apply cstep_eff in E as EF. unfold mine. cbn [filter fst].
    destruct (Nat.eqb_spec u t) as [->|NE].
    - assert (S1 : S (w s1) <= w s /\ reads (pcs s1 t)).
      { unfold w. destruct EF; rewrite H in *; cbn [reads] in RD; try contradiction; cbn [pcs goto ret set_node] in *; rewrite ?upd_pc_same in *; cbn [reads]; auto; congruence. }
      destruct S1 as [S1 S2]. destruct (IH s1 S2 A1 R) as [I1 I2]. unfold mine in I1. cbn [List.length]. split; [lia|auto].
    - assert (PE : pcs s1 t = pcs s t) by (apply (eff_other _ _ _ _ _ EF); auto). assert (W : w s1 = w s) by (unfold w; rewrite PE; auto).
      rewrite <- PE in RD. destruct (IH s1 RD A1 R) as [I1 I2]. unfold mine in I1. split; [lia|auto]. }
  destruct (Q ls s RD A R) as [Q1 Q2]. split; auto. assert (W1 : 1 <= w s') by (unfold w; destruct (pcs s' t) as [|o| | | | | | | | |]; cbn [reads] in Q2; try contradiction; try lia; destruct o; try contradiction; lia).
  assert (W2 : w s <= 2) by (unfold w; destruct (pcs s t) as [|o| | | | | | | | |]; try lia; destruct o; lia). lia.
Qed.

(** Goroutine 2 stops between check and insertion, goroutine 3 at an item it found; goroutine 1 sets a new key and is answered after 10
    of its steps, while the list has 19 nodes. *)
Definition two_step : cfg := mkCfg false false.
Definition stopped_run : list label :=
  let l0 := steps two_step (call_ [] 3 (CSet (at_ 30) 8 (GV 1 5))) 3 60 in
  let l1 := steps two_step (call_ l0 2 (CSet (at_ 20) 8 (GV 1 2))) 2 8 in
  let l2 := steps two_step (call_ l1 3 (CDel (at_ 30) 8)) 3 1 in
  call_ l2 1 (CSet (at_ 10) 7 (GV 1 1)).
Definition rest_run : list label := solo two_step (after two_step stopped_run) 1 60.
Definition okpos_b (ls : list label) : bool := forallb (fun l => match snd l with ACall (CDummy rv) => (0 <=? rv)%Z | _ => true end) ls.
Lemma okpos_decide ls : okpos_b ls = true -> okpos ls.
Proof. intros F t rv I. pose proof (proj1 (forallb_forall _ _) F _ I) as B. apply Z.leb_le. exact B. Qed.
Definition ins_b (p : pc) : bool := match p with Ins _ _ _ => true | _ => false end.
Definition mark_b (p : pc) : bool := match p with Mark _ _ => true | _ => false end.
Definition busy (t : nat) (s : cstate) : bool := match pcs s t with Idle => false | _ => true end.
Lemma busy_always g s ls t : forallb (busy t) (states g s ls) = true -> always g s ls (fun x => pcs x t <> Idle).
Proof. intros F. apply always_states. intros x I. pose proof (proj1 (forallb_forall _ _) F x I) as B. unfold busy in B. intros E. rewrite E in B. discriminate. Qed.
Definition order_len (o : option cstate) : nat := match o with Some s => List.length (order s) | None => 0 end.
Example C64_case : okpos stopped_run /\ crun two_step cinit stopped_run = Some (after two_step stopped_run) /\
  ins_b (pcs (after two_step stopped_run) 2) = true /\ mark_b (pcs (after two_step stopped_run) 3) = true /\
  always two_step (after two_step stopped_run) (removelast rest_run) (fun x => pcs x 1 <> Idle) /\
  mine 1 (removelast rest_run) = 9 /\ mine 1 rest_run = 10 /\
  match crun two_step (after two_step stopped_run) rest_run with Some x => busy 1 x | None => true end = false /\
  order_len (crun two_step (after two_step stopped_run) rest_run) = 19.
Proof.
  split; [apply okpos_decide; vm_compute; reflexivity|]. split; [apply valid_run; vm_compute; reflexivity|]. split; [vm_compute; reflexivity|]. split; [vm_compute; reflexivity|].
  split; [apply busy_always; vm_compute; reflexivity|]. split; [vm_compute; reflexivity|]. split; [vm_compute; reflexivity|]. split; vm_compute; reflexivity.
Qed.
