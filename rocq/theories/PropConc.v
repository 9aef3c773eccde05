(** Property theorems about concurrent calls on a default map: C32-C35, C48, C49. The model is ConcModel.v. *)
From Verif Require Import Base BaseProofs Util UtilProofs Bucket MapModel ConcModel ConcSpec ConcProofs ConcMore.
From Coq Require Import ZifyBool Sorted PeanoNat.
Local Open Scope Z_scope.
Local Open Scope list_scope.
Local Opaque reverse64.

(** * Schedules for the examples *)
(** one goroutine runs alone until it is idle, starting every find at the first node *)
Definition next_act (g : cfg) (s : cstate) (t : nat) : act :=
  match pcs s t with
  | Load (CSet k c _) | Load (CGet k c) | Load (CDel k c) =>
      match find (hit s k c) (order s) with Some i => AHit i | None => AMiss end
  | Save _ _ _ => AAt 0
  | Restore _ _ 0 None _ => AAt 0
  | _ => AStep
  end.
Fixpoint solo (g : cfg) (s : cstate) (t fuel : nat) : list label :=
  match fuel with
  | O => []
  | S f => match pcs s t with
           | Idle => []
           | _ => let l := (t, next_act g s t) in
                  match cstep g s l with Some s' => l :: solo g s' t f | None => [] end
           end
  end.
Definition after (g : cfg) (ls : list label) : cstate := match crun g cinit ls with Some s => s | None => cinit end.
(** run goroutine t for n steps *)
Definition steps (g : cfg) (ls : list label) (t n : nat) : list label := ls ++ solo g (after g ls) t n.
Definition call_ (ls : list label) (t : nat) (o : call) : list label := ls ++ [(t, ACall o)].
Definition at_ (p : Z) : Z := reverse64 p.
Definition strict : cfg := mkCfg true false.

(** two Sets of neighbouring new keys: the second is inserted between the search and the insertion of the first *)
Definition race : list label :=
  let l1 := call_ [] 1 (CSet (at_ 10) 7 (GV 1 1)) in
  let l2 := steps strict l1 1 7 in
  let l3 := call_ l2 2 (CSet (at_ 20) 8 (GV 1 2)) in
  let l4 := steps strict l3 2 40 in
  steps strict l4 1 40.

Ltac quiet_tac := let t := fresh "t" in intros t; destruct t as [|[|[|[|t]]]]; vm_compute; reflexivity.
Lemma run_after g ls s : crun g cinit ls = Some s -> after g ls = s.
Proof. unfold after. intros ->. auto. Qed.
(** a schedule that can be followed *)
Definition valid (g : cfg) (ls : list label) : bool := match crun g cinit ls with Some _ => true | None => false end.
Lemma valid_run g ls : valid g ls = true -> crun g cinit ls = Some (after g ls).
Proof. unfold valid, after. destruct (crun g cinit ls); [auto|discriminate]. Qed.

(** * C33: order, persistence, values *)
Lemma sorted_insert (f : nat -> Z) l1 i r l2 : StronglySorted Z.le (map f (l1 ++ r :: l2)) -> f i <= f r ->
  (forall p, hd_error (rev l1) = Some p -> f p <= f i) -> StronglySorted Z.le (map f (l1 ++ i :: r :: l2)).
Proof.
  induction l1 as [|x l1 IH]; cbn [app map]; intros S R P.
  - constructor; auto. inversion S as [|? ? S1 S2]; subst. constructor; auto. eapply Forall_impl; [|exact S2]. intros a Ha. cbn beta in *. lia.
  - inversion S as [|? ? S1 S2]; subst. constructor.
    + apply IH; auto. intros p Hp. apply P. cbn [rev]. destruct (rev l1); [discriminate|]. cbn [app hd_error] in *. auto.
    + apply Forall_forall. intros y Hy. rewrite Forall_forall in S2. rewrite map_app in *. cbn [map] in *. apply in_app_or in Hy as [Hy|[Hy|Hy]].
      * apply S2, in_or_app; auto.
      * subst y. destruct (rev l1) as [|p q] eqn:E.
        -- apply P. cbn [rev]. rewrite E. reflexivity.
        -- assert (IP : In p l1) by (apply in_rev; rewrite E; left; auto).
           assert (f x <= f p). { apply S2, in_or_app. left. apply in_map; auto. }
           assert (f p <= f i). { apply P. cbn [rev]. rewrite E. reflexivity. }
           lia.
      * apply S2, in_or_app. right. auto.
Qed.
Definition no_ins (s : cstate) : Prop := forall t o i r, pcs s t <> Ins o i r.
Lemma positions_ext s s' : (forall i, In i (order s) -> pos_at s' i = pos_at s i) -> order s' = order s -> positions s' = positions s.
Proof. intros A B. unfold positions. rewrite B. apply map_ext_in. auto. Qed.
Lemma ext_pos s s' i : ext s s' -> node s i <> None -> pos_at s' i = pos_at s i.
Proof.
  intros E N. unfold pos_at. destruct (node s i) as [n|] eqn:X; [|congruence]. destruct (ex_heap _ _ E i n X) as (n' & -> & (A & _)). auto.
Qed.
Lemma eff_order g s t s' : eff g s t s' -> order s' = order s \/ exists o i r, (pcs s t = Chk o i r \/ pcs s t = Ins o i r) /\ (pcs s t = Chk o i r -> check s i r = true /\ c_atomic g = true) /\
    s' = after_insert (insert s i r) t o.
Proof.
  intros E. destruct E; try (left; reflexivity).
  - left. apply after_shared.
  - right. exists o, i, r. repeat split; auto.
  - right. exists o, i, r. split; auto. split; [congruence|auto].
Qed.
Lemma eff_sorted g s t s' : c_atomic g = true -> cinv s -> no_ins s -> StronglySorted Z.le (positions s) -> eff g s t s' ->
  no_ins s' /\ StronglySorted Z.le (positions s').
Proof.
  intros AT C NI S E. split.
  - intros u o i r. destruct (Nat.eq_dec u t) as [->|NE].
    + destruct E; cbn [pcs goto ret log_ alloc set_opt set_node]; rewrite ?upd_pc_same; try discriminate.
      * destruct (after_pc s t o0) as (p & -> & _ & [->| ->]); rewrite upd_pc_same; discriminate.
      * destruct (after_pc (insert s i0 r0) t o0) as (p & -> & _ & [->| ->]); rewrite upd_pc_same; discriminate.
      * congruence.
      * destruct (after_pc (insert s i0 r0) t o0) as (p & -> & _ & [->| ->]); rewrite upd_pc_same; discriminate.
    + assert (X : pcs s' u = pcs s u).
      { destruct E; cbn [pcs goto ret log_ alloc set_opt set_node]; rewrite ?upd_pc_other by auto; auto.
        - destruct (after_pc s t o0) as (p & -> & _); rewrite upd_pc_other by auto; auto.
        - destruct (after_pc (insert s i0 r0) t o0) as (p & -> & _); rewrite upd_pc_other by auto; auto.
        - destruct (after_pc (insert s i0 r0) t o0) as (p & -> & _); rewrite upd_pc_other by auto; auto. }
      rewrite X. apply NI.
  - pose proof (eff_ext g s t s' E) as X. destruct (eff_order g s t s' E) as [O|(o & i & r & P & CK & ->)].
    + rewrite (positions_ext s s'); auto. intros i Hi. apply ext_pos; auto. apply (ci_valid _ C); auto.
    + destruct P as [P|P]; [|exfalso; eapply NI; eauto]. destruct (CK P) as [CH _]. pose proof (ci_pc _ C t) as PO. rewrite P in PO. cbn [pc_ok] in PO.
      destruct PO as (_ & (N1 & _ & _) & IR). pose proof (ci_valid _ C r IR) as N2.
      destruct (ins_bef_split r i (order s) IR) as (l1 & l2 & E1 & E2 & _). pose proof (ci_nodup _ C) as ND.
      unfold positions. destruct (after_shared (insert s i r) t o) as (_ & -> & _). cbn [order insert]. rewrite E2.
      assert (EQ : forall j, node s j <> None -> pos_at (after_insert (insert s i r) t o) j = pos_at s j) by (intros j; apply ext_pos; auto).
      assert (VL : forall j, In j (l1 ++ i :: r :: l2) -> node s j <> None).
      { intros j Hj. destruct (Nat.eq_dec j i) as [->|NE]; auto. apply (ci_valid _ C). rewrite E1. rewrite in_app_iff in *. cbn [In] in *. intuition congruence. }
      rewrite (map_ext_in _ (pos_at s)) by (intros j Hj; apply EQ, VL; auto).
      unfold check in CH. unfold positions in S. rewrite E1 in S. rewrite E1 in ND, CH. rewrite prev_of_split in CH by auto.
      destruct (node s i) as [ni|] eqn:NI1; [|congruence]. destruct (node s r) as [nr|] eqn:NR; [|congruence]. apply andb_true_iff in CH as [C1 C2].
      apply sorted_insert; auto.
      * unfold pos_at. rewrite NI1, NR. lia.
      * intros p Hp. rewrite Hp in C2. unfold pos_at. rewrite NI1. destruct (node s p); [lia|discriminate].
Qed.
(** The order check and the insertion taken as one step: the items stay sorted under every schedule. *)
Theorem C33_sorted_one_step g s : c_atomic g = true -> reachable g s -> StronglySorted Z.le (positions s).
Proof.
  intros AT (ls & R).
  assert (G : forall ls0 s0 s1, cinv s0 -> no_ins s0 -> StronglySorted Z.le (positions s0) -> crun g s0 ls0 = Some s1 -> StronglySorted Z.le (positions s1)).
  { induction ls0 as [|[t a] ls0 IH]; intros s0 s1 C NI S E; cbn [crun] in E; [injection E as <-; auto|].
    destruct (cstep g s0 (t, a)) as [s2|] eqn:E1; [|discriminate]. apply cstep_eff in E1.
    destruct (eff_sorted g s0 t s2 AT C NI S E1) as [A B]. eapply (IH s2); eauto. eapply eff_cinv; eauto. }
  eapply (G ls cinit s); eauto; [apply cinit_inv|intros t o i r; discriminate|].
  vm_compute. repeat (constructor; [|repeat (constructor; [discriminate|]); constructor]). constructor.
Qed.
Print Assumptions C33_sorted_one_step.

(** In the code they are two steps, and then it is false. *)
Definition sorted_always (g : cfg) : Prop := forall s, reachable g s -> StronglySorted Z.le (positions s).
Definition split_cfg : cfg := mkCfg false false.
Definition unsorted : list label :=
  let l1 := call_ [] 1 (CSet (at_ 10) 7 (GV 1 1)) in
  let l2 := steps split_cfg l1 1 8 in
  let l3 := call_ l2 2 (CSet (at_ 20) 8 (GV 1 2)) in
  let l4 := steps split_cfg l3 2 40 in
  steps split_cfg l4 1 40.
Lemma not_sorted (a b c : Z) l : c < b -> ~ StronglySorted Z.le (a :: b :: c :: l).
Proof. intros L H. inversion H as [|? ? S1 S2]; subst. inversion S1 as [|? ? S3 S4]; subst. inversion S4; subst. lia. Qed.
Lemma first_three (l : list Z) a b c : firstn 3 l = [a; b; c] -> exists q, l = a :: b :: c :: q.
Proof. destruct l as [|x [|y [|z l]]]; cbn [firstn]; try discriminate. intros [= -> -> ->]. eauto. Qed.
Lemma unsorted_first : firstn 3 (positions (after split_cfg unsorted)) = [0; 20; 10].
Proof. vm_compute. reflexivity. Qed.
Theorem C33_sorted_refuted : ~ sorted_always split_cfg.
Proof.
  intros H. assert (R : reachable split_cfg (after split_cfg unsorted)) by (exists unsorted; apply valid_run; vm_compute; reflexivity).
  specialize (H _ R). destruct (first_three _ _ _ _ unsorted_first) as (q & E). rewrite E in H. revert H. apply not_sorted. lia.
Qed.
Print Assumptions C33_sorted_refuted.
Example C33_unsorted_at_rest : quiescent (after split_cfg unsorted).
Proof. quiet_tac. Qed.

(** An item of the list never leaves it, keeps its hashes, stays deleted once deleted; items never change places. Any
    state, any schedule, any granularity. *)
Theorem C33_persistence g s ls s' : crun g s ls = Some s' ->
  subseq (order s) (order s') /\
  forall i n, node s i = Some n -> exists n', node s' i = Some n' /\ n_rev n' = n_rev n /\ n_conf n' = n_conf n /\ n_dum n' = n_dum n /\
    (n_del n = true -> n_del n' = true).
Proof. intros R. pose proof (crun_ext g ls s s' R) as E. split; [apply (ex_order _ _ E)|]. intros i n N. destruct (ex_heap _ _ E i n N) as (n' & A & B). exists n'. auto. Qed.
Print Assumptions C33_persistence.
Example C33_persistence_case : exists s', crun strict (after strict (firstn 8 race)) (skipn 8 race) = Some s' /\ order s' <> order (after strict (firstn 8 race)).
Proof. eexists. split; [vm_compute; reflexivity|vm_compute; discriminate]. Qed.

(** A Get returns only values that were given to a Set of a key with the same hashes before. *)
Definition gets_ok (h : list event) : Prop := forall h1 t k c v h2, h = h1 ++ Rsp t (CGet k c) (CVal v true) :: h2 ->
  exists u k', In (Inv u (CSet k' c v)) h1 /\ reverse64 k' = reverse64 k.
Lemma gets_ok_snoc h e : gets_ok h -> (forall t k c v, e = Rsp t (CGet k c) (CVal v true) -> exists u k', In (Inv u (CSet k' c v)) h /\ reverse64 k' = reverse64 k) -> gets_ok (h ++ [e]).
Proof.
  intros G E h1 t k c v h2 X. destruct (exists_last (l := h1 ++ Rsp t (CGet k c) (CVal v true) :: h2)) as (q & z & Y); [destruct h1; discriminate|].
  destruct h2 as [|y h2 _] using rev_ind.
  - change (h1 ++ [Rsp t (CGet k c) (CVal v true)]) with (h1 ++ [Rsp t (CGet k c) (CVal v true)]) in X. apply app_inj_tail in X as [<- ->]. eapply E; eauto.
  - change (h1 ++ Rsp t (CGet k c) (CVal v true) :: h2 ++ [y]) with (h1 ++ (Rsp t (CGet k c) (CVal v true) :: h2) ++ [y]) in X.
    rewrite app_assoc in X. apply app_inj_tail in X as [X _]. eapply G; eauto.
Qed.
Lemma eff_hist g s t s' : cinv s -> eff g s t s' -> hist s' = hist s \/ exists e, hist s' = hist s ++ [e] /\
  (forall u k c v, e = Rsp u (CGet k c) (CVal v true) -> exists i n, pcs s t = Rd (CGet k c) i /\ node s i = Some n /\ v = n_val n).
Proof.
  intros C E. destruct E; try (left; reflexivity); try (right; eexists; split; [reflexivity|]; intros u k0 c0 v0 X; try discriminate X).
  - injection X as -> -> <-. exists i, n. auto.
  - destruct o; cbn [after_insert]; [left; reflexivity|right..]; eexists; (split; [reflexivity|]); intros u k0 c0 v0 X; discriminate X.
  - destruct o; cbn [after_insert]; [left; reflexivity|right..]; eexists; (split; [reflexivity|]); intros u k0 c0 v0 X; discriminate X.
  - destruct o; cbn [after_insert]; [left; reflexivity|right..]; eexists; (split; [reflexivity|]); intros u k0 c0 v0 X; discriminate X.
Qed.
Theorem C33_no_invented_values g s h1 t k c v h2 : reachable g s -> hist s = h1 ++ Rsp t (CGet k c) (CVal v true) :: h2 ->
  0 <= k < 2 ^ 64 -> (forall u o k' c', In (Inv u o) h1 -> key_call o = Some (k', c') -> 0 <= k' < 2 ^ 64) ->
  exists u, In (Inv u (CSet k c v)) h1.
Proof.
  intros (ls & R) H Hk HR.
  assert (G : cinv s /\ gets_ok (hist s)).
  { eapply (crun_ind g (fun s => cinv s /\ gets_ok (hist s))); [|split; [apply cinit_inv|]|exact R].
    - intros s0 u s1 [C G] E. split; [eapply eff_cinv; eauto|]. destruct (eff_hist g s0 u s1 C E) as [-> |(e & -> & X)]; auto. apply gets_ok_snoc; auto.
      intros u' k' c' v' EE. destruct (X u' k' c' v' EE) as (i & n & P & N & ->). pose proof (ci_pc _ C u) as PO. rewrite P in PO. cbn [pc_ok] in PO.
      destruct PO as [_ (_ & n' & k0 & c0 & N' & K & A & B & D)]. assert (n' = n) by congruence. subst n'. injection K as <- <-.
      destruct (ci_val _ C i n N D) as (u0 & k1 & I & RV). exists u0, k1. split; [rewrite <- B; auto|congruence].
    - intros a b c0 d e f X. destruct a; discriminate. }
  destruct G as [_ G]. destruct (G h1 t k c v h2 H) as (u & k' & I & RV). exists u. assert (k' = k); [|congruence].
  apply reverse64_inj in RV; auto; change W64 with (2 ^ 64); auto. eapply HR; eauto. reflexivity.
Qed.
Print Assumptions C33_no_invented_values.
Definition get_race : list label :=
  let l1 := steps strict (call_ [] 1 (CSet (at_ 10) 7 (GV 1 1))) 1 40 in
  let l2 := steps strict (call_ l1 2 (CGet (at_ 10) 7)) 2 1 in
  let l3 := steps strict (call_ l2 1 (CSet (at_ 10) 7 (GV 1 5))) 1 40 in
  steps strict l3 2 40.
Example C33_values_case : reachable strict (after strict get_race) /\
  exists h1 h2, hist (after strict get_race) = h1 ++ Rsp 2 (CGet (at_ 10) 7) (CVal (GV 1 5) true) :: h2.
Proof.
  split; [exists get_race; apply valid_run; vm_compute; reflexivity|].
  exists (firstn 5 (hist (after strict get_race))), []. vm_compute. reflexivity.
Qed.

(** * C32: Sets of different keys *)
(** nobody deletes, every key is set once, all calls have ended: then every Set that said true has its item in the list *)
Definition sets_take_effect (g : cfg) : Prop := forall s, reachable g s -> quiescent s ->
  (forall t o, In (Inv t o) (hist s) -> exists k c v, o = CSet k c v) ->
  (forall t u k c v k' v', In (Inv t (CSet k c v)) (hist s) -> In (Inv u (CSet k' c v')) (hist s) -> reverse64 k = reverse64 k' -> t = u /\ v = v') ->
  forall t k c v, In (Rsp t (CSet k c v) (CBool true)) (hist s) -> exists i, visible s k c i.
Definition has_visible (s : cstate) (k c : Z) : bool := existsb (hit s k c) (order s).
Lemma has_visible_iff s k c : has_visible s k c = true <-> exists i, visible s k c i.
Proof.
  unfold has_visible. rewrite existsb_exists. split.
  - intros (i & _ & H). exists i. apply visible_hit; auto.
  - intros (i & H). exists i. split; [apply H|apply visible_hit; auto].
Qed.
Definition race_hist (a b : Z) : list event :=
  [Inv 1 (CSet a 7 (GV 1 1)); Inv 2 (CSet b 8 (GV 1 2)); Rsp 2 (CSet b 8 (GV 1 2)) (CBool true); Rsp 1 (CSet a 7 (GV 1 1)) (CBool true)].
Lemma race_hist_sets a b t o : In (Inv t o) (race_hist a b) -> exists k c v, o = CSet k c v.
Proof. intros [E|[E|[E|[E|[]]]]]; try discriminate E; injection E as <- <-; eauto. Qed.
Lemma race_hist_once a b t u k c v k' v' : In (Inv t (CSet k c v)) (race_hist a b) -> In (Inv u (CSet k' c v')) (race_hist a b) -> t = u /\ v = v'.
Proof.
  intros [A|[A|[A|[A|[]]]]] [B|[B|[B|[B|[]]]]]; try discriminate A; try discriminate B; injection A as <- _ <- <-; injection B; intros; subst; auto; discriminate.
Qed.
Lemma race_history : hist (after strict race) = race_hist (at_ 10) (at_ 20).
Proof. vm_compute. reflexivity. Qed.
Lemma race_reach : reachable strict (after strict race).
Proof. exists race. apply valid_run. vm_compute. reflexivity. Qed.
Lemma race_quiet : quiescent (after strict race).
Proof. quiet_tac. Qed.
Lemma race_lost : has_visible (after strict race) (at_ 10) 7 = false.
Proof. vm_compute. reflexivity. Qed.
Theorem C32_sets_take_effect_refuted : ~ sets_take_effect strict.
Proof.
  intros H. specialize (H _ race_reach race_quiet). rewrite race_history in H.
  specialize (H (race_hist_sets _ _) (fun t u k c v k' v' A B _ => race_hist_once _ _ t u k c v k' v' A B)).
  pose proof (H 1%nat (at_ 10) 7 (GV 1 1) (or_intror (or_intror (or_intror (or_introl eq_refl))))) as X.
  apply has_visible_iff in X. rewrite race_lost in X. discriminate X.
Qed.
Print Assumptions C32_sets_take_effect_refuted.

(** While goroutine t does Set k c v nobody else adds an item, and nobody deletes the key. *)
Definition undisturbed (t : nat) (k c : Z) (s : cstate) : Prop := forall u, u <> t ->
  inserting (pcs s u) = false /\ (forall o, pending (pcs s u) = Some o -> is_delete o = true -> ~ same_pair k c o).
Lemma marks_delete g s : reachable g s -> forall t o i, pcs s t = Mark o i -> is_delete o = true.
Proof.
  intros (ls & R). refine (crun_ind g (fun s => forall t o i, pcs s t = Mark o i -> is_delete o = true) _ ls cinit s _ R); [|intros t o i Q; discriminate Q].
  intros s0 u s1 IH E t o i. destruct (Nat.eq_dec t u) as [->|NE]; [|rewrite (eff_other g s0 u s1 t E NE); apply IH].
  destruct E; cbn [pcs goto ret log_ alloc set_opt set_node]; rewrite ?upd_pc_same; try discriminate.
  - intros [= <- _]. reflexivity.
  - destruct (after_pc s0 u o0) as (p & Q & _ & [->| ->]); rewrite Q, upd_pc_same; discriminate.
  - destruct (after_pc (insert s0 i0 r) u o0) as (p & Q & _ & [->| ->]); rewrite Q, upd_pc_same; discriminate.
  - destruct (after_pc (insert s0 i0 r) u o0) as (p & Q & _ & [->| ->]); rewrite Q, upd_pc_same; discriminate.
Qed.
Lemma top_pos k : 0 <= k < 2 ^ 64 - 1 -> reverse64 k < max_pos.
Proof.
  intros Hk. pose proof (reverse64_range k) as B. assert (N : reverse64 k <> max_pos).
  { intros X. assert (Y : reverse64 k = reverse64 (2 ^ 64 - 1)) by (rewrite X; vm_compute; reflexivity). apply reverse64_inj in Y; change W64 with (2 ^ 64); lia. }
  change W64 with (2 ^ 64) in B. unfold max_pos in *. lia.
Qed.
(** Any number of Gets, updates and Deletes of other keys may run meanwhile, and any calls before: the key is readable
    when the Set has returned. Missing for C32: overlapping insertions (false, above). *)
Theorem C32_lone_set_partial g s t k c v ls s' : reachable g s -> 0 <= k < 2 ^ 64 - 1 ->
  crun g s ((t, ACall (CSet k c v)) :: ls) = Some s' -> (forall o, ~ In (t, ACall o) ls) -> pcs s' t = Idle ->
  always g s ((t, ACall (CSet k c v)) :: ls) (undisturbed t k c) -> exists i, visible s' k c i.
Proof.
  intros (l0 & R0) Hk R NC ID A. pose proof (reach_inv g l0 s R0) as C0. cbn [crun] in R. destruct (cstep g s (t, ACall (CSet k c v))) as [s1|] eqn:E; [|discriminate].
  pose proof (always_next _ _ _ _ _ _ A E) as A1. assert (RK : reverse64 k < max_pos).
  { apply top_pos. exact Hk. }
  assert (EM0 : ends_max s) by (eapply (crun_ind g ends_max); [|apply cinit_ends|exact R0]; intros; eapply eff_ends; eauto).
  assert (L1 : lone s1 t (CSet k c v)).
  { unfold cstep in E. destruct (pcs s t); try discriminate; try (destruct o; discriminate E); try (destruct n; try destruct pos; discriminate E). injection E as <-. unfold lone. cbn [pcs goto]. rewrite upd_pc_same. reflexivity. }
  assert (G : (lone s' t (CSet k c v) /\ cinv s' /\ ends_max s') /\ reachable g s').
  { eapply (always_ind g (fun s => (lone s t (CSet k c v) /\ cinv s /\ ends_max s) /\ reachable g s) (undisturbed t k c) ls); [| |exact A1|exact R].
    - intros s2 u a s3 I ((L & C & EM) & RE) U U' ST. pose proof (cstep_eff g s2 u a s3 ST) as EF. split; [split; [|split; [eapply eff_cinv; eauto|eapply eff_ends; eauto]]|].
      + destruct (Nat.eq_dec u t) as [->|NE].
        * eapply lone_self; eauto. intros PI. unfold cstep in ST. rewrite PI in ST. destruct a as [o| | | |]; try discriminate. apply (NC o). auto.
        * eapply (lone_other g s2 u s3 t); eauto; [apply U; auto|apply U'; auto|]. intros k0 c0 v0 [= <- <- <-] (o & PD & SP & i & PM). destruct (U u NE) as [_ D].
          apply (D o PD); auto. eapply marks_delete; eauto.
      + destruct RE as (l & Hl). exists (l ++ [(u, a)]). rewrite crun_app, Hl. cbn [crun]. rewrite ST. auto.
    - split; [split; [exact L1|split; [eapply eff_cinv; [exact C0|eapply cstep_eff; eauto]|eapply eff_ends; [eapply cstep_eff; eauto|exact EM0]]]|].
      exists (l0 ++ [(t, ACall (CSet k c v))]). rewrite crun_app, R0. cbn [crun]. rewrite E. auto. }
  destruct G as ((L & _) & _). unfold lone in L. rewrite ID in L. exact L.
Qed.
Print Assumptions C32_lone_set_partial.
(** such a run: a Get and a Delete of another key go on during the Set *)
Definition lone_before : list label := call_ (steps strict (call_ [] 3 (CSet (at_ 20) 8 (GV 1 2))) 3 40) 2 (CDel (at_ 20) 8).
Definition lone_run : list label :=
  let l1 := call_ lone_before 1 (CSet (at_ 10) 7 (GV 1 1)) in
  let l2 := steps strict l1 1 4 in
  let l3 := steps strict l2 2 40 in
  let l4 := steps strict (call_ l3 2 (CGet (at_ 10) 7)) 2 40 in
  skipn (List.length lone_before) (steps strict l4 1 40).
(** [undisturbed], decided for a state in which only goroutines 1, 2, 3 do something *)
Definition undisturbed_b (t : nat) (s : cstate) : bool :=
  forallb (fun u => Nat.eqb u t || negb (inserting (pcs s u)) &&
    match pending (pcs s u) with Some (CDel k' c') => Z.eqb c' 8 | _ => true end) [1; 2; 3]%nat.
Fixpoint states (g : cfg) (s : cstate) (ls : list label) : list cstate :=
  s :: match ls with [] => [] | l :: ls' => match cstep g s l with Some s1 => states g s1 ls' | None => [] end end.
Lemma always_states g (P : cstate -> Prop) ls : forall s, (forall x, In x (states g s ls) -> P x) -> always g s ls P.
Proof.
  induction ls as [|l ls IH]; intros s H p q s' E R.
  - destruct p; [|discriminate]. injection R as <-. apply H. left. auto.
  - destruct p as [|l' p]; [injection R as <-; apply H; left; auto|]. injection E as <- E. cbn [crun] in R. destruct (cstep g s l) as [s1|] eqn:S; [|discriminate].
    apply (IH s1) with (p := p) (q := q); auto. intros x Hx. apply H. cbn [states]. rewrite S. right. auto.
Qed.
Definition small_threads (ls : list label) : bool := forallb (fun l => Nat.ltb (fst l) 4) ls.
Lemma idle_above g ls s s' t : small_threads ls = true -> crun g s ls = Some s' -> (4 <= t)%nat -> pcs s' t = pcs s t.
Proof.
  revert s. induction ls as [|[u a] ls IH]; intros s S R L; cbn [crun] in R; [injection R as <-; auto|]. cbn [small_threads forallb fst] in S. apply andb_true_iff in S as [S1 S2].
  destruct (cstep g s (u, a)) as [s1|] eqn:E; [|discriminate]. rewrite (IH s1); auto. eapply eff_other; [eapply cstep_eff; eauto|]. apply Nat.ltb_lt in S1. lia.
Qed.
Lemma states_above g ls s x t : small_threads ls = true -> (4 <= t)%nat -> In x (states g s ls) -> pcs x t = pcs s t.
Proof.
  revert s. induction ls as [|[u a] ls IH]; intros s S L I; cbn [states] in I; [destruct I as [<-|[]]; auto|]. cbn [small_threads forallb fst] in S. apply andb_true_iff in S as [S1 S2].
  destruct I as [<-|I]; auto. destruct (cstep g s (u, a)) as [s1|] eqn:E; [|destruct I]. rewrite (IH s1); auto. eapply eff_other; [eapply cstep_eff; eauto|]. apply Nat.ltb_lt in S1. lia.
Qed.
Lemma undisturbed_decide g s ls t k : small_threads ls = true -> (forall u, (4 <= u)%nat -> pcs s u = Idle) -> pcs s 0%nat = Idle -> small_threads ((t, AStep) :: nil) = true ->
  forallb (fun x => undisturbed_b t x && match pcs x 0%nat with Idle => true | _ => false end) (states g s ls) = true -> always g s ls (undisturbed t k 7).
Proof.
  intros ST AB Z0 TT F. apply always_states. intros x I. pose proof (proj1 (forallb_forall _ _) F x I) as B. apply andb_true_iff in B as [B B0]. intros u NE.
  destruct (Nat.lt_ge_cases u 4) as [L|L].
  - destruct u as [|u].
    + destruct (pcs x 0%nat); try discriminate B0. split; [auto|discriminate].
    + assert (IU : In (S u) [1; 2; 3]%nat) by (destruct u as [|[|[|]]]; cbn; auto; lia). pose proof (proj1 (forallb_forall _ _) B (S u) IU) as Q. cbn beta in Q.
      apply orb_true_iff in Q as [Q|Q]; [apply Nat.eqb_eq in Q; congruence|]. apply andb_true_iff in Q as [Q1 Q2]. apply negb_true_iff in Q1. split; auto.
      intros o PD D (k' & c' & KC & _ & CC). rewrite PD in Q2. destruct o as [| |k0 c0|]; try discriminate D. apply Z.eqb_eq in Q2. cbn [key_call] in KC. injection KC as <- <-. congruence.
  - rewrite (states_above g ls s x u ST L I), AB by auto. split; [auto|discriminate].
Qed.
Example C32_lone_case : let s := after strict lone_before in let ls := (1%nat, ACall (CSet (at_ 10) 7 (GV 1 1))) :: tl lone_run in
  reachable strict s /\ (exists s', crun strict s ls = Some s' /\ pcs s' 1%nat = Idle) /\ (forall o, ~ In (1%nat, ACall o) (tl lone_run)) /\ always strict s ls (undisturbed 1 (at_ 10) 7) /\
  existsb (fun x => inserting (pcs x 1%nat) && match pending (pcs x 2%nat) with Some (CDel _ _) => true | _ => false end) (states strict s ls) = true.
Proof.
  cbv zeta. split; [exists lone_before; apply valid_run; vm_compute; reflexivity|]. split; [|split; [|split]].
  - eexists. split; [vm_compute; reflexivity|vm_compute; reflexivity].
  - intros o I. assert (X : existsb (fun l => Nat.eqb (fst l) 1 && match snd l with ACall _ => true | _ => false end) (tl lone_run) = true) by (apply existsb_exists; eexists; split; [exact I|reflexivity]).
    vm_compute in X. discriminate X.
  - apply undisturbed_decide; [vm_compute; reflexivity| |vm_compute; reflexivity|reflexivity|vm_compute; reflexivity].
    intros u L. assert (R : crun strict cinit lone_before = Some (after strict lone_before)) by (apply valid_run; vm_compute; reflexivity).
    rewrite (idle_above strict lone_before cinit _ u); [reflexivity|vm_compute; reflexivity|exact R|exact L].
  - vm_compute. reflexivity.
Qed.

(** * C34: Sets of one key *)
Definition one_entry (g : cfg) : Prop := forall s, reachable g s -> quiescent s -> forall k c i j, visible s k c i -> visible s k c j -> i = j.
(** goroutine 2 looks for the key before goroutine 1 has added it, and adds it after *)
Definition twice : list label :=
  let l1 := steps strict (call_ [] 1 (CSet (at_ 10) 7 (GV 1 1))) 1 2 in
  let l2 := steps strict (call_ l1 2 (CSet (at_ 10) 7 (GV 1 2))) 2 40 in
  steps strict l2 1 40.
Lemma twice_reach : reachable strict (after strict twice).
Proof. exists twice. apply valid_run. vm_compute. reflexivity. Qed.
Lemma twice_quiet : quiescent (after strict twice).
Proof. quiet_tac. Qed.
Definition the_hits (s : cstate) (k c : Z) : list nat := filter (hit s k c) (order s).
Lemma twice_hits : the_hits (after strict twice) (at_ 10) 7 = [18; 17]%nat.
Proof. vm_compute. reflexivity. Qed.
Lemma hits_visible s k c i : In i (the_hits s k c) -> visible s k c i.
Proof. intros H. apply filter_In in H as [_ H]. apply visible_hit. exact H. Qed.
Theorem C34_one_entry_refuted : ~ one_entry strict.
Proof.
  intros H. assert (V : forall i, In i [18; 17]%nat -> visible (after strict twice) (at_ 10) 7 i) by (intros i; rewrite <- twice_hits; apply hits_visible).
  pose proof (H _ twice_reach twice_quiet _ _ _ _ (V 18%nat (or_introl eq_refl)) (V 17%nat (or_intror (or_introl eq_refl)))) as X. discriminate X.
Qed.
Print Assumptions C34_one_entry_refuted.
(** A Delete that returns true then leaves the key readable, with the value of the other Set. *)
Definition del_get : list label := steps strict (call_ (steps strict (call_ twice 1 (CDel (at_ 10) 7)) 1 40) 1 (CGet (at_ 10) 7)) 1 40.
Theorem C34_delete_leaves_key : valid strict del_get = true /\ firstn (List.length twice) del_get = twice /\ quiescent (after strict twice) /\
  skipn 4 (hist (after strict del_get)) =
    [Inv 1 (CDel (at_ 10) 7); Rsp 1 (CDel (at_ 10) 7) (CBool true); Inv 1 (CGet (at_ 10) 7); Rsp 1 (CGet (at_ 10) 7) (CVal (GV 1 1) true)].
Proof. split; [vm_compute; reflexivity|]. split; [vm_compute; reflexivity|]. split; [exact twice_quiet|]. vm_compute. reflexivity. Qed.
Print Assumptions C34_delete_leaves_key.
(** If a search finds what is there and no two goroutines are adding the same key at the same time, a key is stored
    once, under every schedule of the rest. Missing for C34: simultaneous additions (false, above). *)
Theorem C34_one_entry_partial g ls s : c_lax g = false -> crun g cinit ls = Some s -> always g cinit ls exclusive ->
  forall k c i j, visible s k c i -> visible s k c j -> i = j.
Proof.
  intros LX R A. assert (G : cinv s /\ uniq s).
  { refine (always_ind g (fun s => cinv s /\ uniq s) exclusive ls _ cinit s _ A R); [|split; [apply cinit_inv|apply cinit_uniq]].
    intros s0 t a s1 _ [C U] X0 X1 ST. apply cstep_eff in ST. split; [eapply eff_cinv; eauto|eapply eff_uniq; eauto]. }
  destruct G as [_ [U _]]. exact U.
Qed.
Print Assumptions C34_one_entry_partial.
(** then one Delete of it makes it absent *)
Theorem C34_delete_partial g ls s t k c i s' : c_lax g = false -> crun g cinit ls = Some s -> always g cinit ls exclusive ->
  pcs s t = Mark (CDel k c) i -> visible s k c i -> cstep g s (t, AStep) = Some s' -> forall j, ~ visible s' k c j.
Proof.
  intros LX R A P V ST j V'. pose proof (C34_one_entry_partial g ls s LX R A k c) as U. pose proof (reach_inv g ls s R) as C. pose proof (cstep_eff g s t AStep s' ST) as E.
  destruct (eff_new g s t s' k c j C E V') as [W|(k' & v & _ & Q & _)]; [|rewrite P in Q; discriminate Q]. assert (j = i) by (eapply U; eauto). subst j.
  destruct V as (_ & n & N & _). unfold cstep in ST. rewrite P, N in ST. injection ST as <-. destruct V' as (_ & n' & N' & _ & _ & _ & D).
  unfold node in *. cbn [heap ret set_node] in N'. rewrite set_nth_at, Nat.eqb_refl, N in N'. injection N' as <-. discriminate D.
Qed.
Print Assumptions C34_delete_partial.
(** such a run: the lost Set of C32 is one; two different keys are added at the same time *)
Definition exclusive_b (s : cstate) : bool :=
  forallb (fun t => forallb (fun u => Nat.eqb t u || negb (inserting (pcs s t) && inserting (pcs s u)) ||
    match pending (pcs s t), pending (pcs s u) with Some (CSet _ c _), Some (CSet _ c' _) => negb (c =? c') | _, _ => true end) [1; 2; 3]%nat) [1; 2; 3]%nat.
Lemma exclusive_decide g ls : small_threads ls = true -> forallb (fun x => exclusive_b x && match pcs x 0%nat with Idle => true | _ => false end) (states g cinit ls) = true -> always g cinit ls exclusive.
Proof.
  intros ST F. apply always_states. intros x I. pose proof (proj1 (forallb_forall _ _) F x I) as B. apply andb_true_iff in B as [B B0].
  assert (IN : forall t o, pending (pcs x t) = Some o -> In t [1; 2; 3]%nat).
  { intros t o P. destruct t as [|t]; [destruct (pcs x 0%nat); try discriminate B0; discriminate P|]. destruct (Nat.lt_ge_cases (S t) 4) as [L|L].
    - destruct t as [|[|[|]]]; cbn; auto; lia.
    - rewrite (states_above g ls cinit x (S t) ST L I) in P. discriminate P. }
  intros t u k c v k' v' NE P1 I1 P2 I2. exfalso. pose proof (proj1 (forallb_forall _ _) B t (IN _ _ P1)) as Q. cbn beta in Q.
  pose proof (proj1 (forallb_forall _ _) Q u (IN _ _ P2)) as Q1. cbn beta in Q1. rewrite I1, I2, P1, P2, Z.eqb_refl in Q1. cbn [negb andb orb] in Q1.
  rewrite !orb_false_r in Q1. apply Nat.eqb_eq in Q1. congruence.
Qed.
Definition del_race : list label := steps strict (call_ race 3 (CDel (at_ 20) 8)) 3 1.
Example C34_exclusive_case : always strict cinit race exclusive /\
  existsb (fun x => inserting (pcs x 1%nat) && inserting (pcs x 2%nat)) (states strict cinit race) = true.
Proof. split; [apply exclusive_decide|]; vm_compute; reflexivity. Qed.
Example C34_delete_case : let s := after strict del_race in crun strict cinit del_race = Some s /\ always strict cinit del_race exclusive /\ pcs s 3%nat = Mark (CDel (at_ 20) 8) 18 /\ visible s (at_ 20) 8 18.
Proof.
  cbv zeta. split; [apply valid_run; vm_compute; reflexivity|]. split; [apply exclusive_decide; vm_compute; reflexivity|]. split; [vm_compute; reflexivity|].
  apply (proj2 (visible_hit _ _ _ _)). vm_compute. reflexivity.
Qed.

(** * C35: the search option *)
Definition option_restored (g : cfg) : Prop := forall s, reachable g s -> quiescent s -> copt s = true.
(** find of 1 starts, find of 2 starts, find of 1 ends, find of 2 ends *)
Definition leak : list label :=
  let l1 := steps strict (call_ [] 1 (CSet (at_ 10) 7 (GV 1 1))) 1 2 in
  let l2 := steps strict (call_ l1 2 (CSet (at_ (2 ^ 63 + 10)) 7 (GV 1 2))) 2 2 in
  let l3 := steps strict l2 1 40 in
  let l4 := steps strict l3 2 40 in l4.
Lemma leak_reach : reachable strict (after strict leak).
Proof. exists leak. apply valid_run. vm_compute. reflexivity. Qed.
Lemma leak_quiet : quiescent (after strict leak).
Proof. quiet_tac. Qed.
Lemma leak_opt : copt (after strict leak) = false.
Proof. vm_compute. reflexivity. Qed.
Theorem C35_option_restored_refuted : ~ option_restored strict.
Proof. intros H. pose proof (H _ leak_reach leak_quiet) as X. rewrite leak_opt in X. discriminate X. Qed.
Print Assumptions C35_option_restored_refuted.
(** Once changed at rest it is changed for ever, whatever is called later. *)
Theorem C35_leak_is_permanent g s ls s' : quiescent s -> copt s = false -> crun g s ls = Some s' -> copt s' = false.
Proof.
  intros Q O R. assert (G : stuck_opt s'); [|apply G]. refine (crun_ind g stuck_opt _ ls s s' _ R); [intros; eapply eff_stuck; eauto|].
  split; auto. intros t. rewrite Q. discriminate.
Qed.
Print Assumptions C35_leak_is_permanent.
Example C35_leak_case : quiescent (after strict leak) /\ copt (after strict leak) = false /\
  exists s', crun strict (after strict leak) (skipn (List.length leak) (steps strict (call_ leak 1 (CSet (at_ 30) 9 (GV 1 3))) 1 40)) = Some s' /\ copt s' = false.
Proof. split; [exact leak_quiet|]. split; [exact leak_opt|]. eexists. split; [vm_compute; reflexivity|reflexivity]. Qed.
(** If no two finds overlap (in particular in every sequential history), the option has its initial value whenever
    no find is going on. *)
Theorem C35_option_restored_partial g ls s : crun g cinit ls = Some s -> always g cinit ls one_find -> (forall t, in_find (pcs s t) = false) -> copt s = true.
Proof.
  intros R A. assert (G : optinv s); [|apply G]. refine (always_ind g optinv one_find ls _ cinit s _ A R).
  - intros s0 t a s1 _ I O1 O2 ST. apply cstep_eff in ST. exact (eff_optinv g s0 t s1 O1 O2 ST I).
  - split; [intros t X; discriminate X|reflexivity].
Qed.
Print Assumptions C35_option_restored_partial.
(** Sequential histories: a call starts only when everybody is idle. *)
Definition sequential (g : cfg) (ls : list label) : Prop := forall p q s t o, ls = p ++ (t, ACall o) :: q -> crun g cinit p = Some s -> quiescent s.
Lemma sequential_one g ls s : sequential g ls -> crun g cinit ls = Some s -> forall t u, pcs s t <> Idle -> pcs s u <> Idle -> t = u.
Proof.
  revert s. induction ls as [|[w a] ls IH] using rev_ind; intros s SQ R t u T U.
  - injection R as <-. exfalso. apply T. reflexivity.
  - rewrite crun_app in R. destruct (crun g cinit ls) as [s1|] eqn:E; [|discriminate]. cbn [crun] in R. destruct (cstep g s1 (w, a)) as [s2|] eqn:ST; [|discriminate]. injection R as <-.
    assert (SQ1 : sequential g ls). { intros p q s0 t0 o0 X Y. apply (SQ p (q ++ [(w, a)]) s0 t0 o0); auto. rewrite X, <- app_assoc. reflexivity. }
    specialize (IH s1 SQ1 eq_refl). pose proof (cstep_eff g s1 w a s2 ST) as EF. pose proof (fun x => eff_other g s1 w s2 x EF) as OT.
    destruct (pcs s1 w) eqn:PW.
    { assert (QU : quiescent s1). { destruct a as [o| | | |]; try (unfold cstep in ST; rewrite PW in ST; discriminate ST). apply (SQ ls [] s1 w o); auto. }
      assert (X : forall x, pcs s2 x <> Idle -> x = w). { intros x Hx. destruct (Nat.eq_dec x w); auto. exfalso. apply Hx. rewrite OT by auto. apply QU. }
      rewrite (X t T), (X u U). auto. }
    all: assert (W : pcs s1 w <> Idle) by (rewrite PW; discriminate);
      assert (X : forall x, pcs s2 x <> Idle -> x = w) by (intros x Hx; destruct (Nat.eq_dec x w); auto; apply IH; [rewrite <- OT; auto|exact W]);
      rewrite (X t T), (X u U); auto.
Qed.
Theorem C35_sequential g ls s : sequential g ls -> crun g cinit ls = Some s -> quiescent s -> copt s = true.
Proof.
  intros SQ R Q. eapply C35_option_restored_partial; eauto; [|intros t; rewrite Q; reflexivity]. intros p q s0 E R0 t u T U.
  assert (SQ0 : sequential g p). { intros p' q' s1 t1 o1 X Y. apply (SQ p' (q' ++ q) s1 t1 o1); auto. rewrite E, X, <- app_assoc. reflexivity. }
  apply (sequential_one g p s0 SQ0 R0); intros X; rewrite X in *; discriminate.
Qed.
Print Assumptions C35_sequential.

(** * C48: Sets in different top-level buckets *)
(** The claim for two goroutines: whatever items are there, if goroutines 1 and 2 set two new keys whose positions
    are in different sixteenths of the position space, both are there when they are done. *)
Definition far_apart (k k' : Z) : Prop := reverse64 k / 2 ^ 60 <> reverse64 k' / 2 ^ 60.
Definition far_sets_independent (g : cfg) : Prop := forall l0 ls s0 s k c v k' c' v', crun g cinit l0 = Some s0 -> quiescent s0 -> crun g s0 ls = Some s -> quiescent s -> far_apart k k' ->
  (exists h, hist s = hist s0 ++ h /\ forall t o, In (Inv t o) h -> (t, o) = (1%nat, CSet k c v) \/ (t, o) = (2%nat, CSet k' c' v')) ->
  In (Rsp 2 (CSet k' c' v') (CBool true)) (hist s) -> exists i, visible s k' c' i.
Definition far_before : list label := steps strict (call_ [] 3 (CSet (at_ (2 ^ 60 + 5)) 9 (GV 1 9))) 3 40.
(** 1 starts its find, 2 starts its own, 1 ends and puts the option back while 2 is walking: 2 does not stop at the
    sentinel, goes on to the next item, and its insertion before that item is refused *)
Definition far_run : list label :=
  let l1 := steps strict (call_ far_before 1 (CSet (at_ (2 ^ 63 + 10)) 7 (GV 1 1))) 1 2 in
  let l2 := steps strict (call_ l1 2 (CSet (at_ 100) 8 (GV 1 2))) 2 4 in
  let l3 := steps strict l2 1 40 in
  skipn (List.length far_before) (steps strict l3 2 40).
Definition far_hist (a b : Z) : list event :=
  [Inv 1 (CSet a 7 (GV 1 1)); Inv 2 (CSet b 8 (GV 1 2)); Rsp 1 (CSet a 7 (GV 1 1)) (CBool true); Rsp 2 (CSet b 8 (GV 1 2)) (CBool true)].
Definition after_from (g : cfg) (s : cstate) (ls : list label) : cstate := match crun g s ls with Some s' => s' | None => s end.
Lemma far_valid : crun strict (after strict far_before) far_run = Some (after_from strict (after strict far_before) far_run).
Proof. vm_compute. reflexivity. Qed.
Lemma far_history : hist (after_from strict (after strict far_before) far_run) = hist (after strict far_before) ++ far_hist (at_ (2 ^ 63 + 10)) (at_ 100).
Proof. vm_compute. reflexivity. Qed.
Lemma far_lost : has_visible (after_from strict (after strict far_before) far_run) (at_ 100) 8 = false.
Proof. vm_compute. reflexivity. Qed.
Lemma far_quiet0 : quiescent (after strict far_before).
Proof. quiet_tac. Qed.
Lemma far_quiet : quiescent (after_from strict (after strict far_before) far_run).
Proof. quiet_tac. Qed.
Lemma far_hist_calls a b t o : In (Inv t o) (far_hist a b) -> (t, o) = (1%nat, CSet a 7 (GV 1 1)) \/ (t, o) = (2%nat, CSet b 8 (GV 1 2)).
Proof. intros [E|[E|[E|[E|[]]]]]; try discriminate E; injection E as <- <-; auto. Qed.
Lemma far_hist_end a b : In (Rsp 2 (CSet b 8 (GV 1 2)) (CBool true)) (far_hist a b).
Proof. right. right. right. left. reflexivity. Qed.
Lemma far_far : far_apart (at_ (2 ^ 63 + 10)) (at_ 100).
Proof. assert (X : (reverse64 (at_ (2 ^ 63 + 10)) / 2 ^ 60 =? reverse64 (at_ 100) / 2 ^ 60) = false) by (vm_compute; reflexivity). apply Z.eqb_neq. exact X. Qed.
Lemma far_before_run : crun strict cinit far_before = Some (after strict far_before).
Proof. apply valid_run. vm_compute. reflexivity. Qed.
Theorem C48_far_sets_refuted : ~ far_sets_independent strict.
Proof.
  intros H. pose proof (H _ _ _ _ (at_ (2 ^ 63 + 10)) 7 (GV 1 1) (at_ 100) 8 (GV 1 2) far_before_run far_quiet0 far_valid far_quiet far_far) as X.
  rewrite far_history in X. specialize (X (ex_intro _ _ (conj eq_refl (far_hist_calls _ _)))).
  specialize (X (in_or_app _ _ _ (or_intror (far_hist_end _ _)))).
  apply has_visible_iff in X. rewrite far_lost in X. discriminate X.
Qed.
Print Assumptions C48_far_sets_refuted.

(** * C49: Len under concurrency *)
Theorem C49_len_lower_bound g s : reachable g s -> quiescent s -> Z.of_nat (List.length (stored s)) <= clen s.
Proof.
  intros (ls & R) Q. assert (G : cinv s /\ lenok s).
  { refine (crun_ind g (fun s => cinv s /\ lenok s) _ ls cinit s _ R); [|split; [apply cinit_inv|apply cinit_lenok]].
    intros s0 t s1 [C L] E. split; [eapply eff_cinv; eauto|eapply eff_lenok; eauto]. }
  destruct G as (_ & ts & _ & _ & L). assert (X : filter (fun t => is_cnt (pcs s t)) ts = []).
  { induction ts as [|t ts IH]; auto. cbn [filter]. rewrite Q. cbn [is_cnt]. apply IH. cbn [filter] in L. rewrite Q in L. exact L. }
  rewrite X in L. cbn [List.length] in L. lia.
Qed.
Print Assumptions C49_len_lower_bound.
Definition len_exact (g : cfg) : Prop := forall s, reachable g s -> quiescent s -> clen s = Z.of_nat (List.length (stored s)).
Lemma race_counts : clen (after strict race) = 2 /\ List.length (stored (after strict race)) = 1%nat.
Proof. split; vm_compute; reflexivity. Qed.
Theorem C49_len_exact_refuted : ~ len_exact strict.
Proof. intros H. pose proof (H _ race_reach race_quiet) as X. destruct race_counts as [A B]. rewrite A, B in X. discriminate X. Qed.
Print Assumptions C49_len_exact_refuted.
