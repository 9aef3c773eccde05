(** More on concurrent Sets on one bucket of an embedded map (C38, C39, C53): Sets of keys above the largest item, provided
    they run alone. The model is ConcEmb.v. *)
From Verif Require Import Base BaseProofs Bucket Util UtilProofs EmbModel EmbPool ConcEmb PropConcEmb.
From Coq Require Import PeanoNat Sorted.
Local Open Scope list_scope.
Local Open Scope Z_scope.

(** * Vocabulary *)
(** the key of a running Set that has not yet filled its slot *)
Definition key_of (p : lpc) : option Z :=
  match p with
  | LRead rv _ _ | LApp rv _ _ | LApp2 rv _ _ | LExp rv _ _ | LExp2 rv _ _ | LIns rv _ _ | LIns2 rv _ _ => Some rv
  | LFree rv _ _ _ | LWait rv _ _ | LWait2 rv _ _ | LFree2 rv _ _ _ | LFill _ rv _ => Some rv
  | LIdle | LUpd | LRet _ | LCrash => None
  end.
(** a Set of a key above all keys of the bucket runs alone *)
Definition top_alone (olds : list Z) (s : lstate) : Prop := forall t rv, key_of (l_pcs s t) = Some rv -> (forall x, In x olds \/ In x (l_done s) -> x < rv) ->
  forall u, u <> t -> l_pcs s u = LIdle.
(** in every state of the run *)
Fixpoint throughout (P : lstate -> Prop) (s : lstate) (ls : list (nat * lcall)) : Prop :=
  P s /\ match ls with [] => True | l :: ls' => match lstep s l with Some s' => throughout P s' ls' | None => True end end.
Definition new_pos (ls : list (nat * lcall)) : Prop := forall t rv, In (t, CNew rv) ls -> 0 < rv.

(** The condition is needed: one Set of a key above the others is enough to lose a Set of a key below. *)
Definition one_top (rvs : list Z) (ls : list (nat * lcall)) : Prop := exists t0 rv0, forall t rv, In (t, CNew rv) ls -> (t = t0 /\ rv = rv0) \/ 0 < rv <= last rvs 0.
Definition one_top_found : Prop := forall rvs room ls s rv, positions_ok rvs -> rvs <> [] -> no_delete ls -> one_top rvs ls -> lrun (linit rvs room) ls = Some s -> lquiet s ->
  In rv (l_done s) -> finds s rv.
Definition beside_top : list (nat * lcall) := ladder 1 3 (CNew 50) ++ ladder 2 1 (CNew 15) ++ go 1 2 ++ go 2 4.
Theorem C53_one_top_refuted : ~ one_top_found.
Proof.
  intros H. assert (L : llook (lrun (linit [10;20] 5) beside_top) = Some ([10; 20; 50; 15], None, false, [50; 15], [LIdle; LIdle; LIdle])) by (vm_compute; reflexivity).
  assert (F : found (lrun (linit [10;20] 5) beside_top) 15 = Some None) by (vm_compute; reflexivity).
  destruct (llook_inv _ _ L) as (s & E & X). injection X as _ _ _ X4 X5 X6 X7. destruct (found_none _ _ F) as (s2 & E2 & NF). rewrite E in E2. injection E2 as <-.
  apply NF. apply (H [10;20] 5%nat beside_top s 15); auto; [posok|discriminate|apply no_del_ok; reflexivity| | |rewrite <- X4; cbn; auto].
  - exists 1%nat, 50. intros t rv I. cbn in I. repeat (destruct I as [I|I]; [try discriminate I; injection I as <- <-; cbn; try (left; split; reflexivity); right; lia|]). contradiction.
  - apply (lquiet_small [10;20] 5 beside_top); auto. cbn [map]. congruence.
Qed.
Print Assumptions C53_one_top_refuted.

(** * The invariant while such a Set runs *)
Definition topping (t : nat) (rv : Z) (o : option nat) (n r : nat) (p : lpc) : Prop :=
  match p with
  | LRead x m y | LExp x m y => x = rv /\ link m y o t
  | LExp2 x m y => x = rv /\ held m y o t
  | LApp x m y => x = rv /\ link m y o t /\ (0 < r)%nat
  | LApp2 x m y => x = rv /\ held m y o t /\ (0 < r)%nat
  | LFill i x fn => x = rv /\ fn = true /\ o = Some t /\ i = n
  | _ => False
  end.
Record top (olds : list Z) (s : lstate) (t : nat) (rv : Z) : Prop := {
  to_bad : l_bad s = false;
  to_pos : 0 < rv;
  to_idle : forall u, u <> t -> l_pcs s u = LIdle;
  to_shape : exists l r, shape (l_pool s) (l ++ match l_pcs s t with LFill _ _ _ => [zero_slot] | _ => [] end) r /\ all_live l /\ l <> [] /\
    StronglySorted Z.le (revs l) /\ (forall x, In x olds \/ In x (l_done s) -> In x (revs l)) /\ (forall x, In x (revs l) -> x < rv) /\
    topping t rv (l_owner s) (List.length l) r (l_pcs s t) }.
Lemma sorted_le_app l x : StronglySorted Z.le l -> (forall y, In y l -> y <= x) -> StronglySorted Z.le (l ++ [x]).
Proof. intros S H. apply sorted_le_ins; [rewrite app_nil_r; auto|auto|intros y []]. Qed.
Lemma upd_last {A} (l : list A) x y : upd_nth (List.length l) y (l ++ [x]) = l ++ [y].
Proof. induction l as [|z l IH]; cbn; auto. rewrite IH. auto. Qed.

Lemma top_step olds s t rv l s' : (forall i, snd l <> CDel i) -> top_alone olds s' -> top olds s t rv -> lstep s l = Some s' -> top olds s' t rv \/ ins rv olds s'.
Proof.
  intros ND AL [B P ID (l0 & r & SH & A & NE & SO & OL & LT & TP)] E. destruct l as [u c]. cbn [snd] in ND.
  destruct (Nat.eq_dec u t) as [->|NU].
  2:{ (* another goroutine starts a call *) exfalso. assert (PT : l_pcs s' t = l_pcs s t) by (eapply lstep_other; eauto).
    assert (K : key_of (l_pcs s t) = Some rv) by (destruct (l_pcs s t); cbn [topping key_of] in *; try contradiction; destruct TP as [-> _]; auto).
    assert (X : l_done s' = l_done s /\ l_pcs s' u <> LIdle).
    { unfold lstep in E. rewrite (ID u NU) in E. destruct c; [injection E as <-; split; [reflexivity|rewrite lgo_same; discriminate]|injection E as <-; split; [reflexivity|rewrite lgo_same; discriminate]|elim (ND i); auto|discriminate E]. }
    destruct X as [X1 X2]. apply X2. apply (AL t rv); [rewrite PT; auto| |auto]. rewrite X1. intros x I. apply LT. apply OL. auto. }
  assert (ID' : forall v, v <> t -> l_pcs s' v = LIdle) by (intros v N; rewrite (lstep_other _ _ _ _ _ E) by auto; auto).
  assert (N0 : (0 < List.length l0)%nat) by (destruct l0; [congruence|cbn; lia]).
  lsteps E PC; rewrite PC in TP, SH; cbn [topping] in TP; try contradiction.
  - (* LRead *) destruct TP as [-> LK]. rewrite app_nil_r in SH. left. constructor; auto. cbn [l_pool lgo]. rewrite lgo_same.
    assert (D : decide_get (l_pool s) rv m r0 = LExp rv m r0 \/ (decide_get (l_pool s) rv m r0 = LApp rv m r0 /\ (0 < r)%nat)).
    { unfold decide_get. rewrite (shape_len _ _ _ SH), (shape_cap _ _ _ SH). destruct (Z.eqb_spec (Z.of_nat (List.length l0)) 0); [lia|]. rewrite (all_live_tail _ _ _ SH A NE). rewrite (all_live_free _ _ _ _ _ SH A); [|intros j X; injection X as <-; lia].
      destruct (Z.eqb_spec (Z.of_nat (List.length l0 + r)) (Z.of_nat (List.length l0))); auto. rewrite (revs_at _ _ _ _ SH) by lia.
      assert (X : nth (List.length l0 - 1) (revs l0) 0 < rv) by (apply LT, nth_In; unfold revs; rewrite map_length; lia). destruct (Z.ltb_spec (nth (List.length l0 - 1) (revs l0) 0) rv); [|lia]. right. split; [auto|lia]. }
    exists l0, r. destruct D as [D|[D R]]; rewrite D; cbn [topping l_owner lgo]; rewrite app_nil_r; auto 12.
  - (* LApp *) destruct TP as (-> & LK & R). apply link_take in LK. left. constructor; auto. cbn [l_pool lgo l_seto]. rewrite lgo_same. exists l0, r. cbn [topping l_owner lgo l_seto]. auto 12.
  - destruct TP as (-> & LK & R). apply link_keep in LK. left. constructor; auto. cbn [l_pool lgo]. rewrite lgo_same. exists l0, r. cbn [topping l_owner lgo]. auto 12.
  - (* LApp2, full *) exfalso. rewrite app_nil_r in SH. rewrite (shape_len _ _ _ SH), (shape_cap _ _ _ SH) in Heqb. lia.
  - destruct TP as (-> & [M O] & R). rewrite app_nil_r in SH. destruct r as [|r]; [lia|]. left. constructor; auto. cbn [l_pool lgo l_setp]. rewrite lgo_same. exists l0, r. split; [apply shape_append; auto|]. cbn [topping l_owner lgo l_setp].
    rewrite (shape_n _ _ _ SH). assert (X : or_else r0 m = true) by (destruct M as [[-> ->]|[-> ->]]; auto). rewrite X. auto 12.
  - (* LExp *) destruct TP as (-> & LK). apply link_take in LK. left. constructor; auto. cbn [l_pool lgo l_seto]. rewrite lgo_same. exists l0, r. cbn [topping l_owner lgo l_seto]. auto 12.
  - destruct TP as (-> & LK). apply link_keep in LK. left. constructor; auto. cbn [l_pool lgo]. rewrite lgo_same. exists l0, r. cbn [topping l_owner lgo]. auto 12.
  - (* LExp2 *) destruct TP as (-> & M & O). rewrite app_nil_r in SH. destruct (shape_expand _ _ _ SH) as (r' & SH'). left. constructor; auto. cbn [l_pool lgo l_setp]. rewrite lgo_same. exists l0, (S r'). rewrite app_nil_r. split; [exact SH'|]. cbn [topping l_owner lgo l_setp].
    assert (X : link false (Some (or_else r0 m)) (l_owner s) t) by (right; split; auto; split; auto; destruct M as [[-> ->]|[-> ->]]; auto). auto 12.
  - (* LFill *) destruct TP as (-> & -> & O & ->). right.
    assert (FU : upd_nth (List.length l0) (fill_slot rv (nth (List.length l0) (l0 ++ [zero_slot]) zero_slot)) (l0 ++ [zero_slot]) = l0 ++ [mkS rv 0 false (KStr "") GNil true]).
    { rewrite app_nth2 by lia. rewrite Nat.sub_diag. cbn [nth]. rewrite upd_last. reflexivity. }
    assert (SH' := shape_upd _ _ _ (List.length l0) (fill_slot rv) SH ltac:(rewrite app_length; cbn; lia)). rewrite FU in SH'.
    assert (RE : revs (l0 ++ [mkS rv 0 false (KStr "") GNil true]) = revs l0 ++ [rv]) by (unfold revs; rewrite map_app; reflexivity).
    constructor; [auto|]. exists (l0 ++ [mkS rv 0 false (KStr "") GNil true]), r. split; [exact SH'|].
    assert (V : viewed (lgo (l_log (l_setp s (upd_slot (l_pool s) (List.length l0) (fill_slot rv))) rv) t (LRet true)) (l0 ++ [mkS rv 0 false (KStr "") GNil true]) = revs l0 ++ [rv]).
    { unfold viewed. cbn [l_owner lgo l_log l_setp]. rewrite O. cbn [l_pcs lgo]. rewrite Nat.eqb_refl. auto. }
    rewrite V, RE. split; [intros sl I; apply in_app_iff in I; destruct I as [I|[<-|[]]]; auto|]. split; [intros H; apply app_eq_nil in H; destruct H; discriminate|]. split; [apply last_last|].
    split; [apply sorted_le_app; auto; intros y Y; specialize (LT y Y); lia|]. split; [|split].
    + intros x I. cbn [l_done lgo l_log l_setp] in I. rewrite in_app_iff in *. cbn [In] in *. destruct I as [I|[I|[I|[]]]]; auto.
    + intros v i x fn. destruct (Nat.eq_dec v t) as [->|N]; [rewrite lgo_same; discriminate|]. rewrite lgo_other by auto. cbn [l_pcs l_log l_setp]. rewrite ID by auto. discriminate.
    + intros v. cbn [l_owner lgo l_log l_setp]. rewrite O. destruct (Nat.eq_dec v t) as [->|N]; [rewrite lgo_same; cbn; auto|]. rewrite lgo_other by auto. cbn [l_pcs l_log l_setp]. rewrite ID by auto. cbn. congruence.
Qed.

(** every item stored so far is at most M *)
Lemma ins_upto M olds s x : ins M olds s -> In x olds \/ In x (l_done s) -> x <= M.
Proof.
  intros [_ (l & r & SH & A & NE & LM & SO & OL & ZE & BE)] I. specialize (OL x I). assert (N0 : (0 < List.length l)%nat) by (destruct l; [congruence|cbn; lia]).
  assert (X : List.length (viewed s l) = List.length l /\ nth (List.length l - 1) (viewed s l) 0 = M).
  { assert (L : nth (List.length l - 1) (revs l) 0 = M) by (rewrite <- LM, last_nth; unfold revs; rewrite map_length; auto). assert (LR : List.length (revs l) = List.length l) by (unfold revs; apply map_length).
    unfold viewed. destruct (l_owner s) as [t|]; auto. destruct (l_pcs s t) eqn:PC; auto. rewrite upd_nth_length. split; auto. rewrite nth_upd_other; auto. specialize (BE t). rewrite PC in BE. cbn [below] in BE. lia. }
  destruct X as [X1 X2]. destruct (In_nth _ _ 0 OL) as (j & Hj & Ej). rewrite <- Ej, <- X2. apply sorted_le_nth; auto. lia.
Qed.
Lemma go_label s t c : l_pcs s t <> LIdle -> lstep s (t, c) = lstep s (t, CGo).
Proof. intros H. unfold lstep. destruct (l_pcs s t); congruence. Qed.
Definition both (olds : list Z) (s : lstate) : Prop := (exists M, ins M olds s) \/ (exists t rv, top olds s t rv).
Lemma both_step olds s l s' : (forall i, snd l <> CDel i) -> (forall rv, snd l = CNew rv -> 0 < rv) -> top_alone olds s' -> both olds s -> lstep s l = Some s' -> both olds s'.
Proof.
  intros ND NP AL [(M & I)|(t & rv & T)] E.
  2:{ destruct (top_step _ _ _ _ _ _ ND AL T E) as [X|X]; [right|left]; eauto. }
  destruct l as [t c]. cbn [snd] in *. destruct (l_pcs s t) eqn:PC.
  2-16: left; exists M; rewrite go_label in E by (rewrite PC; discriminate); apply (ins_step M olds s (t, CGo)); auto; [intros; discriminate|intros; discriminate].
  destruct c as [rv| |i|].
  2:{ left. exists M. apply (ins_step M olds s (t, CUpd)); auto; intros; discriminate. }
  2:{ elim (ND i); auto. }
  2:{ unfold lstep in E. rewrite PC in E. discriminate E. }
  destruct (Z.le_gt_cases rv M) as [L|G].
  - left. exists M. apply (ins_step M olds s (t, CNew rv)); auto. cbn [snd]. intros x X. injection X as <-. split; auto.
  - right. exists t, rv. assert (UP := fun x => ins_upto M olds s x I). destruct I as [B (l & r & SH & A & NE & LM & SO & OL & ZE & BE)]. unfold lstep in E. rewrite PC in E. injection E as <-.
    assert (ID : forall u, u <> t -> l_pcs s u = LIdle). { intros u N. rewrite <- (lgo_other s t (LRead rv true None)) by auto. apply (AL t rv); auto; [rewrite lgo_same; auto|]. cbn [l_done lgo]. intros x X. specialize (UP x X). lia. }
    assert (O : l_owner s = None). { destruct (l_owner s) as [u|] eqn:O; auto. exfalso. specialize (BE u). destruct (Nat.eq_dec u t) as [->|N]; [rewrite PC in BE|rewrite (ID u N) in BE]; cbn [below] in BE; congruence. }
    assert (V : viewed s l = revs l) by (unfold viewed; rewrite O; auto). rewrite V in *.
    constructor; auto; [intros u N; rewrite lgo_other by auto; auto|]. cbn [l_pool lgo]. rewrite lgo_same. exists l, r. rewrite app_nil_r. split; auto. split; auto. split; auto. split; auto. split; auto. split.
    + intros x X. destruct (In_nth _ _ 0 X) as (j & Hj & Ej). rewrite last_nth in LM. rewrite <- Ej. assert (nth j (revs l) 0 <= nth (List.length (revs l) - 1) (revs l) 0) by (apply sorted_le_nth; auto; lia). lia.
    + cbn [topping l_owner lgo]. split; auto. left. auto.
Qed.
Lemma both_run olds ls : forall s s', both olds s -> no_delete ls -> new_pos ls -> throughout (top_alone olds) s ls -> lrun s ls = Some s' -> both olds s'.
Proof.
  induction ls as [|[t c] ls IH]; intros s s' I ND NP TH E; cbn [lrun throughout] in *; [injection E as <-; auto|]. destruct TH as [_ TH]. destruct (lstep s (t, c)) as [s1|] eqn:E1; [|discriminate E].
  apply (IH s1); auto; [|intros u i X; apply (ND u i); right; auto|intros u rv X; apply (NP u rv); right; auto].
  apply (both_step olds s (t, c)); auto; cbn [snd]; [intros i ->; apply (ND t i); left; auto|intros rv ->; apply (NP t rv); left; auto|]. destruct ls; cbn [throughout] in TH; tauto.
Qed.
Lemma both_reach rvs room ls s : positions_ok rvs -> rvs <> [] -> no_delete ls -> new_pos ls -> throughout (top_alone rvs) (linit rvs room) ls -> lrun (linit rvs room) ls = Some s -> both rvs s.
Proof. intros PO NE ND NP TH E. apply (both_run rvs ls (linit rvs room)); auto. left. exists (last rvs 0). apply linit_ins; auto. Qed.

(** * The theorems *)
(** For every schedule of Sets, without Deletes, in which a Set of a key above all keys of the bucket runs alone: whenever
    no Set is between taking its slot and filling it, every item that was there and every item that was set is found. *)
Theorem C53_top_alone_partial rvs room ls s : positions_ok rvs -> rvs <> [] -> no_delete ls -> new_pos ls -> throughout (top_alone rvs) (linit rvs room) ls ->
  lrun (linit rvs room) ls = Some s -> no_half s -> forall rv, In rv rvs \/ In rv (l_done s) -> finds s rv.
Proof.
  intros PO NE ND NP TH E NH rv I. destruct (both_reach _ _ _ _ PO NE ND NP TH E) as [(M & [_ (l & r & SH & A & _ & _ & SO & OL & _)])|(t & x & [_ _ _ (l & r & SH & A & _ & SO & OL & _)])].
  - assert (V : viewed s l = revs l). { unfold viewed. destruct (l_owner s) as [t|]; auto. destruct (l_pcs s t) eqn:PC; auto. exfalso. eapply NH. exact PC. }
    rewrite V in SO, OL. eapply finds_sorted; eauto.
  - apply (finds_sorted s l r); auto. destruct (l_pcs s t) eqn:PC; try (rewrite app_nil_r in SH; exact SH). exfalso. eapply NH. exact PC.
Qed.
Print Assumptions C53_top_alone_partial.
(** While a Set is between these two steps, the items above its key are found all the same. *)
Theorem C38_top_alone_partial rvs room ls s rv : positions_ok rvs -> rvs <> [] -> no_delete ls -> new_pos ls -> throughout (top_alone rvs) (linit rvs room) ls ->
  lrun (linit rvs room) ls = Some s -> (forall t i x fn, l_pcs s t = LFill i x fn -> x < rv) -> In rv rvs \/ In rv (l_done s) -> finds s rv.
Proof.
  intros PO NE ND NP TH E AB I. destruct (both_reach _ _ _ _ PO NE ND NP TH E) as [(M & [_ (l & r & SH & A & _ & _ & SO & OL & ZE & BE)])|(t & x & [_ _ _ (l & r & SH & A & _ & SO & OL & LT & TP)])].
  - specialize (OL rv I). unfold viewed in SO, OL. destruct (l_owner s) as [t|] eqn:O; [|eapply finds_sorted; eauto]. destruct (l_pcs s t) eqn:PC; try (eapply finds_sorted; eauto; fail).
    pose proof (BE t) as B. rewrite PC in B. cbn [below] in B. apply (finds_above s l r rv i rv0); auto; [lia|eapply ZE; eauto|]. split; [lia|eapply AB; eauto].
  - destruct (l_pcs s t) eqn:PC; try (rewrite app_nil_r in SH; eapply finds_sorted; eauto; fail). exfalso. cbn [topping] in TP. destruct TP as (-> & _). specialize (AB _ _ _ _ PC). specialize (LT rv (OL rv I)). lia.
Qed.
Print Assumptions C38_top_alone_partial.
(** In the same situation only the holder releases the lock, and it is free whenever no call is running. *)
Theorem C39_top_alone_partial rvs room ls s : positions_ok rvs -> rvs <> [] -> no_delete ls -> new_pos ls -> throughout (top_alone rvs) (linit rvs room) ls ->
  lrun (linit rvs room) ls = Some s -> l_bad s = false /\ (lquiet s -> l_owner s = None).
Proof.
  intros PO NE ND NP TH E. destruct (both_reach _ _ _ _ PO NE ND NP TH E) as [(M & [B (l & r & SH & A & _ & _ & _ & _ & _ & BE)])|(t & x & [B _ _ (l & r & SH & A & _ & SO & OL & LT & TP)])]; split; auto; intros Q.
  - destruct (l_owner s) as [t|] eqn:O; auto. exfalso. specialize (BE t). rewrite (Q t) in BE. cbn in BE. congruence.
  - exfalso. rewrite (Q t) in TP. exact TP.
Qed.
Print Assumptions C39_top_alone_partial.

(** * The hypotheses are met *)
Definition top_aloneb (k : nat) (olds : list Z) (s : lstate) : bool :=
  forallb (fun t => match key_of (l_pcs s t) with
                    | Some rv => negb (forallb (fun x => x <? rv) (olds ++ l_done s)) || forallb (fun u => (u =? t)%nat || lidleb (l_pcs s u)) (seq 0 k)
                    | None => true
                    end) (seq 0 k).
Fixpoint throughoutb (k : nat) (olds : list Z) (s : lstate) (ls : list (nat * lcall)) : bool :=
  top_aloneb k olds s && match ls with [] => true | l :: ls' => (fst l <? k)%nat && match lstep s l with Some s' => throughoutb k olds s' ls' | None => true end end.
Lemma top_aloneb_ok k olds s : (forall u, (k <= u)%nat -> l_pcs s u = LIdle) -> top_aloneb k olds s = true -> top_alone olds s.
Proof.
  intros O H t rv K LT u N. unfold top_aloneb in H. rewrite forallb_forall in H. assert (Lt : (t < k)%nat). { destruct (Nat.le_gt_cases k t) as [G|]; auto. rewrite (O t G) in K. discriminate K. }
  specialize (H t). rewrite in_seq, K in H. specialize (H ltac:(lia)). apply orb_prop in H. destruct H as [H|H].
  - exfalso. assert (X : forallb (fun x => x <? rv) (olds ++ l_done s) = true) by (apply forallb_forall; intros x I; apply in_app_iff in I; apply Z.ltb_lt, LT, I). rewrite X in H. discriminate H.
  - destruct (Nat.le_gt_cases k u) as [G|G]; auto. rewrite forallb_forall in H. specialize (H u). rewrite in_seq in H. specialize (H ltac:(lia)). destruct (Nat.eqb_spec u t); [contradiction|]. cbn [orb] in H. destruct (l_pcs s u); try discriminate H. auto.
Qed.
Lemma throughoutb_ok k olds : forall ls s, (forall u, (k <= u)%nat -> l_pcs s u = LIdle) -> throughoutb k olds s ls = true -> throughout (top_alone olds) s ls.
Proof.
  induction ls as [|[t c] ls IH]; intros s O H; cbn [throughoutb throughout] in *; apply andb_prop in H; destruct H as [H H2]; (split; [eapply top_aloneb_ok; eauto|]); auto.
  apply andb_prop in H2. destruct H2 as [H1 H2]. cbn [fst] in H1. apply Nat.ltb_lt in H1. destruct (lstep s (t, c)) as [s1|] eqn:E; auto. apply IH; auto. intros u Hu. rewrite (lstep_other _ _ _ _ _ E); [auto|lia].
Qed.
(** Sets of 15 and 12 with interleaved steps, then 50 alone (the pool is expanded), then 30 and 40, below 50 by now,
    interleaved *)
Definition with_top : list (nat * lcall) := two_inserts ++ ladder 1 8 (CNew 50) ++ ladder 1 1 (CNew 30) ++ ladder 2 1 (CNew 40) ++ go 1 4 ++ go 2 4.
Example C53_top_alone_case : positions_ok [10;20] /\ no_delete with_top /\ new_pos with_top /\ throughout (top_alone [10;20]) (linit [10;20] 0) with_top /\
  exists s, lrun (linit [10;20] 0) with_top = Some s /\ lquiet s /\ no_half s /\ l_done s = [15; 12; 50; 30; 40].
Proof.
  split; [posok|]. split; [apply no_del_ok; reflexivity|]. split; [|split].
  - intros t rv I. cbn in I. repeat (destruct I as [I|I]; [try discriminate I; injection I as <- <-; cbn; lia|]). contradiction.
  - apply (throughoutb_ok 3); [auto|vm_compute; reflexivity].
  - assert (L : llook (lrun (linit [10;20] 0) with_top) = Some ([10; 12; 15; 20; 30; 40; 50], None, false, [15; 12; 50; 30; 40], [LIdle; LIdle; LIdle])) by (vm_compute; reflexivity).
    destruct (llook_inv _ _ L) as (s & E & X). injection X as _ _ _ X4 X5 X6 X7. exists s. split; auto.
    assert (Q : lquiet s) by (apply (lquiet_small [10;20] 0 with_top); auto; cbn [map]; congruence). split; auto. split; [|auto]. intros t i rv fn. rewrite Q. discriminate.
Qed.
