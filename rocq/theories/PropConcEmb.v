(** Property theorems about concurrent calls on one bucket of an embedded map: C38, C39, C52, C53, C54. The model is
    ConcEmb.v. *)
From Verif Require Import Base BaseProofs Bucket Util UtilProofs EmbModel EmbPool ConcEmb.
From Coq Require Import PeanoNat Sorted Permutation.
Local Open Scope list_scope.
Local Open Scope Z_scope.

(** * Vocabulary *)
(** no call is running *)
Definition lquiet (s : lstate) : Prop := forall t, l_pcs s t = LIdle.
(** no Delete among the calls; the new keys all have positions in (0, M] *)
Definition no_delete (ls : list (nat * lcall)) : Prop := forall t i, ~ In (t, CDel i) ls.
Definition new_upto (M : Z) (ls : list (nat * lcall)) : Prop := forall t rv, In (t, CNew rv) ls -> 0 < rv <= M.
(** no Set is between taking its slot and filling it *)
Definition no_half (s : lstate) : Prop := forall t i rv fn, l_pcs s t <> LFill i rv fn.
(** the calls are made one after another *)
Fixpoint lserial (s : lstate) (ls : list (nat * lcall)) : Prop :=
  match ls with
  | [] => True
  | l :: ls' => (forall u, u <> fst l -> l_pcs s u = LIdle) /\ match lstep s l with Some s' => lserial s' ls' | None => True end
  end.
(** the positions of the items of a bucket, as found at the start *)
Definition positions_ok (rvs : list Z) : Prop := StronglySorted Z.lt rvs /\ forall rv, In rv rvs -> 0 < rv.

(** * Steps *)
Lemma lgo_same s t p : l_pcs (lgo s t p) t = p.
Proof. cbn. rewrite Nat.eqb_refl. auto. Qed.
Lemma lgo_other s t p u : u <> t -> l_pcs (lgo s t p) u = l_pcs s u.
Proof. intros H. cbn. destruct (Nat.eqb_spec u t); congruence. Qed.
Lemma lrun_inv (Q : nat * lcall -> Prop) (P : lstate -> Prop) : (forall s l s', Q l -> P s -> lstep s l = Some s' -> P s') ->
  forall ls, (forall l, In l ls -> Q l) -> forall s s', P s -> lrun s ls = Some s' -> P s'.
Proof.
  intros H. induction ls as [|t ls IH]; intros HQ s s' HP E; cbn [lrun] in E; [injection E as <-; auto|].
  destruct (lstep s t) as [s1|] eqn:E1; [|discriminate]. eapply (IH (fun l I => HQ l (or_intror I))); [|exact E]. eapply H; eauto. apply HQ. left; auto.
Qed.
Ltac lsteps E PC := unfold lstep, l_lock in E; match type of E with context [l_pcs ?s ?t] => destruct (l_pcs s t) eqn:PC in E end; repeat match type of E with
  | (if ?b then _ else _) = Some _ => destruct b eqn:?
  | (match ?b with _ => _ end) = Some _ => destruct b eqn:?
  end; try discriminate E; try (injection E as <-).
Lemma lstep_other s t c s' u : lstep s (t, c) = Some s' -> u <> t -> l_pcs s' u = l_pcs s u.
Proof.
  intros E N. lsteps E PC; try reflexivity; rewrite lgo_other by auto; try reflexivity. destruct fn; reflexivity.
Qed.

(** * Pools as a list of items and a zero rest *)
Definition shape (p : pool) (l : list slot) (r : nat) : Prop := p = mkP (l ++ repeat zero_slot r) (Z.of_nat (List.length l)).
Lemma shape_n p l r : shape p l r -> p_n p = List.length l.
Proof. intros ->. unfold p_n. cbn [p_len]. lia. Qed.
Lemma shape_len p l r : shape p l r -> p_len p = Z.of_nat (List.length l).
Proof. intros ->. auto. Qed.
Lemma shape_cap p l r : shape p l r -> p_cap p = Z.of_nat (List.length l + r).
Proof. intros ->. unfold p_cap. cbn [p_slots]. rewrite app_length, repeat_length. auto. Qed.
Lemma shape_live p l r : shape p l r -> firstn (p_n p) (p_slots p) = l.
Proof. intros H. rewrite (shape_n _ _ _ H). rewrite H. cbn [p_slots]. rewrite firstn_app, Nat.sub_diag, firstn_all, firstn_O, app_nil_r. auto. Qed.
Lemma shape_at p l r i : shape p l r -> (i < List.length l)%nat -> slot_at p i = nth i l zero_slot.
Proof. intros -> H. unfold slot_at. cbn [p_slots]. apply app_nth1. auto. Qed.
Lemma shape_expand p l r : shape p l r -> exists r', shape (expand p) l (S r').
Proof.
  intros H. unfold expand. rewrite (shape_live _ _ _ H), (shape_len _ _ _ H), (shape_n _ _ _ H). pose proof (pool_cap_spec (Z.of_nat (List.length l)) ltac:(lia)) as PC.
  exists (Z.to_nat (pool_cap (Z.of_nat (List.length l))) - List.length l - 1)%nat. unfold shape. f_equal. f_equal. f_equal. lia.
Qed.
Lemma shape_insert p l r i : shape p l r -> (i <= List.length l)%nat -> exists r', shape (insert_at p i) (firstn i (map relink l) ++ zero_slot :: skipn i (map relink l)) r'.
Proof.
  intros H Hi. unfold insert_at. rewrite (shape_live _ _ _ H), (shape_len _ _ _ H), (shape_n _ _ _ H). eexists. unfold shape. f_equal.
  - rewrite <- app_assoc. cbn [app]. reflexivity.
  - rewrite app_length. cbn [List.length]. rewrite firstn_length, skipn_length, map_length. lia.
Qed.
Lemma shape_upd p l r i f : shape p l r -> (i < List.length l)%nat -> shape (upd_slot p i f) (upd_nth i (f (nth i l zero_slot)) l) r.
Proof.
  intros H Hi. unfold upd_slot. rewrite (shape_at _ _ _ _ H Hi), (shape_len _ _ _ H). rewrite H. cbn [p_slots]. unfold shape. rewrite upd_nth_length. f_equal.
  destruct (upd_nth_split i (f (nth i l zero_slot)) zero_slot l Hi) as (l1 & l2 & E & L & U). rewrite U. rewrite E at 2. rewrite <- !app_assoc. cbn [app]. rewrite <- L. apply upd_nth_app.
Qed.
Lemma shape_append p l r : shape p l (S r) -> shape (mkP (p_slots p) (p_len p + 1)) (l ++ [zero_slot]) r.
Proof. intros H. unfold shape. rewrite (shape_len _ _ _ H). rewrite H. cbn [p_slots]. f_equal; [rewrite <- app_assoc; reflexivity|rewrite app_length; cbn [List.length]; lia]. Qed.
Lemma shape_find p l r rv : shape p l r -> find_idx p rv = first_ge rv 0 l.
Proof. intros H. unfold find_idx. rewrite (shape_live _ _ _ H). auto. Qed.
Lemma shape_tail p l r : shape p l r -> last_active (p_slots p) (p_n p) = last_active l (List.length l).
Proof.
  intros H. rewrite (shape_n _ _ _ H). rewrite H. cbn [p_slots]. clear. assert (G : forall n, (n <= List.length l)%nat -> last_active (l ++ repeat zero_slot r) n = last_active l n); [|apply G; auto].
  induction n as [|n IH]; intros Hn; cbn [last_active]; auto. rewrite app_nth1 by lia. rewrite IH by lia. auto.
Qed.
Lemma last_active_spec l : forall n i, last_active l n = Some i -> (i < n)%nat /\ sl_del (nth i l zero_slot) = false.
Proof.
  induction n as [|n IH]; intros i E; cbn [last_active] in E; [discriminate|]. destruct (sl_del (nth n l zero_slot)) eqn:D; [destruct (IH _ E); split; [lia|auto]|]. injection E as <-. split; [lia|auto].
Qed.
Lemma linit_shape rvs room : shape (l_pool (linit rvs room)) (map stored_slot rvs) room.
Proof. unfold shape, linit. cbn [l_pool]. rewrite map_length. auto. Qed.
Lemma free_idx_lt p rv tl i : free_idx p rv tl = Some i -> exists t, tl = Some t /\ (i < t)%nat.
Proof.
  destruct tl as [t|]; cbn [free_idx]; [|discriminate]. destruct (_ || _) eqn:E; [discriminate|]. apply Bool.orb_false_elim in E. destruct E as [E1 E2]. apply Nat.leb_gt in E1. apply Nat.ltb_ge in E2.
  destruct (_ && _); [|discriminate]. intros X. injection X as <-. exists t. split; auto. lia.
Qed.

(** * C39: the lock is released *)
Definition lock_released : Prop := forall rvs room ls s, positions_ok rvs -> lrun (linit rvs room) ls = Some s -> lquiet s -> l_owner s = None.

Definition ladder (t n : nat) (c : lcall) : list (nat * lcall) := (t, c) :: repeat (t, CGo) n.
Definition go (t n : nat) : list (nat * lcall) := repeat (t, CGo) n.
(** what can be seen of a state *)
Definition llook (o : option lstate) :=
  match o with Some s => Some (map sl_rev (firstn (p_n (l_pool s)) (p_slots (l_pool s))), l_owner s, l_bad s, l_done s, map (l_pcs s) [0;1;2]%nat) | None => None end.
Lemma llook_inv o x : llook o = Some x -> exists s, o = Some s /\ x = (map sl_rev (firstn (p_n (l_pool s)) (p_slots (l_pool s))), l_owner s, l_bad s, l_done s, map (l_pcs s) [0;1;2]%nat).
Proof. destruct o as [s|]; cbn [llook]; intros E; [|discriminate]. injection E as <-. eauto. Qed.
Lemma lnever_ran s0 ls s t : lrun s0 ls = Some s -> (forall l, In l ls -> fst l <> t) -> l_pcs s t = l_pcs s0 t.
Proof.
  intros E H. refine (lrun_inv (fun l => fst l <> t) (fun s => l_pcs s t = l_pcs s0 t) _ ls H s0 s _ E); auto.
  clear. intros s [u w] s' N P E. cbn [fst] in N. rewrite <- P. eapply lstep_other; eauto.
Qed.
Lemma lquiet_small rvs room ls s : lrun (linit rvs room) ls = Some s -> forallb (fun l => (fst l <? 3)%nat) ls = true -> map (l_pcs s) [0;1;2]%nat = [LIdle; LIdle; LIdle] -> lquiet s.
Proof.
  intros E F M t. cbn [map] in M. injection M as M0 M1 M2. destruct t as [|[|[|t]]]; auto. rewrite (lnever_ran (linit rvs room) ls); auto. rewrite forallb_forall in F. intros l I. specialize (F l I). apply Nat.ltb_lt in F. lia.
Qed.
(** one item, room for one more: goroutines 1 and 2 both decide to append; 1 takes the last place; 2 finds the pool full
    with the lock in hand, starts again without it, and returns without releasing it *)
Definition leaking : list (nat * lcall) := ladder 1 1 (CNew 20) ++ ladder 2 1 (CNew 30) ++ go 1 4 ++ go 2 10.
Lemma leaking_run : exists s, lrun (linit [10] 1) leaking = Some s /\ lquiet s /\ l_owner s = Some 2%nat /\ l_done s = [20; 30].
Proof.
  assert (L : llook (lrun (linit [10] 1) leaking) = Some ([10; 20; 30], Some 2%nat, false, [20; 30], [LIdle; LIdle; LIdle])) by (vm_compute; reflexivity).
  destruct (llook_inv _ _ L) as (s & E & X). injection X as _ X2 _ X4 X5 X6 X7. exists s. split; auto. split; [|split; auto].
  apply (lquiet_small [10] 1 leaking); auto. cbn [map]. congruence.
Qed.
Lemma pos_ok l : forallb (fun x => 0 <? x) l = true -> StronglySorted Z.lt l -> positions_ok l.
Proof. intros H S. split; auto. intros rv I. rewrite forallb_forall in H. specialize (H rv I). lia. Qed.
Ltac posok := apply pos_ok; [reflexivity|repeat (constructor; try lia)].
Theorem C39_lock_released_refuted : ~ lock_released.
Proof. intros H. destruct leaking_run as (s & E & Q & O & _). assert (X : l_owner s = None) by (apply (H [10] 1%nat leaking); auto; posok). congruence. Qed.

(** Once no call is running and the lock is taken, it stays taken, and no Set on this bucket, of a new or of a present key,
    ever returns. *)
Definition stuck_pc (p : lpc) : Prop :=
  match p with
  | LIdle | LUpd | LRead _ true _ | LApp _ true _ | LExp _ true _ | LIns _ true _ | LFree _ true _ _ | LWait _ _ _ | LCrash => True
  | _ => False
  end.
Lemma decide_stuck p rv r : stuck_pc (decide_get p rv true r) /\ decide_get p rv true r <> LIdle.
Proof.
  unfold decide_get. destruct (_ =? _); [cbn; split; [auto|discriminate]|]. destruct (free_idx _ _ _); [cbn; split; [auto|discriminate]|].
  destruct (_ =? _); [cbn; split; [auto|discriminate]|]. destruct (last_active _ _); [|cbn; split; [auto|discriminate]]. destruct (_ <? _); cbn; (split; [auto|discriminate]).
Qed.
Lemma stuck_step o t s l s' : l_owner s = Some o -> (forall u, stuck_pc (l_pcs s u)) -> lstep s l = Some s' ->
  l_owner s' = Some o /\ (forall u, stuck_pc (l_pcs s' u)) /\ (l_pcs s t <> LIdle -> l_pcs s' t <> LIdle).
Proof.
  intros O P E. destruct l as [v c].
  assert (K : forall p, stuck_pc p -> (l_pcs s v <> LIdle -> p <> LIdle) -> l_owner (lgo s v p) = Some o /\ (forall u, stuck_pc (l_pcs (lgo s v p) u)) /\ (l_pcs s t <> LIdle -> l_pcs (lgo s v p) t <> LIdle)).
  { intros p A B. split; auto. split.
    - intros u. destruct (Nat.eq_dec u v) as [->|N]; [rewrite lgo_same; auto|rewrite lgo_other by auto; auto].
    - destruct (Nat.eq_dec t v) as [->|N]; [rewrite lgo_same; auto|rewrite lgo_other by auto; auto]. }
  assert (Pv := P v). lsteps E PC; rewrite PC in Pv; cbn [stuck_pc] in Pv; try contradiction; try (apply K; [cbn; auto|intros; first [discriminate|congruence]]; fail); try (split; [auto|split; auto]; fail); try discriminate; try congruence.
  - (* LUpd *) split; [congruence|split; auto].
  - (* LRead *) destruct m; [|contradiction]. apply K; [apply decide_stuck|intros _; apply decide_stuck].
Qed.
Theorem C39_leak_is_permanent o s t c ls s' : lquiet s -> l_owner s = Some o -> c = CUpd \/ (exists rv, c = CNew rv) ->
  lrun s ((t, c) :: ls) = Some s' -> l_owner s' = Some o /\ l_pcs s' t <> LIdle.
Proof.
  intros Q O C E. cbn [lrun] in E. destruct (lstep s (t, c)) as [s1|] eqn:E1; [|discriminate E].
  assert (I : l_owner s1 = Some o /\ (forall u, stuck_pc (l_pcs s1 u)) /\ l_pcs s1 t <> LIdle).
  { destruct (stuck_step o t s (t, c) s1 O) as (A & B & _); auto; [intros u; rewrite Q; cbn; auto|]. split; auto. split; auto.
    unfold lstep in E1. rewrite (Q t) in E1. destruct C as [->|(rv & ->)]; injection E1 as <-; rewrite lgo_same; discriminate. }
  assert (J : l_owner s' = Some o /\ (forall u, stuck_pc (l_pcs s' u)) /\ l_pcs s' t <> LIdle).
  { refine (lrun_inv (fun _ => True) (fun s => l_owner s = Some o /\ (forall u, stuck_pc (l_pcs s u)) /\ l_pcs s t <> LIdle) _ ls _ s1 s' I E); auto.
    intros s2 l s3 _ (A & B & D) E2. destruct (stuck_step o t s2 l s3 A B E2) as (A' & B' & D'). auto. }
  tauto.
Qed.

(** Calls made one after another, Deletes included: the lock is released, and only by its holder. *)
Definition link (m : bool) (r : option bool) (o : option nat) (t : nat) : Prop := (m = true /\ r = None /\ o = None) \/ (m = false /\ r = Some true /\ o = Some t).
Definition held (m : bool) (r : option bool) (o : option nat) (t : nat) : Prop := ((m = true /\ r = None) \/ (m = false /\ r = Some true)) /\ o = Some t.
Definition alone (t : nat) (s : lstate) : Prop :=
  l_bad s = false /\ exists l r, shape (l_pool s) l r /\ (1 <= List.length l + r)%nat /\
  match l_pcs s t with
  | LIdle | LUpd => l_owner s = None
  | LRead rv m x => link m x (l_owner s) t
  | LApp rv m x => link m x (l_owner s) t /\ (0 < r)%nat
  | LApp2 rv m x => held m x (l_owner s) t /\ (0 < r)%nat
  | LExp rv m x => link m x (l_owner s) t
  | LExp2 rv m x => held m x (l_owner s) t
  | LIns rv m x => link m x (l_owner s) t /\ find_idx (l_pool s) rv <> None
  | LIns2 rv m x => held m x (l_owner s) t /\ find_idx (l_pool s) rv <> None
  | LFree rv m x tl => link m x (l_owner s) t /\ free_idx (l_pool s) rv tl <> None /\ (forall j, tl = Some j -> (j < List.length l)%nat)
  | LFree2 rv m x tl => held m x (l_owner s) t /\ free_idx (l_pool s) rv tl <> None /\ (forall j, tl = Some j -> (j < List.length l)%nat)
  | LWait _ _ _ | LWait2 _ _ _ => False
  | LFill i rv fn => fn = true /\ l_owner s = Some t /\ (i < List.length l)%nat
  | LRet fn => fn = true /\ l_owner s = Some t
  | LCrash => True
  end.
Lemma first_ge_lt rv l i : first_ge rv 0 l = Some i -> (i < List.length l)%nat.
Proof. intros E. destruct (first_ge_spec _ _ _ _ E) as (l1 & x & l2 & -> & -> & _). rewrite app_length. cbn. lia. Qed.
Lemma find_some p l r rv tl : shape p l r -> last_active l (List.length l) = Some tl -> (sl_rev (slot_at p tl) <? rv) = false -> find_idx p rv <> None.
Proof.
  intros SH LA LT X. destruct (last_active_spec _ _ _ LA) as [A B]. rewrite (shape_find _ _ _ _ SH) in X. rewrite (shape_at _ _ _ _ SH) in LT by auto.
  pose proof (first_ge_none _ _ _ X (nth tl l zero_slot) (nth_In _ _ A) B). lia.
Qed.
Lemma link_take x o t : link true x o t -> held true x (Some t) t.
Proof. intros [(_ & -> & _)|(A & _)]; [|discriminate A]. split; auto. Qed.
Lemma link_keep x o t : link false x o t -> held false x o t.
Proof. intros [(A & _)|(_ & -> & O)]; [discriminate A|]. split; auto. Qed.
Lemma alone_step t c s s' : alone t s -> lstep s (t, c) = Some s' -> alone t s'.
Proof.
  intros (B & l & r & SH & R & I) E. unfold alone.
  assert (K0 : forall s1 p, l_pcs (lgo s1 t p) t = p) by (intros; apply lgo_same).
  lsteps E PC; rewrite PC in I; rewrite ?K0; cbn [lgo l_setp l_seto l_log l_unlock l_bad l_pool l_owner].
  - split; auto. exists l, r. split; auto. split; auto. left. auto.
  - split; auto. exists l, r. split; auto.
  - split; auto. apply Nat.ltb_lt in Heqb. rewrite (shape_n _ _ _ SH) in Heqb. exists (upd_nth i (set_sdel (nth i l zero_slot)) l), r. split; [apply shape_upd; auto|]. rewrite upd_nth_length. cbn [l_setp l_pcs]. rewrite PC. auto.
  - congruence.
  - split; auto. exists l, r. auto.
  - (* LRead *) split; auto. exists l, r. split; auto. split; auto. unfold decide_get. rewrite (shape_len _ _ _ SH), (shape_cap _ _ _ SH).
    destruct (Z.eqb_spec (Z.of_nat (List.length l)) 0) as [Z0|Z0]; [split; [auto|lia]|]. rewrite (shape_tail _ _ _ SH).
    destruct (free_idx _ _ _) as [j|] eqn:F.
    + split; auto. split; [congruence|]. intros j0 L. apply (last_active_spec _ _ _ L).
    + destruct (Z.eqb_spec (Z.of_nat (List.length l + r)) (Z.of_nat (List.length l))) as [Z1|Z1]; auto. destruct (last_active l _) as [tl|] eqn:L; auto.
      destruct (_ <? _) eqn:LT; [split; [auto|lia]|]. split; auto. eapply find_some; eauto.
  - (* LApp m, free *) destruct I as [I1 I2]. apply link_take in I1. split; auto. exists l, r. auto.
  - destruct I as [I1 I2]. apply link_keep in I1. split; auto. exists l, r. auto.
  - (* LApp2 full *) exfalso. rewrite (shape_len _ _ _ SH), (shape_cap _ _ _ SH) in Heqb. lia.
  - destruct I as [[M O] I2]. destruct r as [|r]; [lia|]. split; auto. exists (l ++ [zero_slot]), r. split; [apply shape_append; auto|]. rewrite app_length. cbn [List.length]. split; [lia|].
    rewrite (shape_n _ _ _ SH). split; [destruct M as [[-> ->]|[-> ->]]; auto|]. split; [auto|lia].
  - apply link_take in I. split; auto. exists l, r. auto.
  - apply link_keep in I. split; auto. exists l, r. auto.
  - (* LExp2 *) destruct I as [M O]. split; auto. destruct (shape_expand _ _ _ SH) as (r' & SH'). exists l, (S r'). split; auto. split; [lia|]. right. split; auto. split; [destruct M as [[-> ->]|[-> ->]]; auto|auto].
  - destruct I as [I1 I2]. apply link_take in I1. split; auto. exists l, r. auto.
  - destruct I as [I1 I2]. apply link_keep in I1. split; auto. exists l, r. auto.
  - (* LIns2 *) destruct I as [[M O] _]. split; auto. rewrite (shape_find _ _ _ _ SH) in Heqo. pose proof (first_ge_lt _ _ _ Heqo) as LT. destruct (shape_insert _ _ _ n SH) as (r' & SH'); [lia|].
    exists (firstn n (map relink l) ++ zero_slot :: skipn n (map relink l)), r'. split; auto. assert (LL : List.length (firstn n (map relink l) ++ zero_slot :: skipn n (map relink l)) = S (List.length l)).
    { rewrite app_length. cbn [List.length]. rewrite firstn_length, skipn_length, map_length. lia. }
    rewrite LL. split; [lia|]. split; [destruct M as [[-> ->]|[-> ->]]; auto|]. split; [auto|lia].
  - destruct I as [_ I2]. congruence.
  - (* LFree, taken: impossible *) exfalso. destruct I as [[(_ & _ & O)|(A & _)] _]; [congruence|discriminate A].
  - (* LFree *) destruct I as [I1 I2]. apply link_take in I1. split; auto. exists l, r. auto.
  - destruct I as [I1 I2]. apply link_keep in I1. split; auto. exists l, r. auto.
  - contradiction.
  - contradiction.
  - (* LFree2 *) destruct I as [[M O] [I2 I3]]. split; auto. destruct (free_idx_lt _ _ _ _ Heqo) as (j & -> & LT). specialize (I3 j eq_refl). exists (upd_nth n (recycle (nth n l zero_slot)) l), r.
    split; [apply shape_upd; [auto|lia]|]. rewrite upd_nth_length. split; auto. split; [destruct M as [[-> ->]|[-> ->]]; auto|]. split; [auto|lia].
  - destruct I as [_ [I2 _]]. congruence.
  - (* LFill *) destruct I as (-> & O & LT). split; auto. exists (upd_nth i (fill_slot rv (nth i l zero_slot)) l), r. split; [apply shape_upd; auto|]. rewrite upd_nth_length. auto.
  - (* LRet *) destruct I as (-> & O). cbn [l_unlock l_bad l_owner l_pool]. rewrite O, Nat.eqb_refl. cbn. rewrite B. split; auto. exists l, r. auto.
Qed.
Lemma lserial_inv (P : nat -> lstate -> Prop) : (forall t u s, P t s -> lquiet s -> P u s) -> (forall t c s s', P t s -> lstep s (t, c) = Some s' -> P t s') ->
  forall ls t s s', (forall u, u <> t -> l_pcs s u = LIdle) -> P t s -> lserial s ls -> lrun s ls = Some s' -> exists u, P u s'.
Proof.
  intros H1 H2. induction ls as [|[u w] ls IH]; intros t s s' O HP S E; cbn [lrun lserial fst] in *; [injection E as <-; exists t; auto|].
  destruct S as [S1 S2]. destruct (lstep s (u, w)) as [s1|] eqn:E1; [|discriminate E]. assert (HPu : P u s).
  { destruct (Nat.eq_dec u t) as [->|N]; auto. apply (H1 t); auto. intros v. destruct (Nat.eq_dec v t) as [->|N']; auto. }
  apply (IH u s1); auto; [|eapply H2; eauto]. intros v N. rewrite (lstep_other _ _ _ _ _ E1); auto.
Qed.
Theorem C39_sequential_partial rvs room ls s : (1 <= List.length rvs + room)%nat -> lserial (linit rvs room) ls -> lrun (linit rvs room) ls = Some s ->
  l_bad s = false /\ (lquiet s -> l_owner s = None).
Proof.
  intros R S E. destruct (lserial_inv alone) with (ls := ls) (t := 0%nat) (s := linit rvs room) (s' := s) as (u & I); auto.
  - intros t u s0 (B & l & r & SH & R0 & I) Q. split; auto. exists l, r. split; auto. split; auto. rewrite (Q t) in I. rewrite (Q u). auto.
  - intros. eapply alone_step; eauto.
  - split; auto. exists (map stored_slot rvs), room. split; [apply linit_shape|]. rewrite map_length. split; auto. cbn. auto.
  - destruct I as (B & l & r & _ & _ & I). split; auto. intros Q. rewrite (Q u) in I. auto.
Qed.

(** * C52: the lock is exclusive *)
(** a goroutine that changes the items of the bucket, or is about to release the lock *)
Definition changing (p : lpc) : Prop :=
  match p with LApp2 _ _ _ | LExp2 _ _ _ | LIns2 _ _ _ | LFree2 _ _ _ _ | LFill _ _ _ | LRet _ => True | _ => False end.
Definition lock_exclusive : Prop := forall rvs room ls s, positions_ok rvs -> lrun (linit rvs room) ls = Some s ->
  l_bad s = false /\ forall t, changing (l_pcs s t) -> l_owner s = Some t.
(** the second of four items is deleted; goroutine 1 wants to reuse its slot while goroutine 2 holds the lock: it takes and
    releases the lock, then changes the slot without it, then releases it again *)
Definition unheld : list (nat * lcall) := [(0%nat, CDel 1)] ++ ladder 1 1 (CNew 25) ++ ladder 2 1 CUpd ++ go 1 1 ++ go 2 1 ++ go 1 5.
Theorem C52_exclusive_refuted : ~ lock_exclusive.
Proof.
  intros H. assert (L : llook (lrun (linit [10;20;30;40] 5) unheld) = Some ([10; 25; 30; 40], None, true, [25], [LIdle; LIdle; LIdle])) by (vm_compute; reflexivity).
  destruct (llook_inv _ _ L) as (s & E & X). injection X as _ _ X3 _ _ _ _. destruct (H [10;20;30;40] 5%nat unheld s) as [B _]; auto; [posok|congruence].
Qed.
Definition all_live (l : list slot) : Prop := forall sl, In sl l -> sl_del sl = false.
Definition mine (t : nat) (o : option nat) (p : lpc) : Prop :=
  match p with
  | LIdle | LUpd | LRead _ true _ | LApp _ true _ | LExp _ true _ | LIns _ true _ | LCrash => True
  | LRead _ false _ | LApp _ false _ | LExp _ false _ | LIns _ false _ | LApp2 _ _ _ | LExp2 _ _ _ | LIns2 _ _ _ | LFill _ _ _ | LRet _ => o = Some t
  | _ => False
  end.
Definition inside (n : nat) (p : lpc) : Prop := match p with LFill i _ _ => (i < n)%nat | _ => True end.
Record excl (s : lstate) : Prop := {
  ex_bad : l_bad s = false;
  ex_shape : exists l r, shape (l_pool s) l r /\ (1 <= List.length l + r)%nat /\ all_live l /\ forall t, inside (List.length l) (l_pcs s t);
  ex_mine : forall t, mine t (l_owner s) (l_pcs s t) }.
Lemma all_live_at l i : all_live l -> sl_del (nth i l zero_slot) = false.
Proof. intros A. destruct (Nat.lt_ge_cases i (List.length l)) as [H|H]; [apply A, nth_In; auto|rewrite nth_overflow by auto; auto]. Qed.
Lemma all_live_tail p l r : shape p l r -> all_live l -> l <> [] -> last_active (p_slots p) (p_n p) = Some (List.length l - 1)%nat.
Proof. intros SH A N. rewrite (shape_tail _ _ _ SH). apply last_active_live; [intros; apply all_live_at; auto|destruct l; [congruence|cbn; lia]]. Qed.
Lemma all_live_free p l r rv tl : shape p l r -> all_live l -> (forall j, tl = Some j -> (j < List.length l)%nat) -> free_idx p rv tl = None.
Proof.
  intros SH A T. destruct (free_idx p rv tl) as [i|] eqn:F; auto. exfalso. destruct (free_idx_lt _ _ _ _ F) as (j & -> & LT). specialize (T j eq_refl). cbn [free_idx] in F.
  set (idx := sort_search _ _ _ _) in F. destruct (_ || _); [discriminate F|]. destruct (sl_del (slot_at p (idx - 1)) && _) eqn:D; [|discriminate F]. injection F as <-.
  rewrite (shape_at _ _ _ _ SH) in D by lia. rewrite all_live_at in D by auto. discriminate D.
Qed.
Lemma all_live_upd l i x : all_live l -> sl_del x = false -> all_live (upd_nth i x l).
Proof. intros A X sl I. revert i I. induction l as [|y l IH]; intros i I; destruct i; cbn [upd_nth In] in I; try contradiction; destruct I as [<-|I]; auto; [apply A; right; auto|apply A; left; auto|]. eapply IH; eauto. intros z Z. apply A. right. auto. Qed.
Lemma all_live_ins l i : all_live l -> all_live (firstn i (map relink l) ++ zero_slot :: skipn i (map relink l)).
Proof.
  intros A sl I. assert (J : sl = zero_slot \/ In sl (map relink l)). { rewrite <- (firstn_skipn i (map relink l)). rewrite in_app_iff in *. cbn [In] in I. intuition. }
  destruct J as [->|J]; auto. apply in_map_iff in J. destruct J as (y & <- & Y). cbn. auto.
Qed.
Lemma others_mine s s1 t p : (forall u, mine u (l_owner s) (l_pcs s u)) -> l_pcs s1 = l_pcs s -> (l_owner s1 = l_owner s \/ l_owner s = None \/ l_owner s = Some t) ->
  mine t (l_owner s1) p -> forall u, mine u (l_owner (lgo s1 t p)) (l_pcs (lgo s1 t p) u).
Proof.
  intros A E O P u. cbn [l_owner lgo]. destruct (Nat.eq_dec u t) as [->|N]; [rewrite lgo_same; auto|rewrite lgo_other, E by auto]. specialize (A u).
  destruct O as [O|O]; [rewrite O; auto|]. assert (X : l_owner s <> Some u) by (destruct O as [O|O]; rewrite O; congruence). unfold mine in *. destruct (l_pcs s u); auto; try (destruct m; auto); contradiction.
Qed.
Lemma others_inside s s1 t p n n' : (forall u, inside n (l_pcs s u)) -> l_pcs s1 = l_pcs s -> (n <= n')%nat -> inside n' p -> forall u, inside n' (l_pcs (lgo s1 t p) u).
Proof.
  intros A E L P u. destruct (Nat.eq_dec u t) as [->|N]; [rewrite lgo_same; auto|rewrite lgo_other, E by auto]. specialize (A u). destruct (l_pcs s u); cbn [inside] in *; auto. lia.
Qed.
Lemma decide_live p l r rv m x : shape p l r -> all_live l ->
  decide_get p rv m x = LApp rv m x \/ decide_get p rv m x = LExp rv m x \/ decide_get p rv m x = LIns rv m x.
Proof.
  intros SH A. unfold decide_get. destruct (Z.eqb_spec (p_len p) 0) as [Z0|Z0]; auto. assert (N : l <> []) by (intros ->; rewrite (shape_len _ _ _ SH) in Z0; cbn in Z0; lia).
  rewrite (all_live_tail _ _ _ SH A N). rewrite (all_live_free _ _ _ _ _ SH A); [|intros j X; injection X as <-; destruct l; [congruence|cbn; lia]]. destruct (_ =? _); auto. destruct (_ <? _); auto.
Qed.
Lemma excl_step s l s' : (forall i, snd l <> CDel i) -> excl s -> lstep s l = Some s' -> excl s'.
Proof.
  intros ND [B (l0 & r & SH & R & A & IN) MN] E. destruct l as [t c]. cbn [snd] in ND. assert (Mt := MN t).
  assert (K : forall s1 p, l_pcs s1 = l_pcs s -> l_pool s1 = l_pool s -> l_bad s1 = false -> (l_owner s1 = l_owner s \/ l_owner s = None \/ l_owner s = Some t) -> mine t (l_owner s1) p -> (forall i rv fn, p <> LFill i rv fn) -> excl (lgo s1 t p)).
  { intros s1 p E1 E2 E3 E4 E5 E6. constructor; auto.
    - exists l0, r. cbn [lgo l_pool]. rewrite E2. split; auto. split; auto. split; auto. apply (others_inside s s1 t p (List.length l0)); auto. destruct p; cbn [inside]; auto. elim (E6 i rv fn). auto.
    - apply (others_mine s); auto. }
  assert (K2 : forall p2 l2 r2 p s1, shape p2 l2 r2 -> (List.length l0 <= List.length l2)%nat -> all_live l2 -> inside (List.length l2) p -> mine t (l_owner s) p -> l_pcs s1 = l_pcs s -> l_bad s1 = false -> l_owner s1 = l_owner s -> l_pool s1 = p2 -> (1 <= List.length l2 + r2)%nat -> excl (lgo s1 t p)).
  { intros p2 l2 r2 p s1 S2 L2 A2 I2 M2 E1 E2 E3 E4 R2. constructor; [cbn; auto| |].
    - exists l2, r2. cbn [lgo l_pool]. rewrite E4. split; auto. split; auto. split; auto. apply (others_inside s s1 t p (List.length l0)); auto.
    - apply (others_mine s); auto. rewrite E3. auto. }
  lsteps E PC; rewrite PC in Mt; cbn [mine] in Mt; try contradiction;
    try (apply K; [reflexivity|reflexivity|auto|auto|cbn [mine l_owner l_seto]; auto; try (destruct m; auto; fail)|intros; discriminate]; fail); try (elim (ND i); reflexivity).
  - (* LUpd *) constructor; [auto|exists l0, r; auto|rewrite Heqo; auto].
  - (* LRead *) destruct (decide_live (l_pool s) l0 r rv m r0 SH A) as [D|[D|D]]; rewrite D; (apply K; [reflexivity|reflexivity|auto|auto|cbn [mine]; destruct m; auto|intros; discriminate]).
  - (* LApp2 *) rewrite (shape_len _ _ _ SH), (shape_cap _ _ _ SH) in Heqb. destruct r as [|r]; [lia|]. eapply (K2 _ (l0 ++ [zero_slot]) r); [apply shape_append; exact SH|..]; try reflexivity; auto; cbn [inside mine]; auto.
    + rewrite app_length. lia.
    + intros sl I. apply in_app_iff in I. destruct I as [I|[<-|[]]]; auto.
    + rewrite app_length, (shape_n _ _ _ SH). cbn. lia.
    + rewrite app_length. cbn. lia.
  - (* LExp2 *) destruct (shape_expand _ _ _ SH) as (r' & SH'). eapply (K2 _ l0 (S r')); [exact SH'|..]; try reflexivity; auto; cbn [inside mine]; auto. lia.
  - (* LIns2 *) rewrite (shape_find _ _ _ _ SH) in Heqo. pose proof (first_ge_lt _ _ _ Heqo) as LT. destruct (shape_insert _ _ _ n SH) as (r' & SH'); [lia|].
    assert (LL : List.length (firstn n (map relink l0) ++ zero_slot :: skipn n (map relink l0)) = S (List.length l0)).
    { rewrite app_length. cbn [List.length]. rewrite firstn_length, skipn_length, map_length. lia. }
    eapply (K2 _ _ r'); [exact SH'|..]; try reflexivity; auto; cbn [inside mine]; rewrite ?LL; auto; try lia. apply all_live_ins. auto.
  - (* LFill *) assert (It := IN t). rewrite PC in It. cbn [inside] in It. eapply (K2 _ (upd_nth i (fill_slot rv (nth i l0 zero_slot)) l0) r); [apply shape_upd; [exact SH|auto]|..]; try reflexivity; auto; cbn [inside mine]; rewrite ?upd_nth_length; auto.
    apply all_live_upd; auto. cbn. apply all_live_at. auto.
  - (* LRet *) destruct fn.
    + apply K; [reflexivity|reflexivity|cbn; rewrite Mt, Nat.eqb_refl, B; auto|auto|cbn; auto|intros; discriminate].
    + apply K; [reflexivity|reflexivity|auto|auto|cbn; auto|intros; discriminate].
Qed.
Lemma linit_excl rvs room : (1 <= List.length rvs + room)%nat -> excl (linit rvs room).
Proof.
  intros R. constructor; [auto| |intros t; cbn; auto]. exists (map stored_slot rvs), room. split; [apply linit_shape|]. rewrite map_length. split; auto. split; [|intros t; cbn; auto].
  intros sl I. apply in_map_iff in I. destruct I as (x & <- & _). auto.
Qed.
(** Without Deletes, for every schedule: only the holder of the lock changes the items, and only the holder releases it. *)
Theorem C52_exclusive_partial rvs room ls s : (1 <= List.length rvs + room)%nat -> no_delete ls -> lrun (linit rvs room) ls = Some s ->
  l_bad s = false /\ forall t, changing (l_pcs s t) -> l_owner s = Some t.
Proof.
  intros R D E. assert (X : excl s).
  { refine (lrun_inv (fun l => forall i, snd l <> CDel i) excl _ ls _ (linit rvs room) s (linit_excl _ _ R) E).
    - intros s0 l s1 Q I. apply excl_step; auto.
    - intros [t c] I i H. cbn [snd] in H. subst. apply (D t i). auto. }
  split; [apply ex_bad; auto|]. intros t C. assert (M := ex_mine s X t). destruct (l_pcs s t); cbn [changing mine] in *; try contradiction; auto.
Qed.

(** * C38, C53: Get and Set while Sets of other keys are running *)
(** a Get finds an item that was there before all the Sets *)
Definition get_finds : Prop := forall rvs room ls s rv, positions_ok rvs -> no_delete ls -> lrun (linit rvs room) ls = Some s -> In rv rvs -> finds s rv.
(** after the Sets have returned a Get finds their items *)
Definition set_found : Prop := forall rvs room ls s rv, positions_ok rvs -> no_delete ls -> lrun (linit rvs room) ls = Some s -> lquiet s -> In rv (l_done s) -> finds s rv.
Definition found (o : option lstate) (rv : Z) : option (option nat) := match o with Some s => Some (emb_search (l_pool s) rv) | None => None end.
Lemma found_none o rv : found o rv = Some None -> exists s, o = Some s /\ ~ finds s rv.
Proof. destruct o as [s|]; cbn [found]; intros E; [|discriminate]. injection E as E. exists s. split; auto. intros (i & F & _). congruence. Qed.
Lemma no_del_ok ls : forallb (fun l => match snd l with CDel _ => false | _ => true end) ls = true -> no_delete ls.
Proof. intros H t i I. rewrite forallb_forall in H. specialize (H _ I). discriminate H. Qed.
(** items 10 and 20; goroutine 1 has inserted its slot for 15 but not yet filled it: 10 is not found *)
Definition half : list (nat * lcall) := ladder 1 3 (CNew 15).
Theorem C38_get_finds_refuted : ~ get_finds.
Proof.
  intros H. assert (L : found (lrun (linit [10;20] 5) half) 10 = Some None) by (vm_compute; reflexivity). destruct (found_none _ _ L) as (s & E & N). apply N.
  apply (H [10;20] 5%nat half s 10); auto; [posok|apply no_del_ok; reflexivity|left; auto].
Qed.
(** item 10; goroutines 1 and 2 set 50 and 30, both decide to append, 1 goes first: 30 is not found *)
Definition unsorting : list (nat * lcall) := ladder 1 1 (CNew 50) ++ ladder 2 1 (CNew 30) ++ go 1 4 ++ go 2 4.
Theorem C53_set_found_refuted : ~ set_found.
Proof.
  intros H. assert (L : found (lrun (linit [10] 5) unsorting) 30 = Some None) by (vm_compute; reflexivity). destruct (found_none _ _ L) as (s & E & N). apply N.
  assert (L2 : llook (lrun (linit [10] 5) unsorting) = Some ([10; 50; 30], None, false, [50; 30], [LIdle; LIdle; LIdle])) by (vm_compute; reflexivity).
  destruct (llook_inv _ _ L2) as (s' & E' & X). assert (s' = s) by congruence. subst s'. injection X as _ _ _ X4 X5 X6 X7.
  apply (H [10] 5%nat unsorting s 30); auto; [posok|apply no_del_ok; reflexivity| |rewrite <- X4; right; left; auto].
  apply (lquiet_small [10] 5 unsorting); auto. cbn [map]. congruence.
Qed.

(** ** When the new keys are not above the largest item *)
Definition revs (l : list slot) : list Z := map sl_rev l.
(** the positions of the items, with the one that is being filled in *)
Definition viewed (s : lstate) (l : list slot) : list Z :=
  match l_owner s with
  | Some t => match l_pcs s t with LFill i rv _ => upd_nth i rv (revs l) | _ => revs l end
  | None => revs l
  end.
Definition below (M : Z) (t : nat) (o : option nat) (n : nat) (p : lpc) : Prop :=
  match p with
  | LIdle | LUpd => o <> Some t
  | LRead rv m x | LExp rv m x | LIns rv m x => 0 < rv <= M /\ ((m = true /\ x = None /\ o <> Some t) \/ (m = false /\ x = Some true /\ o = Some t))
  | LExp2 rv m x | LIns2 rv m x => 0 < rv <= M /\ ((m = true /\ x = None) \/ (m = false /\ x = Some true)) /\ o = Some t
  | LFill i rv fn => 0 < rv <= M /\ fn = true /\ o = Some t /\ (S i < n)%nat
  | LRet fn => fn = true /\ o = Some t
  | _ => False
  end.
Record ins (M : Z) (olds : list Z) (s : lstate) : Prop := {
  in_bad : l_bad s = false;
  in_shape : exists l r, shape (l_pool s) l r /\ all_live l /\ l <> [] /\ last (revs l) 0 = M /\
    StronglySorted Z.le (viewed s l) /\ (forall rv, In rv olds \/ In rv (l_done s) -> In rv (viewed s l)) /\
    (forall t i rv fn, l_pcs s t = LFill i rv fn -> nth i (revs l) 0 = 0) /\
    forall t, below M t (l_owner s) (List.length l) (l_pcs s t) }.
Lemma below_others M s s1 t p n : (forall u, below M u (l_owner s) n (l_pcs s u)) -> l_pcs s1 = l_pcs s -> (l_owner s1 = l_owner s \/ (l_owner s = None /\ l_owner s1 = Some t) \/ (l_owner s = Some t /\ l_owner s1 = None)) ->
  below M t (l_owner s1) n p -> forall u, below M u (l_owner (lgo s1 t p)) n (l_pcs (lgo s1 t p) u).
Proof.
  intros A E O P u. cbn [l_owner lgo]. destruct (Nat.eq_dec u t) as [->|N]; [rewrite lgo_same; auto|rewrite lgo_other, E by auto]. specialize (A u).
  destruct O as [O|O]; [rewrite O; auto|]. assert (X : l_owner s <> Some u /\ l_owner s1 <> Some u) by (destruct O as [[O O1]|[O O1]]; rewrite O, O1; split; congruence). destruct X as [X Y].
  unfold below in *. destruct (l_pcs s u); auto; intuition.
Qed.
Lemma viewed_other s s1 t p l : l_pcs s1 = l_pcs s -> (l_owner s1 = l_owner s \/ (l_owner s = None /\ l_owner s1 = Some t) \/ (l_owner s = Some t /\ l_owner s1 = None)) ->
  (forall i rv fn, p <> LFill i rv fn) -> (forall i rv fn, l_pcs s t <> LFill i rv fn) -> viewed (lgo s1 t p) l = viewed s l.
Proof.
  intros E O P Q. unfold viewed. cbn [l_owner lgo]. destruct O as [O|[[O O1]|[O O1]]].
  - rewrite O. destruct (l_owner s) as [u|]; auto. destruct (Nat.eq_dec u t) as [->|N]; [rewrite lgo_same|rewrite lgo_other, E by auto; auto].
    assert (Q' : match l_pcs s t with LFill i rv _ => upd_nth i rv (revs l) | _ => revs l end = revs l) by (destruct (l_pcs s t); auto; exfalso; eapply Q; reflexivity). rewrite Q'. destruct p; auto. exfalso. eapply P. reflexivity.
  - rewrite O, O1, lgo_same. destruct p; auto. exfalso. eapply P. reflexivity.
  - rewrite O, O1. destruct (l_pcs s t); auto. exfalso. eapply Q. reflexivity.
Qed.
Lemma sorted_le_ins a x b : StronglySorted Z.le (a ++ b) -> (forall y, In y a -> y <= x) -> (forall y, In y b -> x <= y) -> StronglySorted Z.le (a ++ x :: b).
Proof.
  induction a as [|z a IH]; cbn [app]; intros S A B.
  - constructor; auto. apply Forall_forall. auto.
  - apply StronglySorted_inv in S. destruct S as [S1 S2]. constructor.
    + apply IH; auto. intros y Y. apply A. right. auto.
    + rewrite Forall_forall in *. intros y Y. rewrite in_app_iff in Y. cbn [In] in Y. destruct Y as [Y|[<-|Y]]; [apply S2, in_app_iff; auto|apply A; left; auto|apply S2, in_app_iff; auto].
Qed.
Lemma sorted_le_nth l : StronglySorted Z.le l -> forall i j, (i <= j < List.length l)%nat -> nth i l 0 <= nth j l 0.
Proof.
  induction l as [|x l IH]; intros S i j H; cbn [List.length] in H; [lia|]. apply StronglySorted_inv in S. destruct S as [S1 S2]. rewrite Forall_forall in S2.
  destruct i, j; cbn [nth]; [lia|apply S2, nth_In; lia|lia|apply IH; auto; lia].
Qed.
Lemma finds_sorted s l r rv : shape (l_pool s) l r -> all_live l -> StronglySorted Z.le (revs l) -> In rv (revs l) -> finds s rv.
Proof.
  intros SH A S I. set (p := l_pool s) in *. assert (N : p_n p = List.length l) by (eapply shape_n; eauto).
  assert (AT : forall i, (i < List.length l)%nat -> sl_rev (slot_at p i) = nth i (revs l) 0). { intros i Hi. rewrite (shape_at _ _ _ _ SH Hi). unfold revs. change 0 with (sl_rev zero_slot). rewrite map_nth. auto. }
  assert (SK : forall i, (i < List.length l)%nat -> skip_left (p_slots p) i = i). { intros i Hi. apply skip_left_self. change (nth i (p_slots p) zero_slot) with (slot_at p i). rewrite (shape_at _ _ _ _ SH Hi). apply all_live_at. auto. }
  destruct (In_nth _ _ 0 I) as (j & Hj & Ej). unfold revs in Hj. rewrite map_length in Hj.
  set (f := fun i => rv <=? sl_rev (slot_at p (skip_left (p_slots p) i))). destruct (sort_search_spec f (p_n p) 0 (p_n p)) as (X & Y & Z); try lia.
  { intros x y H1 H2 Fx. unfold f in *. rewrite SK, AT in Fx by lia. rewrite SK, AT by lia. assert (nth x (revs l) 0 <= nth y (revs l) 0) by (apply sorted_le_nth; auto; unfold revs; rewrite map_length; lia). lia. }
  unfold finds, emb_search. fold p. fold f. set (idx := sort_search (p_n p) 0 (p_n p) f) in *. assert (IJ : (idx <= j)%nat).
  { destruct (Nat.le_gt_cases idx j); auto. assert (F : f j = false) by (apply Y; lia). unfold f in F. rewrite SK, AT, Ej in F by lia. lia. }
  assert (EI : sl_rev (slot_at p idx) = rv).
  { assert (F : f idx = true) by (apply Z; lia). unfold f in F. rewrite SK, AT in F by lia. rewrite AT by lia. assert (nth idx (revs l) 0 <= nth j (revs l) 0) by (apply sorted_le_nth; auto; unfold revs; rewrite map_length; lia). lia. }
  destruct (Nat.ltb_spec idx (p_n p)); [|lia]. rewrite EI, Z.eqb_refl. cbn [andb]. rewrite SK by lia. exists idx. auto.
Qed.
Lemma last_nth (l : list Z) d : last l d = nth (List.length l - 1) l d.
Proof.
  induction l as [|x l IH]; auto. destruct l as [|y l]; auto. change (last (x :: y :: l) d) with (last (y :: l) d). rewrite IH. cbn [List.length]. replace (S (S (List.length l)) - 1)%nat with (S (S (List.length l) - 1)) by lia. reflexivity.
Qed.
Lemma revs_at p l r i : shape p l r -> (i < List.length l)%nat -> sl_rev (slot_at p i) = nth i (revs l) 0.
Proof. intros SH Hi. rewrite (shape_at _ _ _ _ SH Hi). unfold revs. change 0 with (sl_rev zero_slot). rewrite map_nth. auto. Qed.
Lemma revs_upd l i x : revs (upd_nth i x l) = upd_nth i (sl_rev x) (revs l).
Proof. unfold revs. revert i. induction l as [|y l IH]; intros [|i]; cbn [upd_nth map]; auto. f_equal. auto. Qed.
Lemma revs_relink l : revs (map relink l) = revs l.
Proof. unfold revs. rewrite map_map. apply map_ext. auto. Qed.
Lemma nth_upd_other {A} i j (x d : A) l : j <> i -> nth j (upd_nth i x l) d = nth j l d.
Proof. revert i j. induction l as [|y l IH]; intros [|i] [|j] H; cbn [upd_nth nth]; auto; congruence. Qed.
Lemma last_app_r {A} (a b : list A) d : b <> [] -> last (a ++ b) d = last b d.
Proof. intros H. induction a as [|x a IH]; auto. cbn [app]. destruct (a ++ b) eqn:E; [apply app_eq_nil in E; destruct E; contradiction|]. cbn [last] in *. auto. Qed.

Lemma ins_step M olds s l s' : (forall i, snd l <> CDel i) -> (forall rv, snd l = CNew rv -> 0 < rv <= M) -> ins M olds s -> lstep s l = Some s' -> ins M olds s'.
Proof.
  intros ND NU [B (l0 & r & SH & A & NE & LM & SO & OL & ZE & BE)] E. destruct l as [t c]. cbn [snd] in ND, NU. assert (Bt := BE t).
  (* steps that do not change the items *)
  assert (K : forall s1 p, l_pcs s1 = l_pcs s -> l_pool s1 = l_pool s -> l_done s1 = l_done s -> l_bad s1 = false -> (l_owner s1 = l_owner s \/ (l_owner s = None /\ l_owner s1 = Some t) \/ (l_owner s = Some t /\ l_owner s1 = None)) ->
    below M t (l_owner s1) (List.length l0) p -> (forall i rv fn, p <> LFill i rv fn) -> (forall i rv fn, l_pcs s t <> LFill i rv fn) -> ins M olds (lgo s1 t p)).
  { intros s1 p E1 E2 E3 E4 E5 E6 E7 E8. constructor; auto. exists l0, r. cbn [lgo l_pool l_done]. rewrite E2, E3, (viewed_other s s1 t p l0) by auto. split; auto. split; auto. split; auto. split; auto. split; auto. split; auto. split.
    - intros u i rv fn. destruct (Nat.eq_dec u t) as [->|N]; [rewrite lgo_same; intros X; elim (E7 i rv fn); auto|rewrite lgo_other, E1 by auto; apply ZE].
    - apply (below_others M s); auto. }
  lsteps E PC; rewrite PC in Bt; cbn [below] in Bt; try contradiction; try (elim (ND i); reflexivity);
    try (apply K; [reflexivity|reflexivity|reflexivity|auto|auto| |intros; discriminate|intros; rewrite PC; discriminate]; cbn [below l_owner l_seto]; auto; fail).
  - (* LUpd, taken *) constructor; [auto|]. exists l0, r. rewrite Heqo. auto 10.
  - (* LRead *) destruct Bt as [RV MX]. assert (N0 : (0 < List.length l0)%nat) by (destruct l0; [congruence|cbn; lia]).
    assert (D : decide_get (l_pool s) rv m r0 = LExp rv m r0 \/ decide_get (l_pool s) rv m r0 = LIns rv m r0).
    { unfold decide_get. rewrite (shape_len _ _ _ SH). destruct (Z.eqb_spec (Z.of_nat (List.length l0)) 0); [lia|]. rewrite (all_live_tail _ _ _ SH A NE). rewrite (all_live_free _ _ _ _ _ SH A); [|intros j X; injection X as <-; lia].
      destruct (_ =? _); auto. rewrite (revs_at _ _ _ _ SH) by lia. rewrite <- (map_length sl_rev l0). fold (revs l0). rewrite <- last_nth, LM. destruct (Z.ltb_spec M rv); [lia|]. auto. }
    destruct D as [D|D]; rewrite D; (apply K; [reflexivity|reflexivity|reflexivity|auto|auto| |intros; discriminate|intros; rewrite PC; discriminate]; cbn [below]; auto).
  - (* LExp *) destruct Bt as [RV [(M1 & X & O)|(M1 & _)]]; [|discriminate M1]. apply K; [reflexivity|reflexivity|reflexivity|auto|auto| |intros; discriminate|intros; rewrite PC; discriminate]; cbn [below l_owner l_seto]. auto.
  - destruct Bt as [RV [(M1 & _)|(M1 & X & O)]]; [discriminate M1|]. apply K; [reflexivity|reflexivity|reflexivity|auto|auto| |intros; discriminate|intros; rewrite PC; discriminate]; cbn [below]. auto.
  - (* LExp2 *) destruct Bt as [RV [MX O]]. destruct (shape_expand _ _ _ SH) as (r' & SH'). constructor; [auto|]. exists l0, (S r'). split; [exact SH'|]. split; auto. split; auto. split; auto.
    assert (V : viewed (lgo (l_setp s (expand (l_pool s))) t (LRead rv false (Some (or_else r0 m)))) l0 = viewed s l0) by (apply viewed_other; auto; intros; [discriminate|rewrite PC; discriminate]). rewrite V. split; auto. split; auto. split.
    + intros u i rv0 fn. destruct (Nat.eq_dec u t) as [->|N]; [rewrite lgo_same; discriminate|rewrite lgo_other by auto; apply ZE].
    + apply (below_others M s); auto. cbn [below l_owner l_setp]. split; auto. right. split; auto. split; auto. destruct MX as [[-> ->]|[-> ->]]; auto.
  - (* LIns *) destruct Bt as [RV [(M1 & X & O)|(M1 & _)]]; [|discriminate M1]. apply K; [reflexivity|reflexivity|reflexivity|auto|auto| |intros; discriminate|intros; rewrite PC; discriminate]; cbn [below l_owner l_seto]. auto.
  - destruct Bt as [RV [(M1 & _)|(M1 & X & O)]]; [discriminate M1|]. apply K; [reflexivity|reflexivity|reflexivity|auto|auto| |intros; discriminate|intros; rewrite PC; discriminate]; cbn [below]. auto.
  - (* LIns2 *) destruct Bt as [RV [MX O]]. rewrite (shape_find _ _ _ _ SH) in Heqo. destruct (first_ge_spec _ _ _ _ Heqo) as (l1 & x & l2 & EL & EN & DX & GX & L1). cbn [Nat.add] in EN. subst n.
    assert (FS : firstn (List.length l1) (map relink l0) = map relink l1 /\ skipn (List.length l1) (map relink l0) = map relink (x :: l2)).
    { rewrite EL, map_app. rewrite <- (map_length relink l1). rewrite firstn_app, Nat.sub_diag, firstn_all, firstn_O, app_nil_r, skipn_app, Nat.sub_diag, skipn_all, skipn_O. auto. }
    destruct FS as [F1 F2]. destruct (shape_insert _ _ _ (List.length l1) SH) as (r' & SH'); [rewrite EL, app_length; lia|]. rewrite F1, F2 in SH'.
    assert (V0 : viewed s l0 = revs l0) by (unfold viewed; rewrite O, PC; auto). rewrite V0 in SO, OL.
    assert (RE : revs (map relink l1 ++ zero_slot :: map relink (x :: l2)) = revs l1 ++ 0 :: revs (x :: l2)) by (unfold revs; rewrite map_app; cbn [map sl_rev zero_slot]; f_equal; [apply revs_relink|f_equal; f_equal; apply revs_relink]).
    assert (R0 : revs l0 = revs l1 ++ revs (x :: l2)) by (rewrite EL; apply map_app).
    set (s1 := lgo (l_setp s (insert_at (l_pool s) (List.length l1))) t (LFill (List.length l1) rv (or_else r0 true))).
    assert (V1 : viewed s1 (map relink l1 ++ zero_slot :: map relink (x :: l2)) = revs l1 ++ rv :: revs (x :: l2)).
    { unfold viewed, s1. cbn [l_owner lgo l_setp]. rewrite O. cbn [l_pcs lgo]. rewrite Nat.eqb_refl. rewrite RE. rewrite <- (map_length sl_rev l1). apply upd_nth_app. }
    constructor; [auto|]. exists (map relink l1 ++ zero_slot :: map relink (x :: l2)), r'. split; [exact SH'|]. split; [rewrite <- F1, <- F2; apply all_live_ins; auto|]. split; [intros H; apply app_eq_nil in H; destruct H; discriminate|]. rewrite V1. split; [|split; [|split; [|split]]].
    + rewrite RE. rewrite R0 in LM. rewrite <- LM. clear. cbn [revs map]. generalize (map sl_rev l2) (sl_rev x) (revs l1). clear. intros b y a. rewrite !last_app_r by discriminate. auto.
    + apply sorted_le_ins; [rewrite <- R0; auto| |].
      * intros y Y. unfold revs in Y. apply in_map_iff in Y. destruct Y as (z & <- & Z). assert (sl_rev z < rv); [|lia]. apply L1; auto. apply A. rewrite EL. apply in_app_iff. auto.
      * intros y Y. rewrite R0 in SO. assert (S2 : StronglySorted Z.le (revs (x :: l2))) by (clear - SO; induction (revs l1) as [|z a IH]; auto; cbn [app] in SO; apply StronglySorted_inv in SO; tauto).
        cbn [revs map] in S2, Y. apply StronglySorted_inv in S2. destruct S2 as [_ S2]. rewrite Forall_forall in S2. destruct Y as [<-|Y]; [auto|]. specialize (S2 y Y). lia.
    + intros y Y. assert (Z := OL y Y). rewrite R0 in Z. rewrite in_app_iff in *. cbn [In]. tauto.
    + intros u i rv0 fn. unfold s1. destruct (Nat.eq_dec u t) as [->|N].
      * rewrite lgo_same. intros X. injection X as <- _ _. rewrite RE. rewrite app_nth2; unfold revs; rewrite map_length; [|lia]. rewrite Nat.sub_diag. auto.
      * rewrite lgo_other by auto. cbn [l_setp l_pcs]. intros X. assert (Bu := BE u). rewrite X in Bu. cbn [below] in Bu. destruct Bu as (_ & _ & Ou & _). congruence.
    + assert (LL : List.length (map relink l1 ++ zero_slot :: map relink (x :: l2)) = S (List.length l0)) by (rewrite EL, !app_length; cbn [List.length]; rewrite !map_length; cbn [List.length]; lia).
      rewrite LL. unfold s1. apply (below_others M s); auto.
      * intros u. assert (Bu := BE u). destruct (l_pcs s u); cbn [below] in *; auto. intuition lia.
      * cbn [below l_owner l_setp]. split; auto. split; [destruct MX as [[-> ->]|[-> ->]]; auto|]. split; auto. rewrite EL, app_length. cbn. lia.
  - (* LIns2 finds no place: impossible *) exfalso. destruct Bt as [RV [MX O]]. rewrite (shape_find _ _ _ _ SH) in Heqo. assert (N0 : (0 < List.length l0)%nat) by (destruct l0; [congruence|cbn; lia]).
    assert (X : sl_rev (nth (List.length l0 - 1) l0 zero_slot) < rv) by (apply (first_ge_none _ _ _ Heqo); [apply nth_In; lia|apply all_live_at; auto]).
    rewrite last_nth in LM. unfold revs in LM. rewrite map_length in LM. change 0 with (sl_rev zero_slot) in LM. rewrite map_nth in LM. lia.
  - (* LFill *) destruct Bt as (RV & -> & O & LT). assert (ZI := ZE t i rv true PC). assert (RI : sl_rev (nth i l0 zero_slot) = 0) by (unfold revs in ZI; change 0 with (sl_rev zero_slot) in ZI; rewrite map_nth in ZI; auto).
    assert (V0 : viewed s l0 = upd_nth i rv (revs l0)) by (unfold viewed; rewrite O, PC; auto). rewrite V0 in SO, OL.
    assert (RU : revs (upd_nth i (fill_slot rv (nth i l0 zero_slot)) l0) = upd_nth i rv (revs l0)) by (rewrite revs_upd; unfold fill_slot; cbn [sl_rev]; rewrite RI; auto).
    set (s1 := lgo _ _ _). assert (V1 : viewed s1 (upd_nth i (fill_slot rv (nth i l0 zero_slot)) l0) = upd_nth i rv (revs l0)).
    { unfold viewed, s1. cbn [l_owner lgo l_setp l_log]. rewrite O. cbn [l_pcs lgo]. rewrite Nat.eqb_refl. auto. }
    constructor; [auto|]. exists (upd_nth i (fill_slot rv (nth i l0 zero_slot)) l0), r. split; [apply shape_upd; [exact SH|lia]|]. split; [apply all_live_upd; auto; cbn; apply all_live_at; auto|].
    split; [intros H; apply (f_equal (@List.length slot)) in H; rewrite upd_nth_length in H; cbn in H; lia|]. rewrite V1. split; [|split; [auto|split; [|split]]].
    + rewrite RU. rewrite <- LM. rewrite !last_nth, upd_nth_length. apply nth_upd_other. unfold revs. rewrite map_length. lia.
    + intros y. cbn [s1 lgo l_done l_log l_setp]. rewrite in_app_iff. intros [Y|[Y|[<-|[]]]]; [apply OL; auto|apply OL; auto|].
      destruct (upd_nth_split i rv 0 (revs l0)) as (a & b & _ & _ & U); [unfold revs; rewrite map_length; lia|]. rewrite U. apply in_app_iff. right. left. auto.
    + intros u j rv0 fn. unfold s1. destruct (Nat.eq_dec u t) as [->|N]; [rewrite lgo_same; discriminate|]. rewrite lgo_other by auto. cbn [l_setp l_pcs l_log]. intros X. assert (Bu := BE u). rewrite X in Bu. cbn [below] in Bu. destruct Bu as (_ & _ & Ou & _). congruence.
    + rewrite upd_nth_length. unfold s1. apply (below_others M s); auto. cbn. auto.
  - (* LRet *) destruct Bt as [-> O]. apply K; [reflexivity|reflexivity|reflexivity|cbn; rewrite O, Nat.eqb_refl, B; auto|cbn; auto| |intros; discriminate|intros; rewrite PC; discriminate]. cbn. discriminate.
Qed.
Lemma linit_ins M rvs room : positions_ok rvs -> rvs <> [] -> last rvs 0 = M -> ins M rvs (linit rvs room).
Proof.
  intros [S P] NE LM. assert (R : revs (map stored_slot rvs) = rvs) by (unfold revs; rewrite map_map; cbn; apply map_id).
  constructor; [auto|]. exists (map stored_slot rvs), room. split; [apply linit_shape|]. split; [intros sl I; apply in_map_iff in I; destruct I as (x & <- & _); auto|].
  split; [destruct rvs; [congruence|discriminate]|]. cbn [viewed l_owner linit l_done l_pcs]. unfold viewed. cbn [l_owner linit]. rewrite R. split; auto. split; [|split; [|split]].
  - clear - S. induction S as [|x l S IH F]; constructor; auto. rewrite Forall_forall in *. intros y Y. specialize (F y Y). lia.
  - intros rv [I|[]]; auto.
  - intros t i rv fn X. discriminate X.
  - intros t. cbn. discriminate.
Qed.
Lemma ins_run M rvs room ls s : positions_ok rvs -> rvs <> [] -> last rvs 0 = M -> no_delete ls -> new_upto M ls -> lrun (linit rvs room) ls = Some s -> ins M rvs s.
Proof.
  intros PO NE LM ND NU E. refine (lrun_inv (fun l => (forall i, snd l <> CDel i) /\ (forall rv, snd l = CNew rv -> 0 < rv <= M)) (ins M rvs) _ ls _ (linit rvs room) s (linit_ins _ _ _ PO NE LM) E).
  - intros s0 l s1 [Q1 Q2] I. apply ins_step; auto.
  - intros [t c] I. cbn [snd]. split; [intros i ->; apply (ND t i); auto|intros rv ->; apply (NU t rv); auto].
Qed.
(** For every schedule of Sets, without Deletes, of keys not above the bucket's largest item: whenever no Set is between
    taking its slot and filling it, every item that was there and every item that was set is found. *)
Theorem C53_insert_partial rvs room ls s : positions_ok rvs -> rvs <> [] -> no_delete ls -> new_upto (last rvs 0) ls -> lrun (linit rvs room) ls = Some s ->
  no_half s -> forall rv, In rv rvs \/ In rv (l_done s) -> finds s rv.
Proof.
  intros PO NE ND NU E NH rv I. destruct (ins_run _ rvs room ls s PO NE eq_refl ND NU E) as [_ (l & r & SH & A & _ & _ & SO & OL & _)].
  assert (V : viewed s l = revs l). { unfold viewed. destruct (l_owner s) as [t|]; auto. destruct (l_pcs s t) eqn:PC; auto. exfalso. eapply NH. exact PC. }
  rewrite V in SO, OL. eapply finds_sorted; eauto.
Qed.
Theorem C38_get_finds_partial rvs room ls s rv : positions_ok rvs -> no_delete ls -> new_upto (last rvs 0) ls -> lrun (linit rvs room) ls = Some s ->
  no_half s -> In rv rvs -> finds s rv.
Proof. intros PO ND NU E NH I. eapply C53_insert_partial; eauto. destruct rvs; [contradiction|discriminate]. Qed.
(** While a Set is between these two steps, the items above its key are found all the same. *)
Lemma finds_above s l r rv i x : shape (l_pool s) l r -> all_live l -> StronglySorted Z.le (upd_nth i x (revs l)) -> (i < List.length l)%nat -> nth i (revs l) 0 = 0 -> 0 < x < rv -> In rv (upd_nth i x (revs l)) -> finds s rv.
Proof.
  intros SH A S HI ZI X I. set (p := l_pool s) in *. assert (N : p_n p = List.length l) by (eapply shape_n; eauto).
  assert (LR : List.length (revs l) = List.length l) by (unfold revs; apply map_length).
  assert (AT : forall j, (j < List.length l)%nat -> sl_rev (slot_at p j) = nth j (revs l) 0) by (intros j Hj; apply (revs_at _ _ _ _ SH Hj)).
  assert (SK : forall j, (j < List.length l)%nat -> skip_left (p_slots p) j = j). { intros j Hj. apply skip_left_self. change (nth j (p_slots p) zero_slot) with (slot_at p j). rewrite (shape_at _ _ _ _ SH Hj). apply all_live_at. auto. }
  assert (UI : nth i (upd_nth i x (revs l)) 0 = x) by (destruct (upd_nth_split i x 0 (revs l)) as (a & b & _ & LA & U); [lia|]; rewrite U, app_nth2 by lia; replace (i - List.length a)%nat with 0%nat by lia; auto).
  assert (SO : forall a b, (a <= b < List.length l)%nat -> nth a (upd_nth i x (revs l)) 0 <= nth b (upd_nth i x (revs l)) 0) by (intros a b H; apply sorted_le_nth; auto; rewrite upd_nth_length; lia).
  destruct (In_nth _ _ 0 I) as (j & Hj & Ej). rewrite upd_nth_length, LR in Hj. assert (NJ : j <> i) by (intros ->; lia).
  set (f := fun k => rv <=? sl_rev (slot_at p (skip_left (p_slots p) k))).
  assert (F : forall k, (k < List.length l)%nat -> f k = (rv <=? nth k (upd_nth i x (revs l)) 0)).
  { intros k Hk. unfold f. rewrite SK, AT by auto. destruct (Nat.eq_dec k i) as [->|NK]; [rewrite UI, ZI; lia|]. rewrite nth_upd_other by auto. auto. }
  destruct (sort_search_spec f (p_n p) 0 (p_n p)) as (X1 & Y & Z); try lia.
  { intros a b H1 H2 Fx. rewrite F in * by lia. pose proof (SO a b ltac:(lia)). lia. }
  unfold finds, emb_search. fold p. fold f. set (idx := sort_search (p_n p) 0 (p_n p) f) in *. assert (IJ : (idx <= j)%nat).
  { destruct (Nat.le_gt_cases idx j); auto. assert (G : f j = false) by (apply Y; lia). rewrite F, Ej in G by lia. lia. }
  assert (EI : sl_rev (slot_at p idx) = rv).
  { assert (G : f idx = true) by (apply Z; lia). rewrite F in G by lia. assert (NI : idx <> i) by (intros Q; rewrite Q, UI in G; lia). rewrite AT by lia. pose proof (SO idx j ltac:(lia)). rewrite nth_upd_other in * by auto. rewrite <- (nth_upd_other i j x 0 (revs l)) in Ej by auto. rewrite nth_upd_other in Ej by auto. rewrite nth_upd_other in H by auto. lia. }
  destruct (Nat.ltb_spec idx (p_n p)); [|lia]. rewrite EI, Z.eqb_refl. cbn [andb]. rewrite SK by lia. exists idx. auto.
Qed.
Theorem C38_above_partial rvs room ls s rv : positions_ok rvs -> rvs <> [] -> no_delete ls -> new_upto (last rvs 0) ls -> lrun (linit rvs room) ls = Some s ->
  (forall t i x fn, l_pcs s t = LFill i x fn -> x < rv) -> In rv rvs \/ In rv (l_done s) -> finds s rv.
Proof.
  intros PO NE ND NU E AB I. destruct (ins_run _ rvs room ls s PO NE eq_refl ND NU E) as [_ (l & r & SH & A & _ & _ & SO & OL & ZE & BE)].
  specialize (OL rv I). unfold viewed in SO, OL. destruct (l_owner s) as [t|] eqn:O; [|eapply finds_sorted; eauto]. destruct (l_pcs s t) eqn:PC; try (eapply finds_sorted; eauto; fail).
  pose proof (BE t) as B. rewrite PC in B. cbn [below] in B. apply (finds_above s l r rv i rv0); auto; [lia|eapply ZE; eauto|]. split; [lia|eapply AB; eauto].
Qed.
Print Assumptions C38_above_partial.
(** such a moment: 15 is being set into 10, 20, 30, and 20 and 30 are found *)
Example C38_above_case : exists s, lrun (linit [10;20;30] 5) half = Some s /\ l_pcs s 1%nat = LFill 1 15 true /\ finds s 20 /\ finds s 30.
Proof. eexists. split; [vm_compute; reflexivity|]. split; [reflexivity|]. split; [exists 2%nat|exists 3%nat]; vm_compute; auto. Qed.
(** In the same situation the lock is free whenever no call is running. *)
Theorem C39_insert_partial rvs room ls s : positions_ok rvs -> rvs <> [] -> no_delete ls -> new_upto (last rvs 0) ls -> lrun (linit rvs room) ls = Some s ->
  lquiet s -> l_owner s = None.
Proof.
  intros PO NE ND NU E Q. destruct (ins_run _ rvs room ls s PO NE eq_refl ND NU E) as [_ (l & r & SH & A & _ & _ & _ & _ & _ & BE)].
  destruct (l_owner s) as [t|] eqn:O; auto. exfalso. specialize (BE t). rewrite (Q t) in BE. cbn in BE. congruence.
Qed.

(** * C54: an item is stored once *)
(** Two goroutines that Set the same new key: the bucket holds one item for it, and after a Delete it is not found. *)
Definition stored_once : Prop := forall rvs room ls s, positions_ok rvs -> no_delete ls -> lrun (linit rvs room) ls = Some s -> lquiet s -> forall rv, In rv (l_done s) ->
  forall i s', emb_search (l_pool s) rv = Some i -> lstep s (0%nat, CDel i) = Some s' -> ~ finds s' rv.
Definition twins : list (nat * lcall) := ladder 1 1 (CNew 15) ++ ladder 2 1 (CNew 15) ++ go 1 4 ++ go 2 4.
Theorem C54_stored_once_refuted : ~ stored_once.
Proof.
  intros H. assert (L : llook (lrun (linit [10;20] 5) twins) = Some ([10; 15; 15; 20], None, false, [15; 15], [LIdle; LIdle; LIdle])) by (vm_compute; reflexivity).
  destruct (llook_inv _ _ L) as (s & E & X). injection X as _ _ _ X4 X5 X6 X7. assert (Q : lquiet s) by (apply (lquiet_small [10;20] 5 twins); auto; cbn [map]; congruence).
  assert (F : found (Some s) 15 = Some (Some 1%nat)) by (rewrite <- E; vm_compute; reflexivity). cbn [found] in F. injection F as F.
  assert (G : match lrun (linit [10;20] 5) (twins ++ [(0%nat, CDel 1)]) with Some s' => (emb_search (l_pool s') 15, sl_rev (slot_at (l_pool s') 2)) | None => (None, 0) end = (Some 2%nat, 15)) by (vm_compute; reflexivity).
  assert (RA : forall a s0 b, lrun s0 (a ++ b) = match lrun s0 a with Some s1 => lrun s1 b | None => None end) by (induction a as [|x a IH]; intros s0 b; cbn [app lrun]; auto; destruct (lstep s0 x); auto).
  rewrite RA, E in G. cbn [lrun] in G. destruct (lstep s (0%nat, CDel 1)) as [s'|] eqn:E'; [|discriminate G]. injection G as G1 G2.
  apply (H [10;20] 5%nat twins s ltac:(posok) (no_del_ok twins eq_refl) E Q 15 ltac:(rewrite <- X4; left; auto) 1%nat s' F E'). exists 2%nat. auto.
Qed.

(** Without Deletes, for every schedule and all keys: every Set stores exactly one item, and none is lost or overwritten.
    Whenever no Set is between taking its slot and filling it, the positions in the bucket are those at the start and
    those set since (in some order: C53_set_found_refuted). *)
Definition stored (s : lstate) : list Z := map sl_rev (firstn (p_n (l_pool s)) (p_slots (l_pool s))).
Definition counted (olds : list Z) (s : lstate) : Prop :=
  match l_owner s with
  | Some t => match l_pcs s t with LFill i _ _ => nth i (stored s) 0 = 0 /\ Permutation (stored s) (0 :: olds ++ l_done s) | _ => Permutation (stored s) (olds ++ l_done s) end
  | None => Permutation (stored s) (olds ++ l_done s)
  end.
Lemma stored_shape s l r : shape (l_pool s) l r -> stored s = revs l.
Proof. intros SH. unfold stored. rewrite (shape_live _ _ _ SH). auto. Qed.
Lemma counted_rest olds s : excl s -> (forall t i rv fn, l_owner s = Some t -> l_pcs s t <> LFill i rv fn) -> counted olds s -> Permutation (stored s) (olds ++ l_done s).
Proof. intros X H C. unfold counted in C. destruct (l_owner s) as [t|] eqn:O; auto. destruct (l_pcs s t) eqn:PC; auto. elim (H t i rv fn eq_refl PC). Qed.
Lemma counted_step olds s l s' : (forall i, snd l <> CDel i) -> excl s -> counted olds s -> lstep s l = Some s' -> counted olds s'.
Proof.
  intros ND [B (l0 & r & SH & R & A & IN) MN] C E. destruct l as [t c]. cbn [snd] in ND. assert (Mt := MN t).
  assert (K : forall s1 p, stored s1 = stored s -> l_pcs s1 = l_pcs s -> l_done s1 = l_done s -> (l_owner s1 = l_owner s \/ l_owner s = None \/ l_owner s = Some t) -> (forall u, l_owner s1 = Some u -> u <> t -> l_owner s = Some u) ->
    (forall i rv fn, p <> LFill i rv fn) -> (forall i rv fn, l_pcs s t <> LFill i rv fn) -> counted olds (lgo s1 t p)).
  { intros s1 p E1 E2 E3 E4 E6 E7 E8. unfold counted. change (stored (lgo s1 t p)) with (stored s1). cbn [lgo l_owner l_pcs l_done]. rewrite E1, E2, E3.
    unfold counted in C. destruct (l_owner s1) as [u|] eqn:O1.
    - destruct (Nat.eqb_spec u t) as [->|N].
      + assert (G : Permutation (stored s) (olds ++ l_done s)) by (destruct (l_owner s) as [v|] eqn:O; auto; assert (v = t) by (destruct E4 as [E4|[E4|E4]]; congruence); subst v; destruct (l_pcs s t) eqn:PC; auto; elim (E8 i rv fn); auto). destruct p; auto. elim (E7 i rv fn). auto.
      + rewrite (E6 u eq_refl N) in C. auto.
    - destruct (l_owner s) as [v|] eqn:O; auto. assert (v = t) by (destruct E4 as [E4|[E4|E4]]; congruence). subst v. destruct (l_pcs s t) eqn:PC; auto. elim (E8 i rv fn). auto. }
  assert (HELD : l_owner s = Some t -> (forall i rv fn, l_pcs s t <> LFill i rv fn) -> Permutation (stored s) (olds ++ l_done s)).
  { intros O N. unfold counted in C. rewrite O in C. destruct (l_pcs s t) eqn:PC; auto. elim (N i rv fn eq_refl). }
  lsteps E PC; rewrite PC in Mt; cbn [mine] in Mt; try contradiction; try (elim (ND i); reflexivity);
    try (apply K; [reflexivity|reflexivity|reflexivity|auto| |intros; discriminate|intros; rewrite PC; discriminate]; cbn [l_owner l_seto]; intros u; try congruence; auto; fail).
  - (* LUpd *) exact C.
  - (* LRead *) destruct (decide_live (l_pool s) l0 r rv m r0 SH A) as [D|[D|D]]; rewrite D; (apply K; [reflexivity|reflexivity|reflexivity|auto|auto|intros; discriminate|intros; rewrite PC; discriminate]).
  - (* LApp2 *) rewrite (shape_len _ _ _ SH), (shape_cap _ _ _ SH) in Heqb. destruct r as [|r]; [lia|]. assert (P := HELD Mt ltac:(intros; rewrite PC; discriminate)).
    unfold counted. set (s1 := lgo _ _ _). assert (SH1 := shape_append _ _ _ SH : shape (l_pool s1) (l0 ++ [zero_slot]) r). rewrite (stored_shape _ _ _ SH1). rewrite (stored_shape _ _ _ SH) in P. unfold s1. cbn [lgo l_owner l_setp l_pcs l_done].
    rewrite Mt, Nat.eqb_refl. rewrite (shape_n _ _ _ SH). unfold revs. rewrite map_app. cbn [map sl_rev zero_slot]. split.
    + rewrite <- (map_length sl_rev l0). rewrite app_nth2 by lia. rewrite Nat.sub_diag. auto.
    + apply Permutation_trans with (0 :: revs l0); [symmetry; apply Permutation_cons_append|constructor; auto].
  - (* LExp2 *) destruct (shape_expand _ _ _ SH) as (r' & SH'). apply K; [|reflexivity|reflexivity|auto|auto|intros; discriminate|intros; rewrite PC; discriminate].
    rewrite (stored_shape _ _ _ SH). apply (stored_shape _ l0 (S r')). exact SH'.
  - (* LIns2 *) rewrite (shape_find _ _ _ _ SH) in Heqo. pose proof (first_ge_lt _ _ _ Heqo) as LT. destruct (shape_insert _ _ _ n SH) as (r' & SH'); [lia|]. assert (P := HELD Mt ltac:(intros; rewrite PC; discriminate)).
    unfold counted. set (s1 := lgo _ _ _). rewrite (stored_shape s1 _ _ SH'). rewrite (stored_shape _ _ _ SH) in P. unfold s1. cbn [lgo l_owner l_setp l_pcs l_done]. rewrite Mt, Nat.eqb_refl.
    unfold revs. rewrite map_app. cbn [map sl_rev zero_slot]. split.
    + rewrite app_nth2; rewrite map_length, firstn_length, map_length; [|lia]. replace (n - Nat.min n (List.length l0))%nat with 0%nat by lia. auto.
    + apply Permutation_trans with (0 :: revs l0); [|constructor; auto]. rewrite <- (revs_relink l0). unfold revs at 1. rewrite <- (firstn_skipn n (map relink l0)) at 3. rewrite map_app. symmetry. apply Permutation_middle.
  - (* LFill *) assert (It := IN t). rewrite PC in It. cbn [inside] in It. assert (C' := C). unfold counted in C'. rewrite Mt, PC in C'. destruct C' as [Z0 P]. rewrite (stored_shape _ _ _ SH) in Z0, P.
    assert (RI : sl_rev (nth i l0 zero_slot) = 0) by (unfold revs in Z0; change 0 with (sl_rev zero_slot) in Z0; rewrite map_nth in Z0; auto).
    unfold counted. set (s1 := lgo _ _ _). assert (SH1 : shape (l_pool s1) (upd_nth i (fill_slot rv (nth i l0 zero_slot)) l0) r) by (apply shape_upd; [exact SH|auto]). rewrite (stored_shape _ _ _ SH1). unfold s1. cbn [lgo l_owner l_setp l_log l_pcs l_done]. rewrite Mt, Nat.eqb_refl.
    rewrite revs_upd. unfold fill_slot. cbn [sl_rev]. rewrite RI. cbn [Z.eqb]. destruct (upd_nth_split i rv 0 (revs l0)) as (a & b & EL & LA & U); [unfold revs; rewrite map_length; auto|]. rewrite U.
    assert (Y : nth i (revs l0) 0 = 0) by auto. rewrite EL in P. rewrite Z0 in P. apply Permutation_sym, Permutation_cons_app_inv in P.
    rewrite app_assoc. apply Permutation_trans with (rv :: a ++ b); [symmetry; apply Permutation_middle|]. apply Permutation_trans with (rv :: olds ++ l_done s); [constructor; symmetry; auto|apply Permutation_cons_append].
  - (* LRet *) assert (P := HELD Mt ltac:(intros; rewrite PC; discriminate)). destruct fn; apply K; try reflexivity; auto; try (intros; discriminate); try (intros; rewrite PC; discriminate).
Qed.
Lemma counted_run rvs room ls s : (1 <= List.length rvs + room)%nat -> no_delete ls -> lrun (linit rvs room) ls = Some s -> excl s /\ counted rvs s.
Proof.
  intros R D E. refine (lrun_inv (fun l => forall i, snd l <> CDel i) (fun s => excl s /\ counted rvs s) _ ls _ (linit rvs room) s _ E).
  - intros s0 l s1 Q [I J] E1. split; [eapply excl_step; eauto|eapply counted_step; eauto].
  - intros [t c] I i H. cbn [snd] in H. subst. apply (D t i). auto.
  - split; [apply linit_excl; auto|]. unfold counted. cbn [linit l_owner l_done]. rewrite (stored_shape _ _ _ (linit_shape rvs room)). unfold revs. rewrite map_map. cbn. rewrite map_id, app_nil_r. auto.
Qed.
Theorem C54_one_item_each rvs room ls s : (1 <= List.length rvs + room)%nat -> no_delete ls -> lrun (linit rvs room) ls = Some s -> no_half s ->
  Permutation (stored s) (rvs ++ l_done s).
Proof. intros R D E N. destruct (counted_run _ _ _ _ R D E) as [X C]. apply counted_rest; auto. Qed.
(** So if the Sets that stored an item were of different keys, none of them in the bucket at the start, a Delete of an
    item makes it absent, unless it is the first of the bucket (C22). *)
Theorem C54_stored_once_partial rvs room ls s t : (1 <= List.length rvs + room)%nat -> no_delete ls -> lrun (linit rvs room) ls = Some s -> no_half s -> l_pcs s t = LIdle ->
  NoDup (rvs ++ l_done s) -> forall rv, hd 0 (stored s) <> rv ->
  forall i s', emb_search (l_pool s) rv = Some i -> lstep s (t, CDel i) = Some s' -> ~ finds s' rv.
Proof.
  intros R D E NH TI ND rv HD i s' F E1 (j & F' & EJ). destruct (counted_run _ _ _ _ R D E) as [X C]. assert (P := counted_rest _ _ X (fun t i rv fn _ => NH t i rv fn) C).
  destruct X as [_ (l & r & SH & _ & A & _) _]. rewrite (stored_shape _ _ _ SH) in P, HD. apply (Permutation_NoDup (Permutation_sym P)) in ND. clear P C.
  assert (AT : forall k, (k < List.length l)%nat -> sl_rev (slot_at (l_pool s) k) = nth k (revs l) 0) by (intros k Hk; apply (revs_at _ _ _ _ SH Hk)).
  assert (LR : List.length (revs l) = List.length l) by apply map_length.
  unfold lstep in E1. rewrite TI in E1. destruct (Nat.ltb_spec i (p_n (l_pool s))) as [LT|]; [|discriminate E1]. injection E1 as <-. rewrite (shape_n _ _ _ SH) in LT. cbn [l_setp l_pool] in F', EJ.
  assert (SH' := shape_upd _ _ _ i set_sdel SH LT). set (p' := upd_slot (l_pool s) i set_sdel) in *.
  assert (RV' : forall k, (k < List.length l)%nat -> sl_rev (slot_at p' k) = nth k (revs l) 0).
  { intros k Hk. rewrite (shape_at _ _ _ _ SH') by (rewrite upd_nth_length; auto). unfold revs. change 0 with (sl_rev zero_slot). rewrite map_nth. destruct (Nat.eq_dec k i) as [->|N]; [|rewrite nth_upd_other by auto; auto].
    destruct (upd_nth_split i (set_sdel (nth i l zero_slot)) zero_slot l LT) as (a & b & _ & LA & U). rewrite U, app_nth2 by lia. replace (i - List.length a)%nat with 0%nat by lia. auto. }
  assert (DI : sl_del (slot_at p' i) = true).
  { rewrite (shape_at _ _ _ _ SH') by (rewrite upd_nth_length; auto). destruct (upd_nth_split i (set_sdel (nth i l zero_slot)) zero_slot l LT) as (a & b & _ & LA & U). rewrite U, app_nth2 by lia. replace (i - List.length a)%nat with 0%nat by lia. auto. }
  assert (UNI : forall a b, (a < List.length l)%nat -> (b < List.length l)%nat -> nth a (revs l) 0 = rv -> nth b (revs l) 0 = rv -> a = b).
  { intros a b Ha Hb Ea Eb. apply (proj1 (NoDup_nth (revs l) 0) ND); lia. }
  assert (FI : (i < List.length l)%nat /\ nth i (revs l) 0 = rv).
  { split; auto. unfold emb_search in F. set (idx := sort_search _ _ _ _) in F. rewrite (shape_n _ _ _ SH) in F. destruct (Nat.ltb_spec idx (List.length l)) as [LX|]; [|discriminate F]. cbn [andb] in F. destruct (Z.eqb_spec (sl_rev (slot_at (l_pool s) idx)) rv) as [EX|]; [|discriminate F]. injection F as F.
    rewrite skip_left_self in F; [rewrite F in EX; rewrite <- AT; auto|]. change (nth idx (p_slots (l_pool s)) zero_slot) with (slot_at (l_pool s) idx). rewrite (shape_at _ _ _ _ SH LX). apply all_live_at. auto. }
  destruct FI as [_ FI]. assert (I0 : (0 < i)%nat). { destruct i; [|lia]. exfalso. apply HD. rewrite <- FI. destruct (revs l); auto. }
  unfold emb_search in F'. set (idx := sort_search _ _ _ _) in F'. rewrite (shape_n _ _ _ SH'), upd_nth_length in F'. destruct (Nat.ltb_spec idx (List.length l)) as [LX|]; [|discriminate F']. cbn [andb] in F'. destruct (Z.eqb_spec (sl_rev (slot_at p' idx)) rv) as [EX|]; [|discriminate F']. injection F' as F'.
  rewrite RV' in EX by auto. assert (HI : idx = i) by (apply UNI; auto). rewrite HI in F'. pose proof (skip_left_del (p_slots p') i DI I0) as H0. change (skip_left (p_slots p') i = j) in F'. rewrite F' in H0. rewrite RV' in EJ by lia. assert (j = i) by (apply UNI; auto; lia). lia.
Qed.

(** * The hypotheses are met *)
(** Two goroutines set 15 and 12 below the largest item 20, with the steps interleaved; the bucket is full at the start. *)
Definition two_inserts : list (nat * lcall) := ladder 1 1 (CNew 15) ++ ladder 2 1 (CNew 12) ++ go 1 7 ++ go 2 7.
Example C53_case : positions_ok [10;20] /\ no_delete two_inserts /\ new_upto (last [10;20] 0) two_inserts /\
  exists s, lrun (linit [10;20] 0) two_inserts = Some s /\ lquiet s /\ no_half s /\ l_done s = [15; 12].
Proof.
  split; [posok|]. split; [apply no_del_ok; reflexivity|]. split.
  - intros t rv I. cbn in I. repeat (destruct I as [I|I]; [try discriminate I; injection I as <- <-; cbn; lia|]). contradiction.
  - assert (L : llook (lrun (linit [10;20] 0) two_inserts) = Some ([10; 12; 15; 20], None, false, [15; 12], [LIdle; LIdle; LIdle])) by (vm_compute; reflexivity).
    destruct (llook_inv _ _ L) as (s & E & X). injection X as _ _ _ X4 X5 X6 X7. exists s. split; auto.
    assert (Q : lquiet s) by (apply (lquiet_small [10;20] 0 two_inserts); auto; cbn [map]; congruence). split; auto. split; [|auto]. intros t i rv fn. rewrite Q. discriminate.
Qed.
Definition lidleb (p : lpc) : bool := match p with LIdle => true | _ => false end.
Fixpoint lserialb (k : nat) (s : lstate) (ls : list (nat * lcall)) : bool :=
  match ls with
  | [] => true
  | l :: ls' => (fst l <? k)%nat && forallb (fun u => (u =? fst l)%nat || lidleb (l_pcs s u)) (seq 0 k) && match lstep s l with Some s' => lserialb k s' ls' | None => true end
  end.
Lemma lserialb_ok k : forall ls s, (forall u, (k <= u)%nat -> l_pcs s u = LIdle) -> lserialb k s ls = true -> lserial s ls.
Proof.
  induction ls as [|[t w] ls IH]; intros s O H; cbn [lserialb lserial fst] in *; auto. apply andb_prop in H. destruct H as [H H3]. apply andb_prop in H. destruct H as [H1 H2]. apply Nat.ltb_lt in H1. rewrite forallb_forall in H2. split.
  - intros u N. destruct (Nat.le_gt_cases k u); auto. specialize (H2 u). rewrite in_seq in H2. assert (X : (u =? t)%nat || lidleb (l_pcs s u) = true) by (apply H2; lia). destruct (Nat.eqb_spec u t); [contradiction|]. cbn [orb] in X. destruct (l_pcs s u); try discriminate X. auto.
  - destruct (lstep s (t, w)) as [s'|] eqn:E; auto. apply IH; auto. intros u Hu. rewrite (lstep_other _ _ _ _ _ E); [auto|lia].
Qed.
(** one after another: Delete of 20, Set of 25 (reuses its slot), Set of 50 (appended, the pool is expanded), Set of a present key *)
Definition four_calls : list (nat * lcall) := [(0%nat, CDel 1)] ++ ladder 1 5 (CNew 25) ++ ladder 2 8 (CNew 50) ++ ladder 0 2 CUpd.
Example C39_sequential_case : lserial (linit [10;20;30;40] 0) four_calls /\
  llook (lrun (linit [10;20;30;40] 0) four_calls) = Some ([10; 25; 30; 40; 50], None, false, [25; 50], [LIdle; LIdle; LIdle]).
Proof. split; [|vm_compute; reflexivity]. apply (lserialb_ok 3); [auto|vm_compute; reflexivity]. Qed.
(** the leaked lock of C39_lock_released_refuted meets the hypotheses of C39_leak_is_permanent *)
Example C39_leak_case : exists s, lquiet s /\ l_owner s = Some 2%nat.
Proof. destruct leaking_run as (s & _ & Q & O & _). eauto. Qed.

(** two goroutines append 50 and 30 (C53: in the wrong order), a third sets 15: one item each; 15 is found, is not the
    first, and after its Delete it is not found *)
Definition three_sets : list (nat * lcall) := unsorting ++ ladder 1 5 (CNew 15).
Example C54_case : no_delete three_sets /\ exists s s', lrun (linit [10;20] 5) three_sets = Some s /\ no_half s /\ l_pcs s 0%nat = LIdle /\ NoDup ([10;20] ++ l_done s) /\
  stored s = [10; 15; 20; 50; 30] /\ emb_search (l_pool s) 15 = Some 1%nat /\ lstep s (0%nat, CDel 1) = Some s' /\ emb_search (l_pool s') 15 = None.
Proof.
  split; [apply no_del_ok; reflexivity|].
  assert (L : llook (lrun (linit [10;20] 5) three_sets) = Some ([10; 15; 20; 50; 30], None, false, [50; 30; 15], [LIdle; LIdle; LIdle])) by (vm_compute; reflexivity).
  assert (F : match lrun (linit [10;20] 5) three_sets with Some s => (emb_search (l_pool s) 15, match lstep s (0%nat, CDel 1) with Some s' => Some (emb_search (l_pool s') 15) | None => None end) | None => (None, None) end = (Some 1%nat, Some None)) by (vm_compute; reflexivity).
  destruct (llook_inv _ _ L) as (s & E & X). injection X as X1 _ _ X4 X5 X6 X7. rewrite E in F. destruct (lstep s (0%nat, CDel 1)) as [s'|] eqn:E1; [|discriminate F]. injection F as F1 F2.
  assert (Q : lquiet s) by (apply (lquiet_small [10;20] 5 three_sets); auto; cbn [map]; congruence).
  exists s, s'. split; auto. split; [intros t i rv fn; rewrite Q; discriminate|]. split; [apply Q|]. split; [rewrite <- X4; repeat constructor; cbn; lia|]. auto.
Qed.
