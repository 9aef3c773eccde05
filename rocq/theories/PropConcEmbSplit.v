(** C73: concurrent Sets on an embedded map whose buckets are split meanwhile. The model is ConcEmbSplit.v. *)
From Verif Require Import Base BaseProofs Bucket Util UtilProofs EmbModel EmbPool ConcEmb PropConcEmb PropConcApp ConcEmbSplit.
From Coq Require Import PeanoNat Sorted.
Local Open Scope list_scope.
Local Open Scope Z_scope.

(** * Vocabulary *)
(** the bounds of the buckets of an empty map *)
Definition bounds_ok (los : list Z) : Prop := StronglySorted Z.lt los /\ hd_error los = Some 0.
Definition set_pos (ls : list (nat * mcall)) : Prop := forall t rv, In (t, MSet rv) ls -> 0 < rv.
(** no call is running *)
Definition mquiet (s : mstate) : Prop := forall t, m_at s t = None.
(** the key of a running Set that has not yet filled its slot, and the bucket it was given *)
Definition running (s : mstate) (t : nat) (lo rv : Z) : Prop :=
  m_at s t = Some lo /\ exists x, bucket_at (m_bs s) lo = Some x /\ key_of (l_pcs x t) = Some rv.
(** the keys set so far that belong to a bucket *)
Definition in_bucket (s : mstate) (lo y : Z) : Prop := In y (m_done s) /\ locate (m_bs s) y = Some lo.
(** a running Set's key still belongs to the bucket it was given *)
Definition placed (s : mstate) : Prop := forall t lo rv, running s t lo rv -> locate (m_bs s) rv = Some lo.
(** a Set of a key above all keys of its bucket is the only one in this bucket *)
Definition tops (s : mstate) : Prop := forall t lo rv, running s t lo rv -> (forall y, in_bucket s lo y -> y < rv) -> forall u, u <> t -> m_at s u <> Some lo.
(** in every state of the run *)
Fixpoint always (max : Z) (P : mstate -> Prop) (s : mstate) (ls : list (nat * mcall)) : Prop :=
  P s /\ match ls with [] => True | l :: ls' => match mstep max s l with Some s' => always max P s' ls' | None => True end end.
(** no Set is between taking its slot and filling it *)
Definition none_half (s : mstate) : Prop := forall lo x, In (lo, x) (m_bs s) -> no_half x.

(** every Set starts while no other call runs, or is of a key below another key of its bucket *)
Fixpoint below_keys (max : Z) (s : mstate) (ls : list (nat * mcall)) : Prop :=
  match ls with
  | [] => True
  | (t, c) :: ls' => (forall rv, c = MSet rv -> mquiet s \/ exists lo y, locate (m_bs s) rv = Some lo /\ in_bucket s lo y /\ rv < y) /\
                     match mstep max s (t, c) with Some s' => below_keys max s' ls' | None => True end
  end.

(** * What is false *)
Definition mlook (o : option mstate) :=
  match o with
  | Some s => Some (map (fun b => (fst b, map sl_rev (firstn (p_n (l_pool (snd b))) (p_slots (l_pool (snd b)))), l_owner (snd b))) (m_bs s), m_done s, map (m_at s) [0;1;2]%nat)
  | None => None
  end.
Definition whole (t : nat) (rv : Z) : list (nat * mcall) := (t, MSet rv) :: repeat (t, MGo) 6.
Definition gos (t n : nat) : list (nat * mcall) := repeat (t, MGo) n.
Definition four_keys : list (nat * mcall) := List.concat (map (whole 0) [2^61; 2^62; 2^63 + 2^61; 2^63 + 2^62]).
(** four keys, one after another; then goroutine 1 sets a fifth key, which splits the bucket at 2^63, while goroutine 2, with a
    key of the upper half, waits for the lock *)
Definition beside_split : list (nat * mcall) :=
  four_keys ++ (1%nat, MSet (2^62 + 5)) :: gos 1 2 ++ (2%nat, MSet (2^63 + 7)) :: gos 2 1 ++ gos 1 4 ++ gos 2 11.
Lemma mlook_inv o x : mlook o = Some x -> exists s, o = Some s /\
  x = (map (fun b => (fst b, map sl_rev (firstn (p_n (l_pool (snd b))) (p_slots (l_pool (snd b)))), l_owner (snd b))) (m_bs s), m_done s, map (m_at s) [0;1;2]%nat).
Proof. destruct o as [s|]; cbn [mlook]; intros E; [|discriminate]. injection E as <-. eauto. Qed.
Lemma mstep_at max s t c s' u : mstep max s (t, c) = Some s' -> u <> t -> m_at s' u = m_at s u.
Proof.
  intros E N. unfold mstep in E. assert (A : forall o, at_ (m_at s) t o u = m_at s u) by (intros o; unfold at_; destruct (Nat.eqb_spec u t); congruence).
  destruct (m_at s t) as [lo|].
  - destruct (bucket_at (m_bs s) lo) as [x|]; [|discriminate E]. destruct (m_todo s t); [injection E as <-; reflexivity|].
    destruct (l_pcs x t); try (destruct (l_owner x)); destruct (lstep x (t, CGo)); try discriminate E; injection E as <-; cbn [m_at]; auto.
  - destruct c; [|discriminate E]. destruct (locate (m_bs s) rv) as [lo|]; [|discriminate E]. destruct (bucket_at (m_bs s) lo) as [x|]; [|discriminate E]. destruct (lstep x _); [|discriminate E]. injection E as <-. cbn [m_at]. auto.
Qed.
Lemma mrun_at max ls : forall s s' u, mrun max s ls = Some s' -> (forall l, In l ls -> fst l <> u) -> m_at s' u = m_at s u.
Proof.
  induction ls as [|[t c] ls IH]; intros s s' u E N; cbn [mrun] in E; [injection E as <-; auto|]. destruct (mstep max s (t, c)) as [s1|] eqn:E1; [|discriminate E].
  rewrite (IH s1 s' u E) by (intros l I; apply N; right; auto). apply (mstep_at max s t c); auto. intros ->. apply (N (t, c)); [left; auto|auto].
Qed.
Lemma hits_finds x rv : hits x rv = true <-> finds x rv.
Proof.
  unfold hits, finds. destruct (emb_search (l_pool x) rv) as [i|].
  - rewrite Z.eqb_eq. split; [eauto|]. intros (j & E & H). injection E as <-. auto.
  - split; [discriminate|]. intros (j & E & _). discriminate E.
Qed.
(** deciders, for schedules of the first k goroutines *)
Definition key_at (s : mstate) (t : nat) : option (Z * Z) :=
  match m_at s t with
  | Some lo => match bucket_at (m_bs s) lo with Some x => match key_of (l_pcs x t) with Some rv => Some (lo, rv) | None => None end | None => None end
  | None => None
  end.
Lemma key_at_ok s t lo rv : running s t lo rv -> key_at s t = Some (lo, rv).
Proof. intros (A & x & B & C). unfold key_at. rewrite A, B, C. auto. Qed.
Definition is_at (o : option Z) (lo : Z) : bool := match o with Some x => x =? lo | None => false end.
Definition topsb (k : nat) (s : mstate) : bool :=
  forallb (fun t => match key_at s t with
                    | Some (lo, rv) => negb (forallb (fun y => negb (is_at (locate (m_bs s) y) lo) || (y <? rv)) (m_done s)) || forallb (fun u => (u =? t)%nat || negb (is_at (m_at s u) lo)) (seq 0 k)
                    | None => true
                    end) (seq 0 k).
Definition placedb (k : nat) (s : mstate) : bool :=
  forallb (fun t => match key_at s t with Some (lo, rv) => is_at (locate (m_bs s) rv) lo | None => true end) (seq 0 k).
Fixpoint alwaysb (k : nat) (max : Z) (P : mstate -> bool) (s : mstate) (ls : list (nat * mcall)) : bool :=
  P s && match ls with [] => true | l :: ls' => (fst l <? k)%nat && match mstep max s l with Some s' => alwaysb k max P s' ls' | None => true end end.
Lemma is_at_ok o lo : is_at o lo = true <-> o = Some lo.
Proof. destruct o as [x|]; cbn [is_at]; [rewrite Z.eqb_eq; split; congruence|split; discriminate]. Qed.
Lemma topsb_ok k s : (forall u, (k <= u)%nat -> m_at s u = None) -> topsb k s = true -> tops s.
Proof.
  intros O H t lo rv R LT u N A. unfold topsb in H. rewrite forallb_forall in H. assert (Lt : (t < k)%nat). { destruct (Nat.le_gt_cases k t) as [G|]; auto. destruct R as [R _]. rewrite (O t G) in R. discriminate R. }
  assert (Lu : (u < k)%nat). { destruct (Nat.le_gt_cases k u) as [G|]; auto. rewrite (O u G) in A. discriminate A. }
  specialize (H t). rewrite in_seq, (key_at_ok _ _ _ _ R) in H. specialize (H ltac:(lia)). apply orb_prop in H. destruct H as [H|H].
  - apply negb_true_iff in H. assert (X : forallb (fun y => negb (is_at (locate (m_bs s) y) lo) || (y <? rv)) (m_done s) = true); [|congruence].
    apply forallb_forall. intros y Y. destruct (is_at (locate (m_bs s) y) lo) eqn:L; auto. cbn [negb orb]. apply Z.ltb_lt, LT. split; auto. apply is_at_ok. auto.
  - rewrite forallb_forall in H. specialize (H u). rewrite in_seq in H. specialize (H ltac:(lia)). destruct (Nat.eqb_spec u t); [contradiction|]. cbn [orb] in H. apply negb_true_iff in H. assert (is_at (m_at s u) lo = true) by (apply is_at_ok; auto). congruence.
Qed.
Lemma placedb_ok k s : (forall u, (k <= u)%nat -> m_at s u = None) -> placedb k s = true -> placed s.
Proof.
  intros O H t lo rv R. unfold placedb in H. rewrite forallb_forall in H. assert (Lt : (t < k)%nat). { destruct (Nat.le_gt_cases k t) as [G|]; auto. destruct R as [R _]. rewrite (O t G) in R. discriminate R. }
  specialize (H t). rewrite in_seq, (key_at_ok _ _ _ _ R) in H. apply is_at_ok, H. lia.
Qed.
Lemma alwaysb_ok k max (Pb : mstate -> bool) (P : mstate -> Prop) : (forall s, (forall u, (k <= u)%nat -> m_at s u = None) -> Pb s = true -> P s) ->
  forall ls s, (forall u, (k <= u)%nat -> m_at s u = None) -> alwaysb k max Pb s ls = true -> always max P s ls.
Proof.
  intros PP. induction ls as [|[t c] ls IH]; intros s O H; cbn [alwaysb always] in *; apply andb_prop in H; destruct H as [H H2]; (split; [auto|]); auto.
  apply andb_prop in H2. destruct H2 as [H1 H2]. cbn [fst] in H1. apply Nat.ltb_lt in H1. destruct (mstep max s (t, c)) as [s1|] eqn:E; auto. apply IH; auto. intros u Hu. rewrite (mstep_at _ _ _ _ _ _ E); [auto|lia].
Qed.
Lemma quiet_ok max los room ls s : mrun max (minit los room) ls = Some s -> (forall l, In l ls -> (fst l < 3)%nat) -> map (m_at s) [0;1;2]%nat = [None; None; None] -> mquiet s.
Proof.
  intros E L M t. cbn [map] in M. injection M as M0 M1 M2. destruct t as [|[|[|t]]]; auto. rewrite (mrun_at _ _ _ _ _ E); [reflexivity|]. intros l I. specialize (L l I). lia.
Qed.
Lemma set_posb_ok ls : forallb (fun l => match snd l with MSet rv => 0 <? rv | MGo => true end) ls = true -> set_pos ls.
Proof. intros H t rv I. rewrite forallb_forall in H. specialize (H _ I). cbn in H. lia. Qed.
Lemma small_ok ls : forallb (fun l => (fst l <? 3)%nat) ls = true -> forall l : nat * mcall, In l ls -> (fst l < 3)%nat.
Proof. intros H l I. rewrite forallb_forall in H. apply Nat.ltb_lt, H, I. Qed.
Lemma zero_ok : bounds_ok [0].
Proof. split; [repeat constructor|reflexivity]. Qed.

(** After concurrent Sets of new keys have returned, a Get finds each of them (even if every Set of a key above the others of
    its bucket starts alone, so that C53 would hold without the split). *)
Definition sets_found : Prop := forall los room max ls s rv, bounds_ok los -> (0 < room)%nat -> set_pos ls -> below_keys max (minit los room) ls ->
  mrun max (minit los room) ls = Some s -> mquiet s -> In rv (m_done s) -> mfinds s rv.
(** ... and the locks are free. *)
Definition locks_free : Prop := forall los room max ls s lo x, bounds_ok los -> (0 < room)%nat -> set_pos ls -> below_keys max (minit los room) ls ->
  mrun max (minit los room) ls = Some s -> mquiet s -> In (lo, x) (m_bs s) -> l_owner x = None.
Fixpoint below_keysb (k : nat) (max : Z) (s : mstate) (ls : list (nat * mcall)) : bool :=
  match ls with
  | [] => true
  | (t, c) :: ls' => (t <? k)%nat &&
      match c with
      | MSet rv => forallb (fun u => match m_at s u with None => true | Some _ => false end) (seq 0 k) ||
                   match locate (m_bs s) rv with Some lo => existsb (fun y => is_at (locate (m_bs s) y) lo && (rv <? y)) (m_done s) | None => false end
      | MGo => true
      end && match mstep max s (t, c) with Some s' => below_keysb k max s' ls' | None => true end
  end.
Lemma below_keysb_ok k max : forall ls s, (forall u, (k <= u)%nat -> m_at s u = None) -> below_keysb k max s ls = true -> below_keys max s ls.
Proof.
  induction ls as [|[t c] ls IH]; intros s O H; cbn [below_keysb below_keys] in *; auto. apply andb_prop in H. destruct H as [H H2]. apply andb_prop in H. destruct H as [H1 H]. apply Nat.ltb_lt in H1. split.
  - intros rv ->. apply orb_prop in H. destruct H as [H|H].
    + left. intros u. destruct (Nat.le_gt_cases k u) as [G|G]; auto. rewrite forallb_forall in H. specialize (H u). rewrite in_seq in H. specialize (H ltac:(lia)). destruct (m_at s u); [discriminate H|auto].
    + right. destruct (locate (m_bs s) rv) as [lo|]; [|discriminate H]. apply existsb_exists in H. destruct H as (y & Y & H). apply andb_prop in H. destruct H as [H H3]. exists lo, y. apply is_at_ok in H. split; auto. split; [split; auto|lia].
  - destruct (mstep max s (t, c)) as [s1|] eqn:E; auto. apply IH; auto. intros u Hu. rewrite (mstep_at _ _ _ _ _ _ E); [auto|lia].
Qed.
Lemma beside_tops : below_keys 4 (minit [0] 6) beside_split.
Proof. apply (below_keysb_ok 3); [reflexivity|vm_compute; reflexivity]. Qed.
Lemma beside_look : mlook (mrun 4 (minit [0] 6) beside_split) =
  Some ([(0, [2^61; 2^62; 2^62 + 5; 2^63 + 7], Some 2%nat); (2^63, [2^63 + 2^61; 2^63 + 2^62], None)],
        [2^61; 2^62; 2^63 + 2^61; 2^63 + 2^62; 2^62 + 5; 2^63 + 7], [None; None; None]).
Proof. vm_compute. reflexivity. Qed.
Definition mhits (o : option mstate) (rv : Z) : option bool :=
  match o with Some s => match locate (m_bs s) rv with Some lo => match bucket_at (m_bs s) lo with Some x => Some (hits x rv) | None => None end | None => None end | None => None end.
Lemma mhits_no s rv : mhits (Some s) rv = Some false -> ~ mfinds s rv.
Proof.
  cbn [mhits]. intros H (lo & x & L & B & F). rewrite L, B in H. apply hits_finds in F. congruence.
Qed.
Theorem C73_sets_found_refuted : ~ sets_found.
Proof.
  intros H. destruct (mlook_inv _ _ beside_look) as (s & E & X). injection X as X1 X2 X3.
  assert (F : mhits (mrun 4 (minit [0] 6) beside_split) (2^63 + 7) = Some false) by (vm_compute; reflexivity). rewrite E in F. apply (mhits_no _ _ F).
  apply (H [0] 6%nat 4 beside_split s (2^63 + 7)); auto using zero_ok, beside_tops; [lia|apply set_posb_ok; vm_compute; reflexivity| |].
  - apply (quiet_ok 4 [0] 6 beside_split); [auto|apply small_ok; vm_compute; reflexivity|cbn [map]; congruence].
  - rewrite <- X2. cbn. tauto.
Qed.
Print Assumptions C73_sets_found_refuted.
Theorem C73_locks_free_refuted : ~ locks_free.
Proof.
  intros H. destruct (mlook_inv _ _ beside_look) as (s & E & X). injection X as X1 X2 X3.
  destruct (m_bs s) as [|[lo x] bs] eqn:EB; [discriminate X1|]. cbn [map fst snd] in X1. injection X1 as L1 L2 L3 _. 
  assert (O : l_owner x = None); [|congruence].
  apply (H [0] 6%nat 4 beside_split s lo x); auto using zero_ok, beside_tops; [lia|apply set_posb_ok; vm_compute; reflexivity| |].
  - apply (quiet_ok 4 [0] 6 beside_split); [auto|apply small_ok; vm_compute; reflexivity|cbn [map]; congruence].
  - rewrite EB. left. auto.
Qed.
Print Assumptions C73_locks_free_refuted.

(** * The first Set in an empty bucket *)
Definition firsting (t : nat) (rv : Z) (o : option nat) (r : nat) (p : lpc) : Prop :=
  match p with
  | LRead x m y | LApp x m y => x = rv /\ m = true /\ y = None /\ o = None /\ (0 < r)%nat
  | LApp2 x m y => x = rv /\ m = true /\ y = None /\ o = Some t /\ (0 < r)%nat
  | LFill i x fn => x = rv /\ fn = true /\ o = Some t /\ i = 0%nat
  | _ => False
  end.
Record first (s : lstate) (t : nat) (rv : Z) : Prop := {
  fi_bad : l_bad s = false;
  fi_pos : 0 < rv;
  fi_done : l_done s = [];
  fi_idle : forall u, u <> t -> l_pcs s u = LIdle;
  fi_shape : exists r, shape (l_pool s) (match l_pcs s t with LFill _ _ _ => [zero_slot] | _ => [] end) r /\ firsting t rv (l_owner s) r (l_pcs s t) }.
Record emp (s : lstate) : Prop := {
  em_bad : l_bad s = false;
  em_done : l_done s = [];
  em_owner : l_owner s = None;
  em_idle : forall u, l_pcs s u = LIdle;
  em_shape : exists r, shape (l_pool s) [] (S r) }.
Definition stage (olds : list Z) (s : lstate) : Prop := both olds s \/ (olds = [] /\ (emp s \/ exists t rv, first s t rv)).
Lemma first_step s t rv l s' : (forall i, snd l <> CDel i) -> top_alone [] s' -> first s t rv -> lstep s l = Some s' -> first s' t rv \/ ins rv [] s'.
Proof.
  intros ND AL [B P DN ID (r & SH & TP)] E. destruct l as [u c]. cbn [snd] in ND.
  destruct (Nat.eq_dec u t) as [->|NU].
  2:{ (* another goroutine starts a call *) exfalso. assert (PT : l_pcs s' t = l_pcs s t) by (eapply lstep_other; eauto).
    assert (K : key_of (l_pcs s t) = Some rv) by (destruct (l_pcs s t); cbn [firsting key_of] in *; try contradiction; destruct TP as [-> _]; auto).
    assert (X : l_done s' = l_done s /\ l_pcs s' u <> LIdle).
    { unfold lstep in E. rewrite (ID u NU) in E. destruct c; [injection E as <-; split; [reflexivity|rewrite lgo_same; discriminate]|injection E as <-; split; [reflexivity|rewrite lgo_same; discriminate]|elim (ND i); auto|discriminate E]. }
    destruct X as [X1 X2]. apply X2. apply (AL t rv); [rewrite PT; auto| |auto]. rewrite X1, DN. intros x [[]|[]]. }
  assert (ID' : forall v, v <> t -> l_pcs s' v = LIdle) by (intros v N; rewrite (lstep_other _ _ _ _ _ E) by auto; auto).
  lsteps E PC; rewrite PC in TP, SH; cbn [firsting] in TP; try contradiction.
  - (* LRead *) destruct TP as (-> & -> & -> & O & R). left. constructor; auto. cbn [l_pool lgo]. rewrite lgo_same. exists r.
    assert (D : decide_get (l_pool s) rv true None = LApp rv true None) by (unfold decide_get; rewrite (shape_len _ _ _ SH); reflexivity). rewrite D. cbn [firsting l_owner lgo]. auto 9.
  - (* LApp *) destruct TP as (-> & _ & -> & O & R). left. constructor; auto. cbn [l_pool lgo l_seto]. rewrite lgo_same. exists r. cbn [firsting l_owner lgo l_seto]. auto 9.
  - destruct TP as (_ & X & _). discriminate X.
  - (* LApp2 *) exfalso. destruct TP as (_ & _ & _ & _ & R). rewrite (shape_len _ _ _ SH), (shape_cap _ _ _ SH) in Heqb. cbn [List.length] in Heqb. lia.
  - destruct TP as (-> & -> & -> & O & R). destruct r as [|r]; [lia|]. left. constructor; auto. cbn [l_pool lgo l_setp]. rewrite lgo_same. exists r. split; [apply (shape_append _ [] r); auto|]. cbn [firsting l_owner lgo l_setp or_else]. rewrite (shape_n _ _ _ SH). auto.
  - (* LFill *) destruct TP as (-> & -> & O & ->). right. assert (SH' := shape_upd _ _ _ 0%nat (fill_slot rv) SH ltac:(cbn; lia)). cbn [nth upd_nth] in SH'. change (fill_slot rv zero_slot) with (mkS rv 0 false (KStr "") GNil true) in SH'.
    constructor; [auto|]. exists [mkS rv 0 false (KStr "") GNil true], r. split; [exact SH'|].
    assert (V : viewed (lgo (l_log (l_setp s (upd_slot (l_pool s) 0 (fill_slot rv))) rv) t (LRet true)) [mkS rv 0 false (KStr "") GNil true] = [rv]).
    { unfold viewed. cbn [l_owner lgo l_log l_setp]. rewrite O. cbn [l_pcs lgo]. rewrite Nat.eqb_refl. auto. }
    rewrite V. split; [intros sl [<-|[]]; auto|]. split; [discriminate|]. split; [reflexivity|]. split; [repeat constructor|]. split; [|split].
    + intros x I. cbn [l_done lgo l_log l_setp] in I. rewrite DN in I. destruct I as [[]|I]. exact I.
    + intros v i x fn. destruct (Nat.eq_dec v t) as [->|N]; [rewrite lgo_same; discriminate|]. rewrite lgo_other by auto. cbn [l_pcs l_log l_setp]. rewrite ID by auto. discriminate.
    + intros v. cbn [l_owner lgo l_log l_setp]. rewrite O. destruct (Nat.eq_dec v t) as [->|N]; [rewrite lgo_same; cbn; auto|]. rewrite lgo_other by auto. cbn [l_pcs l_log l_setp]. rewrite ID by auto. cbn. congruence.
Qed.
Lemma stage_step olds s t c s' : (forall i, c <> CDel i) -> (forall rv, c = CNew rv -> 0 < rv) -> (c = CUpd -> p_n (l_pool s) <> 0%nat) ->
  top_alone olds s' -> stage olds s -> lstep s (t, c) = Some s' -> stage olds s'.
Proof.
  intros ND NP NU AL [H|(-> & [H|(u & rv & H)])] E.
  - left. apply (both_step olds s (t, c)); auto.
  - right. split; auto. right. destruct H as [B D O ID (r & SH)]. unfold lstep in E. rewrite (ID t) in E. destruct c as [rv| |i|].
    + injection E as <-. exists t, rv. constructor; auto. { intros u N. rewrite lgo_other by auto. auto. }
      exists (S r). rewrite lgo_same. cbn [firsting l_owner lgo l_pool]. split; auto. split; auto. split; auto. split; auto. split; [auto|lia].
    + exfalso. apply NU; auto. rewrite (shape_n _ _ _ SH). auto.
    + elim (ND i); auto.
    + discriminate E.
  - destruct (first_step s u rv (t, c) s' ND AL H E) as [X|X]; [right; eauto|left; left; eauto].
Qed.
Lemma stage_back olds s t : l_pcs s t = LUpd -> stage olds s -> stage olds (lgo s t LIdle).
Proof.
  intros PC [[(M & [B (l & r & SH & A & NE & LM & SO & OL & ZE & BE)])|(u & rv & [B P ID (l & r & SH & A & NE & SO & OL & LT & TP)])]|(-> & [[B D O ID _]|(u & rv & [B P DN ID (r & SH & TP)])])].
  - left. left. exists M. constructor; auto. exists l, r. assert (V : viewed (lgo s t LIdle) l = viewed s l) by (apply viewed_other; auto; intros; congruence). rewrite V. cbn [l_pool lgo l_done].
    split; auto. split; auto. split; auto. split; auto. split; auto. split; auto. split.
    + intros u i rv fn. destruct (Nat.eq_dec u t) as [->|N]; [rewrite lgo_same; discriminate|rewrite lgo_other by auto; apply ZE].
    + apply (below_others M s s t); auto. specialize (BE t). rewrite PC in BE. exact BE.
  - exfalso. destruct (Nat.eq_dec t u) as [->|N]; [rewrite PC in TP; exact TP|rewrite (ID t N) in PC; discriminate PC].
  - exfalso. rewrite ID in PC. discriminate PC.
  - exfalso. destruct (Nat.eq_dec t u) as [->|N]; [rewrite PC in TP; exact TP|rewrite (ID t N) in PC; discriminate PC].
Qed.
Lemma stage_ret olds s t fn : l_pcs s t = LRet fn -> stage olds s -> exists M, ins M olds s.
Proof.
  intros PC [[H|(u & rv & [B P ID (l & r & SH & A & NE & SO & OL & LT & TP)])]|(-> & [[B D O ID _]|(u & rv & [B P DN ID (r & SH & TP)])])]; auto; exfalso.
  - destruct (Nat.eq_dec t u) as [->|N]; [rewrite PC in TP; exact TP|rewrite (ID t N) in PC; discriminate PC].
  - rewrite ID in PC. discriminate PC.
  - destruct (Nat.eq_dec t u) as [->|N]; [rewrite PC in TP; exact TP|rewrite (ID t N) in PC; discriminate PC].
Qed.

(** * A split *)
Lemma last_max l : l <> [] -> StronglySorted Z.le l -> forall y, In y l -> y <= last l 0.
Proof.
  intros NE S y Y. destruct (In_nth _ _ 0 Y) as (j & Hj & <-). rewrite last_nth. apply sorted_le_nth; auto. lia.
Qed.
Lemma sorted_le_parts a b : StronglySorted Z.le (a ++ b) -> StronglySorted Z.le a /\ StronglySorted Z.le b /\ forall x y, In x a -> In y b -> x <= y.
Proof.
  induction a as [|z a IH]; cbn [app]; intros S; [split; [constructor|split; [auto|intros x y []]]|]. apply StronglySorted_inv in S. destruct S as [S F]. destruct (IH S) as (A & B & C). rewrite Forall_forall in F. split; [|split; auto].
  - constructor; auto. apply Forall_forall. intros w W. apply F, in_app_iff. auto.
  - intros x y [<-|X] Y; [apply F, in_app_iff; auto|auto].
Qed.
Lemma ins_split M olds s t fn mid i : ins M olds s -> l_pcs s t = LRet fn -> find_idx (l_pool s) mid = Some (S i) ->
  let s1 := mkL (split_lo (l_pool s) (S i)) (l_owner s) (l_pcs s) (l_bad s) [] in
  let s2 := mkL (split_hi (l_pool s) (S i)) None (fun _ => LIdle) false [] in
  exists r1 r2, (forall y, In y olds \/ In y (l_done s) -> In y r1 \/ In y r2) /\ (forall y, In y r1 -> y < mid) /\ (forall y, In y r2 -> mid <= y) /\
    (exists M2, ins M2 r2 s2) /\
    ((forall u rv, key_of (l_pcs s u) = Some rv -> exists y, In y r1 /\ rv <= y) -> exists M1, ins M1 r1 s1).
Proof.
  intros [B (l & r & SH & A & NE & LM & SO & OL & ZE & BE)] PC F s1 s2.
  assert (BT := BE t). rewrite PC in BT. cbn [below] in BT. destruct BT as [-> O].
  assert (V : viewed s l = revs l) by (unfold viewed; rewrite O, PC; auto). rewrite V in *. clear V.
  rewrite (shape_find _ _ _ _ SH) in F. destruct (first_ge_spec _ _ _ _ F) as (l1 & x & l2 & EL & EI & DX & GX & LX). cbn [plus] in EI.
  assert (SP : firstn (S i) (p_slots (l_pool s)) = l1 /\ skipn (S i) (p_slots (l_pool s)) = (x :: l2) ++ repeat zero_slot r).
  { rewrite SH, EL. cbn [p_slots]. rewrite <- app_assoc, EI. rewrite firstn_app, skipn_app, Nat.sub_diag, firstn_all, skipn_all. cbn [firstn skipn app]. rewrite app_nil_r. auto. }
  destruct SP as [SP1 SP2]. subst l. unfold revs in *. rewrite map_app in *. cbn [map] in *. destruct (sorted_le_parts _ _ SO) as (SO1 & SO2 & SO3).
  assert (N1 : l1 <> []) by (intros ->; discriminate EI).
  assert (A1 : all_live l1) by (intros y Y; apply A, in_app_iff; auto). assert (A2 : all_live (x :: l2)) by (intros y Y; apply A, in_app_iff; auto).
  assert (M1 : map sl_rev l1 <> []) by (destruct l1; [congruence|discriminate]).
  exists (map sl_rev l1), (sl_rev x :: map sl_rev l2). split; [|split; [|split; [|split]]].
  - intros y Y. apply in_app_iff. auto.
  - intros y Y. apply in_map_iff in Y. destruct Y as (z & <- & Z1). apply LX; auto.
  - intros y [<-|Y]; auto. apply StronglySorted_inv in SO2. destruct SO2 as [_ SO2]. rewrite Forall_forall in SO2. specialize (SO2 y Y). lia.
  - exists (last (sl_rev x :: map sl_rev l2) 0). constructor; [reflexivity|]. exists (x :: l2), r. unfold s2. cbn [l_pool l_done l_pcs l_owner]. split.
    { unfold shape, split_hi. rewrite SP2, (shape_len _ _ _ SH). f_equal. rewrite app_length, EI. lia. }
    split; auto. split; [discriminate|]. split; [reflexivity|]. split; [exact SO2|]. split; [intros y [Y|[]]; exact Y|]. split; [intros; discriminate|]. intros u. cbn. discriminate.
  - intros U. exists (last (map sl_rev l1) 0). constructor; [exact B|]. exists l1, 0%nat. unfold s1. cbn [l_pool l_done l_pcs l_owner]. split.
    { unfold shape, split_lo. rewrite SP1, EI. cbn [repeat]. rewrite app_nil_r. reflexivity. }
    assert (V1 : viewed {| l_pool := split_lo (l_pool s) (S i); l_owner := l_owner s; l_pcs := l_pcs s; l_bad := l_bad s; l_done := [] |} l1 = map sl_rev l1) by (unfold viewed; cbn [l_owner l_pcs]; rewrite O, PC; auto).
    rewrite V1. split; auto. split; auto. split; [reflexivity|]. split; auto. split; [intros y [Y|[]]; exact Y|]. split.
    { intros u j rv fn PF. exfalso. specialize (BE u). rewrite PF in BE. cbn [below] in BE. destruct BE as (_ & _ & X & _). rewrite O in X. injection X as ->. congruence. }
    intros u. specialize (BE u). assert (K : forall rv, key_of (l_pcs s u) = Some rv -> rv <= last (map sl_rev l1) 0). { intros rv K. destruct (U u rv K) as (y & Y & L). pose proof (last_max _ M1 SO1 y Y). lia. }
    destruct (l_pcs s u) eqn:PU; cbn [below key_of] in *; auto; try (destruct BE as [[P Q] R]; split; [split; [exact P|apply K; reflexivity]|exact R]).
    exfalso. destruct BE as (_ & _ & X & _). rewrite O in X. injection X as ->. congruence.
Qed.

(** * Buckets *)
Definition asc (bs : list (Z * lstate)) : Prop := StronglySorted Z.lt (map fst bs).
Lemma asc_inv l x bs : asc ((l, x) :: bs) -> asc bs /\ forall l' x', In (l', x') bs -> l < l'.
Proof.
  intros H. unfold asc in H. cbn [map fst] in H. apply StronglySorted_inv in H. destruct H as [H F]. split; auto. rewrite Forall_forall in F. intros l' x' I. apply F. apply (in_map fst _ _ I).
Qed.
Lemma bucket_in bs lo x : asc bs -> (bucket_at bs lo = Some x <-> In (lo, x) bs).
Proof.
  induction bs as [|[l y] bs IH]; intros A; cbn [bucket_at In]; [split; [discriminate|tauto]|]. destruct (asc_inv _ _ _ A) as [A1 A2]. destruct (Z.eqb_spec l lo) as [->|N].
  - split; [intros E; injection E as ->; auto|]. intros [E|I]; [congruence|]. specialize (A2 _ _ I). lia.
  - rewrite IH by auto. split; auto. intros [E|I]; auto. congruence.
Qed.
Lemma bucket_uniq bs lo x y : asc bs -> In (lo, x) bs -> In (lo, y) bs -> x = y.
Proof. intros A X Y. apply bucket_in in X; auto. apply bucket_in in Y; auto. congruence. Qed.
Lemma put_fst bs lo x : map fst (put_bucket bs lo x) = map fst bs.
Proof. induction bs as [|[l y] bs IH]; cbn [put_bucket map fst]; auto. destruct (l =? lo); cbn [map fst]; auto. rewrite IH. auto. Qed.
Lemma put_in bs lo x y l z : asc bs -> In (lo, y) bs -> (In (l, z) (put_bucket bs lo x) <-> (l = lo /\ z = x) \/ (l <> lo /\ In (l, z) bs)).
Proof.
  induction bs as [|[l0 y0] bs IH]; intros A I; [destruct I|]. destruct (asc_inv _ _ _ A) as [A1 A2]. cbn [put_bucket]. destruct (Z.eqb_spec l0 lo) as [->|N].
  - cbn [In]. split.
    + intros [E|H]; [injection E as <- <-; auto|]. right. specialize (A2 _ _ H). split; [lia|auto].
    + intros [[-> ->]|[N [E|H]]]; auto. congruence.
  - cbn [In] in *. destruct I as [E|I]; [congruence|]. rewrite (IH A1 I). split.
    + intros [E|[H|H]]; [|auto|right; tauto]. injection E as <- <-. right. split; auto.
    + intros [H|[H [E|K]]]; auto.
Qed.
Lemma locate_ext bs bs' rv : map fst bs = map fst bs' -> locate bs rv = locate bs' rv.
Proof.
  revert bs'. induction bs as [|[l x] bs IH]; intros [|[l' x'] bs'] E; cbn [map fst] in E; try discriminate E; auto. injection E as <- E. cbn [locate]. rewrite (IH bs' E). auto.
Qed.
Lemma locate_in bs rv lo : locate bs rv = Some lo -> exists x, In (lo, x) bs.
Proof.
  induction bs as [|[l x] bs IH]; cbn [locate]; [discriminate|]. destruct (l <=? rv); [|discriminate]. destruct (locate bs rv) as [l1|].
  - intros E. injection E as ->. destruct IH as (y & Y); auto. exists y. right. auto.
  - intros E. injection E as <-. exists x. left. auto.
Qed.
Lemma locate_low bs rv : (forall l x, In (l, x) bs -> rv < l) -> locate bs rv = None.
Proof. destruct bs as [|[l x] bs]; intros H; cbn [locate]; auto. destruct (Z.leb_spec l rv); auto. specialize (H l x (or_introl eq_refl)). lia. Qed.
Lemma split_spec bs lo x : asc bs -> In (lo, x) bs -> split_bucket bs lo = bs \/
  exists mid i, find_idx (l_pool x) mid = Some (S i) /\ lo < mid /\
    let s1 := mkL (split_lo (l_pool x) (S i)) (l_owner x) (l_pcs x) (l_bad x) [] in
    let s2 := mkL (split_hi (l_pool x) (S i)) None (fun _ => LIdle) false [] in
    asc (split_bucket bs lo) /\
    (forall l y, In (l, y) (split_bucket bs lo) <-> (l = lo /\ y = s1) \/ (l = mid /\ y = s2) \/ (l <> lo /\ In (l, y) bs)) /\
    (forall rv, locate (split_bucket bs lo) rv = match locate bs rv with Some l => if (l =? lo) && (mid <=? rv) then Some mid else Some l | None => None end) /\
    (forall y, ~ In (mid, y) bs).
Proof.
  induction bs as [|[l0 x0] bs IH]; intros A I; [destruct I|]. destruct (asc_inv _ _ _ A) as [A1 A2]. cbn [split_bucket]. destruct (Z.eqb_spec l0 lo) as [->|N].
  - assert (x0 = x) by (apply (bucket_uniq _ _ _ _ A (or_introl eq_refl) I)). subst x0. set (mid := half_way lo (bound_after bs)).
    destruct (Z.ltb_spec lo mid) as [L1|]; [|left; auto]. destruct (Z.ltb_spec mid (bound_after bs)) as [L2|]; [|left; auto]. cbn [andb].
    destruct (find_idx (l_pool x) mid) as [[|i]|] eqn:F; auto. right. exists mid, i. split; auto. split; auto. cbv zeta.
    assert (UP : forall l y, In (l, y) bs -> mid < l).
    { intros l y H. destruct bs as [|[l1 y1] bs]; [destruct H|]. cbn [bound_after] in L2. destruct (asc_inv _ _ _ A1) as [_ A3]. destruct H as [E|H]; [injection E as <- <-; lia|]. specialize (A3 _ _ H). lia. }
    split; [|split; [|split]].
    + unfold asc. cbn [map fst]. constructor; [constructor; [exact A1|]|]; apply Forall_forall.
      * intros l H. apply in_map_iff in H. destruct H as ([l' y] & <- & H). apply (UP _ _ H).
      * intros l [<-|H]; auto. apply in_map_iff in H. destruct H as ([l' y] & <- & H). apply (A2 _ _ H).
    + intros l y. cbn [In]. split.
      * intros [E|[E|H]]; [injection E as <- <-; auto|injection E as <- <-; auto|]. right. right. specialize (A2 _ _ H). split; [lia|auto].
      * intros [[-> ->]|[[-> ->]|[H [E|K]]]]; auto. congruence.
    + intros rv. cbn [locate]. destruct (Z.leb_spec lo rv) as [L|L]; [|auto]. destruct (Z.leb_spec mid rv) as [L3|L3].
      * destruct (locate bs rv) as [l|] eqn:E; [|rewrite Z.eqb_refl; auto]. destruct (locate_in _ _ _ E) as (y & Y). specialize (A2 _ _ Y). destruct (Z.eqb_spec l lo); [lia|auto].
      * rewrite (locate_low bs rv); [|intros l y H; specialize (UP _ _ H); lia]. rewrite Z.eqb_refl. auto.
    + intros y [E|H]; [injection E as E _; lia|]. specialize (UP _ _ H). lia.
  - destruct I as [E|I]; [congruence|]. destruct (IH A1 I) as [E|(mid & i & F & L & S1 & S2 & S3 & S4)]; [left; rewrite E; auto|]. right. exists mid, i. split; auto. split; auto. cbv zeta in *. split; [|split; [|split]].
    + unfold asc. cbn [map fst]. constructor; [exact S1|]. apply Forall_forall. intros l H. apply in_map_iff in H. destruct H as ([l' y] & <- & H). cbn [fst]. apply S2 in H. pose proof (A2 _ _ I). destruct H as [[-> _]|[[-> _]|[_ H]]]; [lia|lia|apply (A2 _ _ H)].
    + intros l y. cbn [In]. rewrite S2. split.
      * intros [E|[H|[H|H]]]; auto; [|tauto]. injection E as <- <-. auto.
      * intros [H|[H|[H [E|K]]]]; auto.
    + intros rv. cbn [locate]. rewrite S3. destruct (Z.leb_spec l0 rv) as [L0|L0]; auto. destruct (locate bs rv) as [l|] eqn:E; [destruct ((l =? lo) && (mid <=? rv)); auto|]. destruct (Z.eqb_spec l0 lo); [contradiction|auto].
    + intros y [E|H]; [|apply (S4 y H)]. injection E as E _. pose proof (A2 _ _ I). lia.
Qed.

(** * The invariant *)
Record minv (s : mstate) : Prop := {
  mi_asc : asc (m_bs s);
  mi_stage : forall lo x, In (lo, x) (m_bs s) -> exists olds, stage olds x /\ forall y, in_bucket s lo y -> In y olds \/ In y (l_done x);
  mi_at : forall lo x t, In (lo, x) (m_bs s) -> m_at s t <> Some lo -> l_pcs x t = LIdle;
  mi_todo : forall t, m_todo s t = true -> exists lo x fn, m_at s t = Some lo /\ In (lo, x) (m_bs s) /\ l_pcs x t = LRet fn;
  mi_loc : forall y, In y (m_done s) -> locate (m_bs s) y <> None }.
Lemma lstep_done s l s' y : lstep s l = Some s' -> In y (l_done s) -> In y (l_done s').
Proof.
  intros E Y. destruct l as [t c]. lsteps E PC; auto; try (cbn [l_done lgo l_setp l_seto l_unlock l_log]; auto; fail).
  - cbn [l_done lgo l_log]. apply in_app_iff. auto.
  - destruct fn; auto.
Qed.
(** a step in one bucket *)
Lemma bucket_minv s t lo x x' at' todo' done' : minv s -> In (lo, x) (m_bs s) ->
  (forall u, u <> t -> l_pcs x' u = l_pcs x u) -> (forall y, In y (l_done x) -> In y (l_done x')) ->
  (forall olds, top_alone olds x' -> stage olds x -> stage olds x') -> (m_at s t = None \/ m_at s t = Some lo) ->
  let s' := mkM (put_bucket (m_bs s) lo x') at' todo' done' in
  (forall u, u <> t -> at' u = m_at s u) -> (at' t = Some lo \/ (at' t = None /\ l_pcs x' t = LIdle)) ->
  (forall y, In y done' -> In y (m_done s) \/ (In y (l_done x') /\ locate (m_bs s) y = Some lo)) ->
  (forall u, u <> t -> todo' u = m_todo s u) -> (todo' t = true -> at' t = Some lo /\ exists fn, l_pcs x' t = LRet fn) -> tops s' -> minv s'.
Proof.
  intros [A ST AT TD LC] I OT LD SS AO s' A1 A2 D1 T1 T2 TO.
  assert (LO : forall rv, locate (m_bs s') rv = locate (m_bs s) rv) by (intros rv; apply locate_ext; apply put_fst).
  assert (PI : forall l z, In (l, z) (m_bs s') <-> (l = lo /\ z = x') \/ (l <> lo /\ In (l, z) (m_bs s))) by (intros l z; apply (put_in _ lo x' x l z A I)).
  assert (AS : asc (m_bs s')) by (unfold asc; cbn [m_bs s']; rewrite put_fst; exact A).
  assert (AT' : forall u, at' u <> Some lo -> l_pcs x' u = LIdle).
  { intros u N. destruct (Nat.eq_dec u t) as [->|NT]; [destruct A2 as [A2|[_ A2]]; [contradiction|auto]|]. rewrite (OT u NT). apply (AT lo x); auto. rewrite <- (A1 u NT). auto. }
  constructor; auto.
  - intros l z H. apply PI in H. destruct H as [[-> ->]|[N H]].
    + destruct (ST lo x I) as (olds & SG & OD). exists olds.
      assert (OD' : forall y, in_bucket s' lo y -> In y olds \/ In y (l_done x')).
      { intros y [Y1 Y2]. rewrite LO in Y2. destruct (D1 y Y1) as [Y|[Y _]]; auto. destruct (OD y (conj Y Y2)); auto. }
      split; auto. apply SS; auto.
      intros t1 rv1 K LT u NU1. apply AT'. refine (TO t1 lo rv1 _ (fun y Y => LT y (OD' y Y)) u NU1).
      split; [|exists x'; split; [apply bucket_in; auto; apply PI; auto|auto]].
      cbn [m_at s']. destruct (at' t1) as [l1|] eqn:E1; [destruct (Z.eq_dec l1 lo) as [->|NL]; auto|]; exfalso; rewrite AT' in K by (rewrite E1; congruence); discriminate K.
    + destruct (ST l z H) as (olds & SG & OD). exists olds. split; auto. intros y [Y1 Y2]. rewrite LO in Y2. destruct (D1 y Y1) as [Y|[_ Y]]; [|congruence]. apply OD. split; auto.
  - intros l z u H NA. cbn [m_at s'] in NA. apply PI in H. destruct H as [[-> ->]|[N H]]; [auto|]. apply (AT l z); auto. destruct (Nat.eq_dec u t) as [->|NT]; [destruct AO as [->| ->]; congruence|]. rewrite <- (A1 u NT). auto.
  - intros u TU. cbn [m_todo s'] in TU. destruct (Nat.eq_dec u t) as [->|NT].
    + destruct (T2 TU) as [X (fn & Y)]. exists lo, x', fn. split; auto. split; auto. apply PI. auto.
    + rewrite (T1 u NT) in TU. destruct (TD u TU) as (l & z & fn & X1 & X2 & X3). destruct (Z.eq_dec l lo) as [->|NL].
      * exists lo, x', fn. split; [cbn [m_at s']; rewrite A1; auto|]. split; [apply PI; auto|]. rewrite (OT u NT). rewrite (bucket_uniq _ _ _ _ A I X2). auto.
      * exists l, z, fn. split; [cbn [m_at s']; rewrite A1; auto|]. split; auto. apply PI. auto.
  - intros y Y. rewrite LO. destruct (D1 y Y) as [Y1|[_ Y1]]; [auto|congruence].
Qed.
Lemma hits_some x rv : hits x rv = true -> p_n (l_pool x) <> 0%nat.
Proof.
  unfold hits, emb_search. intros H N. rewrite N in H. cbn in H. discriminate H.
Qed.
Lemma mstep_minv max s t c s' : (forall rv, c = MSet rv -> 0 < rv) -> placed s -> minv s -> tops s' -> placed s' -> mstep max s (t, c) = Some s' -> minv s'.
Proof.
  intros NP PL MI TO PL' E. pose proof MI as [A ST AT TD LC]. unfold mstep in E. destruct (m_at s t) as [lo|] eqn:AE.
  - destruct (bucket_at (m_bs s) lo) as [x|] eqn:BX; [|discriminate E]. pose proof (proj1 (bucket_in _ _ _ A) BX) as I. destruct (m_todo s t) eqn:TT.
    + (* split *) destruct (TD t TT) as (lo0 & x0 & fn & X1 & X2 & X3). rewrite AE in X1. injection X1 as <-. rewrite (bucket_uniq _ _ _ _ A X2 I) in X3. clear x0 X2.
      assert (SAME : m_bs s' = m_bs s -> minv s').
      { intros EB. injection E as <-. cbn [m_bs] in EB. constructor; cbn [m_bs m_at m_todo]; rewrite EB; auto.
        - intros u TU. unfold todo_ in TU. destruct (Nat.eqb u t); [discriminate TU|auto]. }
      destruct (p_len (l_pool x) <=? max) eqn:PM; [apply SAME; injection E as <-; reflexivity|].
      destruct (split_spec (m_bs s) lo x A I) as [EB|(mid & i & F & LM & S1 & S2 & S3 & S4)]; [apply SAME; injection E as <-; exact EB|]. cbv zeta in *.
      destruct (ST lo x I) as (olds & SG & OD). destruct (stage_ret olds x t fn X3 SG) as (M & IM).
      destruct (ins_split M olds x t fn mid i IM X3 F) as (r1 & r2 & R1 & R2 & R3 & R4 & R5).
      remember (mkL (split_lo (l_pool x) (S i)) (l_owner x) (l_pcs x) (l_bad x) []) as x1 eqn:E1. remember (mkL (split_hi (l_pool x) (S i)) None (fun _ => LIdle) false []) as x2 eqn:E2.
      assert (P1 : l_pcs x1 = l_pcs x) by (rewrite E1; reflexivity). assert (P2 : forall u, l_pcs x2 u = LIdle) by (rewrite E2; reflexivity).
      assert (EB : m_bs s' = split_bucket (m_bs s) lo) by (injection E as <-; reflexivity). assert (EA : m_at s' = m_at s) by (injection E as <-; reflexivity).
      assert (ET : m_todo s' = todo_ (m_todo s) t false) by (injection E as <-; reflexivity). assert (ED : m_done s' = m_done s) by (injection E as <-; reflexivity). clear E.
      assert (L1 : forall y, locate (m_bs s') y = Some lo -> locate (m_bs s) y = Some lo /\ y < mid).
      { intros y Y. rewrite EB, S3 in Y. destruct (locate (m_bs s) y) as [l|]; [|discriminate Y]. destruct (Z.eqb_spec l lo) as [El|Nl]; cbn [andb] in Y; [|congruence]. destruct (Z.leb_spec mid y); [injection Y as Y; lia|split; [congruence|auto]]. }
      assert (L2 : forall y, locate (m_bs s') y = Some mid -> locate (m_bs s) y = Some lo /\ mid <= y).
      { intros y Y. rewrite EB, S3 in Y. destruct (locate (m_bs s) y) as [l|] eqn:EL; [|discriminate Y]. destruct (Z.eqb_spec l lo) as [El|Nl]; cbn [andb] in Y.
        - destruct (Z.leb_spec mid y); [split; [congruence|auto]|]. injection Y as Y. lia.
        - assert (El : l = mid) by congruence. rewrite El in EL. destruct (locate_in _ _ _ EL) as (z & Z1). elim (S4 z Z1). }
      assert (L3 : forall y l, l <> lo -> l <> mid -> locate (m_bs s') y = Some l -> locate (m_bs s) y = Some l).
      { intros y l N1 N2 Y. rewrite EB, S3 in Y. destruct (locate (m_bs s) y) as [l'|]; [|discriminate Y]. destruct ((l' =? lo) && (mid <=? y)); congruence. }
      assert (U : forall u rv, key_of (l_pcs x u) = Some rv -> exists y, In y r1 /\ rv <= y).
      { intros u rv K. assert (AU : m_at s u = Some lo). { destruct (m_at s u) as [l|] eqn:EU; [destruct (Z.eq_dec l lo) as [->|NL]; auto|]; exfalso; rewrite (AT lo x u I) in K by congruence; discriminate K. }
        assert (RU : running s' u lo rv). { split; [rewrite EA; auto|]. exists x1. split; [rewrite EB; apply bucket_in; auto; apply S2; auto|rewrite P1; auto]. }
        assert (NT : t <> u) by (intros ->; rewrite X3 in K; discriminate K).
        destruct (Exists_dec (fun y => rv <= y) r1) as [EX|NX]; [intros y; destruct (Z_le_dec rv y); auto|apply Exists_exists in EX; exact EX|].
        exfalso. apply (TO u lo rv RU) with (u := t); [|auto|rewrite EA; auto]. intros y [Y1 Y2]. destruct (L1 y Y2) as [Y3 Y4]. rewrite ED in Y1.
        destruct (Z.lt_ge_cases y rv) as [|G]; auto. exfalso. apply NX, Exists_exists. exists y. split; [|lia]. destruct (R1 y (OD y (conj Y1 Y3))) as [|Y]; auto. specialize (R3 y Y). lia. }
      specialize (R5 U). constructor.
      * rewrite EB. auto.
      * intros l z H. rewrite EB in H. apply S2 in H. destruct H as [[-> ->]|[[-> ->]|[N H]]].
        -- exists r1. split; [left; left; exact R5|]. intros y [Y1 Y2]. destruct (L1 y Y2) as [Y3 Y4]. rewrite ED in Y1. left. destruct (R1 y (OD y (conj Y1 Y3))) as [|Y]; auto. specialize (R3 y Y). lia.
        -- exists r2. split; [left; left; exact R4|]. intros y [Y1 Y2]. destruct (L2 y Y2) as [Y3 Y4]. rewrite ED in Y1. left. destruct (R1 y (OD y (conj Y1 Y3))) as [Y|]; auto. specialize (R2 y Y). lia.
        -- destruct (ST l z H) as (o & SG' & OD'). exists o. split; auto. intros y [Y1 Y2]. rewrite ED in Y1. apply OD'. split; auto. apply (L3 y l); auto. intros ->. apply (S4 z H).
      * intros l z u H NA. rewrite EB in H. rewrite EA in NA. apply S2 in H. destruct H as [[-> ->]|[[-> ->]|[N H]]]; [rewrite P1; apply (AT lo x); auto|apply P2|apply (AT l z); auto].
      * intros u TU. rewrite ET in TU. unfold todo_ in TU. destruct (Nat.eqb u t) eqn:EU; [discriminate TU|]. destruct (TD u TU) as (l & z & f & Z1 & Z2 & Z3). rewrite EA. destruct (Z.eq_dec l lo) as [->|NL].
        -- exists lo, x1, f. split; auto. split; [rewrite EB; apply S2; auto|]. rewrite P1, (bucket_uniq _ _ _ _ A I Z2). auto.
        -- exists l, z, f. split; auto. split; auto. rewrite EB. apply S2. auto.
      * intros y Y. rewrite ED in Y. rewrite EB, S3. specialize (LC y Y). destruct (locate (m_bs s) y) as [l|]; [|congruence]. destruct ((l =? lo) && (mid <=? y)); discriminate.
    + (* a step in the bucket *)
      assert (NOR : forall p x', l_pcs x t = p -> lstep x (t, CGo) = Some x' ->
        let s1 := mkM (put_bucket (m_bs s) lo x') (match p with LRet _ => at_ (m_at s) t None | _ => m_at s end) (match p with LFill _ _ _ => todo_ (m_todo s) t true | _ => m_todo s end) (match p with LFill _ rv _ => m_done s ++ [rv] | _ => m_done s end) in
        tops s1 -> minv s1).
      { intros p x' PC EL s1 TO1. apply (bucket_minv s t lo x x'); auto.
        - intros u N. apply (lstep_other _ _ _ _ _ EL N).
        - intros y. apply (lstep_done _ _ _ _ EL).
        - intros olds AL SG. apply (stage_step olds x t CGo x'); auto; intros; discriminate.
        - intros u N. destruct p; auto. unfold at_. destruct (Nat.eqb_spec u t); congruence.
        - destruct p; auto. right. unfold at_. rewrite Nat.eqb_refl. split; auto. unfold lstep in EL. rewrite PC in EL. injection EL as <-. apply lgo_same.
        - intros y Y. destruct p; auto. apply in_app_iff in Y. destruct Y as [Y|[<-|[]]]; auto. right. split; [unfold lstep in EL; rewrite PC in EL; injection EL as <-; cbn [l_done lgo l_log]; apply in_app_iff; cbn; auto|]. apply (PL t lo rv). split; auto. exists x. rewrite PC. auto.
        - intros u N. destruct p; auto. unfold todo_. destruct (Nat.eqb_spec u t); congruence.
        - intros TU. destruct p; try congruence. unfold todo_ in TU. split; auto. exists fn. unfold lstep in EL. rewrite PC in EL. injection EL as <-. apply lgo_same. }
      destruct (l_pcs x t) eqn:PC; try (destruct (lstep x (t, CGo)) as [x'|] eqn:EL; [|discriminate E]; injection E as <-; apply (NOR _ x' eq_refl eq_refl); exact TO).
      destruct (l_owner x) as [o|] eqn:OW; [|destruct (lstep x (t, CGo)) as [x'|] eqn:EL; [|discriminate E]; injection E as <-; apply (NOR _ x' eq_refl eq_refl); exact TO].
      injection E as <-. apply (bucket_minv s t lo x (lgo x t LIdle)); auto.
      * intros u N. apply lgo_other. auto.
      * intros olds _ SG. apply stage_back; auto.
      * intros u N. unfold at_. destruct (Nat.eqb_spec u t); congruence.
      * right. unfold at_. rewrite Nat.eqb_refl. split; auto. apply lgo_same.
      * congruence.
  - destruct c as [rv|]; [|discriminate E]. destruct (locate (m_bs s) rv) as [lo|] eqn:LE; [|discriminate E]. destruct (bucket_at (m_bs s) lo) as [x|] eqn:BX; [|discriminate E]. pose proof (proj1 (bucket_in _ _ _ A) BX) as I.
    destruct (lstep x (t, if hits x rv then CUpd else CNew rv)) as [x'|] eqn:EL; [|discriminate E]. injection E as <-. apply (bucket_minv s t lo x x'); auto.
    + intros u N. apply (lstep_other _ _ _ _ _ EL N).
    + intros y. apply (lstep_done _ _ _ _ EL).
    + intros olds AL SG. apply (stage_step olds x t (if hits x rv then CUpd else CNew rv) x'); auto.
      * intros i. destruct (hits x rv); discriminate.
      * intros r X. destruct (hits x rv); [discriminate X|]. injection X as <-. auto.
      * intros X. destruct (hits x rv) eqn:H; [|discriminate X]. apply (hits_some _ _ H).
    + intros u N. unfold at_. destruct (Nat.eqb_spec u t); congruence.
    + left. unfold at_. rewrite Nat.eqb_refl. auto.
    + intros TU. destruct (TD t TU) as (l & z & fn & X & _). congruence.
Qed.
Lemma minit_minv los room : bounds_ok los -> (0 < room)%nat -> minv (minit los room).
Proof.
  intros [SO _] R. constructor; cbn [minit m_bs m_at m_todo m_done].
  - unfold asc. rewrite map_map. cbn [fst]. rewrite map_id. auto.
  - intros lo x I. apply in_map_iff in I. destruct I as (l & E & _). injection E as <- <-. exists []. split; [|intros y [[] _]]. right. split; auto. left. constructor; auto. destruct room as [|r]; [lia|]. exists r. apply (linit_shape [] (S r)).
  - intros lo x t I _. apply in_map_iff in I. destruct I as (l & E & _). injection E as <- <-. auto.
  - discriminate.
  - intros y [].
Qed.
Lemma run_minv max ls : forall s s', minv s -> set_pos ls -> always max (fun s => placed s /\ tops s) s ls -> mrun max s ls = Some s' -> minv s'.
Proof.
  induction ls as [|[t c] ls IH]; intros s s' I NP AW E; cbn [mrun always] in *; [injection E as <-; auto|]. destruct AW as [[P1 T1] AW]. destruct (mstep max s (t, c)) as [s1|] eqn:E1; [|discriminate E].
  assert (H : placed s1 /\ tops s1) by (destruct ls; cbn [always] in AW; tauto). destruct H as [P2 T2]. apply (IH s1); auto; [|intros u rv X; apply (NP u rv); right; auto].
  apply (mstep_minv max s t c); auto. intros rv ->. apply (NP t rv). left. auto.
Qed.

(** * The theorems *)
(** For every schedule of Sets in which, at every moment, the key of a running Set still belongs to the bucket it was given and
    a Set of a key above all keys of its bucket is the only one in this bucket: whenever no Set is between taking its slot and
    filling it, every key that was set is found, however many buckets were split meanwhile. *)
Theorem C73_sets_found_partial : forall los room max ls s, bounds_ok los -> (0 < room)%nat -> set_pos ls -> always max (fun s => placed s /\ tops s) (minit los room) ls ->
  mrun max (minit los room) ls = Some s -> none_half s -> forall rv, In rv (m_done s) -> mfinds s rv.
Proof.
  intros los room max ls s BO RO NP AW E NH rv I. pose proof (run_minv _ _ _ _ (minit_minv _ _ BO RO) NP AW E) as [A ST AT TD LC]. specialize (LC rv I). destruct (locate (m_bs s) rv) as [lo|] eqn:L; [|congruence].
  destruct (locate_in _ _ _ L) as (x & X). exists lo, x. split; auto. split; [apply bucket_in; auto|]. destruct (ST lo x X) as (olds & SG & OD). specialize (OD rv (conj I L)). specialize (NH lo x X).
  destruct SG as [[(M & [_ (l & r & SH & AL & _ & _ & SO & OL & _)])|(t & v & [_ _ _ (l & r & SH & AL & _ & SO & OL & _)])]|(-> & [[_ D _ _ _]|(t & v & [_ _ D _ _])])].
  - assert (V : viewed x l = revs l). { unfold viewed. destruct (l_owner x) as [t|]; auto. destruct (l_pcs x t) eqn:PC; auto. exfalso. eapply NH. exact PC. }
    rewrite V in SO, OL. eapply finds_sorted; eauto.
  - apply (finds_sorted x l r); auto. destruct (l_pcs x t) eqn:PC; try (rewrite app_nil_r in SH; exact SH). exfalso. eapply NH. exact PC.
  - exfalso. rewrite D in OD. destruct OD as [[]|[]].
  - exfalso. rewrite D in OD. destruct OD as [[]|[]].
Qed.
Print Assumptions C73_sets_found_partial.
(** In the same situation only the holder of a lock releases it, and all locks are free whenever no call is running. *)
Theorem C73_locks_free_partial : forall los room max ls s, bounds_ok los -> (0 < room)%nat -> set_pos ls -> always max (fun s => placed s /\ tops s) (minit los room) ls ->
  mrun max (minit los room) ls = Some s -> forall lo x, In (lo, x) (m_bs s) -> l_bad x = false /\ (mquiet s -> l_owner x = None).
Proof.
  intros los room max ls s BO RO NP AW E lo x X. pose proof (run_minv _ _ _ _ (minit_minv _ _ BO RO) NP AW E) as [A ST AT TD LC]. destruct (ST lo x X) as (olds & SG & OD).
  assert (Q : mquiet s -> forall t, l_pcs x t = LIdle) by (intros Q t; apply (AT lo x t X); rewrite Q; discriminate).
  destruct SG as [[(M & [B (l & r & SH & AL & _ & _ & SO & OL & _ & BE)])|(t & v & [B _ _ (l & r & SH & AL & _ & SO & OL & LT & TP)])]|(-> & [[B D O _ _]|(t & v & [B _ D _ (r & _ & TP)])])]; split; auto; intros MQ; specialize (Q MQ).
  - destruct (l_owner x) as [t|] eqn:O; auto. exfalso. specialize (BE t). rewrite (Q t) in BE. cbn in BE. congruence.
  - exfalso. rewrite (Q t) in TP. exact TP.
  - exfalso. rewrite (Q t) in TP. exact TP.
Qed.
Print Assumptions C73_locks_free_partial.

(** * The hypotheses are met *)
(** four keys in the lower bucket; then three overlapping Sets: goroutine 1 adds a fifth key, which splits the bucket at 2^62,
    while goroutine 2 waits for the lock with a key that stays in the lower half, and goroutine 0 sets the first key of the
    upper bucket *)
Definition harmless : list (nat * mcall) :=
  List.concat (map (whole 0) [2^60; 2^61; 2^62 + 2^60; 2^62 + 2^61]) ++
  (1%nat, MSet (2^60 + 5)) :: gos 1 2 ++ (2%nat, MSet (2^60 + 7)) :: gos 2 1 ++ (0%nat, MSet (2^63 + 7)) :: gos 1 2 ++ gos 0 3 ++ gos 1 2 ++ gos 2 5 ++ gos 0 3.
Example C73_case : bounds_ok [0; 2^63] /\ set_pos harmless /\ always 4 (fun s => placed s /\ tops s) (minit [0; 2^63] 6) harmless /\
  exists s, mrun 4 (minit [0; 2^63] 6) harmless = Some s /\ mquiet s /\ none_half s /\ map fst (m_bs s) = [0; 2^62; 2^63] /\ m_done s = [2^60; 2^61; 2^62 + 2^60; 2^62 + 2^61; 2^60 + 5; 2^60 + 7; 2^63 + 7].
Proof.
  split; [split; [repeat constructor|reflexivity]|]. split; [apply set_posb_ok; vm_compute; reflexivity|]. split.
  - apply (alwaysb_ok 3 4 (fun s => placedb 3 s && topsb 3 s)); [|reflexivity|vm_compute; reflexivity]. intros s O H. apply andb_prop in H. destruct H as [H1 H2]. split; [apply (placedb_ok 3)|apply (topsb_ok 3)]; auto.
  - assert (L : mlook (mrun 4 (minit [0; 2^63] 6) harmless) = Some ([(0, [2^60; 2^60 + 5; 2^60 + 7; 2^61], None); (2^62, [2^62 + 2^60; 2^62 + 2^61], None); (2^63, [2^63 + 7], None)],
       [2^60; 2^61; 2^62 + 2^60; 2^62 + 2^61; 2^60 + 5; 2^60 + 7; 2^63 + 7], [None; None; None])) by (vm_compute; reflexivity).
    destruct (mlook_inv _ _ L) as (s & E & X). injection X as X1 X2 X3. exists s. split; auto.
    assert (Q : mquiet s) by (apply (quiet_ok 4 [0; 2^63] 6 harmless); [auto|apply small_ok; vm_compute; reflexivity|cbn [map]; congruence]). split; auto. split; [|split; auto].
    + assert (I : minv s). { apply (run_minv 4 harmless (minit [0; 2^63] 6)); [apply minit_minv; [split; [repeat constructor|reflexivity]|lia]|apply set_posb_ok; vm_compute; reflexivity| |auto].
        apply (alwaysb_ok 3 4 (fun s => placedb 3 s && topsb 3 s)); [|reflexivity|vm_compute; reflexivity]. intros s1 O HH. apply andb_prop in HH. destruct HH as [HH1 HH2]. split; [apply (placedb_ok 3)|apply (topsb_ok 3)]; auto. }
      intros lo x HI t i rv fn. rewrite (mi_at _ I lo x t HI) by (rewrite Q; discriminate). discriminate.
    + apply (f_equal (map (fun b => fst (fst b)))) in X1. rewrite map_map in X1. cbn [map fst] in X1. symmetry. exact X1.
Qed.
