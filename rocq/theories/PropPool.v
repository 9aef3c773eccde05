(** Property theorems about concurrent pool allocation: C36, C37. The model is ConcPool.v. *)
From Verif Require Import Base ConcPool.
From Coq Require Import PeanoNat.
Local Open Scope list_scope.
Local Open Scope nat_scope.

(** * Vocabulary *)
Definition preach (s0 s : pstate) : Prop := exists ls, prun s0 ls = Some s.
(** the slots handed out *)
Definition slots (s : pstate) : list (nat * nat) := map snd (p_out s).
(** number of calls of Get among the steps: a step of an idle goroutine *)
Fixpoint calls (s : pstate) (ls : list nat) : nat :=
  match ls with
  | [] => 0
  | t :: ls' => match pstep s t with
                | Some s' => (match p_pcs s t with PIdle => 1 | _ => 0 end) + calls s' ls'
                | None => 0
                end
  end.

Lemma pgo_same s t p : p_pcs (pgo s t p) t = p.
Proof. cbn. rewrite Nat.eqb_refl. auto. Qed.
Lemma pgo_other s t p u : u <> t -> p_pcs (pgo s t p) u = p_pcs s u.
Proof. intros H. cbn. destruct (Nat.eqb_spec u t); congruence. Qed.
Lemma prun_app l1 : forall s l2, prun s (l1 ++ l2) = match prun s l1 with Some s' => prun s' l2 | None => None end.
Proof. induction l1 as [|t l1 IH]; intros s l2; cbn [prun app]; auto. destruct (pstep s t); auto. Qed.
Lemma prun_inv (P : pstate -> Prop) : (forall s t s', P s -> pstep s t = Some s' -> P s') -> forall ls s s', P s -> prun s ls = Some s' -> P s'.
Proof.
  intros H. induction ls as [|t ls IH]; intros s s' HP E; cbn [prun] in E; [injection E as <-; auto|]. destruct (pstep s t) as [s1|] eqn:E1; [|discriminate]. eapply IH; [|exact E]. eapply H; eauto.
Qed.
Lemma pstep_other s t s' u : pstep s t = Some s' -> u <> t -> p_pcs s' u = p_pcs s u.
Proof.
  intros E N. unfold pstep in E. destruct (p_pcs s t); try (injection E as <-; rewrite pgo_other by auto; reflexivity); try discriminate.
  - destruct (p_mu s); [discriminate|]. destruct (Nat.eqb _ _); injection E as <-; rewrite pgo_other by auto; reflexivity.
  - destruct (Nat.eqb _ _); injection E as <-; rewrite pgo_other by auto; reflexivity.
  - destruct (_ || _); injection E as <-; rewrite pgo_other by auto; reflexivity.
  - destruct (p_mu s); [discriminate|]. injection E as <-; rewrite pgo_other by auto; reflexivity.
Qed.

Lemma NoDup_snoc {A} (l : list A) x : NoDup l -> ~ In x l -> NoDup (l ++ [x]).
Proof.
  induction l as [|y l IH]; cbn [app]; intros N I; [constructor; [auto|constructor]|]. inversion N; subst. constructor.
  - rewrite in_app_iff. cbn [In] in *. intuition.
  - apply IH; auto. intros H. apply I. right. auto.
Qed.
(** * C36: slots *)
Definition claimed (p : ppc) : option nat := match p with PAt i _ => Some i | _ => None end.
Definition initing (p : ppc) : bool := match p with PInit1 | PInit2 => true | _ => false end.
Record pinv (s : pstate) : Prop := {
  pi_init : p_init s = true;
  pi_pcs : forall t, initing (p_pcs s t) = false;
  pi_claim : forall t i, claimed (p_pcs s t) = Some i -> i < p_len s /\ ~ In (p_gen s, i) (slots s);
  pi_diff : forall t u i, claimed (p_pcs s t) = Some i -> claimed (p_pcs s u) = Some i -> t = u;
  pi_out : forall g i, In (g, i) (slots s) -> g = p_gen s /\ i < p_len s;
  pi_once : NoDup (slots s) }.
(** steps that change neither len, gen, out nor add a claim *)
Lemma pinv_local s s' t : pinv s -> p_init s' = p_init s -> p_len s' = p_len s -> p_gen s' = p_gen s -> p_out s' = p_out s ->
  (forall u, u <> t -> p_pcs s' u = p_pcs s u) -> initing (p_pcs s' t) = false -> claimed (p_pcs s' t) = None -> pinv s'.
Proof.
  intros [I1 I2 I3 I4 I5 I6] A B C D E F G. assert (SL : slots s' = slots s) by (unfold slots; rewrite D; auto). constructor; rewrite ?A, ?B, ?C, ?SL; auto.
  - intros u. destruct (Nat.eq_dec u t) as [->|N]; auto. rewrite E; auto.
  - intros u i. destruct (Nat.eq_dec u t) as [->|N]; [rewrite G; discriminate|]. rewrite E by auto. apply I3.
  - intros u v i. destruct (Nat.eq_dec u t) as [->|N1]; [rewrite G; discriminate|]. destruct (Nat.eq_dec v t) as [->|N2]; [rewrite G; discriminate|]. rewrite !E by auto. apply I4.
Qed.
Ltac ploc s t := apply (pinv_local s _ t); [assumption|reflexivity|reflexivity|reflexivity|reflexivity|intros; rewrite pgo_other by assumption; reflexivity|rewrite pgo_same|rewrite pgo_same].
Lemma pinv_step s t s' : pinv s -> pstep s t = Some s' -> pinv s'.
Proof.
  intros I E. pose proof (pi_init _ I) as IN. pose proof (pi_pcs _ I t) as IT. unfold pstep in E. destruct (p_pcs s t) as [| | | | | |i|i h| |i h| | | |] eqn:P; try discriminate.
  - injection E as <-. ploc s t; auto.
  - injection E as <-. rewrite IN. ploc s t; auto.
  - injection E as <-. ploc s t; destruct (Nat.leb _ _); auto.
  - injection E as <-. ploc s t; destruct (p_cap s) as [|x]; cbn [Nat.eqb]; auto; destruct (Nat.eqb _ _); auto.
  - destruct (p_mu s); [discriminate|]. destruct (Nat.eqb _ _); injection E as <-; ploc s t; auto.
  - destruct (Nat.eqb_spec (p_len s) i) as [EQ|NE]; injection E as <-; [|ploc s t; auto].
    destruct I as [I1 I2 I3 I4 I5 I6]. assert (SL : slots (pgo (set_plen s (S i)) t (PAt i h)) = slots s) by reflexivity. constructor; rewrite ?SL; cbn [p_init p_gen p_len p_pcs pgo set_plen]; auto.
    + intros u. destruct (Nat.eqb u t); [auto|apply (I2 u)].
    + intros u j. destruct (Nat.eqb u t).
      * cbn [claimed]. intros [= <-]. split; [lia|]. intros H. apply I5 in H. lia.
      * intros H. apply I3 in H as [H1 H2]. split; [lia|auto].
    + intros u v j. destruct (Nat.eqb_spec u t) as [->|N1], (Nat.eqb_spec v t) as [->|N2]; auto; cbn [claimed].
      * intros [= <-] H. apply I3 in H. lia.
      * intros H [= <-]. apply I3 in H. lia.
      * apply I4.
    + intros g j H. apply I5 in H. lia.
  - injection E as <-. ploc s t; auto.
  - destruct (Nat.leb (p_len s) i || Nat.leb (p_cap s) i); injection E as <-; [ploc s t; auto|].
    destruct I as [I1 I2 I3 I4 I5 I6]. assert (CI : claimed (p_pcs s t) = Some i) by (rewrite P; auto). destruct (I3 t i CI) as [L NI].
    assert (CN : claimed (if h then PHold else PIdle) = None) by (destruct h; auto).
    constructor; cbn [p_init p_gen p_len pgo p_pcs]; unfold slots in *; cbn [p_out pgo]; rewrite ?map_app; cbn [map]; auto.
    + intros u. destruct (Nat.eqb u t); [destruct h; auto|]. apply (I2 u).
    + intros u j. destruct (Nat.eqb_spec u t) as [->|N]; [rewrite CN; discriminate|]. intros H. destruct (I3 u j H) as [A B]. split; auto. rewrite in_app_iff. intros [X|[X|[]]]; [auto|].
      cbn [snd] in X. injection X as <-. apply N. eapply I4; eauto.
    + intros u v j. destruct (Nat.eqb_spec u t) as [->|N1]; [rewrite CN; discriminate|]. destruct (Nat.eqb_spec v t) as [->|N2]; [rewrite CN; discriminate|]. apply I4.
    + intros g j H. apply in_app_or in H as [H|[H|[]]]; [apply I5; auto|]. injection H as <- <-. auto.
    + apply NoDup_snoc; auto.
  - injection E as <-. ploc s t; auto.
  - destruct (p_mu s); [discriminate|]. injection E as <-. ploc s t; auto.
  - injection E as <-. ploc s t; destruct (Nat.eqb _ _); auto.
Qed.

Lemma pready_inv n : pinv (pready n).
Proof. constructor; cbn; auto; try discriminate; try contradiction. constructor. Qed.
(** On a segment that is set up no slot is handed out twice, under any schedule. *)
Theorem C36_slots_once_after_setup n s : preach (pready n) s -> NoDup (slots s).
Proof. intros (ls & R). apply (pi_once s). refine (prun_inv pinv _ ls (pready n) s (pready_inv n) R). intros; eapply pinv_step; eauto. Qed.
Print Assumptions C36_slots_once_after_setup.
(** such a run: two goroutines race for slot 0, the loser gets slot 1 *)
Definition two_gets : list nat := [1; 1; 1; 1; 2; 2; 2; 2; 1; 2; 1; 2; 2; 2; 2; 2; 2].
Example C36_slots_once_case : exists s, prun (pready 64) two_gets = Some s /\ slots s = [(1, 0); (1, 1)].
Proof. eexists. split; vm_compute; reflexivity. Qed.

Definition result (s0 : pstate) (ls : list nat) : pstate := match prun s0 ls with Some s => s | None => s0 end.
Definition can (s0 : pstate) (ls : list nat) : bool := match prun s0 ls with Some _ => true | None => false end.
Lemma can_reach s0 ls : can s0 ls = true -> preach s0 (result s0 ls).
Proof. unfold can, result, preach. intros H. exists ls. destruct (prun s0 ls); [auto|discriminate]. Qed.
(** On a new segment it is false: the first two Gets both set it up. *)
Definition slots_once : Prop := forall s, preach pfresh s -> NoDup (slots s).
(** 1 and 2 see the empty segment; 2 sets it up and claims slot 0; 1 sets it up again and claims slot 0; both read the new array *)
Definition both_init : list nat := [1; 1; 2; 2; 2; 2; 2; 2; 2; 1; 1; 1; 1; 1; 2; 1].
Lemma both_slots : slots (result pfresh both_init) = [(2, 0); (2, 0)].
Proof. vm_compute. reflexivity. Qed.
Theorem C36_slots_once_refuted : ~ slots_once.
Proof.
  intros H. assert (R : preach pfresh (result pfresh both_init)) by (apply can_reach; vm_compute; reflexivity). specialize (H _ R). rewrite both_slots in H.
  inversion H as [|? ? N _]. apply N. left. auto.
Qed.
Print Assumptions C36_slots_once_refuted.

(** The length can exceed the capacity, and a goroutine crashes: one passes the capacity test, another takes the last
    slot, the first reads the full length and increments it. *)
Definition len_bounded : Prop := forall s, preach (pready seg_cap) s -> p_len s <= p_cap s.
Fixpoint times {A} (n : nat) (l : list A) : list A := match n with O => [] | S m => l ++ times m l end.
(** 63 Gets of goroutine 1, one after the other *)
Definition fill63 : list nat := times 63 [1; 1; 1; 1; 1; 1].
Definition over : list nat := fill63 ++ [2; 2; 2] ++ [1; 1; 1; 1; 1; 1; 1; 1] ++ [2; 2; 2].
Lemma over_state : p_len (result (pready seg_cap) over) = 65 /\ p_cap (result (pready seg_cap) over) = 64 /\ p_pcs (result (pready seg_cap) over) 2 = PCrash.
Proof. vm_compute. auto. Qed.
Theorem C36_len_refuted : ~ len_bounded.
Proof.
  intros H. assert (R : preach (pready seg_cap) (result (pready seg_cap) over)) by (apply can_reach; vm_compute; reflexivity). specialize (H _ R).
  destruct over_state as (A & B & _). rewrite A, B in H. lia.
Qed.
Print Assumptions C36_len_refuted.

(** As long as no more Gets were started than there are slots, the length stays within the capacity and nobody crashes. *)
Definition before_cas (p : ppc) : bool := match p with PStart | PInit1 | PInit2 | PCheck | PRead | PLock _ | PCas _ _ | PTry => true | _ => false end.
Definition b2n (b : bool) : nat := if b then 1 else 0.
Lemma count_upd (f g : nat -> bool) t ts : NoDup ts -> In t ts -> (forall u, u <> t -> f u = g u) ->
  List.length (filter f ts) + b2n (g t) = List.length (filter g ts) + b2n (f t).
Proof.
  intros ND I H. assert (SAME : forall l, ~ In t l -> filter f l = filter g l).
  { intros l NI. apply filter_ext_in. intros u Hu. apply H. intros ->. contradiction. }
  induction ts as [|x ts IH]; [destruct I|]. inversion ND as [|? ? N1 N2]; subst. cbn [filter]. destruct (Nat.eq_dec x t) as [->|NE].
  - rewrite (SAME ts N1). destruct (f t), (g t); cbn [b2n List.length]; lia.
  - destruct I as [I|I]; [congruence|]. specialize (IH N2 I). rewrite (H x NE). destruct (g x); cbn [List.length]; lia.
Qed.
Definition is_idle (p : ppc) : bool := match p with PIdle => true | _ => false end.
Definition budget (s : pstate) (b : nat) : Prop :=
  exists ts, NoDup ts /\ (forall t, p_pcs s t <> PIdle -> In t ts) /\ p_len s + List.length (filter (fun t => before_cas (p_pcs s t)) ts) <= b.
Lemma pstep_amounts s t s' : pinv s -> pstep s t = Some s' ->
  p_len s' + b2n (before_cas (p_pcs s' t)) <= p_len s + b2n (before_cas (p_pcs s t)) + b2n (is_idle (p_pcs s t)) /\ p_cap s' = p_cap s /\ p_len s <= p_len s'.
Proof.
  intros I E. pose proof (pi_init _ I) as IN. pose proof (pi_pcs _ I t) as IT. unfold pstep in E. destruct (p_pcs s t) as [| | | | | |i|i h| |i h| | | |] eqn:P; try discriminate;
    try (injection E as <-; rewrite pgo_same; cbn [p_len p_cap pgo set_mu before_cas is_idle b2n]; try rewrite IN; cbn [before_cas b2n]; lia).
  - injection E as <-. rewrite pgo_same. cbn [p_len p_cap pgo is_idle before_cas b2n]. destruct (Nat.leb _ _); cbn [before_cas b2n]; lia.
  - injection E as <-. rewrite pgo_same. cbn [p_len p_cap pgo is_idle before_cas b2n]. destruct (p_cap s); cbn [Nat.eqb before_cas b2n]; [lia|]. destruct (Nat.eqb _ _); cbn [before_cas b2n]; lia.
  - destruct (p_mu s); [discriminate|]. destruct (Nat.eqb _ _); injection E as <-; rewrite pgo_same; cbn [p_len p_cap pgo set_mu is_idle before_cas b2n]; lia.
  - destruct (Nat.eqb_spec (p_len s) i); injection E as <-; rewrite pgo_same; cbn [p_len p_cap pgo set_plen is_idle before_cas b2n]; lia.
  - destruct (_ || _); injection E as <-; rewrite pgo_same; cbn [p_len p_cap pgo is_idle before_cas b2n]; destruct h; cbn [before_cas b2n]; lia.
  - destruct (p_mu s); [discriminate|]. injection E as <-. rewrite pgo_same. cbn [p_len p_cap pgo set_mu is_idle before_cas b2n]. lia.
  - injection E as <-. rewrite pgo_same. cbn [p_len p_cap pgo set_mu is_idle before_cas b2n]. destruct (Nat.eqb _ _); cbn [before_cas b2n]; lia.
Qed.
Lemma budget_step s t s' b : pinv s -> pstep s t = Some s' -> budget s b -> budget s' (b + b2n (is_idle (p_pcs s t))).
Proof.
  intros I E (ts & ND & ALL & LE). destruct (pstep_amounts s t s' I E) as (A & _ & _). pose proof (fun u => pstep_other s t s' u E) as OT.
  destruct (in_dec Nat.eq_dec t ts) as [IN|NI].
  - exists ts. split; auto. split.
    + intros u Hu. destruct (Nat.eq_dec u t) as [->|NE]; auto. rewrite OT in Hu by auto. auto.
    + pose proof (count_upd (fun u => before_cas (p_pcs s u)) (fun u => before_cas (p_pcs s' u)) t ts ND IN (fun u NE => f_equal before_cas (eq_sym (OT u NE)))) as Q. cbn beta in Q. lia.
  - exists (t :: ts). split; [constructor; auto|]. split.
    + intros u Hu. destruct (Nat.eq_dec u t) as [->|NE]; [left; auto|]. rewrite OT in Hu by auto. right. auto.
    + assert (PI : p_pcs s t = PIdle) by (destruct (p_pcs s t) eqn:Q; auto; exfalso; apply NI, ALL; rewrite Q; discriminate).
      rewrite PI in *. cbn [is_idle before_cas b2n] in *. cbn [filter].
      assert (Q : filter (fun u => before_cas (p_pcs s' u)) ts = filter (fun u => before_cas (p_pcs s u)) ts) by (apply filter_ext_in; intros u Hu; rewrite OT; auto; intros ->; contradiction).
      destruct (before_cas (p_pcs s' t)); cbn [b2n List.length] in *; rewrite Q; lia.
Qed.
Definition expanding (p : ppc) : bool := match p with PExp | PExpIn => true | _ => false end.
Definition safe (s : pstate) : Prop := (forall t, p_pcs s t <> PCrash) /\ (forall t, expanding (p_pcs s t) = true -> 0 < p_len s).
Lemma safe_step s t s' n : 0 < n -> p_cap s = n -> p_len s <= n -> pinv s -> pstep s t = Some s' -> safe s -> safe s'.
Proof.
  intros N CA LE I E [S1 S2]. destruct (pstep_amounts s t s' I E) as (_ & _ & MO). pose proof (fun u => pstep_other s t s' u E) as OT.
  assert (G : p_pcs s' t <> PCrash /\ (expanding (p_pcs s' t) = true -> 0 < p_len s)).
  { pose proof (S2 t) as S2t. pose proof (pi_init _ I) as IN. pose proof (pi_claim _ I t) as CL. unfold pstep in E. destruct (p_pcs s t) as [| | | | | |i|i h| |i h| | | |] eqn:P; try discriminate;
      try (injection E as <-; rewrite pgo_same; split; [discriminate|cbn; discriminate]).
    - injection E as <-. rewrite pgo_same. rewrite IN. split; [discriminate|cbn; discriminate].
    - injection E as <-. rewrite pgo_same. destruct (Nat.leb_spec (p_cap s) (p_len s)); split; try discriminate. intros _. lia.
    - injection E as <-. rewrite pgo_same. destruct (p_cap s); cbn [Nat.eqb]; [split; discriminate|]. destruct (Nat.eqb _ _); split; discriminate.
    - destruct (p_mu s); [discriminate|]. destruct (Nat.eqb _ _); injection E as <-; rewrite pgo_same; split; discriminate.
    - destruct (Nat.eqb _ _); injection E as <-; rewrite pgo_same; split; discriminate.
    - destruct (CL i eq_refl) as [LT _]. destruct (Nat.leb_spec (p_len s) i); [lia|]. destruct (Nat.leb_spec (p_cap s) i); [lia|]. cbn [orb] in E. injection E as <-. rewrite pgo_same. destruct h; split; discriminate.
    - destruct (p_mu s); [discriminate|]. injection E as <-. rewrite pgo_same. split; [discriminate|]. intros _. apply S2t. auto.
    - injection E as <-. rewrite pgo_same. specialize (S2t eq_refl). destruct (Nat.eqb_spec (p_len s) 0); [lia|]. split; discriminate. }
  destruct G as [G1 G2]. split.
  - intros u. destruct (Nat.eq_dec u t) as [->|NE]; auto. rewrite OT; auto.
  - intros u. destruct (Nat.eq_dec u t) as [->|NE]; [intros X; specialize (G2 X); lia|]. rewrite OT by auto. intros X. specialize (S2 u X). lia.
Qed.
Theorem C36_len_up_to_capacity n ls s : 0 < n -> prun (pready n) ls = Some s -> calls (pready n) ls <= n -> p_len s <= p_cap s /\ forall t, p_pcs s t <> PCrash.
Proof.
  intros N. assert (G : forall l s0 b, pinv s0 -> budget s0 b -> p_cap s0 = n -> safe s0 -> b + calls s0 l <= n -> prun s0 l = Some s -> p_len s <= p_cap s /\ forall t, p_pcs s t <> PCrash).
  { induction l as [|t l IH]; intros s0 b I B CA SF LE R; cbn [prun calls] in *.
    - injection R as <-. destruct B as (ts & _ & _ & L). split; [lia|apply SF].
    - destruct (pstep s0 t) as [s1|] eqn:E; [|discriminate]. pose proof (budget_step s0 t s1 b I E B) as B1. destruct (pstep_amounts s0 t s1 I E) as (_ & C1 & _).
      assert (L0 : p_len s0 <= n) by (destruct B as (ts & _ & _ & L); lia).
      apply (IH s1 (b + b2n (is_idle (p_pcs s0 t)))); auto.
      + eapply pinv_step; eauto.
      + congruence.
      + eapply (safe_step s0 t s1 n); eauto.
      + destruct (p_pcs s0 t); cbn [is_idle b2n] in *; lia. }
  intros R L. apply (G ls (pready n) 0); auto.
  - apply pready_inv.
  - exists []. split; [constructor|]. split; [intros t H; exfalso; apply H; reflexivity|]. cbn. lia.
  - split; [intros t; discriminate|intros t; discriminate].
Qed.
Print Assumptions C36_len_up_to_capacity.
Example C36_len_case : exists s, prun (pready 64) two_gets = Some s /\ calls (pready 64) two_gets = 2 /\ p_len s = 2.
Proof. eexists. split; [vm_compute; reflexivity|]. split; vm_compute; reflexivity. Qed.

(** * C37: progress *)
Definition ended (p : ppc) : Prop := p = PIdle \/ p = PCrash.
(** from every state every call can still end *)
Definition calls_can_end (s0 : pstate) : Prop := forall s t, preach s0 s -> exists ls s', prun s ls = Some s' /\ ended (p_pcs s' t).
(** goroutine t holds the mutex and waits for it *)
Definition waits (p : ppc) : Prop := p = PExp \/ exists i, p = PLock i.
Definition self_wait (s : pstate) (t : nat) : Prop := p_mu s = Some t /\ waits (p_pcs s t).
Definition holds (p : ppc) : bool := match p with PHold | PExpIn | PCas _ true | PAt _ true => true | _ => false end.
Definition owner_ok (s : pstate) : Prop := forall t, holds (p_pcs s t) = true -> p_mu s = Some t.
Lemma owner_step s t s' : owner_ok s -> pstep s t = Some s' -> owner_ok s' /\ (p_mu s' = p_mu s \/ (p_mu s = None /\ p_mu s' = Some t) \/ (p_mu s = Some t /\ p_mu s' = None)).
Proof.
  intros O E. pose proof (fun u => pstep_other s t s' u E) as OT.
  assert (G : (holds (p_pcs s' t) = true -> p_mu s' = Some t) /\ (p_mu s' = p_mu s \/ (p_mu s = None /\ p_mu s' = Some t) \/ (p_mu s = Some t /\ p_mu s' = None))).
  { pose proof (O t) as OO. unfold pstep in E. destruct (p_pcs s t) as [| | | | | |i|i h| |i h| | | |] eqn:P; try discriminate;
      try (injection E as <-; rewrite pgo_same; split; [cbn; discriminate|left; reflexivity]).
    - injection E as <-. rewrite pgo_same. split; [destruct (p_init s); discriminate|left; reflexivity].
    - injection E as <-. rewrite pgo_same. split; [destruct (Nat.leb _ _); discriminate|left; reflexivity].
    - injection E as <-. rewrite pgo_same. split; [destruct (p_cap s); cbn [Nat.eqb]; [discriminate|]; destruct (Nat.eqb _ _); discriminate|left; reflexivity].
    - destruct (p_mu s) eqn:M; [discriminate|]. destruct (Nat.eqb _ _); injection E as <-; rewrite pgo_same; cbn [p_mu pgo set_mu]; [split; auto|split; [discriminate|left; auto]].
    - destruct (Nat.eqb _ _); injection E as <-; rewrite pgo_same; cbn [p_mu pgo set_plen]; [split; [exact OO|left; auto]|split; [discriminate|left; auto]].
    - destruct (_ || _); injection E as <-; rewrite pgo_same; cbn [p_mu pgo]; [split; [discriminate|left; auto]|]. destruct h; (split; [first [exact OO|discriminate]|left; auto]).
    - injection E as <-. rewrite pgo_same. cbn [p_mu pgo set_mu]. split; [discriminate|]. right. right. split; auto.
    - destruct (p_mu s) eqn:M; [discriminate|]. injection E as <-. rewrite pgo_same. cbn [p_mu pgo set_mu]. split; auto.
    - injection E as <-. rewrite pgo_same. cbn [p_mu pgo set_mu]. split; [destruct (Nat.eqb _ _); discriminate|]. right. right. split; auto. }
  destruct G as [G1 G2]. split; auto. intros u H. destruct (Nat.eq_dec u t) as [->|NE]; auto. rewrite OT in H by auto. specialize (O u H).
  destruct G2 as [->|[[X _]|[X _]]]; congruence.
Qed.
Lemma self_wait_step s t u s' : owner_ok s -> self_wait s t -> pstep s u = Some s' -> self_wait s' t /\ u <> t.
Proof.
  intros O [M W] E. assert (NE : u <> t).
  { intros ->. unfold pstep in E. destruct W as [W|(i & W)]; rewrite W, M in E; discriminate E. }
  split; auto. destruct (owner_step s u s' O E) as [_ [X|[[X _]|[X _]]]]; try congruence. split; [congruence|]. rewrite (pstep_other s u s' t E); auto.
Qed.
Lemma reach_owner s0 s : s0 = pfresh \/ (exists n, s0 = pready n) -> preach s0 s -> owner_ok s.
Proof.
  intros S (ls & R). refine (prun_inv owner_ok _ ls s0 s _ R); [intros; eapply owner_step; eauto|]. destruct S as [->|(n & ->)]; intros t X; discriminate X.
Qed.
(** A goroutine that waits for the mutex it holds does so for ever, and so does everybody who waits for it. *)
Theorem C37_deadlock_is_permanent s0 s t ls s' : s0 = pfresh \/ (exists n, s0 = pready n) -> preach s0 s -> self_wait s t -> prun s ls = Some s' ->
  self_wait s' t /\ forall u, waits (p_pcs s u) -> p_pcs s' u = p_pcs s u.
Proof.
  intros S0 R W E. pose proof (reach_owner s0 s S0 R) as O. assert (G : (self_wait s' t /\ owner_ok s') /\ forall u, waits (p_pcs s u) -> p_pcs s' u = p_pcs s u); [|tauto].
  refine (prun_inv (fun x => (self_wait x t /\ owner_ok x) /\ forall u, waits (p_pcs s u) -> p_pcs x u = p_pcs s u) _ ls s s' _ E); [|auto].
  intros x u y [[Wx Ox] K] ST. destruct (self_wait_step x t u y Ox Wx ST) as [Wy NE]. split; [split; auto; eapply owner_step; eauto|]. intros v Wv.
  destruct (Nat.eq_dec v u) as [->|N]; [|rewrite (pstep_other x u y v ST); auto]. exfalso. unfold pstep in ST. destruct Wx as [M _]. pose proof (K u Wv) as KU. rewrite <- KU in Wv. destruct Wv as [X|(i & X)]; rewrite X, M in ST; discriminate ST.
Qed.
Print Assumptions C37_deadlock_is_permanent.
(** 63 slots are used; 1 and 2 both see the last one; 1 takes it, 2 gets the mutex, fails, starts again and waits for itself *)
Definition last_race : list nat := fill63 ++ [1; 1; 1; 1] ++ [2; 2; 2; 2] ++ [1; 1; 1; 1] ++ [2; 2; 2; 2; 2].
Lemma last_race_state : p_mu (result (pready seg_cap) last_race) = Some 2 /\ p_pcs (result (pready seg_cap) last_race) 2 = PExp /\ p_pcs (result (pready seg_cap) last_race) 1 = PIdle.
Proof. vm_compute. auto. Qed.
Lemma last_race_reach : preach (pready seg_cap) (result (pready seg_cap) last_race).
Proof. apply can_reach. vm_compute. reflexivity. Qed.
Lemma self_wait_blocks n s t : preach (pready n) s -> p_mu s = Some t -> p_pcs s t = PExp -> ~ calls_can_end (pready n).
Proof.
  intros R M P H. destruct (H s t R) as (ls & s' & RU & E).
  destruct (C37_deadlock_is_permanent (pready n) s t ls s' (or_intror (ex_intro _ n eq_refl)) R (conj M (or_introl P)) RU) as [[_ [X|(i & X)]] _]; rewrite X in E; destruct E; discriminate.
Qed.
Theorem C37_progress_refuted : ~ calls_can_end (pready seg_cap).
Proof. destruct last_race_state as (M & P & _). exact (self_wait_blocks seg_cap _ 2 last_race_reach M P). Qed.
Print Assumptions C37_progress_refuted.

(** One goroutine at a time: every Get ends, with a slot of this segment or of the next. *)
Definition at_rest (s : pstate) : Prop := (forall t, p_pcs s t = PIdle) /\ p_mu s = None /\ p_len s <= p_cap s /\ (p_init s = true -> 1 < p_cap s).
Lemma solo_get s t : at_rest s -> exists k s', prun s (repeat t k) = Some s' /\ at_rest s' /\ 0 < k.
Proof.
  intros (ID & MU & LE & IN).
  assert (READY : forall s1, p_pcs s1 t = PCheck -> (forall u, u <> t -> p_pcs s1 u = PIdle) -> p_mu s1 = None -> p_len s1 <= p_cap s1 -> 1 < p_cap s1 -> exists k s', prun s1 (repeat t k) = Some s' /\ at_rest s').
  { clear. intros s PC OT MU LE CA. destruct (Nat.leb (p_cap s) (p_len s)) eqn:FULL; [|destruct (Nat.eqb (S (p_len s)) (p_cap s)) eqn:LAST].
    - exists 3. eexists. split.
      + cbn [repeat prun]. unfold pstep at 1. rewrite PC, FULL. unfold pstep at 1. rewrite pgo_same. cbn [p_mu pgo]. rewrite MU. unfold pstep at 1. rewrite pgo_same.
        cbn [p_len pgo set_mu]. apply Nat.leb_le in FULL. destruct (Nat.eqb_spec (p_len s) 0); [lia|]. reflexivity.
      + split; [intros u; cbn; destruct (Nat.eqb_spec u t); auto|]. cbn. auto.
    - apply Nat.eqb_eq in LAST. exists 6. eexists. split.
      + cbn [repeat prun]. unfold pstep at 1. rewrite PC, FULL. unfold pstep at 1. rewrite pgo_same. cbn [p_len p_cap pgo]. rewrite (proj2 (Nat.eqb_eq _ _) LAST).
        unfold pstep at 1. rewrite pgo_same. cbn [p_mu p_cap pgo]. rewrite MU, (proj2 (Nat.eqb_eq _ _) LAST). unfold pstep at 1. rewrite pgo_same. cbn [p_len pgo set_mu]. rewrite Nat.eqb_refl.
        unfold pstep at 1. rewrite pgo_same. cbn [p_len p_cap pgo set_mu set_plen]. destruct (Nat.leb_spec (S (p_len s)) (p_len s)); [lia|]. destruct (Nat.leb_spec (p_cap s) (p_len s)); [lia|].
        cbn [orb]. unfold pstep at 1. rewrite pgo_same. reflexivity.
      + split; [intros u; cbn; destruct (Nat.eqb_spec u t); auto|]. cbn. split; auto. split; [lia|auto].
    - apply Nat.leb_gt in FULL. exists 4. eexists. split.
      + cbn [repeat prun]. unfold pstep at 1. rewrite PC. destruct (Nat.leb_spec (p_cap s) (p_len s)); [lia|]. unfold pstep at 1. rewrite pgo_same. cbn [p_len p_cap pgo]. rewrite LAST.
        unfold pstep at 1. rewrite pgo_same. cbn [p_len pgo]. rewrite Nat.eqb_refl. unfold pstep at 1. rewrite pgo_same. cbn [p_len p_cap pgo set_plen].
        destruct (Nat.leb_spec (S (p_len s)) (p_len s)); [lia|]. destruct (Nat.leb_spec (p_cap s) (p_len s)); [lia|]. cbn [orb]. reflexivity.
      + split; [intros u; cbn; destruct (Nat.eqb_spec u t); auto|]. cbn. split; [auto|]. split; [lia|auto]. }
  destruct (p_init s) eqn:II.
  - destruct (READY (pgo (pgo s t PStart) t PCheck)) as (k & s' & R & Q); try (rewrite pgo_same); auto.
    + intros u N. rewrite !pgo_other by auto. auto.
    + exists (S (S k)), s'. split; [|split; [auto|lia]]. cbn [repeat prun]. unfold pstep at 1. rewrite ID. unfold pstep at 1. rewrite pgo_same. cbn [p_init pgo]. rewrite II. exact R.
  - set (s1 := pgo (mkP true (S (p_gen s)) 0 seg_cap (p_mu s) (p_pcs s) (p_out s)) t PCheck).
    destruct (READY (pgo (mkP true (S (p_gen s)) 0 seg_cap (p_mu s) (p_pcs (pgo (pgo (pgo s t PStart) t PInit1) t PInit2)) (p_out s)) t PCheck)) as (k & s' & R & Q); try (rewrite pgo_same); auto; cbn [p_len p_cap pgo].
    + intros u N. rewrite pgo_other by auto. change (p_pcs (pgo (pgo (pgo s t PStart) t PInit1) t PInit2) u = PIdle). rewrite !pgo_other by auto. auto.
    + unfold seg_cap. lia.
    + unfold seg_cap. lia.
    + exists (S (S (S (S k)))), s'. split; [|split; [auto|lia]]. cbn [repeat prun]. unfold pstep at 1. rewrite ID. unfold pstep at 1. rewrite pgo_same. cbn [p_init pgo]. rewrite II.
      unfold pstep at 1. rewrite pgo_same. unfold pstep at 1. rewrite pgo_same. exact R.
Qed.
Definition one_after_other (ts ks : list nat) : list nat := List.concat (map (fun tk => repeat (fst tk) (snd tk)) (combine ts ks)).
Theorem C37_sequential ts : exists ks s, List.length ks = List.length ts /\ Forall (fun k => 0 < k) ks /\
  prun pfresh (one_after_other ts ks) = Some s /\ at_rest s.
Proof.
  assert (G : forall s0, at_rest s0 -> exists ks s, List.length ks = List.length ts /\ Forall (fun k => 0 < k) ks /\ prun s0 (one_after_other ts ks) = Some s /\ at_rest s).
  { induction ts as [|t ts IH]; intros s0 A0.
    - exists [], s0. split; auto.
    - destruct (solo_get s0 t A0) as (k & s1 & R1 & A1 & K). destruct (IH s1 A1) as (ks & s & L & F & R & A). exists (k :: ks), s. split; [cbn; auto|]. split; [constructor; auto|].
      split; auto. unfold one_after_other. cbn [combine map List.concat fst snd]. rewrite prun_app, R1. exact R. }
  apply G. split; [reflexivity|]. split; [reflexivity|]. split; [cbn; lia|discriminate].
Qed.
Print Assumptions C37_sequential.

(** Goroutines together, with at most as many Gets as the segment has slots: nobody ever waits, and whatever the schedule,
    [c] Gets make at most [8c + 6c²] steps together; so every Get ends. *)
Definition need (len : nat) (p : ppc) : nat :=
  match p with
  | PStart => 7 | PCheck => 6 | PRead => 5 | PTry => 8 | PLock _ => 4 | PAt _ _ => 2 | PHold => 1
  | PCas i _ => if Nat.eqb len i then 3 else 9
  | _ => 0
  end.
(** only the Get that takes the last slot touches the mutex *)
Definition low (n len : nat) (mu : option nat) (t : nat) (p : ppc) : Prop :=
  match p with
  | PIdle | PStart | PCheck | PRead | PTry => True
  | PLock i => i = len /\ S i = n
  | PCas i false => i <= len
  | PCas i true => i = len /\ S i = n /\ mu = Some t
  | PAt i false => i < len
  | PAt i true => i < len /\ len = n /\ mu = Some t
  | PHold => len = n /\ mu = Some t
  | _ => False
  end.
Fixpoint total (f : nat -> nat) (ts : list nat) : nat := match ts with [] => 0 | t :: r => f t + total f r end.
Lemma total_upd (f g : nat -> nat) t ts : NoDup ts -> In t ts -> (forall u, u <> t -> f u = g u) -> total f ts + g t = total g ts + f t.
Proof.
  intros ND I H. assert (SAME : forall l, ~ In t l -> total f l = total g l).
  { induction l as [|x l IH]; intros NI; cbn [total]; auto. rewrite (H x), IH; auto; intros X; apply NI; [right|left]; auto. }
  induction ts as [|x ts IH]; [destruct I|]. inversion ND as [|? ? N1 N2]; subst. cbn [total]. destruct (Nat.eq_dec x t) as [->|NE].
  - rewrite (SAME ts N1). lia.
  - destruct I as [I|I]; [congruence|]. specialize (IH N2 I). rewrite (H x NE). lia.
Qed.
Lemma total_grow (f g : nat -> nat) (b : nat -> bool) k ts : (forall u, f u <= g u + k * b2n (b u)) -> total f ts <= total g ts + k * List.length (filter b ts).
Proof.
  intros H. induction ts as [|x ts IH]; cbn [total filter List.length]; [lia|]. specialize (H x). destruct (b x); cbn [b2n List.length] in *; lia.
Qed.
Definition steps_ok (C k c : nat) (s : pstate) : Prop :=
  exists ts, NoDup ts /\ (forall t, p_pcs s t <> PIdle -> In t ts) /\ p_len s + List.length (filter (fun t => before_cas (p_pcs s t)) ts) <= c /\
    k + total (fun t => need (p_len s) (p_pcs s t)) ts <= 8 * c + 6 * p_len s * C.
Record few (n C k c : nat) (s : pstate) : Prop := {
  fe_init : p_init s = true; fe_cap : p_cap s = n;
  fe_low : forall t, low n (p_len s) (p_mu s) t (p_pcs s t);
  fe_mu : forall t, p_mu s = Some t -> holds (p_pcs s t) = true;
  fe_steps : steps_ok C k c s }.
Lemma count_two {A} (f : A -> bool) l x y : In x l -> In y l -> x <> y -> f x = true -> f y = true -> 2 <= List.length (filter f l).
Proof.
  intros X Y N FX FY. assert (X' : In x (filter f l)) by (apply filter_In; auto). assert (Y' : In y (filter f l)) by (apply filter_In; auto).
  destruct (filter f l) as [|a [|b r]]; [destruct X'| |cbn; lia]. destruct X' as [<-|[]]; destruct Y' as [<-|[]]; congruence.
Qed.
Lemma count_one {A} (f : A -> bool) l x : In x l -> f x = true -> 1 <= List.length (filter f l).
Proof. intros X FX. assert (X' : In x (filter f l)) by (apply filter_In; auto). destruct (filter f l); [destruct X'|cbn; lia]. Qed.
(** how many slots are left for the Gets that have not got one yet *)
Lemma room_one C k c s t : steps_ok C k c s -> before_cas (p_pcs s t) = true -> p_len s + 1 <= c.
Proof.
  intros (ts & ND & ALL & CNT & _) B. assert (I : In t ts) by (apply ALL; intros X; rewrite X in B; discriminate).
  pose proof (count_one (fun t => before_cas (p_pcs s t)) ts t I B). lia.
Qed.
Lemma room_two C k c s t u : steps_ok C k c s -> t <> u -> before_cas (p_pcs s t) = true -> before_cas (p_pcs s u) = true -> p_len s + 2 <= c.
Proof.
  intros (ts & ND & ALL & CNT & _) N B B2. assert (I : In t ts) by (apply ALL; intros X; rewrite X in B; discriminate). assert (I2 : In u ts) by (apply ALL; intros X; rewrite X in B2; discriminate).
  pose proof (count_two (fun t => before_cas (p_pcs s t)) ts t u I I2 N B B2). lia.
Qed.
(** nobody waits for the mutex *)
Lemma few_free n C k c s t : few n C k c s -> c <= n -> waits (p_pcs s t) -> p_mu s = None.
Proof.
  intros [IN CA LO MU ST] LN W. destruct (p_mu s) as [u|] eqn:M; auto. exfalso. specialize (MU u eq_refl). pose proof (LO u) as Lu. pose proof (LO t) as Lt.
  assert (B : before_cas (p_pcs s t) = true /\ S (p_len s) = n) by (destruct W as [W|(i & W)]; rewrite W in *; cbn [low] in Lt; [destruct Lt|split; [reflexivity|lia]]). destruct B as [B BL].
  assert (N : t <> u) by (intros ->; destruct W as [W|(i & W)]; rewrite W in MU; discriminate).
  destruct (p_pcs s u) as [| | | | | |i|i h| |i h| | | |] eqn:PU; try discriminate MU; cbn [low] in Lu; try contradiction.
  - pose proof (room_two C k c s t u ST N B ltac:(rewrite PU; reflexivity)). lia.
  - destruct h; [|discriminate MU]. lia.
  - lia.
Qed.
(** a step that takes no slot *)
Lemma steps_same C k c s t s' : steps_ok C k c s -> (forall u, u <> t -> p_pcs s' u = p_pcs s u) -> p_pcs s t <> PIdle -> p_len s' = p_len s ->
  b2n (before_cas (p_pcs s' t)) <= b2n (before_cas (p_pcs s t)) -> S (need (p_len s) (p_pcs s' t)) <= need (p_len s) (p_pcs s t) -> steps_ok C (S k) c s'.
Proof.
  intros (ts & ND & ALL & CNT & ST) OT NI L B N. assert (I : In t ts) by auto. exists ts. split; auto. split; [intros u; destruct (Nat.eq_dec u t) as [->|X]; auto; rewrite OT; auto|]. rewrite L.
  assert (Q := count_upd (fun u => before_cas (p_pcs s u)) (fun u => before_cas (p_pcs s' u)) t ts ND I (fun u N => f_equal before_cas (eq_sym (OT u N)))). cbn beta in Q.
  assert (Q2 := total_upd (fun u => need (p_len s) (p_pcs s u)) (fun u => need (p_len s) (p_pcs s' u)) t ts ND I (fun u N => f_equal (need (p_len s)) (eq_sym (OT u N)))). cbn beta in Q2. lia.
Qed.
(** a new call *)
Lemma steps_call C k c s t s' : steps_ok C k c s -> (forall u, u <> t -> p_pcs s' u = p_pcs s u) -> p_pcs s t = PIdle -> p_pcs s' t = PStart -> p_len s' = p_len s -> steps_ok C (S k) (c + 1) s'.
Proof.
  intros (ts & ND & ALL & CNT & ST) OT P P' L. destruct (in_dec Nat.eq_dec t ts) as [I|NI].
  - exists ts. split; auto. split; [intros u; destruct (Nat.eq_dec u t) as [->|X]; auto; rewrite OT; auto|]. rewrite L.
    assert (Q := count_upd (fun u => before_cas (p_pcs s u)) (fun u => before_cas (p_pcs s' u)) t ts ND I (fun u N => f_equal before_cas (eq_sym (OT u N)))). cbn beta in Q. rewrite P, P' in Q. cbn [before_cas b2n] in Q.
    assert (Q2 := total_upd (fun u => need (p_len s) (p_pcs s u)) (fun u => need (p_len s) (p_pcs s' u)) t ts ND I (fun u N => f_equal (need (p_len s)) (eq_sym (OT u N)))). cbn beta in Q2. rewrite P, P' in Q2. cbn [need] in Q2. lia.
  - exists (t :: ts). split; [constructor; auto|]. split; [intros u U; destruct (Nat.eq_dec u t) as [->|X]; [left; auto|right; apply ALL; rewrite <- OT; auto]|]. cbn [filter total]. rewrite P', L. cbn [before_cas need List.length].
    assert (F : filter (fun u => before_cas (p_pcs s' u)) ts = filter (fun u => before_cas (p_pcs s u)) ts) by (apply filter_ext_in; intros u U; rewrite OT; auto; intros ->; contradiction).
    assert (T : total (fun u => need (p_len s) (p_pcs s' u)) ts = total (fun u => need (p_len s) (p_pcs s u)) ts).
    { clear - NI OT. induction ts as [|x ts IH]; cbn [total]; auto. rewrite IH, OT; auto; [intros ->; apply NI; left; auto|intros X; apply NI; right; auto]. }
    rewrite F, T. lia.
Qed.
(** a step that takes a slot *)
Lemma steps_take n C k c s t s' i h : few n C k c s -> c <= C -> (forall u, u <> t -> p_pcs s' u = p_pcs s u) -> p_pcs s t = PCas i h -> i = p_len s -> p_pcs s' t = PAt i h -> p_len s' = S (p_len s) -> steps_ok C (S k) c s'.
Proof.
  intros [_ _ LO _ (ts & ND & ALL & CNT & ST)] LC OT P EI P' L. assert (I : In t ts) by (apply ALL; congruence). exists ts. split; auto. split; [intros u; destruct (Nat.eq_dec u t) as [->|X]; auto; rewrite OT; auto|]. rewrite L.
  assert (Q := count_upd (fun u => before_cas (p_pcs s u)) (fun u => before_cas (p_pcs s' u)) t ts ND I (fun u N => f_equal before_cas (eq_sym (OT u N)))). cbn beta in Q. rewrite P, P' in Q. cbn [before_cas b2n] in Q.
  split; [lia|]. assert (Q2 := total_upd (fun u => need (p_len s) (p_pcs s u)) (fun u => need (p_len s) (p_pcs s' u)) t ts ND I (fun u N => f_equal (need (p_len s)) (eq_sym (OT u N)))). cbn beta in Q2. rewrite P, P' in Q2. cbn [need] in Q2. rewrite EI, Nat.eqb_refl in Q2.
  assert (Q3 : total (fun u => need (S (p_len s)) (p_pcs s' u)) ts <= total (fun u => need (p_len s) (p_pcs s' u)) ts + 6 * List.length (filter (fun u => before_cas (p_pcs s' u)) ts)).
  { apply total_grow. intros u. destruct (Nat.eq_dec u t) as [->|NU]; [rewrite P'; cbn; lia|]. specialize (LO u). rewrite OT by auto. destruct (p_pcs s u) as [| | | | | |j|j g| |j g| | | |]; cbn [need before_cas b2n]; try lia.
    cbn [low] in LO. destruct (Nat.eqb_spec (S (p_len s)) j); [destruct g; lia|]. destruct (Nat.eqb_spec (p_len s) j); lia. }
  nia.
Qed.
Lemma few_step n C k c s t s' : few n C k c s -> pstep s t = Some s' -> c + b2n (is_idle (p_pcs s t)) <= C -> c + b2n (is_idle (p_pcs s t)) <= n ->
  few n C (S k) (c + b2n (is_idle (p_pcs s t))) s'.
Proof.
  intros F E LC LN. pose proof F as [IN CA LO MU ST]. pose proof (fun u => pstep_other s t s' u E) as OT. pose proof (LO t) as Lt.
  (* steps that leave the length and the mutex alone *)
  assert (K : forall p, p_pcs s t <> PIdle -> p_pcs s' t = p -> p_init s' = true -> p_cap s' = n -> p_len s' = p_len s -> p_mu s' = p_mu s -> holds p = holds (p_pcs s t) -> low n (p_len s) (p_mu s) t p -> b2n (before_cas p) <= b2n (before_cas (p_pcs s t)) -> S (need (p_len s) p) <= need (p_len s) (p_pcs s t) -> few n C (S k) (c + 0) s').
  { intros p NI EP I' C' L' M' HP LP BC NE. rewrite Nat.add_0_r. constructor; auto.
    - intros u. rewrite L', M'. destruct (Nat.eq_dec u t) as [->|N]; [rewrite EP; auto|rewrite OT; auto].
    - intros u. rewrite M'. intros X. destruct (Nat.eq_dec u t) as [->|N]; [rewrite EP, HP; auto|rewrite OT; auto].
    - apply (steps_same C k c s t); auto; rewrite EP; auto. }
  unfold pstep in E. destruct (p_pcs s t) as [| | | | | |i|i h| |i h| | | |] eqn:P; try discriminate; try contradiction; cbn [is_idle b2n] in *.
  - (* a new call *) injection E as <-. constructor; cbn [p_init p_cap p_mu p_len pgo]; auto.
    + intros u. cbn. destruct (Nat.eqb u t); cbn; auto.
    + intros u M. cbn. destruct (Nat.eqb_spec u t) as [->|]; auto. specialize (MU t M). rewrite P in MU. discriminate MU.
    + apply (steps_call C k c s t); auto; [apply pgo_same].
  - injection E as <-. apply (K PCheck); auto; try apply pgo_same; try discriminate; try reflexivity. rewrite pgo_same, IN. reflexivity.
  - assert (X := room_one C k c s t ST ltac:(rewrite P; reflexivity)). destruct (Nat.leb_spec (p_cap s) (p_len s)); [lia|]. injection E as <-. apply (K PRead); auto; try apply pgo_same; try discriminate; reflexivity.
  - cbv zeta in E. destruct (Nat.eqb_spec (S (p_len s)) (p_cap s)) as [EQ|NE]; injection E as <-.
    + apply (K (PLock (p_len s))); auto; try apply pgo_same; try discriminate; try reflexivity. cbn; split; [auto|congruence].
    + apply (K (PCas (p_len s) false)); auto; try apply pgo_same; try discriminate; try reflexivity. cbn; auto. unfold need; rewrite Nat.eqb_refl; auto.
  - (* PLock *) destruct (p_mu s) as [u|] eqn:M; [discriminate|]. cbn [low] in Lt. destruct Lt as [-> LL]. rewrite CA, LL, Nat.eqb_refl in E. injection E as <-. rewrite Nat.add_0_r. constructor; cbn [p_init p_cap p_mu p_len pgo set_mu]; auto.
    + intros u. cbn. destruct (Nat.eqb_spec u t) as [->|N]; [cbn; auto|]. specialize (LO u). destruct (p_pcs s u) as [| | | | | |i|i h| |i h| | | |]; cbn [low] in *; auto; try destruct h; auto; destruct LO as (_ & LO); try destruct LO as (_ & LO); discriminate LO.
    + intros u [= <-]. cbn. rewrite Nat.eqb_refl. reflexivity.
    + apply (steps_same C k c s t); auto; rewrite ?pgo_same, ?P; try discriminate; try reflexivity. cbn [need]. rewrite Nat.eqb_refl. auto.
  - (* PCas *) destruct (Nat.eqb_spec (p_len s) i) as [EQ|NE].
    + injection E as <-. rewrite Nat.add_0_r. assert (R1 := room_one C k c s t ST ltac:(rewrite P; reflexivity)).
      assert (R2 : forall u, u <> t -> before_cas (p_pcs s u) = true -> p_len s + 2 <= n) by (intros u NU B; pose proof (room_two C k c s t u ST ltac:(auto) ltac:(rewrite P; reflexivity) B); lia).
      set (s1 := pgo _ t _) in *. assert (L1 : p_len s1 = S (p_len s)) by (cbn; congruence). assert (T1 : p_pcs s1 t = PAt i h) by apply pgo_same. assert (M1 : p_mu s1 = p_mu s) by reflexivity. constructor; auto.
      * intros u. rewrite L1, M1. destruct (Nat.eq_dec u t) as [->|N]; [rewrite T1; cbn [low] in *; destruct h; [repeat split; try tauto; lia|lia]|]. rewrite OT by auto. specialize (R2 u N). specialize (LO u).
        destruct (p_pcs s u) as [| | | | | |j|j g| |j g| | | |]; cbn [low before_cas] in *; auto; try destruct g; auto; try specialize (R2 eq_refl); lia.
      * intros u X. destruct (Nat.eq_dec u t) as [->|N]; [|rewrite OT; auto]. rewrite T1. specialize (MU t X). rewrite P in MU. destruct h; [reflexivity|discriminate MU].
      * apply (steps_take n C k c s t s1 i h); auto; lia.
    + destruct h; [cbn [low] in Lt; lia|]. injection E as <-. apply (K PTry); auto; try apply pgo_same; try discriminate; try reflexivity. unfold need; destruct (Nat.eqb_spec (p_len s) i); [contradiction|auto].
  - injection E as <-. apply (K PStart); auto; try apply pgo_same; try discriminate; reflexivity.
  - (* PAt *) assert (LL : p_len s <= n) by (destruct ST as (ts & _ & _ & X & _); lia). destruct (Nat.leb_spec (p_len s) i); [cbn [low] in Lt; destruct h; lia|]. destruct (Nat.leb_spec (p_cap s) i); [lia|]. cbn [orb] in E. injection E as <-.
    apply (K (if h then PHold else PIdle)); auto; try apply pgo_same; try discriminate; try reflexivity; destruct h; cbn [low before_cas b2n need] in *; try tauto; auto; lia.
  - (* PHold *) injection E as <-. rewrite Nat.add_0_r. cbn [low] in Lt. destruct Lt as [LL M]. constructor; cbn [p_init p_cap p_mu p_len pgo set_mu]; auto.
    + intros u. cbn. destruct (Nat.eqb_spec u t) as [->|N]; [cbn; auto|]. specialize (LO u). destruct (p_pcs s u) as [| | | | | |i|i h| |i h| | | |]; cbn [low] in *; auto; try destruct h; auto; exfalso; apply N; try (destruct LO as (_ & _ & LO); congruence); destruct LO as (_ & LO); congruence.
    + intros u X. discriminate X.
    + apply (steps_same C k c s t); auto; try rewrite pgo_same; rewrite ?P; try discriminate; try reflexivity.
Qed.
Theorem C37_up_to_capacity n ls s : prun (pready n) ls = Some s -> calls (pready n) ls <= n ->
  (forall t, pstep s t <> None) /\ List.length ls <= 8 * calls (pready n) ls + 6 * calls (pready n) ls * calls (pready n) ls.
Proof.
  intros R LT. set (C := calls (pready n) ls) in *.
  assert (G : forall l s0 k c, few n C k c s0 -> c + calls s0 l <= C -> prun s0 l = Some s -> few n C (k + List.length l) (c + calls s0 l) s).
  { induction l as [|t l IH]; intros s0 k c F LC E; cbn [prun calls List.length] in *; [injection E as <-; rewrite !Nat.add_0_r; auto|].
    destruct (pstep s0 t) as [s1|] eqn:E1; [|discriminate E]. assert (B : b2n (is_idle (p_pcs s0 t)) = match p_pcs s0 t with PIdle => 1 | _ => 0 end) by (destruct (p_pcs s0 t); auto).
    rewrite <- B in *. assert (F1 := few_step n C k c s0 t s1 F E1 ltac:(lia) ltac:(lia)). assert (X := IH s1 (S k) _ F1 ltac:(lia) E). replace (k + S (List.length l)) with (S k + List.length l) by lia. rewrite Nat.add_assoc. exact X. }
  assert (F : few n C (0 + List.length ls) (0 + C) s).
  { apply (G ls (pready n) 0 0); auto. constructor; cbn; auto; [discriminate|]. exists []. split; [constructor|]. split; [intros t H; elim H; auto|]. cbn. lia. }
  cbn [Nat.add] in F. split.
  - intros t. pose proof (few_free n C _ C s t F LT) as FR. pose proof (fe_low _ _ _ _ _ F t) as Lt. unfold pstep. destruct (p_pcs s t) as [| | | | | |i|i h| |i h| | | |]; try discriminate; try contradiction;
      [rewrite FR by (right; eauto); destruct (Nat.eqb _ _); discriminate|destruct (Nat.eqb _ _); discriminate|destruct (_ || _); discriminate].
  - destruct (fe_steps _ _ _ _ _ F) as (ts & _ & _ & CNT & ST). assert (p_len s <= C) by lia. nia.
Qed.
Print Assumptions C37_up_to_capacity.
Example C37_few_case : can (pready 64) two_gets = true /\ calls (pready 64) two_gets <= 64.
Proof. split; vm_compute; auto. repeat constructor. Qed.

(** ** One call more is too many, whatever the number of slots *)
Definition six : list nat := [1; 1; 1; 1; 1; 1].
Lemma calls_app l1 : forall s l2 s1, prun s l1 = Some s1 -> calls s (l1 ++ l2) = calls s l1 + calls s1 l2.
Proof.
  induction l1 as [|t l1 IH]; intros s l2 s1 E; cbn [prun calls app] in *; [injection E as <-; auto|]. destruct (pstep s t) as [s2|]; [|discriminate]. rewrite (IH s2 l2 s1 E). lia.
Qed.
(** goroutine 1 takes all slots but the last, one call after the other *)
Definition quiet (n : nat) (s : pstate) : Prop := p_init s = true /\ p_cap s = n /\ p_mu s = None /\ forall t, p_pcs s t = PIdle.
Ltac go s := unfold pstep; cbn [p_pcs pgo set_mu set_plen p_init p_gen p_len p_cap p_mu p_out Nat.eqb].
Lemma six_run n s : quiet n s -> S (p_len s) < n -> exists s', prun s six = Some s' /\ quiet n s' /\ p_len s' = S (p_len s) /\ calls s six = 1.
Proof.
  intros (IN & CA & MU & ID) L. destruct s as [ini gen len cap mu pcs out]. cbn [p_init p_cap p_mu p_pcs p_len] in *. subst.
  assert (X1 : Nat.leb n len = false) by (apply Nat.leb_gt; lia). assert (X2 : Nat.eqb (S len) n = false) by (apply Nat.eqb_neq; lia). assert (X3 : Nat.eqb len len = true) by apply Nat.eqb_refl.
  assert (X4 : Nat.leb (S len) len = false) by (apply Nat.leb_gt; lia). cbn [Nat.eqb] in X2.
  eexists. split.
  - unfold six. cbn [prun]. unfold pstep at 1. cbn [p_pcs]. rewrite ID.
    repeat (unfold pstep at 1; cbn [p_pcs pgo set_mu set_plen p_init p_gen p_len p_cap p_mu p_out Nat.eqb]; cbv zeta; rewrite ?X1, ?X2, ?X3, ?X4; cbn [orb]).
    reflexivity.
  - split; [|split; [reflexivity|]].
    + split; [reflexivity|]. split; [reflexivity|]. split; [reflexivity|]. intros t. cbn. destruct (Nat.eqb t 1); auto.
    + unfold six. cbn [calls]. unfold pstep at 1. cbn [p_pcs]. rewrite ID.
    repeat (unfold pstep at 1; cbn [p_pcs pgo set_mu set_plen p_init p_gen p_len p_cap p_mu p_out Nat.eqb]; cbv zeta; rewrite ?X1, ?X2, ?X3, ?X4; cbn [orb]).
    reflexivity.
Qed.
Lemma fill_run n : forall k s, quiet n s -> p_len s + k < n -> exists s', prun s (times k six) = Some s' /\ quiet n s' /\ p_len s' = p_len s + k /\ calls s (times k six) = k.
Proof.
  induction k as [|k IH]; intros s Q L; cbn [times].
  - exists s. repeat split; try apply Q; auto.
  - destruct (six_run n s Q ltac:(lia)) as (s1 & R1 & Q1 & L1 & C1). destruct (IH s1 Q1 ltac:(lia)) as (s2 & R2 & Q2 & L2 & C2).
    exists s2. rewrite prun_app, R1. split; auto. split; auto. split; [lia|]. rewrite (calls_app six s (times k six) s1 R1). lia.
Qed.
Ltac run1 := unfold pstep at 1; cbn [p_pcs pgo set_mu set_plen p_init p_gen p_len p_cap p_mu p_out Nat.eqb]; cbv zeta.
(** two goroutines race for the last slot: the loser holds the mutex and waits for it *)
Definition race_for_last : list nat := [1; 1; 1; 1] ++ [2; 2; 2; 2] ++ [1; 1; 1; 1] ++ [2; 2; 2; 2; 2].
Lemma race_run n s : quiet n s -> S (p_len s) = n -> exists s', prun s race_for_last = Some s' /\ p_mu s' = Some 2 /\ p_pcs s' 2 = PExp /\ calls s race_for_last = 2.
Proof.
  intros (IN & CA & MU & ID) L. destruct s as [ini gen len cap mu pcs out]. cbn [p_init p_cap p_mu p_pcs p_len] in *. subst.
  pose proof (ID 1) as I1. pose proof (ID 2) as I2. clear ID.
  assert (X1 : Nat.leb (S len) len = false) by (apply Nat.leb_gt; lia). assert (X3 : forall x, Nat.eqb x x = true) by apply Nat.eqb_refl.
  assert (X5 : Nat.leb (S len) (S len) = true) by (apply Nat.leb_le; lia). assert (X6 : Nat.eqb (S len) len = false) by (apply Nat.eqb_neq; lia). cbn [Nat.eqb] in X6.
  eexists. split; [|split; [|split]].
  - unfold race_for_last. cbn [prun app]. repeat (run1; rewrite ?I1, ?I2, ?X1, ?X3, ?X5, ?X6; cbn [orb]). reflexivity.
  - reflexivity.
  - reflexivity.
  - unfold race_for_last. cbn [calls app]. repeat (run1; rewrite ?I1, ?I2, ?X1, ?X3, ?X5, ?X6; cbn [orb]). reflexivity.
Qed.
(** For every number of slots n there is a schedule of n + 1 Gets after which one of them waits for ever (with
    [C37_deadlock_is_permanent]) for the mutex it holds. *)
Theorem C37_one_more_deadlocks n : 0 < n -> exists ls s t, prun (pready n) ls = Some s /\ calls (pready n) ls = S n /\ self_wait s t.
Proof.
  intros N. destruct (fill_run n (n - 1) (pready n)) as (s1 & R1 & Q1 & L1 & C1); [repeat split|cbn; lia|].
  destruct (race_run n s1 Q1) as (s2 & R2 & M & P & C2); [cbn in L1; lia|].
  exists (times (n - 1) six ++ race_for_last), s2, 2. rewrite prun_app, R1. split; auto. split; [rewrite (calls_app _ _ _ s1 R1); lia|]. split; [auto|left; auto].
Qed.
Print Assumptions C37_one_more_deadlocks.
(** a Get that reads the length after the last slot was taken raises it past the capacity and crashes *)
Definition read_late : list nat := [2; 2; 2] ++ [1; 1; 1; 1; 1; 1; 1; 1] ++ [2; 2; 2].
Lemma late_run n s : quiet n s -> S (p_len s) = n -> exists s', prun s read_late = Some s' /\ p_len s' = S n /\ p_cap s' = n /\ p_pcs s' 2 = PCrash /\ calls s read_late = 2.
Proof.
  intros (IN & CA & MU & ID) L. destruct s as [ini gen len cap mu pcs out]. cbn [p_init p_cap p_mu p_pcs p_len] in *. subst.
  pose proof (ID 1) as I1. pose proof (ID 2) as I2. clear ID.
  assert (X1 : Nat.leb (S len) len = false) by (apply Nat.leb_gt; lia). assert (X3 : forall x, Nat.eqb x x = true) by apply Nat.eqb_refl.
  assert (X5 : Nat.leb (S len) (S len) = true) by (apply Nat.leb_le; lia). assert (X6 : Nat.eqb (S (S len)) (S len) = false) by (apply Nat.eqb_neq; lia). assert (X7 : Nat.leb (S (S len)) (S len) = false) by (apply Nat.leb_gt; lia). cbn [Nat.eqb] in X6.
  eexists. split; [|split; [|split; [|split]]].
  - unfold read_late. cbn [prun app]. repeat (run1; rewrite ?I1, ?I2, ?X1, ?X3, ?X5, ?X6, ?X7; cbn [orb]). reflexivity.
  - reflexivity.
  - reflexivity.
  - reflexivity.
  - unfold read_late. cbn [calls app]. repeat (run1; rewrite ?I1, ?I2, ?X1, ?X3, ?X5, ?X6, ?X7; cbn [orb]). reflexivity.
Qed.
Theorem C36_one_more_overruns n : 0 < n -> exists ls s t, prun (pready n) ls = Some s /\ calls (pready n) ls = S n /\ p_cap s < p_len s /\ p_pcs s t = PCrash.
Proof.
  intros N. destruct (fill_run n (n - 1) (pready n)) as (s1 & R1 & Q1 & L1 & C1); [repeat split|cbn; lia|].
  destruct (late_run n s1 Q1) as (s2 & R2 & LE & CA & P & C2); [cbn in L1; lia|].
  exists (times (n - 1) six ++ read_late), s2, 2. rewrite prun_app, R1. split; auto. split; [rewrite (calls_app _ _ _ s1 R1); lia|]. split; [lia|auto].
Qed.
Print Assumptions C36_one_more_overruns.
