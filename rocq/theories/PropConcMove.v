(** Property theorems about calls beside the expansion of the pool: C67. The model is ConcMove.v. *)
From Verif Require Import Base Util UtilProofs ConcMove.
From Coq Require Import PeanoNat.
Local Open Scope list_scope.
Local Open Scope nat_scope.

(** * Specification: what the items hold, from what happened *)
(** [val i]: what the calls have stored in item i; [linking i]: the Set that makes item i is under way; [stray i]: the pool
    expanded meanwhile; [found t]: the item goroutine t has found and what it will store, and whether that will be lost *)
Record view := mkView { val : nat -> cell; linking : nat -> bool; stray : nat -> bool; found : nat -> option (nat * wr * bool) }.
Definition see (e : mev) (u : view) : view :=
  match e with
  | EvNew t i v => mkView (fset (val u) i (v, false)) (fset (linking u) i true) (fset (stray u) i false) (found u)
  | EvLink t i => mkView (val u) (fset (linking u) i false) (stray u) (found u)
  | EvFind t i w => mkView (val u) (linking u) (stray u) (fset (found u) t (Some (i, w, false)))
  (* an expansion between finding the item and storing into it: the store is lost, unless the item is stray *)
  | EvExpand => mkView (val u) (linking u) (fun i => stray u i || linking u i)
                       (fun t => match found u t with Some (i, w, lost) => Some (i, w, lost || negb (stray u i)) | None => None end)
  | EvStore t i => match found u t with
                   | Some (j, w, false) => mkView (fset (val u) j (put w (val u j))) (linking u) (stray u) (fset (found u) t None)
                   | _ => mkView (val u) (linking u) (stray u) (fset (found u) t None)
                   end
  end.
Definition view0 : view := mkView (fun _ => (0%Z, false)) (fun _ => false) (fun _ => false) (fun _ => None).
Definition viewed (es : list mev) : view := fold_left (fun u e => see e u) es view0.
(** what a call that looks item i up now finds: [None] if the item is not in the map *)
Definition holds (s : xstate) (i : nat) : option cell := match x_at s i with Some g => Some (x_mem s g i) | None => None end.

(** * Invariant *)
Definition mine (p : mpc) : option (nat * nat) := match p with KNew i g _ => Some (i, g) | KLink i g => Some (i, g) | _ => None end.
Record xinv (s : xstate) (u : view) : Prop := {
  xi_at : forall i g, x_at s i = Some g -> i < x_len s /\ g <= x_seg s /\ x_mem s g i = val u i /\ linking u i = false /\ (stray u i = false <-> g = x_seg s);
  xi_mine : forall t i g, mine (x_pcs s t) = Some (i, g) -> i < x_len s /\ g <= x_seg s /\ x_at s i = None /\ linking u i = true /\ (stray u i = false <-> g = x_seg s);
  xi_new : forall t i g v, x_pcs s t = KNew i g v -> val u i = (v, false);
  xi_link : forall t i g, x_pcs s t = KLink i g -> x_mem s g i = val u i;
  xi_one : forall t t' i g g', mine (x_pcs s t) = Some (i, g) -> mine (x_pcs s t') = Some (i, g') -> t = t';
  xi_put : forall t i g w, x_pcs s t = KPut i g w -> exists lost g', found u t = Some (i, w, lost) /\ x_at s i = Some g' /\ (if lost : bool then g < g' else g = g') }.
Lemma fset_same {A} (f : nat -> A) i a : fset f i a i = a.
Proof. unfold fset. rewrite Nat.eqb_refl. auto. Qed.
Lemma fset_other {A} (f : nat -> A) i a j : j <> i -> fset f i a j = f j.
Proof. unfold fset. intros H. destruct (Nat.eqb_spec j i); [contradiction|auto]. Qed.
Lemma xinit_inv : xinv xinit view0.
Proof. constructor; cbn; try discriminate. Qed.
(** a step that only moves goroutine t between places outside of the invariant *)
Lemma quiet_inv s s' u t p : xinv s u -> x_seg s' = x_seg s -> x_len s' = x_len s -> x_mem s' = x_mem s -> x_at s' = x_at s -> x_pcs s' = fset (x_pcs s) t p ->
  mine p = None -> (forall i g w, p <> KPut i g w) -> xinv s' u.
Proof.
  intros [A B C D E F] E1 E2 E3 E4 E5 M N. constructor; rewrite ?E1, ?E2, ?E3, ?E4, ?E5; auto.
  - intros t0 i g. destruct (Nat.eq_dec t0 t) as [->|X]; [rewrite fset_same, M; discriminate|rewrite fset_other by auto; apply B].
  - intros t0 i g v. destruct (Nat.eq_dec t0 t) as [->|X]; [rewrite fset_same; intros ->; discriminate M|rewrite fset_other by auto; apply C].
  - intros t0 i g. destruct (Nat.eq_dec t0 t) as [->|X]; [rewrite fset_same; intros ->; discriminate M|rewrite fset_other by auto; apply D].
  - intros t0 t1 i g g'. destruct (Nat.eq_dec t0 t) as [->|X]; [rewrite fset_same, M; discriminate|rewrite fset_other by auto]. destruct (Nat.eq_dec t1 t) as [->|X1]; [rewrite fset_same, M; discriminate|rewrite fset_other by auto; apply E].
  - intros t0 i g w. destruct (Nat.eq_dec t0 t) as [->|X]; [rewrite fset_same; intros ->; elim (N i g w); auto|rewrite fset_other by auto; apply F].
Qed.
Lemma expand_inv s u : xinv s u -> xinv (xexpand s) (see EvExpand u).
Proof.
  intros [A B C D E F].
  assert (MEM : forall g i, g <= x_seg s -> x_mem (xexpand s) g i = x_mem s g i) by (intros g i L; cbn [x_mem xexpand]; destruct (Nat.eqb_spec g (S (x_seg s))); [lia|auto]).
  constructor; cbn [see val linking stray found]; auto.
  - intros i g. cbn [x_at x_len x_seg xexpand]. destruct (x_at s i) as [g0|] eqn:Q; [|discriminate]. destruct (A i g0 Q) as (A1 & A2 & A3 & A4 & A5). rewrite A4, orb_false_r. destruct (Nat.eqb_spec g0 (x_seg s)) as [X|X]; intros [= <-].
    + split; auto. split; auto. split; [cbn [x_mem xexpand]; rewrite Nat.eqb_refl; subst g0; auto|]. split; auto. rewrite A5. tauto.
    + split; auto. split; [lia|]. split; [rewrite MEM by lia; auto|]. split; auto. rewrite A5. split; [contradiction|lia].
  - intros t i g M. destruct (B t i g M) as (B1 & B2 & B3 & B4 & B5). cbn [x_at x_len x_seg xexpand]. split; auto. split; [lia|]. rewrite B3. split; auto. split; auto. rewrite B4, orb_true_r. split; [discriminate|lia].
  - intros t i g P. cbn [x_pcs xexpand] in P. rewrite MEM; [apply (D t); auto|]. apply (B t i g). rewrite P. auto.
  - intros t i g w P. cbn [x_pcs xexpand] in P. destruct (F t i g w P) as (lost & g' & F1 & F2 & F3). rewrite F1. destruct (A i g' F2) as (_ & A2 & _ & _ & A5). cbn [x_at xexpand]. rewrite F2. destruct (stray u i) eqn:ST; cbn [negb].
    + rewrite orb_false_r. exists lost, g'. split; auto. split; auto. destruct (Nat.eqb_spec g' (x_seg s)) as [X|X]; auto. apply A5 in X. discriminate X.
    + rewrite orb_true_r. exists true, (S (x_seg s)). split; auto. split; [destruct (Nat.eqb_spec g' (x_seg s)) as [X|X]; auto; elim X; apply A5; auto|]. destruct lost; lia.
Qed.
Lemma take_inv s u t v : xinv s u -> x_pcs s t = KIdle -> xinv (xtake s t v) (see (EvNew t (x_len s) v) u).
Proof.
  intros [A B C D E F] P.
  assert (N : forall i g, x_at s i = Some g -> i <> x_len s) by (intros i g Q; apply A in Q; lia).
  assert (N2 : forall t0 i g, mine (x_pcs s t0) = Some (i, g) -> i <> x_len s) by (intros t0 i g Q; apply B in Q; lia).
  constructor; cbn [see val linking stray found x_at x_len x_seg x_mem x_pcs xtake xgo].
  - intros i g Q. rewrite !fset_other by eauto. destruct (A i g Q) as (A1 & A2). split; [lia|exact A2].
  - intros t0 i g. destruct (Nat.eq_dec t0 t) as [->|X].
    + rewrite fset_same. cbn [mine]. intros [= <- <-]. rewrite !fset_same. split; [lia|]. split; [lia|]. split; [destruct (x_at s (x_len s)) eqn:Q; auto; elim (N _ _ Q); auto|]. tauto.
    + rewrite fset_other by auto. intros Q. rewrite !fset_other by eauto. destruct (B t0 i g Q) as (B1 & B2). split; [lia|exact B2].
  - intros t0 i g v0. destruct (Nat.eq_dec t0 t) as [->|X].
    + rewrite fset_same. intros [= <- <- <-]. apply fset_same.
    + rewrite fset_other by auto. intros Q. rewrite fset_other; [eapply C; eauto|]. apply (N2 t0 i g). rewrite Q. auto.
  - intros t0 i g. destruct (Nat.eq_dec t0 t) as [->|X]; [rewrite fset_same; discriminate|]. rewrite fset_other by auto. intros Q. rewrite fset_other; [eapply D; eauto|]. apply (N2 t0 i g). rewrite Q. auto.
  - intros t0 t1 i g g'. destruct (Nat.eq_dec t0 t) as [->|X]; destruct (Nat.eq_dec t1 t) as [->|X1]; auto; rewrite ?fset_same, ?fset_other by auto; cbn [mine].
    + intros [= <- <-] Q. elim (N2 _ _ _ Q). auto.
    + intros Q [= <- <-]. elim (N2 _ _ _ Q). auto.
    + apply E.
  - intros t0 i g w. destruct (Nat.eq_dec t0 t) as [->|X]; [rewrite fset_same; discriminate|]. rewrite fset_other by auto. apply F.
Qed.
Definition evs (s s' : xstate) : Prop := exists es, x_ev s' = x_ev s ++ es.
Lemma viewed_app a b : viewed (a ++ b) = fold_left (fun u e => see e u) b (viewed a).
Proof. unfold viewed. apply fold_left_app. Qed.
Lemma step_inv s t c s' : xinv s (viewed (x_ev s)) -> xstep s t c = Some s' -> xinv s' (viewed (x_ev s')).
Proof.
  set (u := viewed (x_ev s)). intros I E. assert (I0 := I). destruct I as [A B C D O F]. unfold xstep in E. destruct (x_pcs s t) as [|i g v|i g| |i g w|i g|c0] eqn:P.
  - destruct c as [v|i w|i].
    + assert (T1 : xinv (xtake s t v) (viewed (x_ev (xtake s t v)))) by (cbn [x_ev xtake xgo]; rewrite viewed_app; cbn [fold_left]; apply take_inv; auto).
      assert (T2 : xinv (xtake (xexpand s) t v) (viewed (x_ev (xtake (xexpand s) t v)))).
      { cbn [x_ev xtake xgo xexpand]. rewrite !viewed_app. cbn [fold_left]. apply (take_inv (xexpand s)); auto. apply expand_inv; auto. }
      destruct (_ <=? _); [|destruct (Nat.eqb _ _)]; [destruct (x_mu s)|destruct (x_mu s)|]; try discriminate E; injection E as <-; auto.
    + destruct (x_at s i) as [g|] eqn:Q; [|discriminate E]. destruct (snd _); [discriminate E|]. injection E as <-. cbn [x_ev xgo]. rewrite viewed_app. cbn [fold_left]. fold u.
      constructor; cbn [see val linking stray found x_at x_len x_seg x_mem x_pcs xgo]; auto.
      * intros t0 j h. destruct (Nat.eq_dec t0 t) as [->|X]; [rewrite fset_same; discriminate|rewrite fset_other by auto; apply B].
      * intros t0 j h v0. destruct (Nat.eq_dec t0 t) as [->|X]; [rewrite fset_same; discriminate|rewrite fset_other by auto; apply C].
      * intros t0 j h. destruct (Nat.eq_dec t0 t) as [->|X]; [rewrite fset_same; discriminate|rewrite fset_other by auto; apply D].
      * intros t0 t1 j h h'. destruct (Nat.eq_dec t0 t) as [->|X]; [rewrite fset_same; discriminate|rewrite fset_other by auto]. destruct (Nat.eq_dec t1 t) as [->|X1]; [rewrite fset_same; discriminate|rewrite fset_other by auto; apply O].
      * intros t0 j h w0. destruct (Nat.eq_dec t0 t) as [->|X]; [rewrite !fset_same; intros [= <- <- <-]; exists false, g; auto|rewrite !fset_other by auto; apply F].
    + destruct (x_at s i) as [g|] eqn:Q; [|discriminate E]. destruct (snd _); [discriminate E|]. injection E as <-. cbn [x_ev xgo]. rewrite app_nil_r. apply (quiet_inv s _ u t (KGet i g)); auto; discriminate.
  - injection E as <-. cbn [x_ev xgo]. rewrite app_nil_r. fold u. destruct (B t i g) as (B1 & B2 & B3 & B4 & B5); [rewrite P; auto|].
    assert (MEM : forall g0 j, j <> i -> fset (x_mem s) g (fset (x_mem s g) i (v, false)) g0 j = x_mem s g0 j).
    { intros g0 j X. destruct (Nat.eq_dec g0 g) as [->|Y]; [rewrite fset_same, fset_other; auto|rewrite fset_other; auto]. }
    constructor; cbn [x_at x_len x_seg x_mem x_pcs xgo]; auto.
    + intros j h Q. rewrite MEM by congruence. auto.
    + intros t0 j h. destruct (Nat.eq_dec t0 t) as [->|X]; [rewrite fset_same; cbn [mine]; intros [= <- <-]; auto|rewrite fset_other by auto; apply B].
    + intros t0 j h v0. destruct (Nat.eq_dec t0 t) as [->|X]; [rewrite fset_same; discriminate|rewrite fset_other by auto; apply C].
    + intros t0 j h. destruct (Nat.eq_dec t0 t) as [->|X].
      * rewrite fset_same. intros [= <- <-]. rewrite !fset_same. symmetry. apply (C t i g v P).
      * rewrite fset_other by auto. intros Q. rewrite MEM; [eapply D; eauto|]. intros ->. apply X. apply (O t0 t i h g); [rewrite Q|rewrite P]; auto.
    + intros t0 t1 j h h'. assert (MN : forall t2, mine (fset (x_pcs s) t (KLink i g) t2) = mine (x_pcs s t2)) by (intros t2; destruct (Nat.eq_dec t2 t) as [->|X]; [rewrite fset_same, P; auto|rewrite fset_other; auto]). rewrite !MN. apply O.
    + intros t0 j h w. destruct (Nat.eq_dec t0 t) as [->|X]; [rewrite fset_same; discriminate|rewrite fset_other by auto; apply F].
  - injection E as <-. cbn [x_ev xgo]. rewrite viewed_app. cbn [fold_left]. fold u. destruct (B t i g) as (B1 & B2 & B3 & B4 & B5); [rewrite P; auto|].
    constructor; cbn [see val linking stray found x_at x_len x_seg x_mem x_pcs xgo]; auto.
    + intros j h. destruct (Nat.eq_dec j i) as [->|X].
      * rewrite fset_same. intros [= <-]. split; auto. split; auto. split; [apply (D t); auto|]. rewrite fset_same. auto.
      * rewrite !fset_other by auto. apply A.
    + intros t0 j h. destruct (Nat.eq_dec t0 t) as [->|X]; [rewrite fset_same; discriminate|rewrite fset_other by auto]. intros Q. assert (X2 : j <> i) by (intros ->; apply X; apply (O t0 t i h g); [|rewrite P]; auto). rewrite !fset_other by auto. apply (B t0); auto.
    + intros t0 j h v0. destruct (Nat.eq_dec t0 t) as [->|X]; [rewrite fset_same; discriminate|rewrite fset_other by auto; apply C].
    + intros t0 j h. destruct (Nat.eq_dec t0 t) as [->|X]; [rewrite fset_same; discriminate|rewrite fset_other by auto; apply D].
    + intros t0 t1 j h h'. destruct (Nat.eq_dec t0 t) as [->|X]; [rewrite fset_same; discriminate|rewrite fset_other by auto]. destruct (Nat.eq_dec t1 t) as [->|X1]; [rewrite fset_same; discriminate|rewrite fset_other by auto; apply O].
    + intros t0 j h w. destruct (Nat.eq_dec t0 t) as [->|X]; [rewrite fset_same; discriminate|rewrite fset_other by auto]. intros Q. destruct (F t0 j h w Q) as (lost & g' & F1 & F2 & F3). exists lost, g'. split; auto. split; auto. rewrite fset_other; auto. congruence.
  - injection E as <-. cbn [x_ev xgo]. rewrite app_nil_r. apply (quiet_inv s _ u t KIdle); auto; discriminate.
  - injection E as <-. cbn [x_ev xgo]. rewrite viewed_app. cbn [fold_left]. fold u. destruct (F t i g w P) as (lost & g' & F1 & F2 & F3).
    destruct (A i g' F2) as (A1 & A2 & A3 & A4 & A5).
    assert (LK : forall t0 j h, mine (x_pcs s t0) = Some (j, h) -> j <> i) by (intros t0 j h Q; apply B in Q; intros ->; destruct Q as (_ & _ & Q & _); congruence).
    assert (V : exists vf, see (EvStore t i) u = mkView vf (linking u) (stray u) (fset (found u) t None) /\ (forall j, j <> i -> vf j = val u j) /\ vf i = if lost then val u i else put w (val u i)).
    { cbn [see]. rewrite F1. destruct lost; eexists; (split; [reflexivity|]); split; auto; [intros j X; apply fset_other; auto|apply fset_same]. }
    destruct V as (vf & -> & V1 & V2).
    assert (MEM : forall g0 j, j <> i -> fset (x_mem s) g (fset (x_mem s g) i (put w (x_mem s g i))) g0 j = x_mem s g0 j).
    { intros g0 j X. destruct (Nat.eq_dec g0 g) as [->|Y]; [rewrite fset_same, fset_other; auto|rewrite fset_other; auto]. }
    constructor; cbn [val linking stray found x_at x_len x_seg x_mem x_pcs xgo]; auto.
    + intros j h Q. destruct (Nat.eq_dec j i) as [->|X].
      * assert (h = g') by congruence. subst h. split; auto. split; auto. split; [|auto]. rewrite V2. destruct lost; [rewrite fset_other by lia; auto|]. subst g'. rewrite !fset_same. rewrite A3. auto.
      * rewrite MEM, V1 by auto. apply A; auto.
    + intros t0 j h. destruct (Nat.eq_dec t0 t) as [->|X]; [rewrite fset_same; discriminate|rewrite fset_other by auto; apply B].
    + intros t0 j h v0. destruct (Nat.eq_dec t0 t) as [->|X]; [rewrite fset_same; discriminate|rewrite fset_other by auto]. intros Q. rewrite V1; [eapply C; eauto|]. apply (LK t0 j h). rewrite Q. auto.
    + intros t0 j h. destruct (Nat.eq_dec t0 t) as [->|X]; [rewrite fset_same; discriminate|rewrite fset_other by auto]. intros Q. assert (N : j <> i) by (apply (LK t0 j h); rewrite Q; auto). rewrite MEM, V1 by auto. apply (D t0); auto.
    + intros t0 t1 j h h'. destruct (Nat.eq_dec t0 t) as [->|X]; [rewrite fset_same; discriminate|rewrite fset_other by auto]. destruct (Nat.eq_dec t1 t) as [->|X1]; [rewrite fset_same; discriminate|rewrite fset_other by auto; apply O].
    + intros t0 j h w0. destruct (Nat.eq_dec t0 t) as [->|X]; [rewrite fset_same; discriminate|rewrite !fset_other by auto; apply F].
  - injection E as <-. cbn [x_ev xgo]. rewrite app_nil_r. apply (quiet_inv s _ u t (KGot (x_mem s g i))); auto; discriminate.
  - injection E as <-. cbn [x_ev xgo]. rewrite app_nil_r. apply (quiet_inv s _ u t KIdle); auto; discriminate.
Qed.
Lemma xrun_inv : forall ls s s', xinv s (viewed (x_ev s)) -> xrun s ls = Some s' -> xinv s' (viewed (x_ev s')).
Proof.
  induction ls as [|[t c] ls IH]; intros s s' I E; cbn [xrun] in E; [injection E as <-; auto|]. destruct (xstep s t c) as [s1|] eqn:E1; [|discriminate E]. eapply IH; [|exact E]. eapply step_inv; eauto.
Qed.

(** * C67 *)
(** The exact law, for every schedule: an item in the map holds what was stored in it by the calls that were not overtaken
    by an expansion between finding the item and storing into it; if the expansion came while the Set that made the item
    was under way, the item stays where it is and no call on it is ever lost for that expansion's or a later one's sake. *)
Theorem C67_law ls s i c : xrun xinit ls = Some s -> holds s i = Some c -> c = val (viewed (x_ev s)) i.
Proof.
  intros E H. pose proof (xrun_inv ls xinit s xinit_inv E) as I. unfold holds in H. destruct (x_at s i) as [g|] eqn:Q; [|discriminate H]. injection H as <-. apply (xi_at _ _ I i g Q).
Qed.
Print Assumptions C67_law.
(** what the same calls would have stored in item i if the pool had never expanded: all they stored, in order *)
Definition is_expand (e : mev) : bool := match e with EvExpand => true | _ => false end.
Definition all_stores (s : xstate) (i : nat) : cell := val (viewed (filter (fun e => negb (is_expand e)) (x_ev s))) i.
(** the natural claim: when no call is under way an item holds what all calls on it have stored *)
Definition nothing_lost : Prop := forall ls s i c, xrun xinit ls = Some s -> (forall t, x_pcs s t = KIdle) -> holds s i = Some c -> c = all_stores s i.

(** goroutine 1 stores new keys one after another: n Sets with the values v, v+1, ... *)
Fixpoint sets (n : nat) (v : Z) : list (nat * mcall) := match n with O => [] | S m => (1, CNew v) :: (1, CNew v) :: (1, CNew v) :: (1, CNew v) :: sets m (v + 1)%Z end.
(** goroutine 2 finds item 0; the 65th Set expands the pool; goroutine 2 stores into what it found *)
Definition overtaken (w : wr) : list (nat * mcall) := sets 64 100 ++ [(2, CPut 0 w)] ++ sets 1 200 ++ [(2, CPut 0 w)].
Lemma xrun_other t : forall ls s s', ~ In t (map fst ls) -> xrun s ls = Some s' -> x_pcs s' t = x_pcs s t.
Proof.
  induction ls as [|[t0 c] ls IH]; intros s s' N E; cbn [xrun] in E; [injection E as <-; auto|]. destruct (xstep s t0 c) as [s1|] eqn:E1; [|discriminate E]. cbn [map fst In] in N. rewrite (IH s1 s') by (auto; tauto).
  assert (K : forall p, fset (x_pcs s) t0 p t = x_pcs s t) by (intros p; apply fset_other; intros ->; apply N; auto). clear - E1 K. unfold xstep in E1.
  destruct (x_pcs s t0); [destruct c as [v|i w|i]|..].
  - destruct (_ <=? _); [|destruct (Nat.eqb _ _)]; [destruct (x_mu s)|destruct (x_mu s)|]; try discriminate E1; injection E1 as <-; cbn [x_pcs xtake xgo xexpand]; apply K.
  - destruct (x_at s i); [|discriminate E1]. destruct (snd _); [discriminate E1|]. injection E1 as <-. apply K.
  - destruct (x_at s i); [|discriminate E1]. destruct (snd _); [discriminate E1|]. injection E1 as <-. apply K.
  - injection E1 as <-. apply K.
  - injection E1 as <-. apply K.
  - injection E1 as <-. apply K.
  - injection E1 as <-. apply K.
  - injection E1 as <-. apply K.
  - injection E1 as <-. apply K.
Qed.
Definition idle_b (p : mpc) : bool := match p with KIdle => true | _ => false end.
Definition at_end (ls : list (nat * mcall)) (f : xstate -> bool) : bool := match xrun xinit ls with Some s => f s | None => false end.
Lemma at_end_run ls f : at_end ls f = true -> exists s, xrun xinit ls = Some s /\ f s = true.
Proof. unfold at_end. destruct (xrun xinit ls) as [s|]; [eauto|discriminate]. Qed.
Lemma idle_all ls s : xrun xinit ls = Some s -> (forall t, In t (map fst ls) -> t = 1 \/ t = 2) -> idle_b (x_pcs s 1) = true -> idle_b (x_pcs s 2) = true -> forall t, x_pcs s t = KIdle.
Proof.
  intros E H I1 I2 t. destruct (in_dec Nat.eq_dec t (map fst ls)) as [I|I]; [|rewrite (xrun_other t ls _ _ I E); auto]. destruct (H t I) as [->| ->]; [destruct (x_pcs s 1)|destruct (x_pcs s 2)]; try discriminate; auto.
Qed.
Definition only12 (ls : list (nat * mcall)) : bool := forallb (fun x => (Nat.eqb (fst x) 1 || Nat.eqb (fst x) 2)%bool) ls.
Lemma only12_ok ls : only12 ls = true -> forall t, In t (map fst ls) -> t = 1 \/ t = 2.
Proof. unfold only12. intros H t I. apply in_map_iff in I as (x & <- & I). rewrite forallb_forall in H. specialize (H x I). apply orb_true_iff in H as [H|H]; apply Nat.eqb_eq in H; auto. Qed.
Definition cell_eqb (a b : cell) : bool := (Z.eqb (fst a) (fst b) && Bool.eqb (snd a) (snd b))%bool.
Lemma cell_eqb_eq a b : cell_eqb a b = true -> a = b.
Proof. destruct a, b. unfold cell_eqb. cbn [fst snd]. intros H. apply andb_true_iff in H as [A B]. apply Z.eqb_eq in A. apply eqb_prop in B. congruence. Qed.
Definition ends (ls : list (nat * mcall)) (i : nat) (h a : cell) : bool :=
  (only12 ls && at_end ls (fun s => idle_b (x_pcs s 1) && idle_b (x_pcs s 2) && cell_eqb (all_stores s i) a && match holds s i with Some c => cell_eqb c h | None => false end))%bool.
Lemma ends_ok ls i h a : ends ls i h a = true -> exists s, xrun xinit ls = Some s /\ (forall t, x_pcs s t = KIdle) /\ all_stores s i = a /\ holds s i = Some h.
Proof.
  intros H. apply andb_true_iff in H as [O H]. apply at_end_run in H as (s & E & H). apply andb_true_iff in H as [H H4]. apply andb_true_iff in H as [H H3]. apply andb_true_iff in H as [H1 H2].
  exists s. split; auto. split; [eapply idle_all; eauto using only12_ok|]. split; [apply cell_eqb_eq; auto|]. destruct (holds s i) as [c|]; [|discriminate H4]. f_equal. apply cell_eqb_eq. auto.
Qed.
(** A Set of a present key that returned true has no effect: the map keeps the value 100 for good. *)
Lemma set_overtaken : exists s, xrun xinit (overtaken (WVal 7)) = Some s /\ (forall t, x_pcs s t = KIdle) /\ all_stores s 0 = (7%Z, false) /\ holds s 0 = Some (100%Z, false).
Proof. apply ends_ok. vm_compute. reflexivity. Qed.
Theorem C67_set_lost_refuted : ~ nothing_lost.
Proof. intros H. destruct set_overtaken as (s & E & Q & A & B). specialize (H _ _ _ _ E Q B). congruence. Qed.
Print Assumptions C67_set_lost_refuted.
(** the claim for Delete: a deleted item is not found *)
Definition deleted_stays : Prop := forall ls s i c, xrun xinit ls = Some s -> (forall t, x_pcs s t = KIdle) -> holds s i = Some c -> snd (all_stores s i) = true -> snd c = true.
Lemma delete_overtaken : exists s, xrun xinit (overtaken WDel) = Some s /\ (forall t, x_pcs s t = KIdle) /\ all_stores s 0 = (100%Z, true) /\ holds s 0 = Some (100%Z, false).
Proof. apply ends_ok. vm_compute. reflexivity. Qed.
Theorem C67_delete_lost_refuted : ~ deleted_stays.
Proof. intros H. destruct delete_overtaken as (s & E & Q & A & B). specialize (H _ _ _ _ E Q B). rewrite A in H. specialize (H eq_refl). discriminate H. Qed.
Print Assumptions C67_delete_lost_refuted.

(** Nothing is lost while the part of the pool has had at most 64 items: it has not expanded. *)
Record few (s : xstate) : Prop := { fw_len : x_len s <= x_cap s; fw_ev : 64 < x_len s \/ (~ In EvExpand (x_ev s) /\ x_cap s = 64) }.
Lemma step_few s t c s' : few s -> xstep s t c = Some s' -> few s'.
Proof.
  intros [L V] E.
  assert (Q : forall es, ~ In EvExpand es -> 64 < x_len s \/ (~ In EvExpand (x_ev s ++ es) /\ x_cap s = 64)) by (intros es N; destruct V as [V|[V1 V2]]; [left; auto|right; split; auto; rewrite in_app_iff; tauto]).
  assert (K : forall s1 es, x_len s1 = x_len s -> x_cap s1 = x_cap s -> x_ev s1 = x_ev s ++ es -> ~ In EvExpand es -> few s1) by (intros s1 es E1 E2 E3 N; constructor; rewrite E1, E2, ?E3; auto).
  assert (N0 : forall e, e <> EvExpand -> ~ In EvExpand [e]) by (intros e N [H|[]]; congruence).
  unfold xstep in E. destruct (x_pcs s t); [destruct c as [v|i w|i]|..].
  - assert (T : x_len s < x_cap s -> few (xtake s t v)) by (intros LT; constructor; cbn [x_len x_cap x_ev xtake xgo]; [lia|destruct (Q [EvNew t (x_len s) v] ltac:(intros [X|[]]; discriminate X)); [left; lia|right; auto]]).
    destruct (Nat.leb_spec (x_cap s) (x_len s)) as [F|F].
    + destruct (x_mu s); [discriminate E|]. injection E as <-. assert (G : 63 < x_len s) by (destruct V as [V|[_ V]]; lia). pose proof (pool_cap_spec (Z.of_nat (x_len s)) ltac:(lia)) as PC. constructor; cbn [x_len x_cap x_ev xtake xgo xexpand]; lia.
    + destruct (Nat.eqb _ _); [destruct (x_mu s); [discriminate E|]|]; injection E as <-; auto.
  - destruct (x_at s i); [|discriminate E]. destruct (snd _); [discriminate E|]. injection E as <-. eapply K; [..|apply N0]; try reflexivity; discriminate.
  - destruct (x_at s i); [|discriminate E]. destruct (snd _); [discriminate E|]. injection E as <-. apply (K _ []); auto.
  - injection E as <-. apply (K _ []); auto.
  - injection E as <-. eapply K; [..|apply N0]; try reflexivity; discriminate.
  - injection E as <-. apply (K _ []); auto.
  - injection E as <-. eapply K; [..|apply N0]; try reflexivity; discriminate.
  - injection E as <-. apply (K _ []); auto.
  - injection E as <-. apply (K _ []); auto.
Qed.
Lemma run_few : forall ls s s', few s -> xrun s ls = Some s' -> few s'.
Proof. induction ls as [|[t c] ls IH]; intros s s' I E; cbn [xrun] in E; [injection E as <-; auto|]. destruct (xstep s t c) as [s1|] eqn:E1; [|discriminate E]. eapply IH; [|exact E]. eapply step_few; eauto. Qed.
Theorem C67_first_64 ls s i c : xrun xinit ls = Some s -> x_len s <= 64 -> holds s i = Some c -> c = all_stores s i.
Proof.
  intros E L H. assert (F : few s) by (eapply run_few; [|exact E]; constructor; cbn; [lia|right; tauto]). destruct (fw_ev _ F) as [X|[N _]]; [lia|]. rewrite (C67_law ls s i c E H). unfold all_stores. f_equal. f_equal.
  revert N. generalize (x_ev s). induction l as [|e l IH]; intros N; cbn [filter]; auto. cbn [In] in N. destruct e; cbn [is_expand negb]; try (f_equal; apply IH; tauto). elim N. auto.
Qed.
Print Assumptions C67_first_64.

(** One call: a Set or Delete that finds item i, while others do what they like, and then stores. *)
Lemma xrun_ev : forall ls s s', xrun s ls = Some s' -> exists es, x_ev s' = x_ev s ++ es.
Proof.
  induction ls as [|[t c] ls IH]; intros s s' E; cbn [xrun] in E; [injection E as <-; exists []; rewrite app_nil_r; auto|]. destruct (xstep s t c) as [s1|] eqn:E1; [|discriminate E]. destruct (IH _ _ E) as (es & ->).
  assert (exists e1, x_ev s1 = x_ev s ++ e1) as (e1 & ->); [|exists (e1 ++ es); rewrite app_assoc; auto]. clear - E1. unfold xstep in E1. destruct (x_pcs s t); [destruct c as [v|i w|i]|..].
  - destruct (_ <=? _); [|destruct (Nat.eqb _ _)]; [destruct (x_mu s)|destruct (x_mu s)|]; try discriminate E1; injection E1 as <-; cbn [x_ev xtake xgo xexpand]; rewrite <- ?app_assoc; eauto.
  - destruct (x_at s i); [|discriminate E1]. destruct (snd _); [discriminate E1|]. injection E1 as <-. cbn [x_ev xgo]. eauto.
  - destruct (x_at s i); [|discriminate E1]. destruct (snd _); [discriminate E1|]. injection E1 as <-. cbn [x_ev xgo]. eauto.
  - injection E1 as <-. cbn [x_ev xgo]. eauto.
  - injection E1 as <-. cbn [x_ev xgo]. eauto.
  - injection E1 as <-. cbn [x_ev xgo]. eauto.
  - injection E1 as <-. cbn [x_ev xgo]. eauto.
  - injection E1 as <-. cbn [x_ev xgo]. eauto.
  - injection E1 as <-. cbn [x_ev xgo]. eauto.
Qed.
(** the number of expansions so far *)
Definition expansions (s : xstate) : nat := List.length (filter is_expand (x_ev s)).
Lemma seg_is : forall ls s s', xrun s ls = Some s' -> x_seg s = expansions s -> x_seg s' = expansions s'.
Proof.
  induction ls as [|[t c] ls IH]; intros s s' E H; cbn [xrun] in E; [injection E as <-; auto|]. destruct (xstep s t c) as [s1|] eqn:E1; [|discriminate E]. apply (IH _ _ E). clear - E1 H. unfold expansions in *. unfold xstep in E1.
  assert (G : forall a b, List.length (filter is_expand (a ++ b)) = List.length (filter is_expand a) + List.length (filter is_expand b)) by (intros a b; rewrite filter_app, app_length; auto).
  destruct (x_pcs s t); [destruct c as [v|i w|i]|..].
  - destruct (_ <=? _); [|destruct (Nat.eqb _ _)]; [destruct (x_mu s)|destruct (x_mu s)|]; try discriminate E1; injection E1 as <-; cbn [x_ev x_seg xtake xgo xexpand]; rewrite !G; cbn [filter is_expand List.length]; lia.
  - destruct (x_at s i); [|discriminate E1]. destruct (snd _); [discriminate E1|]. injection E1 as <-. cbn [x_ev x_seg xgo]. rewrite !G; cbn [filter is_expand List.length]; lia.
  - destruct (x_at s i); [|discriminate E1]. destruct (snd _); [discriminate E1|]. injection E1 as <-. cbn [x_ev x_seg xgo]. rewrite !G; cbn [filter is_expand List.length]; lia.
  - injection E1 as <-. cbn [x_ev x_seg xgo]. rewrite !G; cbn [filter is_expand List.length]; lia.
  - injection E1 as <-. cbn [x_ev x_seg xgo]. rewrite !G; cbn [filter is_expand List.length]; lia.
  - injection E1 as <-. cbn [x_ev x_seg xgo]. rewrite !G; cbn [filter is_expand List.length]; lia.
  - injection E1 as <-. cbn [x_ev x_seg xgo]. rewrite !G; cbn [filter is_expand List.length]; lia.
  - injection E1 as <-. cbn [x_ev x_seg xgo]. rewrite !G; cbn [filter is_expand List.length]; lia.
  - injection E1 as <-. cbn [x_ev x_seg xgo]. rewrite !G; cbn [filter is_expand List.length]; lia.
Qed.
(** where the map has an item, as the pool expands *)
Lemma at_run i : forall ls s s' g, xrun s ls = Some s' -> xinv s (viewed (x_ev s)) -> x_at s i = Some g ->
  x_at s' i = Some (if Nat.eqb g (x_seg s) then x_seg s' else g) /\ x_seg s <= x_seg s'.
Proof.
  induction ls as [|[t c] ls IH]; intros s s' g E I H; cbn [xrun] in E; [injection E as <-; destruct (Nat.eqb_spec g (x_seg s)); subst; auto|]. destruct (xstep s t c) as [s1|] eqn:E1; [|discriminate E].
  assert (I1 := step_inv _ _ _ _ I E1).
  assert (S1 : x_at s1 i = Some (if Nat.eqb g (x_seg s) then x_seg s1 else g) /\ x_seg s <= x_seg s1 /\ g <= x_seg s).
  { clear IH E I1. assert (GL : g <= x_seg s) by (apply (xi_at _ _ I) in H; tauto). assert (K : x_at s i = Some (if Nat.eqb g (x_seg s) then x_seg s else g)) by (destruct (Nat.eqb_spec g (x_seg s)); congruence).
    assert (B := xi_mine _ _ I t). unfold xstep in E1. destruct (x_pcs s t) eqn:P; [destruct c as [v|j w|j]|..].
    - destruct (_ <=? _); [|destruct (Nat.eqb _ _)]; [destruct (x_mu s)|destruct (x_mu s)|]; try discriminate E1; injection E1 as <-; cbn [x_at x_seg xtake xgo xexpand]; auto. rewrite H. destruct (Nat.eqb_spec g (x_seg s)); auto.
    - destruct (x_at s j); [|discriminate E1]. destruct (snd _); [discriminate E1|]. injection E1 as <-. auto.
    - destruct (x_at s j); [|discriminate E1]. destruct (snd _); [discriminate E1|]. injection E1 as <-. auto.
    - injection E1 as <-. auto.
    - injection E1 as <-. cbn [x_at x_seg xgo]. destruct (Nat.eq_dec i i0) as [->|N]; [|rewrite fset_other; auto]. destruct (B _ _ eq_refl) as (_ & _ & X & _). congruence.
    - injection E1 as <-. auto.
    - injection E1 as <-. auto.
    - injection E1 as <-. auto.
    - injection E1 as <-. auto. }
  destruct S1 as (S1 & S2 & S3). destruct (IH _ _ _ E I1 S1) as [A B]. split; [|lia]. rewrite A. destruct (Nat.eqb_spec g (x_seg s)) as [X|X]; [rewrite Nat.eqb_refl; auto|]. destruct (Nat.eqb_spec g (x_seg s1)); [lia|auto].
Qed.
(** A call that no expansion overtakes takes effect; a call that one overtakes has none, unless the Set that made the item
    was itself overtaken. *)
Theorem C67_one_call ls s t i w s1 ls' s2 c s3 : xrun xinit ls = Some s -> x_pcs s t = KIdle -> xstep s t (CPut i w) = Some s1 ->
  ~ In t (map fst ls') -> xrun s1 ls' = Some s2 -> xstep s2 t c = Some s3 ->
  forall h, holds s2 i = Some h ->
  holds s3 i = Some (if (Nat.eqb (expansions s2) (expansions s) || stray (viewed (x_ev s)) i)%bool then put w h else h) /\
  forall j, j <> i -> holds s3 j = holds s2 j.
Proof.
  intros E P E1 N E2 E3 h H. assert (I := xrun_inv ls xinit s xinit_inv E). assert (SG := seg_is _ _ _ E eq_refl). assert (I1 := step_inv _ _ _ _ I E1).
  unfold xstep in E1. rewrite P in E1. destruct (x_at s i) as [g|] eqn:Q; [|discriminate E1]. destruct (snd _); [discriminate E1|]. injection E1 as <-. set (s1 := xgo s t (KPut i g w) [EvFind t i w]) in *.
  assert (SG1 : x_seg s1 = expansions s1) by (unfold expansions; cbn [x_ev x_seg s1 xgo]; rewrite filter_app; cbn [filter is_expand]; rewrite app_nil_r; auto).
  assert (SG2 := seg_is _ _ _ E2 SG1). destruct (at_run i _ _ _ g E2 I1 Q) as [A LE]. cbn [x_seg s1 xgo] in A, LE.
  assert (P2 : x_pcs s2 t = KPut i g w) by (rewrite (xrun_other t ls' s1 s2 N E2); cbn [x_pcs s1 xgo]; apply fset_same).
  destruct (xi_at _ _ I i g Q) as (_ & GL & _ & _ & STR). unfold xstep in E3. rewrite P2 in E3. injection E3 as <-. unfold holds in *. cbn [x_at x_mem xgo]. rewrite A in *. injection H as <-.
  split.
  - assert (EQ : (Nat.eqb (expansions s2) (expansions s) || stray (viewed (x_ev s)) i)%bool = Nat.eqb g (if Nat.eqb g (x_seg s) then x_seg s2 else g)).
    { rewrite <- SG2, <- SG. destruct (stray (viewed (x_ev s)) i) eqn:S0.
      - rewrite orb_true_r. destruct (Nat.eqb_spec g (x_seg s)) as [X|X]; [apply STR in X; discriminate X|]. rewrite Nat.eqb_refl. auto.
      - rewrite orb_false_r. rewrite (proj1 STR eq_refl), Nat.eqb_refl. apply Nat.eqb_sym. }
    rewrite EQ. revert A. generalize (if g =? x_seg s then x_seg s2 else g). intros g' A. destruct (Nat.eqb_spec g g') as [->|X]; [rewrite !fset_same; auto|rewrite fset_other; auto].
  - intros j X. destruct (x_at s2 j) as [g'|]; auto. destruct (Nat.eq_dec g' g) as [->|Y]; [rewrite fset_same, fset_other; auto|rewrite fset_other; auto].
Qed.
Print Assumptions C67_one_call.

Lemma forallb_filter_nil (es : list mev) : filter is_expand es = [] <-> (forall e, In e es -> is_expand e = false).
Proof.
  induction es as [|e es IH]; cbn [filter In]; [tauto|]. destruct (is_expand e) eqn:Q; [split; [discriminate|intros H; rewrite (H e) in Q by auto; discriminate]|]. rewrite IH. split; [intros H e0 [<-|X]; auto|auto].
Qed.
(** The Set that takes the last item of a segment is not overtaken: until it has ended the pool does not expand. (Its three further steps
    store, link, and end it.) *)
Definition left_over (p : mpc) : nat := match p with KNew _ _ _ => 3 | KLink _ _ => 2 | KTail => 1 | _ => 0 end.
Lemma last_kept t : forall ls s s', x_mu s = Some t -> x_cap s <= x_len s -> count_occ Nat.eq_dec (map fst ls) t < left_over (x_pcs s t) ->
  xrun s ls = Some s' -> expansions s' = expansions s.
Proof.
  induction ls as [|[u c] ls IH]; intros s s' MU FULL CNT E; cbn [xrun] in E; [injection E as <-; auto|].
  destruct (xstep s u c) as [s1|] eqn:E1; [|discriminate E]. cbn [map fst] in CNT.
  assert (EX : forall es, ~ In EvExpand es -> x_ev s1 = x_ev s ++ es -> expansions s1 = expansions s).
  { intros es N H. unfold expansions. rewrite H, filter_app. rewrite (proj2 (forallb_filter_nil es)); [rewrite app_nil_r; auto|]. intros e He. destruct e; auto. elim N. exact He. }
  assert (K : x_mu s1 = Some t /\ x_cap s1 <= x_len s1 /\ count_occ Nat.eq_dec (map fst ls) t < left_over (x_pcs s1 t) /\ expansions s1 = expansions s); [|destruct K as (K1 & K2 & K3 & K4); rewrite <- K4; eapply IH; eauto].
  destruct (Nat.eq_dec u t) as [->|NU].
  - rewrite count_occ_cons_eq in CNT by auto. unfold xstep in E1. destruct (x_pcs s t) as [|i g v|i g| |i g w|i g|c0]; cbn [left_over] in CNT; try lia; injection E1 as <-; cbn [x_mu x_cap x_len x_pcs xgo] in *; rewrite fset_same; cbn [left_over]; (split; [auto|split; [auto|split; [lia|]]]).
    + apply (EX []); auto.
    + apply (EX [EvLink t i]); cbn [In]; [intros [H|[]]; discriminate H|auto].
  - rewrite count_occ_cons_neq in CNT by auto. unfold xstep in E1.
    destruct (x_pcs s u) as [|i g v|i g| |i g w|i g|c0].
    + destruct c as [v|i w|i].
      * destruct (Nat.leb_spec (x_cap s) (x_len s)); [|lia]. rewrite MU in E1. discriminate E1.
      * destruct (x_at s i); [|discriminate E1]. destruct (snd _); [discriminate E1|]. injection E1 as <-. cbn [x_mu x_cap x_len x_pcs xgo]. rewrite fset_other by auto. repeat (split; [auto|]). apply (EX [EvFind u i w]); cbn [In]; [intros [H|[]]; discriminate H|auto].
      * destruct (x_at s i); [|discriminate E1]. destruct (snd _); [discriminate E1|]. injection E1 as <-. cbn [x_mu x_cap x_len x_pcs xgo]. rewrite fset_other by auto. repeat (split; [auto|]). apply (EX []); auto.
    + injection E1 as <-. cbn [x_mu x_cap x_len x_pcs xgo]. rewrite fset_other by auto. repeat (split; [auto|]). apply (EX []); auto.
    + injection E1 as <-. cbn [x_mu x_cap x_len x_pcs xgo]. rewrite fset_other by auto. repeat (split; [auto|]). apply (EX [EvLink u i]); cbn [In]; [intros [H|[]]; discriminate H|auto].
    + injection E1 as <-. cbn [x_mu x_cap x_len x_pcs xgo]. rewrite fset_other by auto. rewrite MU. destruct (Nat.eqb_spec t u); [congruence|]. repeat (split; [auto|]). apply (EX []); auto.
    + injection E1 as <-. cbn [x_mu x_cap x_len x_pcs xgo]. rewrite fset_other by auto. repeat (split; [auto|]). apply (EX [EvStore u i]); cbn [In]; [intros [H|[]]; discriminate H|auto].
    + injection E1 as <-. cbn [x_mu x_cap x_len x_pcs xgo]. rewrite fset_other by auto. repeat (split; [auto|]). apply (EX []); auto.
    + injection E1 as <-. cbn [x_mu x_cap x_len x_pcs xgo]. rewrite fset_other by auto. repeat (split; [auto|]). apply (EX []); auto.
Qed.
Theorem C67_last_item : forall ls s t v s1 ls' s2, xrun xinit ls = Some s -> x_pcs s t = KIdle -> xstep s t (CNew v) = Some s1 -> x_len s1 = x_cap s1 ->
  xrun s1 ls' = Some s2 -> count_occ Nat.eq_dec (map fst ls') t <= 2 -> expansions s2 = expansions s1.
Proof.
  intros ls s t v s1 ls' s2 _ P E1 FULL E2 CNT. unfold xstep in E1. rewrite P in E1.
  assert (T : forall s0, s1 = xtake s0 t v -> x_mu s1 = Some t /\ left_over (x_pcs s1 t) = 3).
  { intros s0 ->. cbn [x_len x_cap xtake] in FULL. cbn [x_mu x_pcs xtake xgo]. rewrite FULL, Nat.eqb_refl, fset_same. auto. }
  assert (exists s0, s1 = xtake s0 t v) as (s0 & E0).
  { destruct (x_cap s <=? x_len s); [|destruct (Nat.eqb _ _)]; [destruct (x_mu s)|destruct (x_mu s)|]; try discriminate E1; injection E1 as <-; eauto. }
  destruct (T s0 E0) as [MU LO]. apply (last_kept t ls' s1 s2); [exact MU|lia|rewrite LO; lia|exact E2].
Qed.
Print Assumptions C67_last_item.

(** A Delete that took effect is not undone by a Set that found the item before. *)
Lemma gone_step s u t c s' i v : xinv s u -> xstep s t c = Some s' -> holds s i = Some (v, true) -> exists v', holds s' i = Some (v', true).
Proof.
  intros I E H. unfold holds in *. destruct (x_at s i) as [g|] eqn:Q; [|discriminate H]. injection H as H. destruct (xi_at _ _ I i g Q) as (_ & GL & _).
  assert (TK : forall s0 v0, x_at (xtake s0 t v0) = x_at s0 /\ x_mem (xtake s0 t v0) = x_mem s0) by (intros; split; reflexivity).
  unfold xstep in E. destruct (x_pcs s t) as [|i0 g0 v0|i0 g0| |i0 g0 w|i0 g0|c0] eqn:P.
  - destruct c as [v0|i0 w|i0].
    + assert (C : s' = xtake s t v0 \/ s' = xtake (xexpand s) t v0).
      { destruct (x_cap s <=? x_len s); [|destruct (Nat.eqb _ _)]; [destruct (x_mu s)|destruct (x_mu s)|]; try discriminate E; injection E as <-; auto. }
      destruct C as [-> | ->].
      * destruct (TK s v0) as [-> ->]. rewrite Q, H. eauto.
      * destruct (TK (xexpand s) v0) as [-> ->]. cbn [x_at x_mem xexpand]. rewrite Q. destruct (Nat.eqb_spec g (x_seg s)) as [->|N]; [rewrite Nat.eqb_refl, H; eauto|]. destruct (Nat.eqb_spec g (S (x_seg s))); [lia|]. rewrite H. eauto.
    + destruct (x_at s i0); [|discriminate E]. destruct (snd _); [discriminate E|]. injection E as <-. cbn [x_at x_mem xgo]. rewrite Q, H. eauto.
    + destruct (x_at s i0); [|discriminate E]. destruct (snd _); [discriminate E|]. injection E as <-. cbn [x_at x_mem xgo]. rewrite Q, H. eauto.
  - injection E as <-. cbn [x_at x_mem xgo]. rewrite Q. destruct (xi_mine _ _ I t i0 g0) as (_ & _ & X & _); [rewrite P; auto|]. assert (i <> i0) by congruence.
    destruct (Nat.eq_dec g g0) as [->|N]; [rewrite fset_same, fset_other, H by auto|rewrite fset_other, H by auto]; eauto.
  - injection E as <-. cbn [x_at x_mem xgo]. destruct (xi_mine _ _ I t i0 g0) as (_ & _ & X & _); [rewrite P; auto|]. assert (i <> i0) by congruence. rewrite fset_other, Q, H by auto. eauto.
  - injection E as <-. cbn [x_at x_mem xgo]. rewrite Q, H. eauto.
  - injection E as <-. cbn [x_at x_mem xgo]. rewrite Q. destruct (Nat.eq_dec g g0) as [->|N]; [|rewrite fset_other, H by auto; eauto]. rewrite fset_same. destruct (Nat.eq_dec i i0) as [->|N]; [|rewrite fset_other, H by auto; eauto].
    rewrite fset_same, H. destruct w; cbn [put fst snd]; eauto.
  - injection E as <-. cbn [x_at x_mem xgo]. rewrite Q, H. eauto.
  - injection E as <-. cbn [x_at x_mem xgo]. rewrite Q, H. eauto.
Qed.
Theorem C67_stays_deleted : forall ls s i v ls' s', xrun xinit ls = Some s -> holds s i = Some (v, true) -> xrun s ls' = Some s' -> exists v', holds s' i = Some (v', true).
Proof.
  intros ls s i v ls' s' E H E'. pose proof (xrun_inv ls xinit s xinit_inv E) as I. clear E ls. revert s I v H E'.
  induction ls' as [|[t c] ls' IH]; intros s I v H E'; cbn [xrun] in E'; [injection E' as <-; eauto|].
  destruct (xstep s t c) as [s1|] eqn:E1; [|discriminate E']. destruct (gone_step _ _ _ _ _ _ _ I E1 H) as (v1 & H1).
  apply (IH s1 (step_inv _ _ _ _ I E1) v1 H1 E').
Qed.
Print Assumptions C67_stays_deleted.

(** * The hypotheses are met *)
(** goroutine 2 takes the 64th item; goroutine 1 stores into an item meanwhile; nobody can take another item before it has ended *)
Example C67_last_case :
  match xrun xinit (sets 63 100) with
  | Some s => x_pcs s 2 = KIdle /\
      match xstep s 2 (CNew 500) with
      | Some s1 => x_len s1 = x_cap s1 /\
          match xrun s1 [(1, CPut 0 (WVal 7)); (2, CGet 0); (1, CGet 0); (2, CGet 0)] with Some s2 => xstep s2 1 (CNew 9) = None | None => False end
      | None => False end
  | None => False end.
Proof. vm_compute. auto. Qed.
(** 65 items, two goroutines: not overtaken; overtaken; a stray item: goroutine 2 is storing item 62 when
    goroutine 1 expands the pool, and its later Set of that item is overtaken by the next expansion *)
Example C67_on_time_case : exists s, xrun xinit (sets 65 100 ++ [(2, CPut 0 (WVal 7)); (2, CGet 0)]) = Some s /\ (forall t, x_pcs s t = KIdle) /\ all_stores s 0 = (7%Z, false) /\ holds s 0 = Some (7%Z, false).
Proof. apply ends_ok. vm_compute. reflexivity. Qed.
Example C67_stray_case : exists s, xrun xinit (sets 62 100 ++ [(2, CNew 500)] ++ sets 2 300 ++ [(2, CGet 0); (2, CGet 0); (2, CGet 0); (2, CPut 62 (WVal 7))] ++ sets 64 400 ++ [(2, CGet 0)]) = Some s /\
  (forall t, x_pcs s t = KIdle) /\ all_stores s 62 = (7%Z, false) /\ holds s 62 = Some (7%Z, false).
Proof. apply ends_ok. vm_compute. reflexivity. Qed.
Example C67_few_case : exists s, xrun xinit (sets 64 100 ++ [(2, CPut 0 WDel); (2, CGet 0)]) = Some s /\ (forall t, x_pcs s t = KIdle) /\ all_stores s 0 = (100%Z, true) /\ holds s 0 = Some (100%Z, true).
Proof. apply ends_ok. vm_compute. reflexivity. Qed.
(** goroutine 2 finds item 0, goroutine 1 deletes it, goroutine 2 stores its value: the mark stays *)
Example C67_stays_case : exists s, xrun xinit (sets 2 100 ++ [(2, CPut 0 (WVal 7)); (1, CPut 0 WDel); (1, CGet 0); (2, CGet 0)]) = Some s /\ (forall t, x_pcs s t = KIdle) /\ all_stores s 0 = (7%Z, true) /\ holds s 0 = Some (7%Z, true).
Proof. apply ends_ok. vm_compute. reflexivity. Qed.
