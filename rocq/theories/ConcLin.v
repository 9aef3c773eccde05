(** The invariant behind the linearizability theorem (PropLin.v). *)
From Verif Require Import Base BaseProofs Util UtilProofs Bucket MapModel Spec MapRefine ConcModel ConcSpec ConcProofs ConcMore PropConc LinSpec LinProofs.
From Coq Require Import PeanoNat.
Local Open Scope nat_scope.
Local Open Scope list_scope.
Local Opaque reverse64.

Lemma okey_inj k k' : okey k -> okey k' -> reverse64 k = reverse64 k' -> k = k'.
Proof. unfold okey. intros [A1 A2] [B1 B2]. apply reverse64_inj; unfold W64; split; try assumption; apply (Z.lt_trans _ (2 ^ 64 - 1)%Z); try assumption; reflexivity. Qed.

(** * The state without the linearization *)
Record lbase (s : cstate) : Prop := {
  lb_c : cinv s; lb_ends : ends_max s; lb_uniq : uniq s;
  lb_lone : forall t k c v, pending (pcs s t) = Some (CSet k c v) -> inserting (pcs s t) = true -> lone s t (CSet k c v);
  lb_ok : forall t o, In (Inv t o) (hist s) -> okcall o;
  lb_rd : forall t o i, pcs s t = Rd o i -> exists k c, o = CGet k c;
  lb_cnt : forall t o, pcs s t = Cnt o -> is_dummy o = false;
  lb_mark : forall t o i, pcs s t = Mark o i -> exists k c n, o = CDel k c /\ node s i = Some n /\ n_del n = false }.
Lemma lone_other_ins g s u s' t o : cinv s -> u <> t -> eff g s u s' -> inserting (pcs s u) = false -> inserting (pcs s' u) = false ->
  inserting (pcs s t) = true -> lone s t o -> lone s' t o.
Proof.
  intros C NE E I1 I2 IT L. destruct (eff_quiet g s u s' E I1 I2) as [OO OC]. pose proof (eff_ext _ _ _ _ E) as X.
  assert (BO : forall i cur, node s i <> None -> before_ok s i cur -> before_ok s' i cur).
  { intros i cur NI B p np ni. rewrite OO. intros H1 H2 H3. assert (IP : In p (order s)) by (eapply prev_in; eauto).
    pose proof (ci_valid _ C p IP) as V. destruct (node s p) as [np0|] eqn:N1; [|congruence]. destruct (node s i) as [ni0|] eqn:N2; [|congruence].
    destruct (ex_heap _ _ X p np0 N1) as (a & A1 & A2 & _). destruct (ex_heap _ _ X i ni0 N2) as (b & B1 & B2 & _).
    specialize (B p np0 ni0 H1 N1 N2). assert (a = np) by congruence. assert (b = ni) by congruence. subst. lia. }
  assert (OW : forall i, owns (pcs s t) = Some i -> node s i <> None) by (intros i H; apply (owned_not_in s t i C H)).
  unfold lone in *. rewrite (eff_other g s u s' t E) by auto. destruct (pcs s t) as [|o'|o' i|o' i|o' i|o' i n|o' i cur pv|o' i n pos pv|o' i r|o' i r|o'] eqn:EP; auto; try discriminate IT.
  - destruct L as (-> & L1 & L2). split; auto. split; [congruence|]. destruct L2 as [L2|(ni & nc & N1 & N2 & L2)]; [left; apply BO; auto|right].
    destruct (ex_heap _ _ X i ni N1) as (a & A1 & A2 & _). destruct (ex_heap _ _ X cur nc N2) as (b & B1 & B2 & _). exists a, b. split; auto. split; auto. lia.
  - destruct L as (-> & L). split; auto. intros Z. destruct (L Z) as (r & R1 & R2). exists r. split; [auto|]. apply BO; auto.
  - destruct L as (-> & L). split; auto. unfold check in *. rewrite OO. destruct (node s i) as [ni|] eqn:N1; [|discriminate]. destruct (node s r) as [nr|] eqn:N2; [|discriminate].
    destruct (ex_heap _ _ X i ni N1) as (a & -> & A2 & _). destruct (ex_heap _ _ X r nr N2) as (b & -> & B2 & _). rewrite A2, B2.
    destruct (prev_of r (order s)) as [p|]; auto. destruct (node s p) as [np|] eqn:N3; [|rewrite andb_false_r in L; discriminate].
    destruct (ex_heap _ _ X p np N3) as (d & -> & D2 & _). rewrite D2. auto.
Qed.
Lemma orderly_excl s : orderly s -> exclusive s.
Proof. intros O t u k c v k' v' NE P1 I1 P2 I2. destruct (O t u NE) as [Q _]. rewrite (Q I1) in I2. discriminate. Qed.
(** what a step does to a node of the list *)
Lemma eff_node g s t s' i n : eff g s t s' -> node s i = Some n -> node s' i = Some n \/
  (exists k c v v' ok, pcs s t = Upd (CSet k c v) i /\ set_value KSample (n_val n) v = Some (v', ok) /\ node s' i = Some (mkN (n_rev n) (n_conf n) v' (n_dum n) (n_del n))) \/
  (exists o, pcs s t = Mark o i /\ node s' i = Some (mkN (n_rev n) (n_conf n) (n_val n) (n_dum n) true)).
Proof.
  intros E N. destruct E; try (left; exact N).
  - left. unfold node in *. cbn [heap goto alloc log_]. rewrite nth_error_app1 by (apply nth_error_Some; congruence). auto.
  - left. unfold node in *. cbn [heap goto alloc log_]. rewrite nth_error_app1 by (apply nth_error_Some; congruence). auto.
  - unfold node in *. cbn [heap ret set_node]. rewrite set_nth_at. destruct (Nat.eqb_spec i i0) as [->|]; [|auto]. rewrite N.
    right. left. exists k, c, v, v', ok. assert (n0 = n) by congruence. subst. auto.
  - unfold node in *. cbn [heap ret set_node]. rewrite set_nth_at. destruct (Nat.eqb_spec i i0) as [->|]; [|auto]. rewrite N.
    right. right. exists o. assert (n0 = n) by congruence. subst. auto.
  - left. unfold node in *. destruct (after_shared s t o) as (-> & _). auto.
  - left. unfold node in *. destruct (after_shared (insert s i0 r) t o) as (-> & _). auto.
  - left. unfold node in *. destruct (after_shared (insert s i0 r) t o) as (-> & _). auto.
Qed.
Lemma lbase_step g s t s' : c_lax g = false -> lbase s -> orderly s -> orderly s' -> eff g s t s' ->
  (forall o, In (Inv t o) (hist s') -> okcall o) -> lbase s'.
Proof.
  intros LX B O O' E OK. pose proof (lb_c _ B) as C. constructor.
  - eapply eff_cinv; eauto.
  - eapply eff_ends; eauto. apply B.
  - eapply eff_uniq; eauto; try apply orderly_excl; auto. apply B.
  - intros u k c v P I. destruct (Nat.eq_dec u t) as [->|NE].
    + destruct (eff_pending g s t s' k c v C E P I) as [[P' I']|[P' M]].
      * assert (IH : In (Inv t (CSet k c v)) (hist s)) by (pose proof (ci_pc _ C t) as Q; destruct (pcs s t); cbn [pending pc_ok] in *; try discriminate; injection P' as ->; tauto).
        apply (lb_ok _ B) in IH. apply (lone_self g s t s' k c v C (lb_ends _ B) (top_pos k IH) E); [intros Z; rewrite Z in P'; discriminate|].
        apply (lb_lone _ B); auto.
      * pose proof (ci_pc _ C t) as Q. rewrite P' in Q. apply (lb_ok _ B) in Q.
        apply (lone_self g s t s' k c v C (lb_ends _ B) (top_pos k Q) E); [congruence|]. unfold lone. rewrite P'. auto.
    + rewrite (eff_other g s t s' u E NE) in P, I. pose proof (proj1 (O u t NE) I) as N1. assert (N2 : inserting (pcs s' t) = false).
      { apply (proj1 (O' u t NE)). rewrite (eff_other g s t s' u E NE). auto. }
      eapply (lone_other_ins g s t s' u); eauto. apply B; auto.
  - intros u o I. destruct (Nat.eq_dec u t) as [->|NE]; [auto|]. apply (lb_ok _ B u).
    destruct E; cbn [hist goto ret log_ alloc set_opt set_node] in I; auto; try (apply in_app_or in I as [I|[I|[]]]; [auto|try congruence]).
    + destruct o0; cbn [after_insert hist goto ret] in I; auto; apply in_app_or in I as [I|[I|[]]]; auto; discriminate.
    + destruct o0; cbn [after_insert hist goto ret insert] in I; auto; apply in_app_or in I as [I|[I|[]]]; auto; discriminate.
    + destruct o0; cbn [after_insert hist goto ret insert] in I; auto; apply in_app_or in I as [I|[I|[]]]; auto; discriminate.
  - intros u o i P. destruct (Nat.eq_dec u t) as [->|NE]; [|rewrite (eff_other g s t s' u E NE) in P; eapply (lb_rd _ B); eauto].
    destruct E; cbn [pcs goto ret log_ alloc set_opt set_node] in P; rewrite ?upd_pc_same in P; try discriminate; try (injection P as <- <-; eauto).
    + destruct (after_pc s t o0) as (p & Q & _ & [->| ->]); rewrite Q, upd_pc_same in P; discriminate.
    + destruct (after_pc (insert s i0 r) t o0) as (p & Q & _ & [->| ->]); rewrite Q, upd_pc_same in P; discriminate.
    + destruct (after_pc (insert s i0 r) t o0) as (p & Q & _ & [->| ->]); rewrite Q, upd_pc_same in P; discriminate.
  - intros u o P. destruct (Nat.eq_dec u t) as [->|NE]; [|rewrite (eff_other g s t s' u E NE) in P; eapply (lb_cnt _ B); eauto].
    destruct E; cbn [pcs goto ret log_ alloc set_opt set_node] in P; rewrite ?upd_pc_same in P; try discriminate;
      destruct o0; cbn [after_insert pcs goto ret insert] in P; rewrite ?upd_pc_same in P; try discriminate; injection P as <-; auto.
  - intros u o i P. destruct (Nat.eq_dec u t) as [->|NE].
    + destruct E; cbn [pcs goto ret log_ alloc set_opt set_node] in P; rewrite ?upd_pc_same in P; try discriminate.
      * injection P as <- <-. apply visible_hit in H0 as (_ & n & N & _ & _ & _ & D). exists k, c, n. auto.
      * destruct (after_pc s t o0) as (p & Q & _ & [->| ->]); rewrite Q, upd_pc_same in P; discriminate.
      * destruct (after_pc (insert s i0 r) t o0) as (p & Q & _ & [->| ->]); rewrite Q, upd_pc_same in P; discriminate.
      * destruct (after_pc (insert s i0 r) t o0) as (p & Q & _ & [->| ->]); rewrite Q, upd_pc_same in P; discriminate.
    + rewrite (eff_other g s t s' u E NE) in P. destruct (lb_mark _ B u o i P) as (k & c & n & -> & N & D). exists k, c.
      destruct (eff_node g s t s' i n E N) as [N'|[(k1 & c1 & v1 & v' & ok & _ & _ & N')|(o1 & P1 & N')]]; [exists n; auto|eexists; split; [auto|split; [exact N'|exact D]]|].
      exfalso. destruct (lb_mark _ B t o1 i P1) as (k1 & c1 & n1 & -> & _ & _).
      pose proof (ci_pc _ C u) as Q. rewrite P in Q. destruct Q as [IH (_ & m & k2 & c2 & N2 & K2 & R2 & C2 & _)]. cbn [key_call] in K2. injection K2 as <- <-.
      pose proof (ci_pc _ C t) as Q. rewrite P1 in Q. destruct Q as [IH1 (_ & m1 & k3 & c3 & N3 & K3 & R3 & C3 & _)]. cbn [key_call] in K3. injection K3 as <- <-.
      assert (m1 = m) by congruence. subst m1. apply (lb_ok _ B) in IH, IH1. assert (k1 = k) by (apply okey_inj; [exact IH1|exact IH|congruence]). subst k1.
      destruct (O t u ltac:(auto)) as [_ Q]. apply (Q k c); [rewrite P1|rewrite P]; cbn [pending]; congruence.
Qed.

(** * The linearization *)
Definition dead (s : cstate) (i : nat) (n : cnode) : Prop := In i (order s) /\ node s i = Some n /\ n_dum n = false /\ n_del n = true.
Definition at_item (p : pc) : option (call * nat) := match p with Upd o i | Rd o i => Some (o, i) | _ => None end.
(** The Delete that deleted item i stands in L with the id f i; right before it the key has the value of the item, and goroutines still
    at the item began before anything from there on ended. *)
Definition deadat (s : cstate) (L : list lincall) (a i : nat) (n : cnode) : Prop :=
  exists k l1 l2, okey k /\ n_rev n = reverse64 k /\
     L = l1 ++ mkLin a (CDel k (n_conf n)) (CBool true) :: l2 /\ lrun lempty (calls l1) k (n_conf n) = Some (n_val n) /\
     forall t o id y j r, at_item (pcs s t) = Some (o, i) -> open_at (hist s) t id o ->
       In y (mkLin a (CDel k (n_conf n)) (CBool true) :: l2) -> answered (hist s) (l_id y) j r -> id < j.
Definition deadok (s : cstate) (L : list lincall) (f : nat -> nat) : Prop :=
  (forall i n j m, dead s i n -> dead s j m -> f i = f j -> i = j) /\
  (forall i n, dead s i n -> deadat s L (f i) i n).
Definition holdsv (s : cstate) (k c : Z) (v : gval) : Prop := exists i n, visible s k c i /\ node s i = Some n /\ n_val n = v.
Definition maps (s : cstate) (m : lmap) : Prop := forall k c v, okey k -> (m k c = Some v <-> holdsv s k c v).
Definition opens (s : cstate) (L : list lincall) : Prop :=
  forall t o, pending (pcs s t) = Some o -> exists id, open_at (hist s) t id o /\
    if is_cnt (pcs s t) then In (mkLin id o (CBool true)) L else ~ In id (ids L).
Record linv (s : cstate) (L : list lincall) : Prop := {
  li_base : lbase s; li_lin : linearization (hist s) L; li_open : opens s L;
  li_map : maps s (lrun lempty (calls L)); li_dead : exists f, deadok s L f }.

Lemma maps_same s s' m : order s' = order s -> (forall i, In i (order s) -> node s' i = node s i) -> maps s m -> maps s' m.
Proof.
  intros OO NN M k c v OK. rewrite (M k c v OK). unfold holdsv, visible. rewrite OO. split; intros (i & n & (I & n' & N' & Q) & N & V); exists i, n; rewrite NN in * by auto; eauto 8.
Qed.
Lemma maps_leq s m m' : leq m m' -> maps s m -> maps s m'.
Proof. intros E M k c v OK. rewrite <- E. apply M; auto. Qed.
(** how the history grows *)
Definition grows (s s' : cstate) (t : nat) : Prop := hist s' = hist s \/ exists e, hist s' = hist s ++ [e] /\ who e = t.
Lemma grows_open s s' t u id o : grows s s' t -> (hist s' = hist s \/ u <> t) -> open_at (hist s') u id o -> open_at (hist s) u id o.
Proof.
  intros [G|(e & G & W)] N O; rewrite G in *; auto. destruct N as [N|N]; [rewrite N in O; auto|]. eapply open_unsnoc; eauto. congruence.
Qed.
Lemma grows_answered s s' t i j r : grows s s' t -> answered (hist s') i j r -> answered (hist s) i j r \/ j = List.length (hist s).
Proof. intros [G|(e & G & W)] O; rewrite G in *; auto. apply answered_snoc in O as [O|[-> _]]; auto. Qed.
Lemma deadat_keep s s' t L ex a i n : grows s s' t ->
  (forall u o, at_item (pcs s' u) = Some (o, i) -> pcs s' u = pcs s u /\ (hist s' = hist s \/ u <> t)) ->
  (forall y j r, In y ex -> answered (hist s') (l_id y) j r -> List.length (hist s) <= j) ->
  deadat s L a i n -> deadat s' (L ++ ex) a i n.
Proof.
  intros G TH EX (k & l1 & l2 & OK & RK & -> & VAL & RT). exists k, l1, (l2 ++ ex).
  split; auto. split; auto. split; [rewrite <- app_assoc; reflexivity|]. split; auto.
  intros u o id y j r AT OP IY AN. destruct (TH u o AT) as [PU NU]. rewrite PU in AT. apply (grows_open s s' t) in OP; auto.
  pose proof (open_lt _ _ _ _ OP) as LT.
  assert (CS : In y (mkLin a (CDel k (n_conf n)) (CBool true) :: l2) \/ In y ex).
  { destruct IY as [<-|IY]; [left; left; auto|]. apply in_app_or in IY as [IY|IY]; [left; right; auto|auto]. }
  destruct CS as [IY'|IY']; [|specialize (EX y j r IY' AN); lia].
  apply (grows_answered s s' t) in AN as [AN| ->]; eauto.
Qed.
Lemma deadok_keep s s' t L ex f : grows s s' t ->
  (forall i n, dead s' i n -> dead s i n) ->
  (forall u o i n, at_item (pcs s' u) = Some (o, i) -> dead s i n -> pcs s' u = pcs s u /\ (hist s' = hist s \/ u <> t)) ->
  (forall y j r, In y ex -> answered (hist s') (l_id y) j r -> List.length (hist s) <= j) ->
  deadok s L f -> deadok s' (L ++ ex) f.
Proof.
  intros G DD TH EX [F1 F2]. split.
  - intros i n j m D1 D2. eapply F1; eauto.
  - intros i n D. apply (deadat_keep s s' t); auto. intros u o AT. eapply TH; eauto.
Qed.
(** opens of the other goroutines *)
Lemma open_ne H t i o t' i' o' : open_at H t i o -> open_at H t' i' o' -> t <> t' -> i <> i'.
Proof. intros [A _] [B _] N ->. congruence. Qed.

(** a step inside a call that nobody sees *)
Lemma li_silent s s' t L : linv s L -> lbase s' -> order s' = order s -> (forall i, In i (order s) -> node s' i = node s i) -> hist s' = hist s ->
  (forall u, u <> t -> pcs s' u = pcs s u) -> pending (pcs s' t) = pending (pcs s t) -> is_cnt (pcs s t) = false -> is_cnt (pcs s' t) = false ->
  (forall o i, at_item (pcs s' t) = Some (o, i) -> exists n, node s i = Some n /\ n_del n = false) -> linv s' L.
Proof.
  intros [B LN OP M [f D]] B' OO NN HH PO PP C1 C2 AL. constructor; auto.
  - rewrite HH. auto.
  - intros u o P. rewrite HH. destruct (Nat.eq_dec u t) as [->|NE].
    + rewrite C2. rewrite PP in P. specialize (OP t o P). rewrite C1 in OP. auto.
    + rewrite PO in * by auto. auto.
  - eapply maps_same; eauto.
  - exists f. rewrite <- (app_nil_r L). apply (deadok_keep s s' t L [] f); auto.
    + left. auto.
    + unfold dead. intros i n (I & N & Q). rewrite OO in I. rewrite NN in N by auto. auto.
    + intros u o i n AT (I & N & _ & DL). destruct (Nat.eq_dec u t) as [->|NE]; [|split; auto].
      exfalso. destruct (AL o i AT) as (n' & N' & D'). congruence.
    + intros y j r [].
Qed.
(** a call begins *)
Lemma li_begin s s' t o L : linv s L -> lbase s' -> order s' = order s -> (forall i, In i (order s) -> node s' i = node s i) -> hist s' = hist s ++ [Inv t o] ->
  (forall u, u <> t -> pcs s' u = pcs s u) -> pending (pcs s' t) = Some o -> is_cnt (pcs s' t) = false -> at_item (pcs s' t) = None -> linv s' L.
Proof.
  intros [B LN OP M [f D]] B' OO NN HH PO PP C2 AT0. constructor; auto.
  - rewrite HH. apply lin_inv. auto.
  - intros u o' P. rewrite HH. destruct (Nat.eq_dec u t) as [->|NE].
    + rewrite C2. assert (o' = o) by congruence. subst o'. exists (List.length (hist s)). split; [apply open_new|].
      intros I. apply in_map_iff in I as (x & E & I). pose proof (ids_lt _ _ _ LN I). lia.
    + rewrite PO in * by auto. destruct (OP u o' P) as (id & O1 & O2). exists id. split; auto. apply open_snoc; auto.
  - eapply maps_same; eauto.
  - exists f. rewrite <- (app_nil_r L). apply (deadok_keep s s' t L [] f); auto.
    + right. eexists. split; [exact HH|reflexivity].
    + unfold dead. intros i n (I & N & Q). rewrite OO in I. rewrite NN in N by auto. auto.
    + intros u o' i n AT _. destruct (Nat.eq_dec u t) as [->|NE]; [congruence|split; auto].
    + intros y j r [].
Qed.
(** a call takes effect somewhere in the list and ends *)
Lemma li_finish s s' t o r id L L' : linv s L -> lbase s' -> hist s' = hist s ++ [Rsp t o r] -> (forall u, u <> t -> pcs s' u = pcs s u) -> pcs s' t = Idle ->
  open_at (hist s) t id o -> linearization (hist s) L' -> (forall x, In x L' <-> x = mkLin id o r \/ In x L) ->
  maps s' (lrun lempty (calls L')) -> (exists f, deadok s' L' f) -> linv s' L'.
Proof.
  intros [B LN OP M D0] B' HH PO PI OT LN' IN M' D. constructor; auto.
  - rewrite HH. eapply lin_rsp; eauto. apply IN. auto.
  - intros u o' P. rewrite HH. destruct (Nat.eq_dec u t) as [->|NE]; [rewrite PI in P; discriminate|]. rewrite PO in * by auto.
    destruct (OP u o' P) as (id' & O1 & O2). exists id'. split; [apply open_snoc; auto|]. destruct (is_cnt (pcs s u)); [apply IN; auto|].
    intros I. apply in_map_iff in I as (x & E & I). apply IN in I as [->|I].
    + cbn [l_id] in E. apply (open_ne _ _ _ _ _ _ _ OT O1); auto.
    + apply O2. apply in_map_iff. eauto.
Qed.

(** * The content *)
Lemma maps_vis s s' m : (forall k c j n, okey k -> (visible s' k c j /\ node s' j = Some n) <-> (visible s k c j /\ node s j = Some n)) -> maps s m -> maps s' m.
Proof.
  intros H M k c v OK. rewrite (M k c v OK). unfold holdsv. split; intros (i & n & V & N & E); exists i, n.
  - destruct (proj2 (H k c i n OK)) as [V' N']; auto.
  - destruct (proj1 (H k c i n OK)) as [V' N']; auto.
Qed.
(** one node changes *)
Lemma maps_put s s' m i n n' k c : uniq s' -> maps s m -> okey k -> order s' = order s -> (forall j, j <> i -> node s' j = node s j) -> visible s k c i -> node s i = Some n -> node s' i = Some n' ->
  n_rev n' = n_rev n -> n_conf n' = n_conf n -> n_dum n' = n_dum n -> uniq s ->
  maps s' (lput m k c (if n_del n' then None else Some (n_val n'))).
Proof.
  intros [U' _] M OK OO NN VI N N' R1 C1 D1 [U _] k' c' w OK'.
  assert (OT : forall j, j <> i -> forall a b, visible s' a b j <-> visible s a b j).
  { intros j NE a b. unfold visible. rewrite OO, NN by auto. tauto. }
  assert (VI' : n_del n' = false -> visible s' k c i).
  { intros D. destruct VI as (I & n0 & N0 & A & B & E & _). assert (n0 = n) by congruence. subst n0. split; [rewrite OO; auto|]. exists n'. repeat split; congruence. }
  destruct (Z.eq_dec k' k) as [->|NK]; [destruct (Z.eq_dec c' c) as [->|NC]|].
  - rewrite lput_same. split.
    + destruct (n_del n') eqn:D; [discriminate|]. intros E. injection E as <-. exists i, n'. auto.
    + intros (j & nj & Vj & Nj & <-). destruct (Nat.eq_dec j i) as [->|NE].
      * assert (nj = n') by congruence. subst nj. destruct Vj as (_ & q & Q & _ & _ & _ & Q'). assert (q = n') by congruence. subst q. rewrite Q'. auto.
      * exfalso. apply NE. apply (U k c); auto. apply OT; auto.
  - rewrite lput_other by congruence. rewrite (M k c' w OK'). split; intros (j & nj & Vj & Nj & E); exists j, nj.
    + assert (NE : j <> i). { intros ->. destruct VI as (_ & a & A1 & _ & A2 & _), Vj as (_ & b & B1 & _ & B2 & _). congruence. }
      split; [apply OT; auto|]. rewrite NN by auto. auto.
    + assert (NE : j <> i). { intros ->. destruct VI as (_ & a & A1 & _ & A2 & _), Vj as (_ & b & B1 & _ & B2 & _). congruence. }
      split; [apply OT; auto|]. rewrite <- NN by auto. auto.
  - rewrite lput_other by congruence. rewrite (M k' c' w OK'). split; intros (j & nj & Vj & Nj & E); exists j, nj.
    + assert (NE : j <> i). { intros ->. apply NK, okey_inj; auto. destruct VI as (_ & a & A1 & A2 & _), Vj as (_ & b & B1 & B2 & _). congruence. }
      split; [apply OT; auto|]. rewrite NN by auto. auto.
    + assert (NE : j <> i). { intros ->. apply NK, okey_inj; auto. destruct VI as (_ & a & A1 & A2 & _), Vj as (_ & b & B1 & B2 & _). congruence. }
      split; [apply OT; auto|]. rewrite <- NN by auto. auto.
Qed.
(** a new item *)
Lemma maps_new s s' m i k c v : maps s m -> okey k -> (forall j, In j (order s') <-> j = i \/ In j (order s)) -> ~ In i (order s) -> (forall j, node s' j = node s j) ->
  node s i = Some (mkN (reverse64 k) c v false false) -> (forall j, ~ visible s k c j) -> maps s' (lput m k c (Some v)).
Proof.
  intros M OK OO NI NN N NV k' c' w OK'.
  assert (OT : forall j, j <> i -> forall a b, visible s' a b j <-> visible s a b j).
  { intros j NE a b. unfold visible. rewrite OO, NN. tauto. }
  assert (VI : visible s' k c i). { split; [apply OO; auto|]. eexists. rewrite NN. split; [exact N|]. auto. }
  assert (SAME : (k', c') <> (k, c) -> m k' c' = Some w <-> holdsv s' k' c' w).
  { intros NE. rewrite (M k' c' w OK'). split; intros (j & nj & Vj & Nj & E); exists j, nj; rewrite NN in *; split; auto.
    - apply OT; auto. intros ->. apply NI, Vj.
    - apply OT; auto. intros ->. destruct Vj as (_ & q & Q & R1 & R2 & _). rewrite NN, N in Q. injection Q as <-. cbn [n_rev n_conf] in *. apply NE. f_equal; auto. apply okey_inj; auto. }
  destruct (Z.eq_dec k' k) as [->|NK]; [destruct (Z.eq_dec c' c) as [->|NC]|].
  - rewrite lput_same. split.
    + intros E. injection E as <-. exists i. eexists. split; [exact VI|]. rewrite NN. split; [exact N|auto].
    + intros (j & nj & Vj & Nj & <-). destruct (Nat.eq_dec j i) as [->|NE].
      * rewrite NN, N in Nj. injection Nj as <-. auto.
      * exfalso. apply (NV j). apply OT; auto.
  - rewrite lput_other by congruence. apply SAME. congruence.
  - rewrite lput_other by congruence. apply SAME. congruence.
Qed.
(** a new sentinel *)
Lemma maps_sentinel s s' m i n : maps s m -> (forall j, In j (order s') <-> j = i \/ In j (order s)) -> (forall j, node s' j = node s j) -> node s i = Some n -> n_dum n = true -> maps s' m.
Proof.
  intros M OO NN N D. eapply maps_vis; [|exact M]. intros k c j nj OK. unfold visible. rewrite OO, NN. split; intros ((I & q & Q & A & B & E & F) & Nj); split; auto.
  - split; [|exists q; auto]. destruct I as [->|I]; [congruence|auto].
  - split; [|exists q; auto]. auto.
Qed.

(** * A call takes effect last *)
Lemma li_append s s' t o r L : linv s L -> lbase s' -> hist s' = hist s ++ [Rsp t o r] -> (forall u, u <> t -> pcs s' u = pcs s u) -> pcs s' t = Idle ->
  pending (pcs s t) = Some o -> is_cnt (pcs s t) = false -> snd (lin_step (lrun lempty (calls L)) o) = r -> maps s' (fst (lin_step (lrun lempty (calls L)) o)) ->
  (forall id f, open_at (hist s) t id o -> ~ In id (ids L) -> (forall j r', answered (hist s') id j r' -> List.length (hist s) <= j) -> deadok s L f -> exists f', deadok s' (L ++ [mkLin id o r]) f') ->
  exists L', linv s' L'.
Proof.
  intros V B' HH PO PI PP NC R M D. destruct (li_open _ _ V t o PP) as (id & OP & NI). rewrite NC in NI. exists (L ++ [mkLin id o r]).
  destruct (li_dead _ _ V) as (f & DF).
  eapply (li_finish s s' t o r id L); eauto.
  - apply (lin_add _ _ t); auto. apply V.
  - intros x. rewrite in_app_iff. cbn [In]. intuition congruence.
  - unfold calls. rewrite map_app, lrun_app. cbn [map lrun l_call]. exact M.
  - apply (D id f); auto. intros j r' AN. rewrite HH in AN. apply answered_snoc in AN as [AN|[-> _]]; auto. exfalso. eapply open_not_answered; eauto.
Qed.
(** ... and no item is deleted by it *)
Lemma li_append_keep s s' t o r L : linv s L -> lbase s' -> hist s' = hist s ++ [Rsp t o r] -> (forall u, u <> t -> pcs s' u = pcs s u) -> pcs s' t = Idle ->
  pending (pcs s t) = Some o -> is_cnt (pcs s t) = false -> snd (lin_step (lrun lempty (calls L)) o) = r -> maps s' (fst (lin_step (lrun lempty (calls L)) o)) ->
  (forall i n, dead s' i n -> dead s i n) -> exists L', linv s' L'.
Proof.
  intros V B' HH PO PI PP NC R M DD. eapply li_append; eauto. intros id f OP NI AN DF. exists f. apply (deadok_keep s s' t); auto.
  - right. eexists. split; [exact HH|auto].
  - intros u o' i n AT _. destruct (Nat.eq_dec u t) as [->|NE]; [rewrite PI in AT; discriminate|]. auto.
  - intros y j r' [<-|[]]. apply AN.
Qed.
(** ... or the item i is *)
Lemma li_append_dead s s' t k c L i n : linv s L -> lbase s' -> hist s' = hist s ++ [Rsp t (CDel k c) (CBool true)] -> (forall u, u <> t -> pcs s' u = pcs s u) -> pcs s' t = Idle ->
  pending (pcs s t) = Some (CDel k c) -> is_cnt (pcs s t) = false -> okey k -> visible s k c i -> node s i = Some n ->
  order s' = order s -> (forall j, j <> i -> node s' j = node s j) -> node s' i = Some (mkN (n_rev n) (n_conf n) (n_val n) (n_dum n) true) ->
  exists L', linv s' L'.
Proof.
  intros V B' HH PO PI PP NC OK VI N OO NN N'.
  assert (MK : lrun lempty (calls L) k c = Some (n_val n)). { apply (li_map _ _ V); auto. exists i, n. auto. }
  eapply li_append; eauto.
  - cbn [lin_step]. rewrite MK. auto.
  - cbn [lin_step]. rewrite MK. cbn [fst]. apply (maps_put s s' _ i n _ k c (lb_uniq _ B') (li_map _ _ V) OK OO NN VI N N'); auto. apply V.
  - intros id f OP NI AN [F1 F2].
    assert (RK : n_rev n = reverse64 k /\ n_conf n = c /\ n_dum n = false). { destruct VI as (_ & q & Q & A1 & A2 & A3 & _). assert (q = n) by congruence. subst q. auto. }
    destruct RK as (RK & CK & DK).
    assert (AL : n_del n = false). { destruct VI as (_ & q & Q & _ & _ & _ & A). congruence. }
    assert (OLD : forall j m, dead s' j m -> j <> i -> dead s j m). { intros j m (I & Nj & A) NE. rewrite OO in I. rewrite NN in Nj by auto. split; auto. }
    assert (NF : forall j m, dead s j m -> f j <> id).
    { intros j m D E. destruct (F2 j m D) as (k0 & l1 & l2 & _ & _ & EL & _). apply NI. rewrite EL, <- E. unfold ids. rewrite map_app. apply in_or_app. right. left. auto. }
    exists (fun j => if Nat.eqb j i then id else f j). split.
    + intros j m j' m' D1 D2. destruct (Nat.eqb_spec j i) as [->|NE], (Nat.eqb_spec j' i) as [->|NE']; auto; intros E.
      * exfalso. eapply NF; [apply (OLD j' m'); auto|]. auto.
      * exfalso. eapply NF; [apply (OLD j m); auto|]. auto.
      * eapply F1; eauto.
    + intros j m D. destruct (Nat.eqb_spec j i) as [->|NE].
      * destruct D as (_ & Nj & _). rewrite N' in Nj. injection Nj as <-. cbn [n_rev n_conf n_val]. exists k, L, []. cbn [n_rev n_conf n_val]. rewrite CK. split; auto. split; auto. split; auto. split; auto.
        intros u o id' y j r AT OP' [<-|[]] AN'. cbn [l_id] in AN'. specialize (AN j r AN'). destruct (Nat.eq_dec u t) as [->|NE]; [rewrite PI in AT; discriminate|].
        rewrite HH in OP'. apply open_unsnoc in OP'; auto. apply open_lt in OP'. lia.
      * apply (deadat_keep s s' t).
        -- right. eexists. split; [exact HH|auto].
        -- intros u o AT. destruct (Nat.eq_dec u t) as [->|NE']; [rewrite PI in AT; discriminate|]. auto.
        -- intros y j' r' [<-|[]]. apply AN.
        -- apply F2. auto.
Qed.
(** * A call takes effect right before the Delete of the item it is at *)
Lemma li_before s s' t o r k c L i n n' : linv s L -> lbase s' -> hist s' = hist s ++ [Rsp t o r] -> (forall u, u <> t -> pcs s' u = pcs s u) -> pcs s' t = Idle ->
  pending (pcs s t) = Some o -> is_cnt (pcs s t) = false -> at_item (pcs s t) = Some (o, i) -> on_key o k c -> okey k -> dead s i n -> n_rev n = reverse64 k -> n_conf n = c ->
  order s' = order s -> (forall j, j <> i -> node s' j = node s j) -> node s' i = Some n' -> n_rev n' = n_rev n -> n_conf n' = n_conf n -> n_dum n' = n_dum n -> n_del n' = true ->
  (forall m, m k c = Some (n_val n) -> snd (lin_step m o) = r /\ fst (lin_step m o) k c = Some (n_val n')) ->
  exists L', linv s' L'.
Proof.
  intros V B' HH PO PI PP NC AT ON OK D RK CK OO NN N' R1 C1 D1 DL ST. destruct (li_open _ _ V t o PP) as (id & OP & NI). rewrite NC in NI.
  destruct (li_dead _ _ V) as (f & F1 & F2). destruct (F2 i n D) as (k0 & l1 & l2 & OK0 & RK0 & EL & VAL & RT). assert (k0 = k) by (apply okey_inj; auto; congruence). subst k0.
  rewrite CK in *. destruct (ST _ VAL) as [ST1 ST2]. set (d := mkLin (f i) (CDel k c) (CBool true)) in *. set (x := mkLin id o r).
  assert (LG : louts lempty (calls (l1 ++ d :: l2)) = map l_res (l1 ++ d :: l2)) by (rewrite <- EL; apply V).
  destruct (legal_before l1 l2 x d k c (n_val n) eq_refl ON VAL ST1 LG) as [LG' LE].
  exists (l1 ++ x :: d :: l2). eapply (li_finish s s' t o r id L); eauto.
  - apply (lin_put _ l1 (d :: l2) t); auto.
    + rewrite <- EL. apply V.
    + rewrite <- EL. auto.
    + intros y j r' IY AN. eapply RT; eauto.
  - intros y. rewrite EL, !in_app_iff. cbn [In]. fold x. intuition congruence.
  - apply (maps_leq s' (lrun lempty (calls L))); [intros a b; rewrite EL, LE; auto|]. eapply maps_vis; [|apply V]. intros k' c' j nj _. destruct (Nat.eq_dec j i) as [->|NE].
    + split; intros [(_ & q & Q & _ & _ & _ & A) _]; exfalso; [congruence|]. destruct D as (_ & E & _ & E'). congruence.
    + unfold visible. rewrite OO, NN by auto. tauto.
  - assert (AN : forall j r', answered (hist s') id j r' -> List.length (hist s) <= j).
    { intros j r' AN. rewrite HH in AN. apply answered_snoc in AN as [AN|[-> _]]; auto. exfalso. eapply open_not_answered; eauto. }
    assert (GR : grows s s' t) by (right; eexists; split; [exact HH|auto]).
    assert (THR : forall u o' j, at_item (pcs s' u) = Some (o', j) -> pcs s' u = pcs s u /\ u <> t).
    { intros u o' j A. destruct (Nat.eq_dec u t) as [->|NE]; [rewrite PI in A; discriminate|]. auto. }
    assert (OLD : forall j m, dead s' j m -> exists m0, dead s j m0 /\ (j <> i -> m0 = m)).
    { intros j m (I & Nj & A). destruct (Nat.eq_dec j i) as [->|NE]; [exists n; split; [auto|congruence]|]. rewrite OO in I. rewrite NN in Nj by auto. exists m. split; auto. split; auto. }
    exists f. split.
    + intros j m j' m' A A'. destruct (OLD j m A) as (? & ? & _), (OLD j' m' A') as (? & ? & _). eapply F1; eauto.
    + intros j m A. destruct (OLD j m A) as (m0 & A0 & EM). destruct (Nat.eq_dec j i) as [->|NE].
      * assert (m = n') by (destruct A as (_ & A & _); congruence). subst m. clear A A0 EM m0. exists k, (l1 ++ [x]), l2. rewrite R1, C1. split; auto. split; auto.
        split; [rewrite <- app_assoc; reflexivity|]. split.
        -- unfold calls. rewrite map_app, lrun_app. cbn [map lrun l_call x]. exact ST2.
        -- intros u o' id' y j r' AU OU IY AY. destruct (THR u o' i AU) as [PU NU]. rewrite PU in AU. rewrite HH in OU. apply open_unsnoc in OU; auto. rewrite HH in AY. apply answered_snoc in AY as [AY|[-> _]]; [eapply RT; eauto|].
           apply open_lt in OU. lia.
      * rewrite (EM NE) in *. clear EM. destruct (F2 j m A0) as (kj & m1 & m2 & OKj & RKj & ELj & VALj & RTj). set (dj := mkLin (f j) (CDel kj (n_conf m)) (CBool true)) in *.
        assert (DNE : dj <> d). { intros E. apply NE. apply (F1 j m i n); auto. injection E. auto. }
        assert (TJ : forall u o' id' y q r', at_item (pcs s' u) = Some (o', j) -> open_at (hist s') u id' o' -> (In y (dj :: m2) \/ y = x) -> answered (hist s') (l_id y) q r' -> id' < q).
        { intros u o' id' y q r' AU OU IY AY. destruct (THR u o' j AU) as [PU NU]. rewrite PU in AU. rewrite HH in OU. apply open_unsnoc in OU; auto. pose proof (open_lt _ _ _ _ OU) as LT.
          destruct IY as [IY| ->]; [|specialize (AN q r' AY); lia]. rewrite HH in AY. apply answered_snoc in AY as [AY|[-> _]]; [eapply RTj; eauto|exact LT]. }
        rewrite EL in ELj. destruct (two_splits _ _ _ _ _ _ ELj) as [(q & E1 & E2)|[(_ & E & _)|(q & E1 & E2)]]; [|congruence|].
        -- exists kj, m1, (q ++ x :: d :: l2). split; auto. split; auto. split; [rewrite E1, <- app_assoc; reflexivity|]. split; auto.
           intros u o' id' y jj r' AU OU IY AY. refine (TJ u o' id' y jj r' AU OU _ AY). rewrite E2. destruct IY as [IY|IY]; [left; left; auto|]. apply in_app_or in IY as [IY|[IY|IY]].
           ++ left. right. apply in_or_app. left. exact IY.
           ++ right. symmetry. exact IY.
           ++ left. right. apply in_or_app. right. exact IY.
        -- exists kj, (l1 ++ x :: d :: q), m2. split; auto. split; auto. split; [rewrite E2, <- app_assoc; reflexivity|]. split.
           ++ rewrite (leq_before l1 q x d k c (n_val n) eq_refl ON VAL kj (n_conf m)). rewrite <- E1. exact VALj.
           ++ intros u o' id' y jj r' AU OU IY AY. exact (TJ u o' id' y jj r' AU OU (or_introl IY) AY).
Qed.
(** * A Set adds its item *)
Lemma li_insert s s' t k c v L i : linv s L -> lbase s' -> hist s' = hist s -> (forall u, u <> t -> pcs s' u = pcs s u) -> pcs s' t = Cnt (CSet k c v) ->
  pending (pcs s t) = Some (CSet k c v) -> is_cnt (pcs s t) = false -> okey k -> (forall j, In j (order s') <-> j = i \/ In j (order s)) -> ~ In i (order s) -> (forall j, node s' j = node s j) ->
  node s i = Some (mkN (reverse64 k) c v false false) -> (forall j, ~ visible s k c j) -> exists L', linv s' L'.
Proof.
  intros V B' HH PO PI PP NC OK OO NI NN N NV. destruct (li_open _ _ V t _ PP) as (id & OP & NID). rewrite NC in NID. destruct (li_dead _ _ V) as (f & DF).
  assert (MK : lrun lempty (calls L) k c = None). { destruct (lrun lempty (calls L) k c) as [w|] eqn:E; auto. exfalso. apply (li_map _ _ V) in E as (j & _ & E & _); auto. apply (NV j); auto. }
  exists (L ++ [mkLin id (CSet k c v) (CBool true)]). constructor; auto.
  - rewrite HH. apply (lin_add _ _ t); auto; [apply V|]. cbn [lin_step]. rewrite MK. auto.
  - intros u o' P. rewrite HH. destruct (Nat.eq_dec u t) as [->|NE].
    + rewrite PI in *. cbn [pending is_cnt] in *. injection P as <-. exists id. split; auto. apply in_or_app. right. left. auto.
    + rewrite PO in * by auto. destruct (li_open _ _ V u o' P) as (id' & O1 & O2). exists id'. split; auto. destruct (is_cnt (pcs s u)); [apply in_or_app; auto|].
      intros I. unfold ids in I. rewrite map_app in I. apply in_app_or in I as [I|[I|[]]]; [auto|]. cbn [l_id] in I. apply (open_ne _ _ _ _ _ _ _ OP O1); auto.
  - unfold calls. rewrite map_app, lrun_app. cbn [map lrun l_call lin_step]. fold (calls L). rewrite MK. cbn [fst]. eapply maps_new; eauto. apply V.
  - exists f. apply (deadok_keep s s' t); auto.
    + left. auto.
    + intros j m (I & Nj & A & A'). rewrite NN in Nj. apply OO in I as [->|I]; [rewrite N in Nj; injection Nj as <-; discriminate|]. split; auto.
    + intros u o' j m AT _. destruct (Nat.eq_dec u t) as [->|NE]; [rewrite PI in AT; discriminate|]. auto.
    + intros y j r [<-|[]] AN. rewrite HH in AN. exfalso. eapply open_not_answered; eauto.
Qed.
(** a Set that added its item ends *)
Lemma li_count s s' t o L : linv s L -> lbase s' -> hist s' = hist s ++ [Rsp t o (CBool true)] -> (forall u, u <> t -> pcs s' u = pcs s u) -> pcs s' t = Idle -> pcs s t = Cnt o ->
  order s' = order s -> (forall j, node s' j = node s j) -> linv s' L.
Proof.
  intros V B' HH PO PI PP OO NN. assert (PQ : pending (pcs s t) = Some o) by (rewrite PP; auto). destruct (li_open _ _ V t _ PQ) as (id & OP & IL). rewrite PP in IL. cbn [is_cnt] in IL.
  destruct (li_dead _ _ V) as (f & DF). constructor; auto.
  - rewrite HH. eapply lin_rsp; eauto. apply V.
  - intros u o' P. rewrite HH. destruct (Nat.eq_dec u t) as [->|NE]; [rewrite PI in P; discriminate|]. rewrite PO in * by auto.
    destruct (li_open _ _ V u o' P) as (id' & O1 & O2). exists id'. split; auto. apply open_snoc; auto.
  - eapply maps_same; eauto. apply V.
  - exists f. rewrite <- (app_nil_r L). apply (deadok_keep s s' t); auto.
    + right. eexists. split; [exact HH|auto].
    + intros j m (I & Nj & A). rewrite OO in I. rewrite NN in Nj. split; auto.
    + intros u o' j m AT _. destruct (Nat.eq_dec u t) as [->|NE]; [rewrite PI in AT; discriminate|]. auto.
    + intros y j r [].
Qed.

(** * Every step *)
Lemma ins_in r i l j : In r l -> In j (ins_bef r i l) <-> j = i \/ In j l.
Proof.
  intros I. destruct (ins_bef_split r i l I) as (l1 & l2 & -> & -> & _). rewrite !in_app_iff. cbn [In]. intuition congruence.
Qed.
Lemma call_key s t o k c : lbase s -> In (Inv t o) (hist s) -> key_call o = Some (k, c) -> okey k.
Proof. intros B I K. apply (lb_ok _ B) in I. unfold okcall in I. rewrite K in I. auto. Qed.
Lemma node_alloc s n i : node s i <> None -> nth_error (heap s ++ [n]) i = node s i.
Proof. intros N. unfold node in *. apply nth_error_app1. apply nth_error_Some. auto. Qed.
Lemma linv_step g s t s' L : c_lax g = false -> linv s L -> lbase s' -> eff g s t s' -> exists L', linv s' L'.
Proof.
  intros LX V B' E. pose proof (li_base _ _ V) as B. pose proof (lb_c _ B) as C. pose proof (fun u => eff_other g s t s' u E) as OT. pose proof (ci_pc _ C t) as PC.
  assert (MISS : forall k c, okey k -> may_miss g s k c = true -> lrun lempty (calls L) k c = None).
  { intros k c OK M. destruct (lrun lempty (calls L) k c) as [w|] eqn:EW; auto. exfalso. apply (li_map _ _ V) in EW as (j & _ & EW & _); auto. eapply no_hit; eauto. }
  (* adding to the list *)
  assert (INS : forall o i r, (pcs s t = Chk o i r \/ pcs s t = Ins o i r) -> s' = after_insert (insert s i r) t o -> exists L', linv s' L').
  { clear E MISS. intros o i r PO ->. assert (PQ : In (Inv t o) (hist s) /\ fresh s o i /\ In r (order s)) by (destruct PO as [PO|PO]; rewrite PO in PC; exact PC).
    destruct PQ as (IH & (F1 & F2 & F3) & IR). assert (PP : pending (pcs s t) = Some o) by (destruct PO as [PO|PO]; rewrite PO; auto).
    assert (PN : inserting (pcs s t) = true) by (destruct PO as [PO|PO]; rewrite PO; auto). assert (PT : is_cnt (pcs s t) = false) by (destruct PO as [PO|PO]; rewrite PO; auto).
    pose proof (fun j => ins_in r i (order s) j IR) as OI. destruct o as [k c v|k c|k c|rv]; cbn [new_node] in F2; try congruence; cbn [after_insert] in *.
    - apply (li_insert s _ t k c v L i V B'); auto.
      + cbn [pcs goto]. apply upd_pc_same.
      + eapply call_key; eauto. reflexivity.
      + intros j VJ. eapply (lb_uniq _ B); eauto.
    - apply (li_append_keep s _ t (CDummy rv) CDone L V B'); auto.
      + cbn [pcs ret]. apply upd_pc_same.
      + cbn [lin_step fst]. eapply (maps_sentinel s _ _ i _ (li_map _ _ V)); [exact OI|intros j; reflexivity|exact F2|reflexivity].
      + intros j m (I & Nj & A & A'). cbn [order ret insert] in I. apply OI in I as [->|I]; [|split; auto]. exfalso. change (node s i = Some m) in Nj. rewrite F2 in Nj. injection Nj as <-. discriminate. }
  destruct E; try (rewrite H in PC; cbn [pc_ok] in PC).
  - exists L. apply (li_begin s _ t o L V B'); auto; cbn [pcs goto]; rewrite upd_pc_same; auto.
  - exists L. apply (li_begin s _ t (CDummy rv) L V B'); auto; try (cbn [pcs goto]; rewrite upd_pc_same; auto; fail).
    intros i I. exact (node_alloc s _ i (ci_valid _ C i I)).
  - exists L. apply (li_silent s _ t L V B'); auto; try (cbn [pcs goto]; rewrite upd_pc_same); try rewrite H; auto. intros o i' [= <- <-].
    apply visible_hit in H0 as (_ & n & N & _ & _ & _ & D). exists n. auto.
  - exists L. apply (li_silent s _ t L V B'); auto; try (cbn [pcs goto]; rewrite upd_pc_same); try rewrite H; auto. intros o i' [= <- <-].
    apply visible_hit in H0 as (_ & n & N & _ & _ & _ & D). exists n. auto.
  - exists L. apply (li_silent s _ t L V B'); auto; try (cbn [pcs goto]; rewrite upd_pc_same); try rewrite H; auto. discriminate.
  - exists L. apply (li_silent s _ t L V B'); auto; try (cbn [pcs goto]; rewrite upd_pc_same); try rewrite H; auto; try discriminate.
    intros i I. exact (node_alloc s _ i (ci_valid _ C i I)).
  - pose proof (call_key s t _ k c B PC eq_refl) as OK. apply (li_append_keep s _ t (CGet k c) (CVal GNil false) L V B'); auto; try (cbn [pcs ret]; rewrite upd_pc_same; auto; fail); try (rewrite H; auto; fail).
    + cbn [lin_step snd]. rewrite (MISS k c); auto.
    + cbn [lin_step fst]. apply (maps_same s); auto. apply V.
  - pose proof (call_key s t _ k c B PC eq_refl) as OK. apply (li_append_keep s _ t (CDel k c) (CBool false) L V B'); auto; try (cbn [pcs ret]; rewrite upd_pc_same; auto; fail); try (rewrite H; auto; fail).
    + cbn [lin_step]. rewrite (MISS k c); auto.
    + cbn [lin_step]. rewrite (MISS k c) by auto. apply (maps_same s); auto. apply V.
  - (* SetValue *)
    destruct PC as [IH (IO & m & k' & c' & N0 & K & R1 & R2 & D1)]. assert (m = n) by congruence. subst m. injection K as <- <-. pose proof (call_key s t _ k c B IH eq_refl) as OK.
    rewrite set_value_assign in H1.
    set (n' := mkN (n_rev n) (n_conf n) v' (n_dum n) (n_del n)) in *.
    assert (N' : node (ret (set_node s i n') t (CSet k c v) (CBool ok)) i = Some n').
    { unfold node in *. cbn [heap ret set_node]. rewrite set_nth_at, Nat.eqb_refl, N0. auto. }
    assert (NN : forall j, j <> i -> node (ret (set_node s i n') t (CSet k c v) (CBool ok)) j = node s j).
    { intros j NE. unfold node in *. cbn [heap ret set_node]. rewrite set_nth_at. destruct (Nat.eqb_spec j i); congruence. }
    destruct (n_del n) eqn:DL.
    + apply (li_before s _ t (CSet k c v) (CBool ok) k c L i n n' V B'); auto; try (rewrite H; auto; fail).
      * cbn [pcs ret]. apply upd_pc_same.
      * left. eauto.
      * split; auto.
      * intros m MK. cbn [lin_step]. rewrite MK, H1. split; auto. cbn [fst n' n_val]. apply lput_same.
    + assert (VI : visible s k c i) by (split; auto; exists n; auto).
      assert (MK : lrun lempty (calls L) k c = Some (n_val n)) by (apply (li_map _ _ V k c (n_val n) OK); exists i, n; auto).
      apply (li_append_keep s _ t (CSet k c v) (CBool ok) L V B'); auto; try (rewrite H; auto; fail).
      * cbn [pcs ret]. apply upd_pc_same.
      * cbn [lin_step]. rewrite MK, H1. auto.
      * cbn [lin_step]. rewrite MK, H1. cbn [fst]. apply (maps_put s _ _ i n n' k c (lb_uniq _ B') (li_map _ _ V) OK eq_refl NN VI N0 N'); auto. apply B.
      * intros j m (I & Nj & A & A'). destruct (Nat.eq_dec j i) as [->|NE]; [exfalso; rewrite N' in Nj; injection Nj as <-; cbn in A'; congruence|]. rewrite NN in Nj by auto. split; auto.
  - destruct PC as [IH (IO & m & k' & c' & N0 & K & R1 & R2 & D1)]. assert (m = n) by congruence. subst m. injection K as <- <-. pose proof (call_key s t _ k c B IH eq_refl) as OK.
    rewrite set_value_assign in H1. destruct (n_del n) eqn:DL.
    + apply (li_before s _ t (CSet k c v) CPanic k c L i n n V B'); auto; try (rewrite H; auto; fail).
      * cbn [pcs ret]. apply upd_pc_same.
      * left. eauto.
      * split; auto.
      * intros m MK. cbn [lin_step]. rewrite MK, H1. auto.
    + assert (MK : lrun lempty (calls L) k c = Some (n_val n)) by (apply (li_map _ _ V k c (n_val n) OK); exists i, n; split; [split; [auto|exists n; auto]|auto]).
      apply (li_append_keep s _ t (CSet k c v) CPanic L V B'); auto; try (rewrite H; auto; fail).
      * cbn [pcs ret]. apply upd_pc_same.
      * cbn [lin_step]. rewrite MK, H1. auto.
      * cbn [lin_step]. rewrite MK, H1. apply (maps_same s); auto. apply V.
  - destruct (lb_rd _ B t o i H) as (k & c & ->). destruct PC as [IH (IO & m & k' & c' & N0 & K & R1 & R2 & D1)]. assert (m = n) by congruence. subst m. injection K as <- <-. pose proof (call_key s t _ k c B IH eq_refl) as OK.
    destruct (n_del n) eqn:DL.
    + apply (li_before s _ t (CGet k c) (CVal (n_val n) true) k c L i n n V B'); auto; try (rewrite H; auto; fail).
      * cbn [pcs ret]. apply upd_pc_same.
      * right. auto.
      * split; auto.
      * intros m MK. cbn [lin_step fst snd]. rewrite MK. auto.
    + assert (MK : lrun lempty (calls L) k c = Some (n_val n)) by (apply (li_map _ _ V k c (n_val n) OK); exists i, n; split; [split; [auto|exists n; auto]|auto]).
      apply (li_append_keep s _ t (CGet k c) (CVal (n_val n) true) L V B'); auto; try (rewrite H; auto; fail).
      * cbn [pcs ret]. apply upd_pc_same.
      * cbn [lin_step snd]. rewrite MK. auto.
      * cbn [lin_step fst]. apply (maps_same s); auto. apply V.
  - destruct (lb_mark _ B t o i H) as (k & c & n1 & -> & N1 & DL). destruct PC as [IH (IO & m & k' & c' & N0 & K & R1 & R2 & D1)]. assert (m = n) by congruence. assert (n1 = n) by congruence. subst m n1. injection K as <- <-.
    pose proof (call_key s t _ k c B IH eq_refl) as OK.
    apply (li_append_dead s _ t k c L i n V B'); auto; try (rewrite H; auto; fail).
    + cbn [pcs ret]. apply upd_pc_same.
    + split; auto. exists n. auto.
    + intros j NE. unfold node in *. cbn [heap ret set_node]. rewrite set_nth_at. destruct (Nat.eqb_spec j i); congruence.
    + unfold node in *. cbn [heap ret set_node]. rewrite set_nth_at, Nat.eqb_refl, N0. auto.
  - exists L. apply (li_silent s _ t L V B'); auto; try (cbn [pcs goto set_opt]; rewrite upd_pc_same); try rewrite H; auto; discriminate.
  - exists L. apply (li_silent s _ t L V B'); auto; try (cbn [pcs goto set_opt]; rewrite upd_pc_same); try rewrite H; auto; discriminate.
  - exists L. apply (li_silent s _ t L V B'); auto; try (cbn [pcs goto set_opt]; rewrite upd_pc_same); try rewrite H; auto; discriminate.
  - exists L. apply (li_silent s _ t L V B'); auto; try (cbn [pcs goto set_opt]; rewrite upd_pc_same); try rewrite H; auto; discriminate.
  - exists L. apply (li_silent s _ t L V B'); auto; try (cbn [pcs goto set_opt]; rewrite upd_pc_same); try rewrite H; auto; discriminate.
  - exists L. apply (li_silent s _ t L V B'); auto; try (cbn [pcs goto set_opt]; rewrite upd_pc_same); try rewrite H; auto; discriminate.
  - exists L. apply (li_silent s _ t L V B'); auto; try (cbn [pcs goto set_opt]; rewrite upd_pc_same); try rewrite H; auto; discriminate.
  - exists L. apply (li_silent s _ t L V B'); auto; try (cbn [pcs goto set_opt]; rewrite upd_pc_same); try rewrite H; auto; discriminate.
  - (* the check fails: not for a Set *)
    destruct PC as (IH & (F1 & F2 & F3) & IR). destruct o as [k c v|k c|k c|rv]; cbn [new_node] in F2; try congruence; cbn [after_insert] in *.
    + exfalso. pose proof (lb_lone _ B t k c v) as Q. rewrite H in Q. specialize (Q eq_refl eq_refl). unfold lone in Q. rewrite H in Q. destruct Q as [_ Q]. congruence.
    + apply (li_append_keep s _ t (CDummy rv) CDone L V B'); auto; try (rewrite H; auto; fail).
      * cbn [pcs ret]. apply upd_pc_same.
      * cbn [lin_step fst]. apply (maps_same s); auto. apply V.
  - eapply INS; eauto.
  - exists L. apply (li_silent s _ t L V B'); auto; try (cbn [pcs goto set_opt]; rewrite upd_pc_same); try rewrite H; auto; discriminate.
  - eapply INS; eauto.
  - exists L. apply (li_count s _ t o L V B'); auto. cbn [pcs ret]. apply upd_pc_same.
Qed.
Lemma cinit_lbase : lbase cinit.
Proof.
  constructor; try (intros t; intros; discriminate); try apply cinit_inv; try apply cinit_ends; try apply cinit_uniq.
  intros t o [].
Qed.
Lemma cinit_linv : linv cinit [].
Proof.
  constructor.
  - apply cinit_lbase.
  - apply lin_nil.
  - intros t o H. discriminate H.
  - intros k c v OK. split; [discriminate|]. intros (i & n & (_ & n' & N & _ & _ & D & _) & _). exfalso. unfold node, cinit in N. cbn [heap] in N. apply nth_error_In in N. apply in_map_iff in N as (e & <- & _). discriminate D.
  - exists (fun _ => 0). split.
    + intros i n j m (_ & N & D & _). exfalso. unfold node, cinit in N. cbn [heap] in N. apply nth_error_In in N. apply in_map_iff in N as (e & <- & _). discriminate D.
    + intros i n (_ & N & D & _). exfalso. unfold node, cinit in N. cbn [heap] in N. apply nth_error_In in N. apply in_map_iff in N as (e & <- & _). discriminate D.
Qed.
