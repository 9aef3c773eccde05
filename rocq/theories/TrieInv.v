(** Well-formedness of the bucket table together with the bucket list. *)
From Verif Require Import Base BaseProofs Util UtilProofs Bucket TrieProofs.
From Coq Require Import ZifyBool Sorted.
Local Open Scope Z_scope.

Definition present (t : trie) (n : nid) : Prop := lvl t n <> 0.
(** upper end of the interval that starts below bucket x *)
Definition up (t : trie) (x : nid) : Z := if nid_eqb x bmax then W64 else brev t x.

Record trie_ok (t : trie) (bl : list nid) : Prop := {
  tk_bmax : lvl t bmax = 16 /\ brev t bmax = MAX64 /\ b_parent (bget t bmax) = None;
  tk_node : forall l v, present t (l, v) -> (l, v) <> bmax ->
      1 <= l <= 16 /\ 0 <= v < W64 /\ (sz l | v) /\ lvl t (l, v) = l /\ brev t (l, v) = v /\
      0 <= b_down (bget t (l, v)) <= 16;
  tk_down : forall l v, present t (l, v) -> (l, v) <> bmax -> 0 < b_down (bget t (l, v)) ->
      present t (l + 1, v);
  tk_up : forall l v, present t (l, v) -> (l, v) <> bmax -> 2 <= l ->
      present t (l - 1, trunc (l - 1) v) /\ nib v l < b_down (bget t (l - 1, trunc (l - 1) v));
  tk_link : forall l v, present t (l, v) -> (l, v) <> bmax ->
      (2 <= l /\ nib v l = 0 /\ b_parent (bget t (l, v)) = Some (l - 1, v)) \/
      ((l = 1 \/ nib v l <> 0) /\ b_parent (bget t (l, v)) = None /\ In (l, v) bl);
  tk_top : forall i, 0 <= i < 16 -> present t (top i);
  tk_bl : forall n, In n bl -> present t n /\ b_parent (bget t n) = None;
  tk_head : exists bl', bl = bmax :: bl' /\ ~ In bmax bl';
  tk_sorted : StronglySorted (fun a b => brev t b < brev t a) bl;
  tk_dyadic : forall a x c b, bl = a ++ x :: c :: b ->
      exists m, 0 <= m /\ up t x = brev t c + 2 ^ m /\ (2 ^ m | brev t c) /\
        forall l, 1 <= l <= 16 -> m < 68 - 4 * l -> present t (l, trunc l (brev t c)) }.

(** * Shape: everything but the counters and pools *)
Definition shape (b : bucket) := (b_level b, b_rev b, b_down b, b_parent b).
Definition same_shape (t t' : trie) : Prop := forall n, shape (bget t n) = shape (bget t' n).

Lemma shape_level b b' : shape b = shape b' -> b_level b = b_level b'.
Proof. intros H; injection H; auto. Qed.
Lemma shape_rev b b' : shape b = shape b' -> b_rev b = b_rev b'.
Proof. intros H; injection H; auto. Qed.
Lemma shape_down b b' : shape b = shape b' -> b_down b = b_down b'.
Proof. intros H; injection H; auto. Qed.
Lemma shape_parent b b' : shape b = shape b' -> b_parent b = b_parent b'.
Proof. intros H; injection H; auto. Qed.

Lemma same_shape_lvl t t' n : same_shape t t' -> lvl t n = lvl t' n.
Proof. intros H. apply shape_level, H. Qed.
Lemma same_shape_brev t t' n : same_shape t t' -> brev t n = brev t' n.
Proof. intros H. apply shape_rev, H. Qed.
Lemma same_shape_refl t : same_shape t t.
Proof. intros n; auto. Qed.
Lemma same_shape_trans t t' t'' : same_shape t t' -> same_shape t' t'' -> same_shape t t''.
Proof. intros H1 H2 n. rewrite H1; auto. Qed.
Lemma same_shape_tupd t n f : (forall b, shape (f b) = shape b) -> same_shape t (tupd t n f).
Proof.
  intros H m. unfold tupd. rewrite bget_tset. destruct (nid_eqb n m) eqn:E; auto.
  apply nid_eqb_eq in E; subst. rewrite H; auto.
Qed.

Lemma sorted_ext {A} (R R' : A -> A -> Prop) l :
  (forall a b, R a b -> R' a b) -> StronglySorted R l -> StronglySorted R' l.
Proof.
  intros H S. induction S as [|x l S IH F]; constructor; auto.
  eapply Forall_impl; [|exact F]. intros; auto.
Qed.

Lemma trie_ok_shape t t' bl : same_shape t t' -> trie_ok t bl -> trie_ok t' bl.
Proof.
  intros HS K.
  assert (HL : forall n, lvl t' n = lvl t n) by (intros; symmetry; apply same_shape_lvl; auto).
  assert (HR : forall n, brev t' n = brev t n) by (intros; symmetry; apply same_shape_brev; auto).
  assert (HD : forall n, b_down (bget t' n) = b_down (bget t n)) by (intros; symmetry; apply shape_down, HS).
  assert (HP : forall n, b_parent (bget t' n) = b_parent (bget t n)) by (intros; symmetry; apply shape_parent, HS).
  assert (HU : forall n, up t' n = up t n) by (intros; unfold up; rewrite HR; auto).
  destruct K as [K1 K2 K3 K4 K5 K6 K7 K8 K9 K10]. constructor; unfold present in *.
  - rewrite HL, HR, HP; auto.
  - intros l v. rewrite HL, HR, HD. apply K2.
  - intros l v. rewrite !HL, HD. apply K3.
  - intros l v. rewrite !HL, HD. apply K4.
  - intros l v. rewrite HL, HP. apply K5.
  - intros i. rewrite HL. apply K6.
  - intros n. rewrite HL, HP. apply K7.
  - exact K8.
  - eapply sorted_ext; [|exact K9]. intros a b. cbn. rewrite !HR. auto.
  - intros a x c b E. destruct (K10 a x c b E) as (m & A & B & C & D). exists m.
    rewrite HU, HR. repeat split; auto. intros l H1 H2. rewrite HL. auto.
Qed.

(** * base *)
Lemma to_base_ok t bl : trie_ok t bl -> forall f l v,
  present t (l, v) -> (l, v) <> bmax -> l <= Z.of_nat f ->
  exists l', to_base f t (l, v) = (l', v) /\ In (l', v) bl /\ (l', v) <> bmax.
Proof.
  intros K f. induction f as [|f IH]; intros l v Hp Hn Hf.
  - destruct (tk_node _ _ K l v Hp Hn). lia.
  - cbn [to_base]. destruct (tk_link _ _ K l v Hp Hn) as [(H2 & Hz & E)|(_ & E & HI)]; rewrite E.
    + pose proof (tk_node _ _ K l v Hp Hn) as (HL & HV & HD & _).
      destruct (tk_up _ _ K l v Hp Hn H2) as [HU _].
      assert (T : trunc (l - 1) v = v).
      { replace l with (l - 1 + 1) in Hz by lia. rewrite nib_0 in Hz by lia.
        rewrite <- Hz. apply trunc_id; [lia|]. replace (l - 1 + 1) with l by lia; auto. }
      rewrite T in HU. apply IH; auto; try lia.
      intros B; inversion B; lia.
    + exists l; auto.
Qed.
Lemma base_ok t bl l v : trie_ok t bl -> present t (l, v) -> (l, v) <> bmax ->
  exists l', base t (l, v) = (l', v) /\ In (l', v) bl /\ (l', v) <> bmax.
Proof.
  intros K Hp Hn. apply (to_base_ok t bl K 16); auto.
  destruct (tk_node _ _ K l v Hp Hn). change (Z.of_nat 16) with 16. lia.
Qed.
Lemma base_linked t bl n : trie_ok t bl -> In n bl -> base t n = n.
Proof.
  intros K HI. destruct (tk_bl _ _ K n HI) as [_ HP]. unfold base. cbn [to_base]. rewrite HP; auto.
Qed.

Lemma bmax_in t bl : trie_ok t bl -> In bmax bl.
Proof. intros K. destruct (tk_head _ _ K) as (bl' & -> & _). left; auto. Qed.
Lemma bmax_present t bl : trie_ok t bl -> present t bmax.
Proof. intros K. destruct (tk_bmax _ _ K) as (E & _). unfold present; rewrite E; lia. Qed.

(** A bucket the code can start from: its base is linked and has the same reverse. *)
Lemma base_anchor t bl n : trie_ok t bl -> present t n ->
  In (base t n) bl /\ brev t (base t n) = brev t n.
Proof.
  intros K Hp. destruct (nid_eq_dec n bmax) as [->|Hn].
  - rewrite (base_linked t bl) by eauto using bmax_in. eauto using bmax_in.
  - destruct n as [l v]. destruct (base_ok t bl l v K Hp Hn) as (l' & E & HI & Hn').
    rewrite E. split; auto.
    destruct (tk_node _ _ K l v Hp Hn) as (_ & _ & _ & _ & E1 & _).
    destruct (tk_bl _ _ K _ HI) as [Hp' _].
    destruct (tk_node _ _ K l' v Hp' Hn') as (_ & _ & _ & _ & E2 & _). congruence.
Qed.

(** * find_bucket *)
Lemma lower_slot_spec t n k c : lower_slot t n k = Some c ->
  exists i, 0 <= i < Z.of_nat k /\ c = child n i /\ present t c.
Proof.
  induction k as [|k IH]; cbn [lower_slot]; [discriminate|].
  destruct (Z.eqb_spec (lvl t (child n (Z.of_nat k))) 0) as [E|E]; intros H.
  - destruct (IH H) as (i & ? & ?). exists i. split; [lia|auto].
  - inversion H; subst. exists (Z.of_nat k). split; [lia|auto].
Qed.
Lemma largest_slot_spec t n k c : largest_slot t n k = Some c ->
  exists i, 0 <= i < Z.of_nat k /\ c = child n i /\ present t c.
Proof.
  induction k as [|k IH]; cbn [largest_slot]; [discriminate|].
  destruct (Z.eqb_spec (lvl t (child n (Z.of_nat k))) 0) as [E|E]; cbn [orb]; intros H.
  - destruct (IH H) as (i & ? & ?). exists i. split; [lia|auto].
  - destruct (brev t (child n (Z.of_nat k)) =? 0).
    + destruct (IH H) as (i & ? & ?). exists i. split; [lia|auto].
    + inversion H; subst. exists (Z.of_nat k). split; [lia|auto].
Qed.

Definition node (t : trie) (n : nid) : Prop := present t n /\ n <> bmax.

Lemma child_range t bl l v i : trie_ok t bl -> node t (l, v) -> 0 <= i < 16 ->
  present t (child (l, v) i) ->
  l <= 15 /\ node t (l + 1, v + i * sz (l + 1)) /\ v <= v + i * sz (l + 1) /\
  v + i * sz (l + 1) + sz (l + 1) <= v + sz l.
Proof.
  intros K [Hp Hn] Hi Hc. rewrite child_eq in Hc.
  destruct (tk_node _ _ K l v Hp Hn) as (HL & HV & _).
  assert (HN : (l + 1, v + i * sz (l + 1)) <> bmax) by (intros B; inversion B; lia).
  destruct (tk_node _ _ K _ _ Hc HN) as (HL' & _).
  split; [lia|]. split; [split; auto|].
  pose proof (sz_pos (l + 1) ltac:(lia)). rewrite (sz_step l) by lia. nia.
Qed.

Lemma largest_down_spec t bl : trie_ok t bl -> forall f l v, node t (l, v) ->
  exists l' v', largest_down f t (l, v) = (l', v') /\ node t (l', v') /\ v <= v' < v + sz l.
Proof.
  intros K f. induction f as [|f IH]; intros l v Hnode.
  - cbn [largest_down]. exists l, v. split; auto. split; auto.
    destruct (tk_node _ _ K l v (proj1 Hnode) (proj2 Hnode)) as (? & _).
    pose proof (sz_pos l ltac:(lia)). lia.
  - cbn [largest_down].
    destruct (largest_slot t (l, v) _) as [c|] eqn:E.
    + destruct (largest_slot_spec _ _ _ _ E) as (i & Hi & -> & Hc).
      destruct (tk_node _ _ K l v (proj1 Hnode) (proj2 Hnode)) as (? & _ & _ & _ & _ & Hd).
      destruct (child_range t bl l v i K Hnode ltac:(lia) Hc) as (A & B & C & D).
      rewrite child_eq. destruct (IH _ _ B) as (l' & v' & E' & N' & R').
      exists l', v'. rewrite E'. split; auto. split; auto. lia.
    + exists l, v. split; auto. split; auto.
      destruct (tk_node _ _ K l v (proj1 Hnode) (proj2 Hnode)) as (? & _).
      pose proof (sz_pos l ltac:(lia)). lia.
Qed.

Lemma find_loop_spec t bl rv : trie_ok t bl -> 0 <= rv < W64 -> forall f l,
  node t (l, trunc l rv) -> l <= 15 ->
  exists l' v', find_loop f t (l + 1) rv (l, trunc l rv) = (l', v') /\ node t (l', v') /\ v' <= rv.
Proof.
  intros K Hrv f. induction f as [|f IH]; intros l Hnode Hl15.
  - cbn [find_loop]. exists l, (trunc l rv). split; auto. split; auto.
    apply trunc_le; lia.
  - cbn [find_loop].
    destruct (tk_node _ _ K _ _ (proj1 Hnode) (proj2 Hnode)) as (HL & HV & HD & HLv & HR & Hd).
    destruct (Z.eqb_spec (b_down (bget t (l, trunc l rv))) 0) as [E0|E0].
    { exists l, (trunc l rv). split; auto. split; auto. apply trunc_le; lia. }
    pose proof (nib_range rv (l + 1) ltac:(lia) ltac:(lia)) as Hnib.
    set (d := b_down (bget t (l, trunc l rv))) in *.
    set (idx := nib rv (l + 1)) in *.
    destruct ((d <=? idx) || (lvl t (child (l, trunc l rv) idx) =? 0)) eqn:Ec.
    + set (nidx := if d - 1 <? idx then d - 1 else idx).
      destruct (lower_slot t (l, trunc l rv) (Z.to_nat (nidx + 1))) as [c|] eqn:El.
      * destruct (lower_slot_spec _ _ _ _ El) as (i & Hi & -> & Hc).
        assert (Hnb : 0 <= nidx) by (unfold nidx; destruct (d - 1 <? idx); lia).
        rewrite Z2Nat.id in Hi by lia.
        assert (Hlt : i < idx).
        { unfold nidx in Hi. destruct (Z.ltb_spec (d - 1) idx); [lia|].
          destruct (Z.eq_dec i idx) as [->|]; [|lia].
          exfalso. unfold present in Hc. apply orb_true_iff in Ec as [Ec|Ec]; lia. }
        destruct (child_range t bl l _ i K Hnode ltac:(lia) Hc) as (A & B & C & D).
        rewrite child_eq. destruct (largest_down_spec t bl K 16 _ _ B) as (l' & v' & E' & N' & R').
        exists l', v'. rewrite E'. split; auto. split; auto.
        pose proof (trunc_le (l + 1) rv ltac:(lia) ltac:(lia)) as TL.
        rewrite trunc_step in TL by lia. fold idx in TL.
        pose proof (sz_pos (l + 1) ltac:(lia)). nia.
      * exists l, (trunc l rv). split; auto. split; auto. apply trunc_le; lia.
    + apply orb_false_iff in Ec as [E1 E2].
      assert (Hc : child (l, trunc l rv) idx = (l + 1, trunc (l + 1) rv)).
      { rewrite child_eq, trunc_step by lia. reflexivity. }
      rewrite Hc in *. 
      assert (N' : node t (l + 1, trunc (l + 1) rv)).
      { split; [unfold present; lia|]. intros B; inversion B; lia. }
      destruct (Z.eq_dec l 15) as [->|].
      { (* level 16 node: no children, the loop stops *)
        exists 16, (trunc 16 rv). destruct f as [|f].
        - cbn [find_loop]. split; auto. split; auto. apply trunc_le; lia.
        - cbn [find_loop]. destruct (tk_node _ _ K _ _ (proj1 N') (proj2 N')) as (_ & _ & _ & _ & _ & Hd').
          change (15 + 1) with 16 in *.
          destruct (Z.eqb_spec (b_down (bget t (16, trunc 16 rv))) 0) as [E3|E3].
          + split; auto. split; auto. apply trunc_le; lia.
          + exfalso. pose proof (tk_down _ _ K _ _ (proj1 N') (proj2 N') ltac:(lia)) as P17.
            destruct (tk_node _ _ K _ _ P17) as (? & _); [intros B; inversion B|lia]. }
      apply IH; auto; lia.
Qed.

Lemma find_bucket_spec t bl rv : trie_ok t bl -> 0 <= rv < W64 ->
  exists l v, find_bucket t rv = (l, v) /\ node t (l, v) /\ v <= rv /\ brev t (l, v) = v.
Proof.
  intros K Hrv. unfold find_bucket. rewrite top_of_eq by lia.
  assert (HN : node t (1, trunc 1 rv)).
  { pose proof (tk_top _ _ K (rv / sz 1)) as T. split; [|intros B; inversion B].
    rewrite top_eq in T. unfold trunc. rewrite Z.mul_comm. apply T.
    rewrite sz_1. rewrite W64_val in Hrv. split; [apply Z.div_pos; lia|].
    apply Z.div_lt_upper_bound; [lia|]. change (16 ^ 15 * 16) with W64. rewrite W64_val. lia. }
  destruct (find_loop_spec t bl rv K Hrv 14 1 HN ltac:(lia)) as (l & v & E & N & L).
  exists l, v. split; auto. split; auto. split; auto.
  apply (tk_node _ _ K l v (proj1 N) (proj2 N)).
Qed.
