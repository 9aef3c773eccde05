(** The lists of buckets per level (h.levels): every bucket is in the list of its level, once. *)
From Verif Require Import Base BaseProofs Util UtilProofs Bucket TrieProofs TrieInv TrieGrow.
From Coq Require Import ZifyBool Sorted Permutation.
Local Open Scope Z_scope.
Local Opaque level_of trunc sz.

Definition lvok (t : trie) (lv : levels) : Prop := List.length lv = 16%nat /\
  forall l, 1 <= l <= 16 -> NoDup (lv_get lv l) /\ forall n, In n (lv_get lv l) <-> present t n /\ lvl t n = l.

Lemma upd_nth_len {A} k (x : A) : forall l, List.length (upd_nth k x l) = List.length l.
Proof. induction k as [|k IH]; intros [|y l]; cbn [upd_nth List.length]; auto. Qed.
Lemma lv_set_len lv l x : List.length (lv_set lv l x) = List.length lv.
Proof. apply upd_nth_len. Qed.
Lemma upd_nth_get {A} (d : A) x : forall l i j, (i < List.length l)%nat -> nth j (upd_nth i x l) d = if Nat.eqb i j then x else nth j l d.
Proof.
  induction l as [|y l IH]; intros i j H; [cbn in H; lia|]. destruct i as [|i], j as [|j]; cbn [upd_nth nth Nat.eqb]; auto. apply IH. cbn [List.length] in H. lia.
Qed.
Lemma lv_get_set_is lv l x l' : List.length lv = 16%nat -> 1 <= l <= 16 -> 1 <= l' <= 16 -> lv_get (lv_set lv l x) l' = if l =? l' then x else lv_get lv l'.
Proof.
  intros HL Hl Hl'. unfold lv_get, lv_set. rewrite upd_nth_get by lia. destruct (Z.eqb_spec l l') as [->|N]; [rewrite Nat.eqb_refl; auto|].
  destruct (Nat.eqb_spec (Z.to_nat (l - 1)) (Z.to_nat (l' - 1))); auto. lia.
Qed.

(** * Insertion into a level list *)
Lemma ins_level0_perm t rv x lst : Permutation (ins_level0 t rv x lst) (x :: lst).
Proof.
  induction lst as [|y lst IH]; cbn [ins_level0]; auto. destruct lst as [|z lst]; auto. destruct (_ <? _); auto.
  eapply perm_trans; [apply perm_skip, IH|apply perm_swap].
Qed.
Lemma ins_before_perm y x lst : In y lst -> Permutation (ins_before y x lst) (x :: lst).
Proof.
  induction lst as [|z lst IH]; intros H; [destruct H|]. cbn [ins_before]. destruct (nid_eqb z y) eqn:E; auto.
  destruct H as [->|H]; [rewrite nid_eqb_refl in E; discriminate|]. eapply perm_trans; [apply perm_skip, IH; auto|apply perm_swap].
Qed.
Lemma ins_after_perm y x lst : In y lst -> Permutation (ins_after y x lst) (x :: lst).
Proof.
  induction lst as [|z lst IH]; intros H; [destruct H|]. cbn [ins_after]. destruct (nid_eqb z y) eqn:E; [apply perm_swap|].
  destruct H as [->|H]; [rewrite nid_eqb_refl in E; discriminate|]. eapply perm_trans; [apply perm_skip, IH; auto|apply perm_swap].
Qed.
Lemma find_next_loop_in t rv : forall lst cnt y, find_next_loop t rv cnt lst = Some y -> In y lst.
Proof.
  induction lst as [|z lst IH]; intros cnt y; cbn [find_next_loop]; [discriminate|]. destruct lst as [|w lst]; [discriminate|].
  destruct (_ <? _); [intros E; injection E as ->; left; auto|]. destruct (_ <? _); [intros E; injection E as ->; left; auto|]. intros E. right. eapply IH; eauto.
Qed.
Lemma find_next_level_some t lk rv lst : lst <> [] -> exists y, find_next_level t lk rv lst = Some y /\ In y lst.
Proof.
  intros N. unfold find_next_level. destruct (find_next_loop t rv 0 lst) as [y|] eqn:E; [exists y; split; auto; eapply find_next_loop_in; eauto|].
  destruct lst as [|y lst]; [congruence|]. destruct (negb (lk y)); [exists y; split; auto; left; auto|]. destruct lst as [|z lst]; [exists y|exists z]; split; auto; cbn; auto.
Qed.
Lemma ins_level_perm t lk x lst : lst <> [] -> (forall y, In y lst -> brev t y <> brev t x) -> Permutation (ins_level t lk x lst) (x :: lst).
Proof.
  intros N H. unfold ins_level. destruct (find_next_level_some t lk (brev t x) lst N) as (y & -> & Hy). destruct (_ <? _); [apply ins_before_perm; auto|].
  destruct (Z.eqb_spec (brev t y) (brev t x)) as [E|_]; [exfalso; exact (H y Hy E)|]. apply ins_after_perm; auto.
Qed.

(** * Preservation *)
Lemma lvok_shape t t' lv : same_shape t t' -> lvok t lv -> lvok t' lv.
Proof.
  intros S [H1 H2]. split; auto. intros l Hl. destruct (H2 l Hl) as [A B]. split; auto. intros n. rewrite B. unfold present. rewrite (same_shape_lvl _ _ _ S). tauto.
Qed.
Lemma lvok_all t lv : lvok t lv -> lv_all (present t) lv.
Proof.
  intros [HL H] l n Hn. destruct (Z_le_gt_dec 1 l) as [L1|L1].
  - destruct (Z_le_gt_dec l 16) as [L2|L2]; [apply (H l ltac:(lia)); auto|]. exfalso. unfold lv_get in Hn. rewrite nth_overflow in Hn by lia. destruct Hn.
  - apply (H 1 ltac:(lia)). unfold lv_get in *. replace (Z.to_nat (l - 1)) with (Z.to_nat (1 - 1)) in Hn by lia. exact Hn.
Qed.

(** the level lists after bucket_from_pool created a bucket: slot 0 of the parent's table, if that is new *)
Lemma bfp_lv t bl lv nr : trie_ok t bl -> 0 < nr < W64 ->
  (forall l, 1 <= l < level_of nr -> present t (l, trunc l nr)) -> ~ present t (level_of nr, nr) ->
  forall f l, 1 <= l < level_of nr -> (level_of nr - l <= Z.of_nat f) ->
  let L := level_of nr in let r := trunc (L - 1) nr in
  snd (fst (bfp_loop f t lv (l + 1) L nr (l, trunc l nr))) =
    if b_down (bget t (L - 1, r)) =? 0 then lv_set lv L (ins_level0 t r (L, r) (lv_get lv L)) else lv.
Proof.
  intros K Hnr Hpre Hp. destruct (level_of_spec nr Hnr) as (HLr & HLd & HLn). cbv zeta.
  set (L := level_of nr) in *. assert (HtL : trunc L nr = nr) by (apply trunc_id; auto; lia).
  intros f. induction f as [|f IH]; intros l Hl Hf; [lia|].
  cbn [bfp_loop]. destruct (Z.ltb_spec L (l + 1)) as [Hlt|Hge]; [lia|].
  assert (Hl15 : l <= 15) by lia. assert (Hpl : present t (l, trunc l nr)) by (apply Hpre; lia).
  assert (Hnl : (l, trunc l nr) <> bmax) by (intros B; inversion B; lia).
  destruct (tk_node _ _ K _ _ Hpl Hnl) as (_ & HVl & HDl & HLvl & HRl & Hdn).
  assert (Hc : child (l, trunc l nr) (nib nr (l + 1)) = (l + 1, trunc (l + 1) nr)) by (rewrite child_eq, trunc_step by lia; reflexivity).
  pose proof (nib_range nr (l + 1) ltac:(lia) ltac:(lia)) as Hnib.
  destruct (Z.eq_dec (l + 1) L) as [EL|NL].
  - assert (Hnz : nib nr (l + 1) <> 0).
    { intros Z0. apply nib_0 in Z0; try lia. rewrite EL, HtL in Z0. apply HLn. replace (L - 1) with l by lia. rewrite Z0. apply trunc_div. }
    assert (Hch0 : child (l, trunc l nr) 0 = (L, trunc l nr)) by (rewrite child_eq, EL; f_equal; lia).
    rewrite Hc, EL, HtL. rewrite EL in Hnz, Hnib. replace (L - 1) with l by lia. unfold ensure_down. rewrite Hch0, HRl.
    destruct (Z.eqb_spec (b_down (bget t (l, trunc l nr))) 0) as [D0|D0].
    + rewrite bget_tset_eq. cbn [b_down set_down]. destruct (Z.leb_spec 1 (nib nr L)); [reflexivity|lia].
    + destruct (Z.leb_spec (b_down (bget t (l, trunc l nr))) (nib nr L)); [reflexivity|].
      destruct (Z.eqb_spec (nib nr L) 0); [lia|]. destruct (Z.eqb_spec (lvl t (L, nr)) 0) as [Z0|NZ]; [reflexivity|exfalso; apply Hp; exact NZ].
  - assert (Hpc : present t (l + 1, trunc (l + 1) nr)) by (apply Hpre; lia).
    pose proof (present_child t bl l nr K ltac:(lia) ltac:(lia) Hpc) as Hb.
    rewrite ensure_down_id by lia. rewrite Hc.
    destruct (Z.leb_spec (b_down (bget t (l, trunc l nr))) (nib nr (l + 1))); [lia|].
    destruct (Z.eqb_spec (lvl t (l + 1, trunc (l + 1) nr)) 0) as [Z0|_]; [unfold present in Hpc; lia|].
    rewrite andb_false_r. apply IH; lia.
Qed.

Lemma lvok_grow t t' t4 bl lv nr lk : let L := level_of nr in let r := trunc (L - 1) nr in
  trie_ok t bl -> 0 < nr < MAX64 -> 2 <= L -> (forall l, 1 <= l < L -> present t (l, trunc l nr)) -> ~ present t (L, nr) -> lvok t lv -> grown t t' L nr -> same_shape t' t4 ->
  let lv' := if b_down (bget t (L - 1, r)) =? 0 then lv_set lv L (ins_level0 t r (L, r) (lv_get lv L)) else lv in
  lvok t4 (lv_set lv' L (ins_level t4 lk (L, nr) (lv_get lv' L))).
Proof.
  cbv zeta. intros K Hnr HL2 Hpre Hp [HLEN LV] GR SS. assert (HnW : 0 < nr < W64) by (rewrite W64_val; rewrite MAX64_val in Hnr; lia).
  destruct (level_of_spec nr HnW) as (HLr & HLd & HLn). set (L := level_of nr) in *. clearbody L. remember (trunc (L - 1) nr) as r eqn:Er. set (p := (L - 1, r)).
  assert (HtL : trunc L nr = nr) by (apply trunc_id; auto; lia).
  assert (Pp : present t p) by (unfold p; rewrite Er; apply Hpre; lia). assert (Np : p <> bmax) by (unfold p, bmax; intros B; inversion B; lia).
  assert (Rr : r <> nr). { intros E. apply HLn. rewrite <- E, Er. apply trunc_div. }
  destruct (tk_node _ _ K _ _ Pp Np) as (_ & HVp & HDp & HLp & HRp & Hdn).
  pose proof (gr_par _ _ _ _ GR) as GP. pose proof (gr_zero _ _ _ _ GR) as GZ. pose proof (gr_new _ _ _ _ GR) as GN. cbv zeta in GP, GZ. cbn [snd] in GZ. rewrite <- Er in GP, GZ. fold p in GP, GZ.
  assert (GO : forall n, n <> (L, nr) -> n <> p -> n <> (L, r) -> bget t' n = bget t n). { intros n. unfold p. rewrite Er. apply (gr_other _ _ _ _ GR). }
  set (lv' := if b_down (bget t p) =? 0 then lv_set lv L (ins_level0 t r (L, r) (lv_get lv L)) else lv).
  assert (Z0 : b_down (bget t p) = 0 -> ~ present t (L, r)). { intros D. replace L with (L - 1 + 1) by lia. apply (no_zero_child t bl); auto. split; auto. }
  assert (Z1 : b_down (bget t p) <> 0 -> present t (L, r)). { intros D. replace L with (L - 1 + 1) by lia. apply (tk_down _ _ K); auto. unfold p in *. lia. }
  assert (LEN' : List.length lv' = 16%nat). { unfold lv'. destruct (_ =? _); auto. rewrite lv_set_len; auto. }
  (* the levels of t' *)
  assert (LT : forall n, lvl t' n = if nid_eqb n (L, nr) then L else if nid_eqb n (L, r) then L else lvl t n).
  { intros n. destruct (nid_eqb n (L, nr)) eqn:E1; [apply nid_eqb_eq in E1; subst n; unfold lvl; rewrite GN; reflexivity|].
    destruct (nid_eqb n (L, r)) eqn:E2.
    - apply nid_eqb_eq in E2. subst n. unfold lvl. rewrite GZ. destruct (Z.eqb_spec (b_down (bget t p)) 0) as [D|D]; [reflexivity|].
      assert (NB : (L, r) <> bmax) by (unfold bmax; intros B; inversion B; lia). destruct (tk_node _ _ K _ _ (Z1 D) NB) as (_ & _ & _ & E & _). exact E.
    - destruct (nid_eq_dec n p) as [->|N3]; [unfold lvl; tauto|]. unfold lvl. rewrite GO; auto; intros ->; rewrite nid_eqb_refl in *; discriminate. }
  assert (IN' : forall l, 1 <= l <= 16 -> NoDup (lv_get lv' l) /\ forall n, In n (lv_get lv' l) <-> (n = (L, r) /\ l = L) \/ (present t n /\ lvl t n = l)).
  { intros l Hl. destruct (LV l Hl) as [ND IF]. unfold lv'. destruct (Z.eqb_spec (b_down (bget t p)) 0) as [D|D].
    - rewrite lv_get_set_is by (auto; lia). destruct (Z.eqb_spec L l) as [<-|N].
      + assert (PM := ins_level0_perm t r (L, r) (lv_get lv L)). split.
        * apply (Permutation_NoDup (Permutation_sym PM)). constructor; auto. intros H. apply IF in H as [H _]. exact (Z0 D H).
        * intros n. split.
          -- intros H. apply (Permutation_in _ PM) in H as [<-|H]; [auto|right; apply IF; auto].
          -- intros H. apply (Permutation_in _ (Permutation_sym PM)). destruct H as [[-> _]|H]; [left; auto|right; apply IF; auto].
      + split; auto. intros n. rewrite IF. split; auto. intros [[_ H]|H]; [congruence|auto].
    - split; auto. intros n. rewrite IF. split; auto. intros [[-> ->]|H]; auto. split; auto. assert (NB : (L, r) <> bmax) by (unfold bmax; intros B; inversion B; lia). destruct (tk_node _ _ K _ _ (Z1 D) NB) as (_ & _ & _ & E & _). exact E. }
  assert (B4 : forall n, brev t4 n = brev t' n) by (intros; symmetry; apply same_shape_brev; auto).
  assert (L4 : forall n, lvl t4 n = lvl t' n) by (intros; symmetry; apply same_shape_lvl; auto).
  assert (HLL : 1 <= L <= 16) by lia.
  assert (PM : Permutation (ins_level t4 lk (L, nr) (lv_get lv' L)) ((L, nr) :: lv_get lv' L)).
  { apply ins_level_perm.
    - intros E. assert (X : In (L, r) (lv_get lv' L)) by (apply (IN' L HLL); auto). rewrite E in X. destruct X.
    - intros y Hy E. rewrite !B4 in E. replace (brev t' (L, nr)) with nr in E by (unfold brev; rewrite GN; reflexivity).
      apply (IN' L HLL) in Hy as [[-> _]|[Py Ly]].
      + unfold brev in E. rewrite GZ in E. destruct (Z.eqb_spec (b_down (bget t p)) 0) as [D|D]; [cbn in E; congruence|].
        assert (NB : (L, r) <> bmax) by (unfold bmax; intros B; inversion B; lia). destruct (tk_node _ _ K _ _ (Z1 D) NB) as (_ & _ & _ & _ & E' & _). unfold brev in E'. congruence.
      + destruct (nid_eq_dec y bmax) as [->|Ny].
        * unfold brev in E. rewrite GO in E; try (unfold bmax; intros B; inversion B; lia). destruct (tk_bmax _ _ K) as (_ & BM & _). unfold brev in BM. lia.
        * destruct y as [ly vy]. destruct (tk_node _ _ K _ _ Py Ny) as (_ & _ & _ & E1 & E2 & _). assert (ly = L) by congruence. subst ly.
          destruct (nid_eq_dec (L, vy) (L, nr)) as [EQ|N1]; [injection EQ as ->; contradiction|]. destruct (nid_eq_dec (L, vy) (L, r)) as [EQ|N2].
          -- injection EQ as ->. unfold brev in E. rewrite GZ in E. destruct (Z.eqb_spec (b_down (bget t p)) 0) as [D|D]; [cbn in E; congruence|]. unfold brev in E2. congruence.
          -- unfold brev in E. rewrite GO in E; auto. { unfold brev in E2. congruence. } intros B. injection B as B1 _. lia. }
  split; [rewrite lv_set_len; auto|]. intros l Hl. rewrite lv_get_set_is by (auto; lia). unfold present. destruct (Z.eqb_spec L l) as [<-|NL].
  - split.
    + apply (Permutation_NoDup (Permutation_sym PM)). constructor; [|apply (IN' L HLL)]. intros H. apply (IN' L HLL) in H as [[E _]|[H _]]; [congruence|contradiction].
    + intros n. rewrite L4, LT. split.
      * intros H. apply (Permutation_in _ PM) in H as [<-|H]; [rewrite nid_eqb_refl; lia|]. apply (IN' L HLL) in H as [[-> _]|[H1 H2]].
        -- rewrite nid_eqb_refl. destruct (nid_eqb _ _); lia.
        -- unfold present in H1. rewrite H2. destruct (nid_eqb _ _); [lia|]. destruct (nid_eqb _ _); lia.
      * intros [H1 H2]. apply (Permutation_in _ (Permutation_sym PM)). destruct (nid_eqb n (L, nr)) eqn:E1; [apply nid_eqb_eq in E1; left; auto|right]. apply (IN' L HLL).
        destruct (nid_eqb n (L, r)) eqn:E2; [apply nid_eqb_eq in E2; auto|]. right. auto.
  - destruct (IN' l Hl) as [ND IF]. split; auto. intros n. rewrite IF, L4, LT. split.
    + intros [[_ H]|[H1 H2]]; [congruence|]. unfold present in H1. destruct (nid_eqb n (L, nr)) eqn:E1; [apply nid_eqb_eq in E1; subst n; contradiction|].
      destruct (nid_eqb n (L, r)) eqn:E2; [|auto]. apply nid_eqb_eq in E2. subst n. assert (NB : (L, r) <> bmax) by (unfold bmax; intros B; inversion B; lia). destruct (tk_node _ _ K _ _ H1 NB) as (_ & _ & _ & E & _). congruence.
    + intros [H1 H2]. destruct (nid_eqb n (L, nr)); [lia|]. destruct (nid_eqb n (L, r)); [lia|]. right. auto.
Qed.
