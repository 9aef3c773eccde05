(** Creating a bucket in the middle of an interval keeps the table well formed. *)
From Verif Require Import Base BaseProofs Util UtilProofs Bucket TrieProofs TrieInv.
From Coq Require Import ZifyBool Sorted.
Local Open Scope Z_scope.

Lemma lor_add v i l : 1 <= l <= 16 -> 0 <= v -> 0 <= i < 16 -> (sz (l - 1) | v) ->
  Z.lor v (Z.shiftl i (4 * (16 - l))) = v + i * sz l.
Proof.
  intros Hl Hv Hi HD. rewrite Z.shiftl_mul_pow2 by lia.
  replace (4 * (16 - l)) with (64 - 4 * l) by lia. rewrite <- sz_pow2 by lia.
  assert (L : Z.land v (i * sz l) = 0).
  { rewrite sz_pow2 in HD by lia. rewrite sz_pow2 by lia.
    apply Z.bits_inj'. intros j Hj. rewrite Z.bits_0, Z.land_spec.
    destruct (Z_lt_ge_dec j (64 - 4 * (l - 1))) as [Hlt|Hge].
    - rewrite (proj1 (divide_pow2_bits v (64 - 4 * (l - 1)) ltac:(lia)) HD) by lia. reflexivity.
    - replace (Z.testbit (i * 2 ^ (64 - 4 * l)) j) with false; [apply andb_false_r|symmetry].
      assert (B : i * 2 ^ (64 - 4 * l) < 2 ^ (64 - 4 * (l - 1))).
      { replace (64 - 4 * (l - 1)) with (4 + (64 - 4 * l)) by lia. rewrite Z.pow_add_r by lia.
        change (2 ^ 4) with 16. pose proof (Z.pow_pos_nonneg 2 (64 - 4 * l)). nia. }
      apply (proj1 (lt_pow2_bits (i * 2 ^ (64 - 4 * l)) (64 - 4 * (l - 1)) ltac:(lia)
               ltac:(pose proof (Z.pow_pos_nonneg 2 (64 - 4 * l)); nia)) B). lia. }
  rewrite <- Z.lxor_lor by auto. rewrite <- Z.add_nocarry_lxor; auto.
Qed.

(** ** What bucket_from_pool does when the prefixes of the position exist *)
Definition fresh (l v : Z) : bucket := mkB l 0 v 0 None None.
Definition fresh0 (l v : Z) (p : nid) : bucket := mkB l 0 v 0 (Some p) None.

(** t' is t with node c = (L, nr) added below p (and slot 0 of p, if p had no children). *)
Record grown (t t' : trie) (L nr : Z) : Prop := {
  gr_new : bget t' (L, nr) = fresh L nr;
  gr_par : let p := (L - 1, trunc (L - 1) nr) in
     b_level (bget t' p) = b_level (bget t p) /\ b_rev (bget t' p) = b_rev (bget t p) /\
     b_parent (bget t' p) = b_parent (bget t p) /\ b_len (bget t' p) = b_len (bget t p) /\
     b_pool (bget t' p) = b_pool (bget t p) /\
     b_down (bget t p) <= b_down (bget t' p) <= 16 /\ nib nr L < b_down (bget t' p);
  gr_zero : let p := (L - 1, trunc (L - 1) nr) in
     bget t' (L, snd p) = if b_down (bget t p) =? 0 then fresh0 L (snd p) p else bget t (L, snd p);
  gr_other : forall n, n <> (L, nr) -> n <> (L - 1, trunc (L - 1) nr) -> n <> (L, trunc (L - 1) nr) ->
     bget t' n = bget t n }.

Definition lv_all (P : nid -> Prop) (lv : levels) : Prop := forall l n, In n (lv_get lv l) -> P n.

Lemma lv_get_set lv l x l' n : In n (lv_get (lv_set lv l x) l') -> In n x \/ In n (lv_get lv l').
Proof.
  unfold lv_get, lv_set. generalize (Z.to_nat (l - 1)) (Z.to_nat (l' - 1)). intros i j.
  revert i j. induction lv as [|y lv IH]; intros i j; cbn [upd_nth].
  - destruct i; cbn; destruct j; auto.
  - destruct i as [|i], j as [|j]; cbn [nth upd_nth]; auto. intros H. apply (IH i j H).
Qed.

Lemma ins_level0_in t rv x lst n : In n (ins_level0 t rv x lst) -> n = x \/ In n lst.
Proof.
  induction lst as [|y lst IH]; cbn [ins_level0].
  - intros [<-|[]]; auto.
  - destruct lst as [|z lst]; [intros [<-|H]; auto|].
    destruct (brev t y <? rv); intros [<-|H]; auto.
    + right; left; auto.
    + destruct (IH H); auto. right; right; auto.
Qed.
Lemma ins_before_in y x lst n : In n (ins_before y x lst) -> n = x \/ In n lst.
Proof.
  induction lst as [|z lst IH]; cbn [ins_before]; [intros []|].
  destruct (nid_eqb z y); intros [<-|H]; auto; [right; left; auto|].
  destruct (IH H); auto. right; right; auto.
Qed.
Lemma ins_after_in y x lst n : In n (ins_after y x lst) -> n = x \/ In n lst.
Proof.
  induction lst as [|z lst IH]; cbn [ins_after]; [intros []|].
  destruct (nid_eqb z y).
  - intros [<-|[<-|H]]; auto; right; [left|right]; auto.
  - intros [<-|H]; [right; left; auto|]. destruct (IH H); auto. right; right; auto.
Qed.
Lemma ins_level_in t lk x lst n : In n (ins_level t lk x lst) -> n = x \/ In n lst.
Proof.
  unfold ins_level. destruct (find_next_level _ _ _ _); auto.
  destruct (_ <? _); [apply ins_before_in|]. destruct (_ =? _); auto. apply ins_after_in.
Qed.

Lemma present_dec t n : {present t n} + {~ present t n}.
Proof. unfold present. destruct (Z.eq_dec (lvl t n) 0); [right; lia|left; auto]. Qed.

Lemma no_zero_child t bl l v : trie_ok t bl -> node t (l, v) -> b_down (bget t (l, v)) = 0 ->
  ~ present t (l + 1, v).
Proof.
  intros K [Hp Hn] Hd Hc.
  destruct (tk_node _ _ K l v Hp Hn) as (HL & HV & HD & _).
  assert (Hn' : (l + 1, v) <> bmax) by (intros B; inversion B; lia).
  destruct (tk_node _ _ K _ _ Hc Hn') as (HL' & _).
  destruct (tk_up _ _ K _ _ Hc Hn' ltac:(lia)) as [_ HU].
  replace (l + 1 - 1) with l in HU by lia. rewrite trunc_id in HU by (auto; lia).
  pose proof (nib_range v (l + 1) ltac:(lia) ltac:(lia)). lia.
Qed.

Lemma ensure_down_id t lv l n : b_down (bget t n) <> 0 -> ensure_down t lv l n = (t, lv).
Proof. intros H. unfold ensure_down. destruct (Z.eqb_spec (b_down (bget t n)) 0); congruence. Qed.

(** A present child bounds b_down from below. *)
Lemma present_child t bl l rv : trie_ok t bl -> 0 <= rv < W64 -> 1 <= l <= 15 ->
  present t (l + 1, trunc (l + 1) rv) ->
  nib rv (l + 1) < b_down (bget t (l, trunc l rv)).
Proof.
  intros K Hrv Hl Hp. 
  destruct (tk_up _ _ K _ _ Hp ltac:(intros B; inversion B; lia) ltac:(lia)) as [_ H].
  replace (l + 1 - 1) with l in H by lia.
  rewrite trunc_trunc, nib_trunc in H by lia. auto.
Qed.

Lemma bfp_loop_spec t bl lv nr : trie_ok t bl -> 0 < nr < W64 ->
  (forall l, 1 <= l < level_of nr -> present t (l, trunc l nr)) ->
  forall f l, 1 <= l <= level_of nr -> (level_of nr - l <= Z.of_nat f) ->
  (l = level_of nr -> present t (l, nr)) ->
  exists t' lv', bfp_loop f t lv (l + 1) (level_of nr) nr (l, trunc l nr) = (t', lv', (level_of nr, nr)) /\
    ((present t (level_of nr, nr) /\ t' = t /\ lv' = lv) \/
     (~ present t (level_of nr, nr) /\ grown t t' (level_of nr) nr /\ 2 <= level_of nr /\
      forall j n, In n (lv_get lv' j) -> (exists i, In n (lv_get lv i)) \/ present t' n)).
Proof.
  intros K Hnr Hpre. destruct (level_of_spec nr Hnr) as (HLr & HLd & HLn).
  set (L := level_of nr) in *. 
  assert (HtL : trunc L nr = nr) by (apply trunc_id; auto; lia).
  intros f. induction f as [|f IH]; intros l Hl Hf HpL.
  - assert (l = L) by lia. subst l. cbn [bfp_loop]. rewrite HtL.
    exists t, lv. split; auto.
  - cbn [bfp_loop]. destruct (Z.ltb_spec L (l + 1)) as [Hlt|Hge].
    { assert (l = L) by lia. subst l. rewrite HtL. exists t, lv. split; auto. }
    assert (Hl15 : l <= 15) by lia.
    assert (Hpl : present t (l, trunc l nr)) by (apply Hpre; lia).
    assert (Hnl : (l, trunc l nr) <> bmax) by (intros B; inversion B; lia).
    destruct (tk_node _ _ K _ _ Hpl Hnl) as (_ & HVl & HDl & HLvl & HRl & Hdn).
    assert (Hc : child (l, trunc l nr) (nib nr (l + 1)) = (l + 1, trunc (l + 1) nr)).
    { rewrite child_eq, trunc_step by lia. reflexivity. }
    pose proof (nib_range nr (l + 1) ltac:(lia) ltac:(lia)) as Hnib.
    destruct (Z.eq_dec (l + 1) L) as [EL|NL].
    + (* the last level *)
      assert (Hnz : nib nr (l + 1) <> 0).
      { intros Z0. apply nib_0 in Z0; try lia. rewrite EL, HtL in Z0. apply HLn.
        replace (L - 1) with l by lia. rewrite Z0. apply trunc_div. }
      rewrite Hc. rewrite EL. rewrite HtL. rewrite EL in Hnz, Hnib.
      destruct (present_dec t (L, nr)) as [Hp|Hp].
      * assert (Hb : nib nr L < b_down (bget t (l, trunc l nr))).
        { rewrite <- EL. apply (present_child t bl); auto; try lia. rewrite EL, HtL; auto. }
        rewrite ensure_down_id by lia.
        destruct (Z.leb_spec (b_down (bget t (l, trunc l nr))) (nib nr L)); [lia|].
        destruct (Z.eqb_spec (lvl t (L, nr)) 0) as [Z0|_]; [unfold present in Hp; lia|].
        rewrite andb_false_r.
        exists t, lv. split.
        { destruct f; cbn [bfp_loop]; auto. destruct (Z.ltb_spec L (L + 1)); auto. lia. }
        auto.
      * (* creation *)
        assert (Elor : forall t1, bget t1 (l, trunc l nr) = bget t (l, trunc l nr) \/
             bget t1 (l, trunc l nr) = set_down (bget t (l, trunc l nr)) 1 ->
             new_child t1 (l, trunc l nr) L (nib nr L) = fresh L nr).
        { intros t1 Ht1. unfold new_child, fresh, brev.
          assert (El : b_level (bget t1 (l, trunc l nr)) = l).
          { unfold lvl in HLvl. destruct Ht1 as [->| ->]; auto. }
          assert (Er : b_rev (bget t1 (l, trunc l nr)) = trunc l nr).
          { unfold brev in HRl. destruct Ht1 as [->| ->]; auto. }
          rewrite El, Er, EL. f_equal.
          rewrite lor_add; try lia.
          - replace (trunc l nr + nib nr L * sz L) with (trunc (l + 1) nr); [rewrite EL; auto|].
            rewrite trunc_step by lia. rewrite EL; auto.
          - replace (L - 1) with l by lia. apply trunc_div. }
        assert (Hcp : (L, nr) <> (l, trunc l nr)) by (intros B; inversion B; lia).
        assert (Hc0c : (L, trunc l nr) <> (L, nr)).
        { intros B; inversion B as [B1]. apply Hnz. rewrite <- EL. apply nib_0; try lia.
          rewrite EL, HtL. auto. }
        assert (Hc0p : (L, trunc l nr) <> (l, trunc l nr)) by (intros B; inversion B; lia).
        assert (Hch0 : child (l, trunc l nr) 0 = (L, trunc l nr)).
        { rewrite child_eq. rewrite EL. f_equal. lia. }
        unfold ensure_down. rewrite Hch0.
        destruct (Z.eqb_spec (b_down (bget t (l, trunc l nr))) 0) as [D0|D0].
        -- (* no children yet *)
           set (t1 := tset (tset t (L, trunc l nr) (new_child0 t (l, trunc l nr))) (l, trunc l nr)
                        (set_down (bget t (l, trunc l nr)) 1)).
           assert (G1 : bget t1 (l, trunc l nr) = set_down (bget t (l, trunc l nr)) 1)
             by (unfold t1; apply bget_tset_eq).
           rewrite G1. cbn [b_down set_down].
           destruct (Z.leb_spec 1 (nib nr L)); [|lia].
           rewrite (Elor t1) by auto.
           eexists _, _. split; [reflexivity|right]. split; [auto|]. split; [|split; [lia|]].
           ++ constructor; cbn zeta; try replace (L - 1) with l by lia; cbn [snd].
              ** unfold tupd. rewrite bget_tset_ne by (intros B; apply Hcp; auto).
                 rewrite bget_tset_eq. reflexivity.
              ** unfold tupd. rewrite bget_tset_eq.
                 rewrite bget_tset_ne by auto. rewrite G1. cbn [b_level b_rev b_parent b_len b_pool b_down set_down]. repeat split; lia.
              ** rewrite D0. change (0 =? 0) with true. cbv iota. unfold tupd. rewrite bget_tset_ne by auto.
                 rewrite bget_tset_ne by auto. unfold t1. rewrite bget_tset_ne by auto.
                 rewrite bget_tset_eq. unfold new_child0, fresh0, lvl, brev in *.
                 rewrite HLvl, HRl, EL. reflexivity.
              ** intros n N1 N2 N3. unfold tupd. rewrite !bget_tset_ne by auto.
                 unfold t1. rewrite !bget_tset_ne by auto. reflexivity.
           ++ intros j n Hin. apply lv_get_set in Hin as [Hin|Hin]; [|left; eauto].
              apply ins_level0_in in Hin as [->|Hin]; [right|left].
              ** unfold present, lvl, tupd. rewrite bget_tset_ne by auto.
                 rewrite bget_tset_ne by auto. unfold t1. rewrite bget_tset_ne by auto.
                 rewrite bget_tset_eq. unfold new_child0. cbn [b_level]. unfold lvl in HLvl. rewrite HLvl. lia.
              ** eauto.
        -- (* table exists *)
           destruct (Z.leb_spec (b_down (bget t (l, trunc l nr))) (nib nr L)).
           ++ rewrite (Elor t) by auto. eexists _, _. split; [reflexivity|right].
              split; [auto|]. split; [|split; [lia|eauto]].
              constructor; cbn zeta; try replace (L - 1) with l by lia; cbn [snd].
              ** unfold tupd. rewrite bget_tset_ne by auto. apply bget_tset_eq.
              ** unfold tupd. rewrite bget_tset_eq. rewrite bget_tset_ne by auto. cbn [b_level b_rev b_parent b_len b_pool b_down set_down]. repeat split; lia.
              ** destruct (Z.eqb_spec (b_down (bget t (l, trunc l nr))) 0); [lia|].
                 unfold tupd. rewrite !bget_tset_ne by auto. reflexivity.
              ** intros n N1 N2 N3. unfold tupd. rewrite !bget_tset_ne by auto. reflexivity.
           ++ destruct (Z.eqb_spec (nib nr L) 0); [lia|].
              destruct (Z.eqb_spec (lvl t (L, nr)) 0) as [Z0|NZ]; [|exfalso; apply Hp; exact NZ].
              cbn [negb andb]. rewrite (Elor t) by auto.
              eexists _, _. split; [reflexivity|right].
              split; [auto|]. split; [|split; [lia|eauto]].
              constructor; cbn zeta; try replace (L - 1) with l by lia; cbn [snd].
              ** apply bget_tset_eq.
              ** rewrite bget_tset_ne by auto. repeat split; lia.
              ** destruct (Z.eqb_spec (b_down (bget t (l, trunc l nr))) 0); [lia|].
                 rewrite bget_tset_ne by auto. reflexivity.
              ** intros q N1 N2 N3. rewrite bget_tset_ne by auto. reflexivity.
    + (* an inner level *)
      assert (Hpc : present t (l + 1, trunc (l + 1) nr)) by (apply Hpre; lia).
      pose proof (present_child t bl l nr K ltac:(lia) ltac:(lia) Hpc) as Hb.
      rewrite ensure_down_id by lia. rewrite Hc.
      destruct (Z.leb_spec (b_down (bget t (l, trunc l nr))) (nib nr (l + 1))); [lia|].
      destruct (Z.eqb_spec (lvl t (l + 1, trunc (l + 1) nr)) 0) as [Z0|_]; [unfold present in Hpc; lia|].
      rewrite andb_false_r. apply IH; try lia.
Qed.

(** ** Lists *)
Definition adj {A} (l : list A) (u w : A) : Prop := exists a b, l = a ++ u :: w :: b.
Lemma adj_cons {A} (z : A) l u w : adj (z :: l) u w <-> (u = z /\ exists b, l = w :: b) \/ adj l u w.
Proof.
  split.
  - intros (a & b & E). destruct a as [|y a]; cbn in E; inversion E; subst.
    + left; eauto.
    + right; exists a, b; auto.
  - intros [(-> & b & ->)|(a & b & ->)].
    + exists [], b; auto.
    + exists (z :: a), b; auto.
Qed.
Lemma adj_insert {A} (a : list A) x y c b u w :
  adj (a ++ x :: y :: c :: b) u w ->
  (u = x /\ w = y) \/ (u = y /\ w = c) \/ adj (a ++ x :: c :: b) u w.
Proof.
  revert u w. induction a as [|z a IH]; cbn [app]; intros u w H.
  - apply adj_cons in H as [(-> & b' & E)|H]; [inversion E; auto|].
    apply adj_cons in H as [(-> & b' & E)|H]; [inversion E; auto|].
    right; right. apply adj_cons. right. exact H.
  - apply adj_cons in H as [(-> & b' & E)|H].
    + right; right. apply adj_cons. left. split; auto. destruct a as [|z' a]; cbn [app] in *;
        inversion E; subst; eauto.
    + destruct (IH _ _ H) as [H1|[H1|H1]]; auto. right; right. apply adj_cons; auto.
Qed.

Lemma sorted_insert {A} (R : A -> A -> Prop) a x y c b :
  (forall u v w, R u v -> R v w -> R u w) -> R x y -> R y c ->
  StronglySorted R (a ++ x :: c :: b) -> StronglySorted R (a ++ x :: y :: c :: b).
Proof.
  intros HT Hxy Hyc. induction a as [|z a IH]; cbn [app]; intros S.
  - inversion S as [|? ? S1 F1]; subst. inversion S1 as [|? ? S2 F2]; subst.
    assert (F3 : Forall (R y) b) by (eapply Forall_impl; [|exact F2]; intros w Hw; eapply HT; eauto).
    constructor; [|constructor; auto]. constructor; [exact S1|]. constructor; auto.
  - inversion S as [|? ? S1 F1]; subst. constructor; auto.
    rewrite !Forall_app in *. destruct F1 as [Fa Fx]. split; auto.
    pose proof (Forall_inv Fx) as Hx. pose proof (Forall_inv_tail Fx) as Fx'.
    constructor; auto. constructor; [eapply HT; eauto|]. auto.
Qed.
Lemma sorted_ext_in {A} (R R' : A -> A -> Prop) l :
  (forall a b, In a l -> In b l -> R a b -> R' a b) -> StronglySorted R l -> StronglySorted R' l.
Proof.
  induction l as [|x l IH]; intros H S; constructor; inversion S as [|? ? S1 F]; subst.
  - apply IH; auto. intros a b Ha Hb. apply H; right; auto.
  - rewrite Forall_forall in *. intros y Hy. apply H; [left|right|]; auto.
Qed.

(** ** Dyadic arithmetic *)
Lemma divide_pow2_odd j k q : 0 <= j -> 0 <= k -> ((2 ^ j | 2 ^ k * (2 * q + 1)) <-> j <= k).
Proof.
  intros Hj Hk. split.
  - intros [d Hd]. destruct (Z_lt_ge_dec k j) as [Hlt|]; [|lia]. exfalso.
    replace j with (k + 1 + (j - k - 1)) in Hd by lia.
    rewrite !Z.pow_add_r in Hd by lia. rewrite Z.pow_1_r in Hd.
    pose proof (Z.pow_pos_nonneg 2 k ltac:(lia) ltac:(lia)).
    assert (2 * q + 1 = 2 * (d * 2 ^ (j - k - 1))).
    { apply (Z.mul_reg_l _ _ (2 ^ k)); [lia|]. rewrite Hd. ring. }
    lia.
  - intros H. exists (2 ^ (k - j) * (2 * q + 1)).
    replace k with ((k - j) + j) at 1 by lia. rewrite Z.pow_add_r by lia. ring.
Qed.

Lemma pow2_divide j k : 0 <= j <= k -> (2 ^ j | 2 ^ k).
Proof.
  intros. exists (2 ^ (k - j)). rewrite <- Z.pow_add_r by lia. f_equal; lia.
Qed.

(** a dyadic block of size 2^m inside the block of a level *)
Lemma block_inside l c m : 0 <= c -> l <= 16 -> 0 <= m <= 64 - 4 * l -> (2 ^ m | c) ->
  c + 2 ^ m <= trunc l c + sz l.
Proof.
  intros Hc Hl Hm [q Hq]. pose proof (trunc_le l c Hl Hc) as [T1 T2].
  destruct (trunc_div l c) as [q' Hq'].
  rewrite sz_pow2 in * by lia.
  destruct (pow2_divide m (64 - 4 * l) ltac:(lia)) as [r Hr]. rewrite Hr in *.
  pose proof (Z.pow_pos_nonneg 2 m ltac:(lia) ltac:(lia)).
  set (s := 2 ^ m) in *.
  assert (q < q' * r + r).
  { apply (Z.mul_lt_mono_pos_r s); [lia|]. rewrite <- Hq. lia. }
  rewrite Hq at 1. rewrite Hq'. nia.
Qed.

Section Grow.
Variables (t : trie) (a : list nid) (x c : nid) (b : list nid) (m : Z).
Let bl := a ++ x :: c :: b.
Variables cv nr L : Z.
Hypothesis Ecv : cv = brev t c.
Hypothesis Enr : nr = cv + 2 ^ (m - 1).
Hypothesis EL : L = level_of nr.
Hypothesis K : trie_ok t bl.
Hypothesis Hm : 1 <= m.
Hypothesis Hup : up t x = cv + 2 ^ m.
Hypothesis Hdiv : (2 ^ m | cv).
Hypothesis Hpre : forall l, 1 <= l <= 16 -> m < 68 - 4 * l -> present t (l, trunc l cv).
Hypothesis Hnr : nr < MAX64.

Lemma gw_c_bl : In c bl.
Proof. unfold bl. apply in_or_app. right. right. left. auto. Qed.
Lemma gw_c_ne : c <> bmax.
Proof.
  intros E. destruct (tk_head _ _ K) as (bl' & E1 & E2). apply E2.
  unfold bl in E1. destruct a as [|z a']; cbn in E1; inversion E1; subst.
  - left; auto.
  - apply in_or_app; right; right; left; auto.
Qed.
Lemma gw_cv : 0 <= cv < W64.
Proof.
  destruct (tk_bl _ _ K c gw_c_bl) as [Hp _]. rewrite Ecv. pose proof gw_c_ne as N. destruct c as [l v].
  destruct (tk_node _ _ K l v Hp N) as (? & ? & ? & ? & -> & ?). auto.
Qed.
Lemma gw_pow : 2 ^ m = 2 * 2 ^ (m - 1).
Proof. replace m with (Z.succ (m - 1)) at 1 by lia. apply Z.pow_succ_r; lia. Qed.
Lemma gw_pow_pos : 0 < 2 ^ (m - 1).
Proof. apply Z.pow_pos_nonneg; lia. Qed.
Lemma gw_nr : 0 < nr < W64.
Proof.
  pose proof gw_cv. pose proof gw_pow_pos. rewrite Enr in Hnr |- *. rewrite MAX64_val in Hnr. rewrite W64_val. lia.
Qed.
Lemma gw_nr_odd : exists q, nr = 2 ^ (m - 1) * (2 * q + 1).
Proof.
  destruct Hdiv as [q Hq]. exists q. rewrite Enr. rewrite Hq, gw_pow. ring.
Qed.
Lemma gw_level : 64 - 4 * L <= m - 1 < 68 - 4 * L.
Proof.
  destruct (level_of_spec nr gw_nr) as (H1 & H2 & H3). rewrite <- EL in H1, H2, H3.
  destruct gw_nr_odd as [q Hq]. rewrite Hq in H2, H3.
  rewrite sz_pow2, divide_pow2_odd in H2, H3 by lia. lia.
Qed.
Lemma gw_L16 : L <= 16.
Proof. destruct (level_of_spec nr gw_nr) as (H1 & _). rewrite <- EL in H1. lia. Qed.
Lemma gw_trunc_nr : trunc L nr = nr.
Proof. destruct (level_of_spec nr gw_nr) as (H1 & H2 & _). rewrite <- EL in H1, H2. apply trunc_id; auto; lia. Qed.

Lemma gw_same_trunc l : 1 <= l <= L - 1 -> trunc l nr = trunc l cv.
Proof.
  intros Hl. pose proof gw_level. pose proof gw_cv. pose proof gw_L16.
  pose proof (trunc_le l cv ltac:(lia) ltac:(lia)) as [T1 T2].
  apply trunc_unique; [lia|apply trunc_div|].
  pose proof (block_inside l cv m ltac:(lia) ltac:(lia) ltac:(lia) Hdiv).
  pose proof gw_pow. pose proof gw_pow_pos. rewrite Enr. lia.
Qed.
Variables (t' : trie) (tr : Z).
Hypothesis Etr : tr = trunc (L - 1) nr.
Hypothesis HL2 : 2 <= L.
Hypothesis Hnew : ~ present t (L, nr).
Hypothesis G : grown t t' L nr.

Lemma gw_tr : tr = trunc (L - 1) cv.
Proof. rewrite Etr. apply gw_same_trunc. lia. Qed.
Lemma gw_p_present : present t (L - 1, tr).
Proof. rewrite gw_tr. pose proof gw_level. pose proof gw_L16. apply Hpre; lia. Qed.
Lemma gw_p_ne : (L - 1, tr) <> bmax.
Proof. intros E; inversion E; lia. Qed.
Lemma gw_tr_ne : tr <> nr.
Proof.
  destruct (level_of_spec nr gw_nr) as (H1 & H2 & H3). rewrite <- EL in H1, H2, H3. intros E. apply H3. rewrite <- E, Etr. apply trunc_div.
Qed.
Lemma gw_tr_range : 0 <= tr < W64.
Proof.
  pose proof (trunc_le (L - 1) nr ltac:(pose proof gw_L16; lia) ltac:(pose proof gw_nr; lia)) as H.
  rewrite <- Etr in H. pose proof gw_nr. lia.
Qed.
Lemma gw_tr_div : (sz (L - 1) | tr).
Proof. rewrite Etr. apply trunc_div. Qed.
Lemma gw_tr_divL : (sz L | tr).
Proof.
  apply (Z.divide_trans _ (sz (L - 1))); [apply sz_le; pose proof gw_L16; lia|apply gw_tr_div].
Qed.

Lemma gw_old n : present t n ->
  lvl t' n = lvl t n /\ brev t' n = brev t n /\ b_parent (bget t' n) = b_parent (bget t n) /\
  (b_down (bget t' n) = b_down (bget t n) \/
   n = (L - 1, tr) /\ b_down (bget t n) <= b_down (bget t' n) <= 16).
Proof.
  intros Hp. unfold lvl, brev.
  destruct (nid_eq_dec n (L - 1, tr)) as [->|N1].
  { destruct (gr_par _ _ _ _ G) as (A1 & A2 & A3 & A4 & A5 & A6 & A7). rewrite <- Etr in A1, A2, A3, A4, A5, A6, A7. repeat split; auto. }
  destruct (nid_eq_dec n (L, nr)) as [->|N2]; [contradiction|].
  destruct (nid_eq_dec n (L, tr)) as [->|N3].
  { pose proof (gr_zero _ _ _ _ G) as Z0. cbn [snd] in Z0. rewrite <- Etr in Z0.
    destruct (Z.eqb_spec (b_down (bget t (L - 1, tr))) 0) as [E|E].
    - exfalso. eapply no_zero_child; [exact K|split; [apply gw_p_present|apply gw_p_ne]|exact E|].
      replace (L - 1 + 1) with L by lia. auto.
    - rewrite Z0. auto. }
  rewrite (gr_other _ _ _ _ G n) by (rewrite <- ?Etr; auto). auto.
Qed.
Lemma gw_mono n : present t n -> present t' n.
Proof. intros Hp. destruct (gw_old n Hp) as (E & _). unfold present. rewrite E. auto. Qed.
Lemma gw_new_present : present t' (L, nr).
Proof. unfold present, lvl. rewrite (gr_new _ _ _ _ G). cbn. lia. Qed.
Lemma gw_zero_present : present t' (L, tr).
Proof.
  pose proof (gr_zero _ _ _ _ G) as Z0. cbn [snd] in Z0. rewrite <- Etr in Z0.
  destruct (Z.eqb_spec (b_down (bget t (L - 1, tr))) 0) as [E|E].
  - unfold present, lvl. rewrite Z0. cbn. lia.
  - apply gw_mono. replace L with (L - 1 + 1) at 1 by lia.
    apply (tk_down _ _ K); [apply gw_p_present|apply gw_p_ne|].
    destruct (tk_node _ _ K _ _ gw_p_present gw_p_ne) as (_ & _ & _ & _ & _ & Hd). lia.
Qed.
Lemma gw_cases n : present t' n ->
  present t n \/ n = (L, nr) \/ (n = (L, tr) /\ bget t' n = fresh0 L tr (L - 1, tr)).
Proof.
  intros Hp. destruct (present_dec t n) as [|Hn]; auto. right.
  destruct (nid_eq_dec n (L, nr)) as [->|N2]; auto. right.
  destruct (nid_eq_dec n (L - 1, tr)) as [->|N1]; [exfalso; apply Hn; apply gw_p_present|].
  destruct (nid_eq_dec n (L, tr)) as [->|N3].
  - split; auto. pose proof (gr_zero _ _ _ _ G) as Z0. cbn [snd] in Z0. rewrite <- Etr in Z0.
    destruct (Z.eqb_spec (b_down (bget t (L - 1, tr))) 0) as [E|E]; auto.
    exfalso. apply Hn. unfold present, lvl in *. rewrite Z0 in Hp. auto.
  - exfalso. apply Hn. unfold present, lvl in *. rewrite (gr_other _ _ _ _ G n) in Hp by (rewrite <- ?Etr; auto). auto.
Qed.
Lemma gw_new_fields : lvl t' (L, nr) = L /\ brev t' (L, nr) = nr /\
  b_parent (bget t' (L, nr)) = None /\ b_down (bget t' (L, nr)) = 0.
Proof. unfold lvl, brev. rewrite (gr_new _ _ _ _ G). cbn. auto. Qed.
Lemma gw_nib : nib nr L <> 0.
Proof.
  intros Z0. pose proof gw_nr. pose proof gw_L16. replace L with (L - 1 + 1) in Z0 by lia.
  apply nib_0 in Z0; try lia. replace (L - 1 + 1) with L in Z0 by lia.
  rewrite gw_trunc_nr in Z0. apply gw_tr_ne. rewrite Etr. auto.
Qed.
Lemma gw_nib_tr : nib tr L = 0.
Proof.
  pose proof gw_tr_range. pose proof gw_L16.
  replace L with (L - 1 + 1) by lia. apply nib_0; try lia.
  replace (L - 1 + 1) with L by lia. rewrite !trunc_id; auto; try lia.
  - apply gw_tr_div.
  - apply gw_tr_divL.
Qed.

Lemma gw_prefix l : 1 <= l <= 16 -> m - 1 < 68 - 4 * l ->
  present t' (l, trunc l nr) /\ present t' (l, trunc l cv).
Proof.
  intros Hl Hlm. pose proof gw_level. pose proof gw_L16. pose proof gw_cv.
  destruct (Z.eq_dec l L) as [->|Hne].
  - rewrite gw_trunc_nr. split; [apply gw_new_present|].
    destruct (Z_lt_ge_dec m (68 - 4 * L)) as [Hlt|Hge].
    + apply gw_mono. apply Hpre; lia.
    + (* 2^m = sz (L-1) *)
      assert (Em : 2 ^ m = sz (L - 1)) by (rewrite sz_pow2 by lia; f_equal; lia).
      pose proof Hdiv as Hdv. rewrite Em in Hdv.
      assert (E1 : trunc L cv = cv).
      { apply trunc_id; [lia|]. apply (Z.divide_trans _ (sz (L - 1))); auto. apply sz_le; lia. }
      assert (E2 : tr = cv) by (rewrite gw_tr; apply trunc_id; auto; lia).
      rewrite E1, <- E2. apply gw_zero_present.
  - assert (l <= L - 1) by lia. rewrite gw_same_trunc by lia.
    assert (present t (l, trunc l cv)) by (apply Hpre; lia).
    split; apply gw_mono; auto.
Qed.

Lemma gw_brev_in n : In n bl -> brev t' n = brev t n.
Proof. intros H. apply gw_old. apply (tk_bl _ _ K n H). Qed.

Lemma trie_ok_grow : trie_ok t' (a ++ x :: (L, nr) :: c :: b).
Proof.
  pose proof gw_nr as Rnr. pose proof gw_L16 as RL. pose proof gw_tr_range as Rtr.
  pose proof gw_new_fields as (F1 & F2 & F3 & F4).
  assert (Hbl : forall n, In n bl -> In n (a ++ x :: (L, nr) :: c :: b)).
  { intros n. unfold bl. rewrite !in_app_iff. cbn. tauto. }
  assert (Hbl' : forall n, In n (a ++ x :: (L, nr) :: c :: b) -> n = (L, nr) \/ In n bl).
  { intros n. unfold bl. rewrite !in_app_iff. cbn. intuition. }
  constructor.
  - destruct (tk_bmax _ _ K) as (A1 & A2 & A3).
    destruct (gw_old bmax (bmax_present _ _ K)) as (B1 & B2 & B3 & _). rewrite B1, B2, B3. auto.
  - intros l v Hp Hn. destruct (gw_cases _ Hp) as [Ho|[E|[E E']]].
    + destruct (tk_node _ _ K l v Ho Hn) as (A1 & A2 & A3 & A4 & A5 & A6).
      destruct (gw_old _ Ho) as (B1 & B2 & B3 & B4). rewrite B1, B2.
      repeat split; auto; try lia; destruct B4 as [B4|(B4 & B5)]; lia.
    + inversion E; subst l v. rewrite F1, F2, F4.
      destruct (level_of_spec nr Rnr) as (H1 & H2 & _). rewrite <- EL in H1, H2. repeat split; auto; lia.
    + inversion E; subst l v. unfold lvl, brev. rewrite E'. cbn.
      repeat split; auto; try lia. apply gw_tr_divL.
  - intros l v Hp Hn Hd. destruct (gw_cases _ Hp) as [Ho|[E|[E E']]].
    + destruct (gw_old _ Ho) as (_ & _ & _ & [B4|(B4 & B5)]).
      * apply gw_mono. apply (tk_down _ _ K); auto. lia.
      * inversion B4; subst l v. replace (L - 1 + 1) with L by lia. apply gw_zero_present.
    + inversion E; subst l v. rewrite F4 in Hd. lia.
    + inversion E; subst l v. rewrite E' in Hd. cbn in Hd. lia.
  - intros l v Hp Hn H2. destruct (gw_cases _ Hp) as [Ho|[E|[E E']]].
    + destruct (tk_up _ _ K l v Ho Hn H2) as [A1 A2]. split; [apply gw_mono; auto|].
      destruct (gw_old _ A1) as (_ & _ & _ & [B4|(B4 & B5)]); lia.
    + inversion E; subst l v. rewrite <- Etr. split; [apply gw_mono, gw_p_present|].
      destruct (gr_par _ _ _ _ G) as (_ & _ & _ & _ & _ & _ & A7). rewrite <- Etr in A7; exact A7.
    + inversion E; subst l v. rewrite trunc_id by (auto using gw_tr_div; lia).
      split; [apply gw_mono, gw_p_present|]. rewrite gw_nib_tr.
      destruct (gr_par _ _ _ _ G) as (_ & _ & _ & _ & _ & _ & A7). rewrite <- Etr in A7.
      pose proof (nib_range nr L ltac:(lia) ltac:(lia)). lia.
  - intros l v Hp Hn. destruct (gw_cases _ Hp) as [Ho|[E|[E E']]].
    + destruct (gw_old _ Ho) as (_ & _ & B3 & _). rewrite B3.
      destruct (tk_link _ _ K l v Ho Hn) as [A|(A1 & A2 & A3)]; auto.
    + inversion E; subst l v. right. rewrite F3. split; [right; apply gw_nib|]. split; auto.
      apply in_or_app; right; right; left; auto.
    + inversion E; subst l v. left. rewrite E'. cbn. split; [lia|]. split; [apply gw_nib_tr|]. auto.
  - intros i Hi. apply gw_mono, (tk_top _ _ K); auto.
  - intros n Hin. destruct (Hbl' n Hin) as [->|Ho].
    + split; [apply gw_new_present|auto].
    + destruct (tk_bl _ _ K n Ho) as [A1 A2]. split; [apply gw_mono; auto|].
      destruct (gw_old _ A1) as (_ & _ & B3 & _). rewrite B3; auto.
  - destruct (tk_head _ _ K) as (bl' & E1 & E2). unfold bl in E1.
    destruct a as [|z a'].
    + cbn in E1. injection E1 as Ex Ebl. exists ((L, nr) :: c :: b). split; [cbn; congruence|].
      rewrite <- Ebl in E2.
      intros [B|B]; [inversion B; lia|auto].
    + cbn in E1. injection E1 as Ex Ebl. exists (a' ++ x :: (L, nr) :: c :: b).
      split; [cbn; congruence|].
      intros B. apply E2. rewrite <- Ebl. rewrite in_app_iff in *. cbn [In] in *.
      destruct B as [B|[B|[B|B]]]; auto. exfalso; inversion B; lia.
  - assert (Hx : In x bl) by (unfold bl; apply in_or_app; right; left; auto).
    pose proof gw_pow. pose proof gw_pow_pos.
    apply sorted_insert.
    + intros u v w. cbn. lia.
    + rewrite F2, (gw_brev_in x) by auto. unfold up in Hup.
      destruct (nid_eqb x bmax) eqn:Ex.
      * apply nid_eqb_eq in Ex; subst x. destruct (tk_bmax _ _ K) as (_ & -> & _). auto.
      * rewrite Hup. rewrite Enr. lia.
    + rewrite F2, (gw_brev_in c) by apply gw_c_bl. rewrite <- Ecv. rewrite Enr. lia.
    + eapply sorted_ext_in; [|exact (tk_sorted _ _ K)].
      intros u v Hu Hv. cbn. rewrite (gw_brev_in u Hu), (gw_brev_in v Hv). auto.
  - intros a0 x0 c0 b0 E.
    assert (HA : adj (a ++ x :: (L, nr) :: c :: b) x0 c0) by (exists a0, b0; auto).
    assert (Hup' : forall n, In n bl -> up t' n = up t n).
    { intros n Hn. unfold up. rewrite (gw_brev_in n Hn). auto. }
    pose proof gw_pow as PW.
    destruct (adj_insert _ _ _ _ _ _ _ HA) as [[-> ->]|[[-> ->]|(a1 & b1 & E1)]].
    + exists (m - 1). split; [lia|]. rewrite F2. split; [|split].
      * rewrite Hup' by (unfold bl; apply in_or_app; right; left; auto). rewrite Hup. rewrite Enr. lia.
      * destruct gw_nr_odd as [q ->]. exists (2 * q + 1). ring.
      * intros l Hl Hlm. apply gw_prefix; lia.
    + exists (m - 1). split; [lia|]. rewrite (gw_brev_in c) by apply gw_c_bl. rewrite <- Ecv. split; [|split].
      * unfold up. destruct (nid_eqb (L, nr) bmax) eqn:Ex; [apply nid_eqb_eq in Ex; inversion Ex; lia|].
        rewrite F2. lia.
      * apply (Z.divide_trans _ (2 ^ m)); auto. apply pow2_divide; lia.
      * intros l Hl Hlm. apply gw_prefix; lia.
    + fold bl in E1.
      assert (Hx0 : In x0 bl) by (rewrite E1; apply in_or_app; right; left; auto).
      assert (Hc0 : In c0 bl) by (rewrite E1; apply in_or_app; right; right; left; auto).
      destruct (tk_dyadic _ _ K a1 x0 c0 b1 E1) as (m0 & A1 & A2 & A3 & A4).
      exists m0. rewrite (gw_brev_in c0), Hup' by auto. repeat split; auto.
      intros l Hl Hlm. apply gw_mono; auto.
Qed.

Lemma grow_brev_old n : In n bl -> brev t' n = brev t n.
Proof. apply gw_brev_in. Qed.
Lemma grow_present_old n : present t n -> present t' n.
Proof. apply gw_mono. Qed.
End Grow.
