(** The bucket table in the embedded mode. *)
From Verif Require Import Base BaseProofs Util UtilProofs Bucket TrieProofs TrieInv TrieGrow MapModel ItemProofs MapInv MapSplit.
From Coq Require Import ZifyBool Sorted.
Local Open Scope Z_scope.

Lemma bfpe_loop_spec t bl lv nr : trie_ok t bl -> 0 < nr < W64 ->
  (forall l, 1 <= l < level_of nr -> present t (l, trunc l nr)) ->
  forall f l, 1 <= l <= level_of nr -> (level_of nr - l <= Z.of_nat f) ->
  (l = level_of nr -> present t (l, nr)) ->
  exists t' lv', bfpe_loop f t lv (l + 1) (level_of nr) nr (l, trunc l nr) = (t', lv', (level_of nr, nr)) /\
    ((present t (level_of nr, nr) /\ t' = t /\ lv' = lv) \/
     (~ present t (level_of nr, nr) /\ grown t t' (level_of nr) nr /\ 2 <= level_of nr)).
Proof.
  intros K Hnr Hpre. destruct (level_of_spec nr Hnr) as (HLr & HLd & HLn).
  set (L := level_of nr) in *. 
  assert (HtL : trunc L nr = nr) by (apply trunc_id; auto; lia).
  intros f. induction f as [|f IH]; intros l Hl Hf HpL.
  - assert (l = L) by lia. subst l. cbn [bfpe_loop]. rewrite HtL.
    exists t, lv. split; auto.
  - cbn [bfpe_loop]. destruct (Z.ltb_spec L (l + 1)) as [Hlt|Hge].
    { assert (l = L) by lia. subst l. rewrite HtL. exists t, lv. split; auto. }
    assert (Hl15 : l <= 15) by lia.
    assert (Hpl : present t (l, trunc l nr)) by (apply Hpre; lia).
    assert (Hnl : (l, trunc l nr) <> bmax) by (intros B; inversion B; lia).
    destruct (tk_node _ _ K _ _ Hpl Hnl) as (_ & HVl & HDl & HLvl & HRl & Hdn).
    assert (Hc : child (l, trunc l nr) (nib nr (l + 1)) = (l + 1, trunc (l + 1) nr)).
    { rewrite child_eq, trunc_step by lia. reflexivity. }
    pose proof (nib_range nr (l + 1) ltac:(lia) ltac:(lia)) as Hnib.
    destruct (Z.eq_dec (l + 1) L) as [EL|NL].
    + (* the last level *)
      assert (Hnz : nib nr (l + 1) <> 0).
      { intros Z0. apply nib_0 in Z0; try lia. rewrite EL, HtL in Z0. apply HLn.
        replace (L - 1) with l by lia. rewrite Z0. apply trunc_div. }
      rewrite Hc. rewrite EL. rewrite HtL. rewrite EL in Hnz, Hnib.
      destruct (present_dec t (L, nr)) as [Hp|Hp].
      * assert (Hb : nib nr L < b_down (bget t (l, trunc l nr))).
        { rewrite <- EL. apply (present_child t bl); auto; try lia. rewrite EL, HtL; auto. }
        rewrite ensure_down_id by lia.
        destruct (Z.leb_spec (b_down (bget t (l, trunc l nr))) (nib nr L)); [lia|].
        destruct (Z.eqb_spec (lvl t (L, nr)) 0) as [Z0|_]; [unfold present in Hp; lia|].
        exists t, lv. split.
        { destruct f; cbn [bfpe_loop]; auto. destruct (Z.ltb_spec L (L + 1)); auto. lia. }
        auto.
      * (* creation *)
        assert (Elor2 : forall t1, (b_level (bget t1 (l, trunc l nr)), b_rev (bget t1 (l, trunc l nr))) =
             (b_level (bget t (l, trunc l nr)), b_rev (bget t (l, trunc l nr))) ->
             new_child t1 (l, trunc l nr) L (nib nr L) = fresh L nr).
        { intros t1 Ht1. injection Ht1 as El Er. unfold new_child, fresh, brev.
          unfold lvl in HLvl. unfold brev in HRl. rewrite HLvl in El. rewrite HRl in Er.
          rewrite El, Er, EL. f_equal.
          rewrite lor_add; try lia.
          - replace (trunc l nr + nib nr L * sz L) with (trunc (l + 1) nr); [rewrite EL; auto|].
            rewrite trunc_step by lia. rewrite EL; auto.
          - replace (L - 1) with l by lia. apply trunc_div. }
        assert (Hcp : (L, nr) <> (l, trunc l nr)) by (intros B; inversion B; lia).
        assert (Hc0c : (L, trunc l nr) <> (L, nr)).
        { intros B; inversion B as [B1]. apply Hnz. rewrite <- EL. apply nib_0; try lia.
          rewrite EL, HtL. auto. }
        assert (Hc0p : (L, trunc l nr) <> (l, trunc l nr)) by (intros B; inversion B; lia).
        assert (Hch0 : child (l, trunc l nr) 0 = (L, trunc l nr)).
        { rewrite child_eq. rewrite EL. f_equal. lia. }
        unfold ensure_down. rewrite Hch0.
        destruct (Z.eqb_spec (b_down (bget t (l, trunc l nr))) 0) as [D0|D0].
        -- (* no children yet *)
           set (t1 := tset (tset t (L, trunc l nr) (new_child0 t (l, trunc l nr))) (l, trunc l nr)
                        (set_down (bget t (l, trunc l nr)) 1)).
           assert (G1 : bget t1 (l, trunc l nr) = set_down (bget t (l, trunc l nr)) 1)
             by (unfold t1; apply bget_tset_eq).
           rewrite G1. cbn [b_down set_down].
           destruct (Z.leb_spec 1 (nib nr L)); [|lia].
           assert (Lc : lvl (tupd t1 (l, trunc l nr) (fun b => set_down b (nib nr L + 1))) (L, nr) = 0).
           { unfold lvl, tupd. rewrite bget_tset_ne by auto. unfold t1. rewrite !bget_tset_ne by auto.
             unfold present, lvl in Hp. lia. }
           rewrite Lc. change (0 =? 0) with true. cbv iota.
           rewrite Elor2 by (unfold tupd; rewrite bget_tset_eq, G1; reflexivity).
           eexists _, _. split; [reflexivity|right]. split; [auto|]. split; [|lia].
           constructor; cbn zeta; try replace (L - 1) with l by lia; cbn [snd].
           ++ apply bget_tset_eq.
           ++ rewrite bget_tset_ne by auto. unfold tupd. rewrite bget_tset_eq.
              rewrite G1. cbn [b_level b_rev b_parent b_len b_pool b_down set_down]. repeat split; lia.
           ++ rewrite D0. change (0 =? 0) with true. cbv iota. rewrite bget_tset_ne by auto.
              unfold tupd. rewrite bget_tset_ne by auto. unfold t1. rewrite bget_tset_ne by auto.
              rewrite bget_tset_eq. unfold new_child0, fresh0, lvl, brev in *.
              rewrite HLvl, HRl, EL. reflexivity.
           ++ intros n N1 N2 N3. unfold tupd. rewrite !bget_tset_ne by auto.
              unfold t1. rewrite !bget_tset_ne by auto. reflexivity.
        -- (* table exists *)
           destruct (Z.leb_spec (b_down (bget t (l, trunc l nr))) (nib nr L)).
           ++ assert (Lc : lvl (tupd t (l, trunc l nr) (fun b => set_down b (nib nr L + 1))) (L, nr) = 0).
              { unfold lvl, tupd. rewrite bget_tset_ne by auto. unfold present, lvl in Hp. lia. }
              rewrite Lc. change (0 =? 0) with true. cbv iota.
              rewrite Elor2 by (unfold tupd; rewrite bget_tset_eq; reflexivity).
              eexists _, _. split; [reflexivity|right]. split; [auto|]. split; [|lia].
              constructor; cbn zeta; try replace (L - 1) with l by lia; cbn [snd].
              ** apply bget_tset_eq.
              ** rewrite bget_tset_ne by auto. unfold tupd. rewrite bget_tset_eq. cbn [b_level b_rev b_parent b_len b_pool b_down set_down]. repeat split; lia.
              ** destruct (Z.eqb_spec (b_down (bget t (l, trunc l nr))) 0); [lia|].
                 unfold tupd. rewrite !bget_tset_ne by auto. reflexivity.
              ** intros n N1 N2 N3. unfold tupd. rewrite !bget_tset_ne by auto. reflexivity.
           ++ destruct (Z.eqb_spec (lvl t (L, nr)) 0) as [Z0|NZ]; [|exfalso; apply Hp; exact NZ].
              rewrite Elor2 by reflexivity.
              eexists _, _. split; [reflexivity|right].
              split; [auto|]. split; [|lia].
              constructor; cbn zeta; try replace (L - 1) with l by lia; cbn [snd].
              ** apply bget_tset_eq.
              ** rewrite bget_tset_ne by auto. repeat split; lia.
              ** destruct (Z.eqb_spec (b_down (bget t (l, trunc l nr))) 0); [lia|].
                 rewrite bget_tset_ne by auto. reflexivity.
              ** intros q N1 N2 N3. rewrite bget_tset_ne by auto. reflexivity.
    + (* an inner level *)
      assert (Hpc : present t (l + 1, trunc (l + 1) nr)) by (apply Hpre; lia).
      pose proof (present_child t bl l nr K ltac:(lia) ltac:(lia) Hpc) as Hb.
      rewrite ensure_down_id by lia. rewrite Hc.
      destruct (Z.leb_spec (b_down (bget t (l, trunc l nr))) (nib nr (l + 1))); [lia|].
      destruct (Z.eqb_spec (lvl t (l + 1, trunc (l + 1) nr)) 0) as [Z0|_]; [unfold present in Hpc; lia|].
      apply IH; try lia.
Qed.


(** * The search finds the largest boundary that is not larger *)
Lemma lower_slot_max t n k : forall i, 0 <= i < Z.of_nat k -> present t (child n i) ->
  exists j, lower_slot t n k = Some (child n j) /\ i <= j < Z.of_nat k.
Proof.
  induction k as [|k IH]; intros i Hi Hp; [lia|]. cbn [lower_slot].
  destruct (Z.eqb_spec (lvl t (child n (Z.of_nat k))) 0) as [E|E].
  - destruct (Z.eq_dec i (Z.of_nat k)) as [->|N]; [unfold present in Hp; lia|].
    destruct (IH i ltac:(lia) Hp) as (j & A & B). exists j. split; auto. lia.
  - exists (Z.of_nat k). split; auto. lia.
Qed.
Lemma largest_slot_max t n k : forall i, 0 <= i < Z.of_nat k -> present t (child n i) -> brev t (child n i) <> 0 ->
  exists j, largest_slot t n k = Some (child n j) /\ i <= j < Z.of_nat k.
Proof.
  induction k as [|k IH]; intros i Hi Hp Hr; [lia|]. cbn [largest_slot].
  destruct ((lvl t (child n (Z.of_nat k)) =? 0) || (brev t (child n (Z.of_nat k)) =? 0)) eqn:E.
  - destruct (Z.eq_dec i (Z.of_nat k)) as [->|N]; [unfold present in Hp; lia|].
    destruct (IH i ltac:(lia) Hp Hr) as (j & A & B). exists j. split; auto. lia.
  - exists (Z.of_nat k). split; auto. lia.
Qed.

(** a node v2 strictly inside the block of (l, v) goes through the child table of (l, v) *)
Lemma inner_child t bl l v l2 v2 : trie_ok t bl -> node t (l, v) -> node t (l2, v2) -> v < v2 < v + sz l ->
  l <= 15 /\ l < l2 /\ 0 <= nib v2 (l + 1) < b_down (bget t (l, v)) /\
  present t (child (l, v) (nib v2 (l + 1))) /\
  v + nib v2 (l + 1) * sz (l + 1) <= v2 < v + nib v2 (l + 1) * sz (l + 1) + sz (l + 1).
Proof.
  intros K [P N] [P2 N2] H.
  destruct (tk_node _ _ K l v P N) as (HL & HV & HD & _).
  destruct (tk_node _ _ K l2 v2 P2 N2) as (HL2 & HV2 & HD2 & _).
  assert (T : trunc l v2 = v) by (apply trunc_unique; auto; lia).
  assert (LL : l < l2).
  { destruct (Z_lt_ge_dec l l2); auto. exfalso.
    assert (sz l | v2) by (apply (Z.divide_trans _ (sz l2)); auto; apply sz_le; lia).
    rewrite trunc_id in T by (auto; lia). lia. }
  assert (L15 : l <= 15) by lia.
  pose proof (nib_range v2 (l + 1) ltac:(lia) ltac:(lia)) as NR.
  assert (TS : trunc (l + 1) v2 = v + nib v2 (l + 1) * sz (l + 1)) by (rewrite trunc_step, T by lia; auto).
  pose proof (prefixes_present t bl K l2 v2 P2 N2 (l + 1) ltac:(lia)) as PP.
  pose proof (present_child t bl l v2 K ltac:(lia) ltac:(lia) PP) as PC. rewrite T in PC.
  split; auto. split; auto. split; [lia|]. split; [rewrite child_eq, <- TS; auto|].
  rewrite <- TS. pose proof (trunc_le (l + 1) v2 ltac:(lia) ltac:(lia)). lia.
Qed.

Lemma largest_down_max t bl : trie_ok t bl -> forall f l v, node t (l, v) -> 0 < v -> 16 - l <= Z.of_nat f ->
  forall l2 v2, node t (l2, v2) -> v <= v2 < v + sz l -> v2 <= snd (largest_down f t (l, v)).
Proof.
  intros K f. induction f as [|f IH]; intros l v Hnode Hv Hf l2 v2 Hn2 H2.
  - destruct (tk_node _ _ K l v (proj1 Hnode) (proj2 Hnode)) as (HL & _). cbn [largest_down snd].
    assert (l = 16) by lia. subst l. rewrite sz_16 in H2. lia.
  - destruct (Z.eq_dec v2 v) as [->|NE].
    { destruct (largest_down_spec t bl K (S f) l v Hnode) as (l' & v' & E & _ & R). rewrite E. cbn [snd]. lia. }
    destruct (inner_child t bl l v l2 v2 K Hnode Hn2 ltac:(lia)) as (L15 & LL & ND & PC & RG).
    destruct (tk_node _ _ K l v (proj1 Hnode) (proj2 Hnode)) as (HL & _ & _ & _ & _ & HD).
    pose proof (sz_pos (l + 1) ltac:(lia)) as SP.
    assert (CN : forall i, 0 <= i -> present t (child (l, v) i) ->
       node t (l + 1, v + i * sz (l + 1)) /\ brev t (child (l, v) i) = v + i * sz (l + 1)).
    { intros i Hi Hp. rewrite child_eq in *. assert (NB : (l + 1, v + i * sz (l + 1)) <> bmax) by (intros B; inversion B; lia).
      split; [split; auto|]. apply (tk_node _ _ K _ _ Hp NB). }
    cbn [largest_down].
    destruct (largest_slot_max t (l, v) (Z.to_nat (b_down (bget t (l, v)))) (nib v2 (l + 1)) ltac:(lia) PC) as (j & E & Hj).
    { destruct (CN _ (proj1 ND) PC) as [_ ->]. nia. }
    rewrite E.
    destruct (largest_slot_spec _ _ _ _ E) as (j' & Hj' & Ej & PJ).
    destruct (CN j ltac:(lia)) as [NJ _]; [auto|].
    rewrite child_eq.
    destruct (largest_down_spec t bl K f _ _ NJ) as (l' & v' & E' & _ & R').
    destruct (Z.eq_dec j (nib v2 (l + 1))) as [->|NJ2].
    + apply (IH (l + 1) (v + nib v2 (l + 1) * sz (l + 1)) NJ ltac:(nia) ltac:(lia) l2 v2 Hn2). lia.
    + rewrite E'. cbn [snd]. nia.
Qed.

(** the first element below a bound, with its predecessor *)
Lemma first_small t bl B : StronglySorted (fun a b => brev t b < brev t a) bl ->
  forall n, In n bl -> brev t n < B -> (exists c b, bl = c :: b /\ brev t c < B) \/
  exists a x c b, bl = a ++ x :: c :: b /\ brev t c < B <= brev t x /\ brev t n <= brev t c.
Proof.
  intros S. induction S as [|y bl S IH F]; intros n Hn HB; [destruct Hn|].
  destruct (Z_lt_ge_dec (brev t y) B) as [H|H].
  - left. exists y, bl. auto.
  - right. destruct Hn as [->|Hn]; [lia|].
    rewrite Forall_forall in F.
    destruct (IH n Hn HB) as [(c & b & -> & Hc)|(a & x & c & b & -> & Hc)].
    + exists [], y, c, b. split; auto. split; [lia|]. destruct Hn as [->|Hn]; [lia|].
      apply StronglySorted_inv in S as [_ F']. rewrite Forall_forall in F'. specialize (F' n Hn). cbn in F'. lia.
    + exists (y :: a), x, c, b. auto.
Qed.

Lemma pow2_between k v : 0 <= k < 64 -> forall t bl, trie_ok t bl -> forall n, In n bl -> brev t n = v -> 0 < v < 2 ^ k ->
  exists x, In x bl /\ brev t x = 2 ^ k /\ x <> bmax.
Proof.
  intros Hk t bl K n Hn En Hv.
  destruct (tk_head _ _ K) as (bl' & EH & _). destruct (tk_bmax _ _ K) as (_ & BM & _).
  assert (PK : 2 ^ k < MAX64).
  { assert (2 ^ k <= 2 ^ 63) by (apply Z.pow_le_mono_r; lia). rewrite MAX64_val. change (2 ^ 63) with 9223372036854775808 in H. lia. }
  destruct (first_small t bl (2 ^ k) (tk_sorted _ _ K) n Hn ltac:(lia)) as [(c & b & E & Hc)|(a & x & c & b & E & Hc & Hnc)].
  { rewrite EH in E. injection E as <- <-. lia. }
  destruct (tk_dyadic _ _ K a x c b E) as (m & Hm & HU & HD & _).
  assert (Hc0 : 0 < brev t c) by lia.
  destruct HD as [q Hq]. pose proof (Z.pow_pos_nonneg 2 m ltac:(lia) ltac:(lia)) as PM.
  assert (Hq1 : 1 <= q) by nia.
  assert (MK : m < k).
  { destruct (Z_lt_ge_dec m k); auto. pose proof (Z.pow_le_mono_r 2 k m ltac:(lia) ltac:(lia)). nia. }
  assert (LE : brev t c + 2 ^ m <= 2 ^ k).
  { destruct (pow2_divide m k ltac:(lia)) as [r Hr].
    assert (QR : q < r) by (apply (Z.mul_lt_mono_pos_r (2 ^ m)); lia).
    rewrite Hr, Hq. assert ((q + 1) * 2 ^ m <= r * 2 ^ m) by (apply Z.mul_le_mono_nonneg_r; lia). lia. }
  exists x. split; [rewrite E; apply in_or_app; right; left; auto|].
  unfold up in HU. destruct (nid_eqb x bmax) eqn:EX.
  - exfalso. rewrite W64_val in HU. rewrite MAX64_val in PK. lia.
  - split; [lia|]. intros ->. rewrite nid_eqb_refl in EX. discriminate.
Qed.

Lemma find_loop_max t bl rv : trie_ok t bl -> 0 <= rv < W64 ->
  forall f l, node t (l, trunc l rv) -> l + Z.of_nat f = 15 ->
  forall l2 v2, In (l2, v2) bl -> (l2, v2) <> bmax -> v2 <= rv -> (16 | v2) \/ v2 / 16 <> rv / 16 ->
  v2 <= snd (find_loop f t (l + 1) rv (l, trunc l rv)).
Proof.
  intros K Hrv f. induction f as [|f IH]; intros l Hnode Hl l2 v2 Hin Hn2 Hv2 H16.
  - cbn [find_loop snd]. assert (l = 15) by lia. subst l.
    destruct (tk_bl _ _ K _ Hin) as [P2 _].
    destruct (tk_node _ _ K l2 v2 P2 Hn2) as (_ & HV & _ & _ & HR & _).
    pose proof (Z.div_le_mono v2 rv (sz 15) ltac:(reflexivity) Hv2) as DM. unfold trunc. change (sz 15) with 16 in *.
    destruct H16 as [[z ->]|H16]; [rewrite Z.div_mul in DM by lia; lia|].
    pose proof (Z.mod_pos_bound v2 16 ltac:(lia)). pose proof (Z.div_mod v2 16 ltac:(lia)). lia.
  - pose proof (trunc_le l rv ltac:(lia) ltac:(lia)) as TL. set (T := trunc l rv) in *.
    destruct (tk_node _ _ K _ _ (proj1 Hnode) (proj2 Hnode)) as (HL & HV & HD & HLv & HR & Hd).
    destruct (find_loop_spec t bl rv K Hrv (S f) l Hnode ltac:(lia)) as (lr & vr & ER & NR & _).
    assert (P2 : node t (l2, v2)) by (split; auto; apply (tk_bl _ _ K _ Hin)).
    destruct (tk_node _ _ K _ _ (proj1 P2) (proj2 P2)) as (_ & HV2 & _ & _ & HR2 & _).
    (* v2 inside the block *)
    assert (IN : T < v2 -> 0 <= nib v2 (l + 1) < b_down (bget t (l, T)) /\ nib v2 (l + 1) <= nib rv (l + 1) /\
       present t (child (l, T) (nib v2 (l + 1))) /\
       T + nib v2 (l + 1) * sz (l + 1) <= v2 < T + nib v2 (l + 1) * sz (l + 1) + sz (l + 1)).
    { intros H. destruct (inner_child t bl l T l2 v2 K Hnode P2 ltac:(lia)) as (A & B & C & D & E).
      split; auto. split; [|auto].
      pose proof (trunc_le (l + 1) rv ltac:(lia) ltac:(lia)) as TR. rewrite trunc_step in TR by lia. fold T in TR.
      pose proof (sz_pos (l + 1) ltac:(lia)). nia. }
    cbn [find_loop]. fold T in ER. 
    destruct (Z.eqb_spec (b_down (bget t (l, T))) 0) as [E0|E0].
    { cbn [snd]. destruct (Z_lt_ge_dec T v2) as [H|H]; [|lia]. specialize (IN H). lia. }
    pose proof (nib_range rv (l + 1) ltac:(lia) ltac:(lia)) as Hnib.
    set (d := b_down (bget t (l, T))) in *. set (idx := nib rv (l + 1)) in *.
    destruct ((d <=? idx) || (lvl t (child (l, T) idx) =? 0)) eqn:Ec.
    + set (nidx := if d - 1 <? idx then d - 1 else idx).
      assert (NX : 0 <= nidx) by (unfold nidx; destruct (d - 1 <? idx); lia).
      assert (LS : forall i, 0 <= i -> i <= idx -> i < d -> present t (child (l, T) i) ->
         exists j, lower_slot t (l, T) (Z.to_nat (nidx + 1)) = Some (child (l, T) j) /\ i <= j < idx /\ present t (child (l, T) j)).
      { intros i Hi Hi2 Hi3 Hp.
        destruct (lower_slot_max t (l, T) (Z.to_nat (nidx + 1)) i) as (j & E & Hj); auto.
        { unfold nidx. destruct (Z.ltb_spec (d - 1) idx); lia. }
        exists j. split; auto. destruct (lower_slot_spec _ _ _ _ E) as (j' & Hj' & Ej & PJ). split; auto. split; [lia|].
        rewrite Z2Nat.id in Hj by lia.
        destruct (Z.eq_dec j idx) as [->|]; [exfalso|unfold nidx in Hj; destruct (Z.ltb_spec (d - 1) idx); lia].
        unfold present in PJ. apply orb_true_iff in Ec as [Ec|Ec]; [|lia].
        unfold nidx in Hj. destruct (Z.ltb_spec (d - 1) idx); lia. }
      destruct (lower_slot t (l, T) (Z.to_nat (nidx + 1))) as [c|] eqn:El.
      * destruct (lower_slot_spec _ _ _ _ El) as (i & Hi & -> & Hc).
        destruct (child_range t bl l _ i K Hnode ltac:(unfold nidx in Hi; destruct (d - 1 <? idx); lia) Hc) as (A & B & C & D).
        rewrite child_eq. destruct (largest_down_spec t bl K 16 _ _ B) as (l' & v' & E' & N' & R').
        destruct (Z_lt_ge_dec T v2) as [H|H]; [|rewrite E'; cbn [snd]; lia].
        destruct (IN H) as (I1 & I2 & I3 & I4).
        destruct (LS _ (proj1 I1) I2 (proj2 I1) I3) as (j & Ej & Hj & PJ).
        injection Ej as Ej. unfold child in Ej. cbn [fst snd] in Ej.
        pose proof (sz_pos (l + 1) ltac:(lia)) as SP.
        assert (i = j).
        { apply Z.add_cancel_l in Ej. apply Z.mul_cancel_r in Ej; auto.
          pose proof (Z.pow_pos_nonneg 16 (15 - l) ltac:(lia) ltac:(lia)). lia. }
        subst j.
        destruct (Z.eq_dec (T + i * sz (l + 1)) 0) as [Z0|NZ].
        -- (* block of 0: nothing inside *)
           exfalso. assert (T = 0 /\ i = 0) as [T0 I0] by nia.
           assert (N0 : nib v2 (l + 1) = 0) by lia. rewrite N0 in I4.
           assert (V2 : 0 < v2 < 2 ^ (64 - 4 * (l + 1))).
           { rewrite <- sz_pow2 by lia. lia. }
           destruct (pow2_between (64 - 4 * (l + 1)) v2 ltac:(lia) t bl K (l2, v2) Hin HR2 V2) as (x & Hx & Rx & Nx).
           rewrite <- sz_pow2 in Rx by lia. destruct x as [lx vx].
           destruct (tk_bl _ _ K _ Hx) as [Px _].
           destruct (tk_node _ _ K lx vx Px Nx) as (_ & HVx & _ & _ & HRx & _).
           assert (vx = sz (l + 1)) by lia. subst vx.
           pose proof (linked_level t bl lx (sz (l + 1)) K Hx Nx ltac:(lia)) as LX.
           assert (LX2 : level_of (sz (l + 1)) = l + 1).
           { apply level_of_unique; try lia. apply Z.divide_refl.
             replace (l + 1 - 1) with l by lia. rewrite (sz_step l) by lia. intros [q Hq].
             assert (q = 0 \/ 1 <= q \/ q <= -1) as [->|[|]] by lia; nia. }
           rewrite LX2 in LX. rewrite <- LX in Px, Nx, HRx, Hx. clear LX.
           assert (P1 : present t (child (l, T) 1)).
           { rewrite child_eq. replace (T + 1 * sz (l + 1)) with (sz (l + 1)) by lia. exact Px. }
           pose proof (tk_up _ _ K _ _ Px Nx ltac:(lia)) as [_ U]. replace (l + 1 - 1) with l in U by lia.
           assert (TS : trunc l (sz (l + 1)) = 0).
           { apply trunc_unique; [lia|exists 0; lia|rewrite (sz_step l) by lia; lia]. }
           rewrite TS in U. replace (bget t (l, 0)) with (bget t (l, T)) in U by (rewrite T0; auto).
           assert (NB : nib (sz (l + 1)) (l + 1) = 1).
           { rewrite nib_eq by lia. rewrite Z.div_same by lia. reflexivity. }
           rewrite NB in U. fold d in U.
           assert (ID : 1 <= idx) by lia.
           destruct (LS 1 ltac:(lia) ID ltac:(lia) P1) as (j & Ej' & Hj' & _).
           injection Ej' as Ej'. unfold child in Ej'. cbn [fst snd] in Ej'. nia.
        -- destruct (Z_lt_ge_dec v2 (T + i * sz (l + 1))) as [H3|H3]; [rewrite E'; cbn [snd]; lia|].
           apply (largest_down_max t bl K 16 (l + 1) (T + i * sz (l + 1)) B ltac:(nia) ltac:(lia) l2 v2 P2).
           assert (NI : i < nib v2 (l + 1) + 1) by (apply (Z.mul_lt_mono_pos_r (sz (l + 1))); lia).
           assert (NE : nib v2 (l + 1) = i) by lia. rewrite NE in I4. lia.
      * cbn [snd]. destruct (Z_lt_ge_dec T v2) as [H|H]; [|lia].
        destruct (IN H) as (I1 & I2 & I3 & I4).
        destruct (LS _ (proj1 I1) I2 (proj2 I1) I3) as (j & Ej & _). discriminate.
    + apply orb_false_iff in Ec as [E1 E2].
      assert (Hc : child (l, T) idx = (l + 1, trunc (l + 1) rv)).
      { rewrite child_eq, trunc_step by lia. reflexivity. }
      rewrite Hc in *.
      assert (N' : node t (l + 1, trunc (l + 1) rv)).
      { split; [unfold present; lia|]. intros B; inversion B; lia. }
      apply (IH (l + 1) N' ltac:(lia) l2 v2); auto.
Qed.

Lemma find_bucket_near t bl rv : trie_ok t bl -> 0 <= rv < W64 ->
  forall n, In n bl -> n <> bmax -> brev t n <= rv -> (16 | brev t n) \/ brev t n / 16 <> rv / 16 -> brev t n <= brev t (find_bucket t rv).
Proof.
  intros K Hrv [l2 v2] Hin Hn Hle H16.
  destruct (find_bucket_spec t bl rv K Hrv) as (l & v & E & N & _ & HB).
  destruct (tk_node _ _ K l2 v2 (proj1 (tk_bl _ _ K _ Hin)) Hn) as (_ & _ & _ & _ & HR & _).
  rewrite E, HB, HR in *. unfold find_bucket in E. rewrite top_of_eq in E by lia.
  assert (HN : node t (1, trunc 1 rv)).
  { pose proof (tk_top _ _ K (rv / sz 1)) as T. split; [|intros B; inversion B].
    rewrite top_eq in T. unfold trunc. rewrite Z.mul_comm. apply T.
    rewrite sz_1. rewrite W64_val in Hrv. split; [apply Z.div_pos; lia|].
    apply Z.div_lt_upper_bound; [lia|]. change (16 ^ 15 * 16) with W64. rewrite W64_val. lia. }
  pose proof (find_loop_max t bl rv K Hrv 14 1 HN ltac:(lia) l2 v2 Hin Hn Hle H16) as X.
  change (1 + 1) with 2 in X. rewrite E in X. exact X.
Qed.
Lemma find_bucket_max t bl rv : trie_ok t bl -> 0 <= rv < W64 ->
  (forall n, In n bl -> n <> bmax -> (16 | brev t n)) ->
  forall n, In n bl -> n <> bmax -> brev t n <= rv -> brev t n <= brev t (find_bucket t rv).
Proof. intros K Hrv H16 n Hin Hn Hle. apply (find_bucket_near t bl rv K Hrv n Hin Hn Hle). left. auto. Qed.
