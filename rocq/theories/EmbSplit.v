(** makeBucket2 keeps the invariant and the contents. *)
From Verif Require Import Base BaseProofs Util UtilProofs Bucket TrieProofs TrieInv TrieGrow MapModel ItemProofs MapInv MapSplit
  EmbModel EmbPool EmbTrie EmbInv.
From Coq Require Import ZifyBool Sorted.
Local Open Scope Z_scope.
Local Opaque reverse64 level_of base find_bucket.

Lemma prev_as_b_adj a x c b : NoDup (a ++ x :: c :: b) -> prev_as_b (a ++ x :: c :: b) c = x.
Proof.
  induction a as [|z a IH]; intros ND; cbn [app prev_as_b].
  - rewrite nid_eqb_refl. auto.
  - cbn [app] in ND. apply NoDup_cons_iff in ND as [N ND]. specialize (IH ND).
    destruct a as [|w a]; cbn [app] in *.
    + destruct (nid_eqb x c) eqn:E; auto. apply nid_eqb_eq in E. subst.
      apply NoDup_cons_iff in ND as [N2 _]. exfalso. apply N2. left; auto.
    + destruct (nid_eqb w c) eqn:E; auto. apply nid_eqb_eq in E. subst.
      apply NoDup_cons_iff in ND as [N2 _]. exfalso. apply N2. apply in_or_app. right. right. left. auto.
Qed.

Lemma bfpe_eq t lv nr : 0 < nr < W64 ->
  bucket_from_pool_embedded t lv nr = Some (bfpe_loop 15 t lv (1 + 1) (level_of nr) nr (1, trunc 1 nr)).
Proof.
  intros H. unfold bucket_from_pool_embedded. destruct (level_of_spec nr H) as (HL & _).
  rewrite top_of_eq by lia. generalize dependent (level_of nr). intros L HL.
  destruct (Z.eqb_spec L 0); [lia|]. reflexivity.
Qed.

Definition mid_rev (t : trie) (y c : nid) : Z :=
  let r0 := brev t y / 2 + brev t c / 2 in if Z.odd r0 then u64 (r0 + 1) else r0.

Section Mid.
Variables (t : trie) (xl xa : list nid) (y : nid) (ds : list nid) (c : nid) (xb : list nid) (m : Z).
Hypothesis K : trie_ok t xl.
Hypothesis H16 : forall n, In n xl -> n <> bmax -> (16 | brev t n).
Hypothesis EX : xl = xa ++ y :: ds ++ c :: xb.
Hypothesis M : mid t y c m ds.
Hypothesis Hm : 5 <= m.
Let cv := brev t c.
Let nr := cv + 2 ^ (m - 1).

Lemma md_y : In y xl. Proof. rewrite EX. apply in_or_app. right. left. auto. Qed.
Lemma md_c : In c xl. Proof. rewrite EX. apply in_or_app. right. right. apply in_or_app. right. left. auto. Qed.
Lemma md_c_ne : c <> bmax.
Proof.
  intros ->. destruct (tk_head _ _ K) as (bl' & E & N). rewrite EX in E.
  destruct xa as [|z xa']; cbn [app] in E; injection E as _ <-; apply N.
  - apply in_or_app; right; left; auto.
  - apply in_or_app. right. right. apply in_or_app. right. left. auto.
Qed.
Lemma md_pow : 2 ^ m = 2 * 2 ^ (m - 1) /\ 16 <= 2 ^ (m - 1) /\ (16 | 2 ^ (m - 1)).
Proof.
  split; [|split].
  - replace m with (Z.succ (m - 1)) at 1 by lia. apply Z.pow_succ_r; lia.
  - change 16 with (2 ^ 4). apply Z.pow_le_mono_r; lia.
  - change 16 with (2 ^ 4). apply pow2_divide. lia.
Qed.
Lemma md_cv : 0 <= cv /\ (16 | cv).
Proof.
  split; [|apply H16; [apply md_c|apply md_c_ne]].
  destruct (tk_bl _ _ K _ md_c) as [P _]. pose proof md_c_ne as N. unfold cv. destruct c as [l v].
  destruct (tk_node _ _ K l v P N) as (_ & HV & _ & _ & -> & _). lia.
Qed.
Lemma md_up : up t y = cv + 2 ^ m /\ up t y <= W64.
Proof.
  split; [apply M|]. unfold up. destruct (nid_eqb y bmax) eqn:Ey; [lia|].
  assert (Ny : y <> bmax) by (intros ->; rewrite nid_eqb_refl in Ey; discriminate).
  destruct (tk_bl _ _ K _ md_y) as [P _]. destruct y as [l v].
  destruct (tk_node _ _ K l v P Ny) as (_ & HV & _ & _ & -> & _). lia.
Qed.
Lemma md_nr : cv < nr < up t y /\ 0 < nr < MAX64 - 1 /\ (16 | nr) /\ nr < brev t y.
Proof.
  destruct md_pow as (P1 & P2 & P3). destruct md_cv as (C1 & C2). destruct md_up as (U1 & U2).
  unfold nr. rewrite MAX64_val. rewrite W64_val in U2.
  split; [lia|]. split; [lia|]. split; [apply Z.divide_add_r; auto|].
  unfold up in U1. destruct (nid_eqb y bmax) eqn:Ey; [|lia].
  apply nid_eqb_eq in Ey. rewrite Ey. destruct (tk_bmax _ _ K) as (_ & -> & _). rewrite MAX64_val. rewrite W64_val in *. lia.
Qed.
Lemma md_mid_rev : mid_rev t y c = nr.
Proof.
  destruct md_pow as (P1 & P2 & P3). destruct md_cv as (C1 & q & C2). destruct md_up as (U1 & U2).
  unfold mid_rev. fold cv. destruct P3 as [r Hr]. unfold nr. unfold up in U1.
  assert (CD : cv / 2 = 8 * q) by (rewrite C2; replace (q * 16) with (8 * q * 2) by ring; apply Z.div_mul; lia).
  rewrite CD. destruct (nid_eqb y bmax) eqn:Ey.
  - apply nid_eqb_eq in Ey. rewrite Ey. destruct (tk_bmax _ _ K) as (_ & -> & _).
    rewrite MAX64_val. change (18446744073709551615 / 2) with 9223372036854775807.
    rewrite Z.odd_add, Z.odd_mul. change (Z.odd 8) with false. change (Z.odd 9223372036854775807) with true.
    cbn [andb xorb]. unfold u64. rewrite W64_val in *. rewrite Z.mod_small by lia. lia.
  - rewrite U1. replace (cv + 2 ^ m) with ((8 * q + 2 ^ (m - 1)) * 2) by lia. rewrite Z.div_mul by lia.
    rewrite Hr. replace (8 * q + r * 16 + 8 * q) with (2 * (8 * q + 8 * r)) by ring.
    rewrite Z.odd_mul. change (Z.odd 2) with false. cbn [andb]. lia.
Qed.

Lemma md_bfpe lv : exists t1 lv1, let nb := (level_of nr, nr) in
  bucket_from_pool_embedded t lv nr = Some (t1, lv1, nb) /\
  trie_ok t1 (xa ++ y :: nb :: c :: xb) /\
  (forall n, In n xl -> brev t1 n = brev t n /\ (n <> nb -> b_pool (bget t1 n) = b_pool (bget t n))) /\
  b_pool (bget t1 nb) = None /\ brev t1 nb = nr /\ nb <> bmax.
Proof.
  destruct md_nr as (N1 & N2 & N3 & N4). destruct md_cv as (C1 & C2). rewrite MAX64_val in N2.
  assert (NW : 0 < nr < W64) by (rewrite W64_val; lia).
  destruct (level_of_spec nr NW) as (HL & HLd & HLn).
  rewrite bfpe_eq by auto.
  assert (NBM : (level_of nr, nr) <> bmax) by (intros B; inversion B; lia).
  destruct M as (MU & MD & M0 & [MM|(d & MM & DD & DR & _)]).
  - (* new node *)
    rewrite MM in EX. cbn [app] in EX. pose proof (tk_sorted _ _ K) as TS.
    destruct (tk_dyadic _ _ K xa y c xb EX) as (m' & Hm0 & Hu & Hd & Hp).
    assert (m' = m).
    { rewrite MU in Hu. apply Z.add_cancel_l in Hu. symmetry in Hu. apply Z.pow_inj_r in Hu; lia. }
    subst m'. fold cv in MU, MD, Hu, Hd, Hp.
    assert (Hnp : ~ present t (level_of nr, nr)).
    { intros P. assert (Hin : In (level_of nr, nr) xl).
      { destruct (tk_link _ _ K _ _ P) as [(H2 & Hz & _)|(_ & _ & H)]; auto.
        exfalso. apply HLn. replace (level_of nr) with (level_of nr - 1 + 1) in Hz by lia.
        apply nib_0 in Hz; try lia. replace (level_of nr - 1 + 1) with (level_of nr) in Hz by lia.
        rewrite (trunc_id (level_of nr)) in Hz by (auto; lia). pose proof (trunc_div (level_of nr - 1) nr) as TD. rewrite <- Hz in TD. exact TD. }
      apply (sorted_gap _ _ xa y c xb _ TS EX Hin).
      destruct (tk_node _ _ K _ _ P) as (_ & _ & _ & _ & -> & _); [auto|fold cv; lia]. }
    assert (HL2 : 2 <= level_of nr).
    { destruct (Z.eq_dec (level_of nr) 1) as [E1|]; [|lia]. exfalso. apply Hnp. rewrite E1.
      rewrite E1 in HLd. destruct HLd as [q Hq].
      pose proof (tk_top _ _ K q) as T. rewrite top_eq in T. rewrite Hq. apply T.
      rewrite W64_val in NW. assert (sz 1 = 1152921504606846976) as Es by reflexivity. rewrite Es in Hq. lia. }
    assert (En : nr = cv + 2 ^ (m - 1)) by reflexivity.
    assert (KX : trie_ok t (xa ++ y :: c :: xb)) by (rewrite <- EX; auto).
    assert (NM : nr < MAX64) by (rewrite MAX64_val; lia).
    assert (Hpre : forall l, 1 <= l < level_of nr -> present t (l, trunc l nr)).
    { intros l Hl.
      pose proof (gw_level t xa y c xb m cv nr (level_of nr) eq_refl En eq_refl KX ltac:(lia) MU MD Hp NM) as GL.
      rewrite (gw_same_trunc t xa y c xb m cv nr (level_of nr) eq_refl En eq_refl KX ltac:(lia) MU MD Hp NM l) by lia.
      apply Hp; lia. }
    destruct (bfpe_loop_spec t xl lv nr K NW Hpre) with (f := 15%nat) (l := 1)
      as (t' & lv' & E & [(Hn & _)|(_ & GR & _)]); try (change (Z.of_nat 15) with 15; lia); [contradiction|].
    exists t', lv'. cbv zeta. rewrite E. split; auto.
    split; [|split; [|split; [|split; auto]]].
    + apply (trie_ok_grow t xa y c xb m cv nr (level_of nr) eq_refl En eq_refl) with (tr := trunc (level_of nr - 1) nr); auto. lia.
    + intros n Hn. split.
      * apply (gw_brev_in t xa y c xb m cv nr (level_of nr) eq_refl En eq_refl) with (tr := trunc (level_of nr - 1) nr); auto.
        lia. rewrite <- EX; auto.
      * intros Nn. destruct (nid_eq_dec n (level_of nr - 1, trunc (level_of nr - 1) nr)) as [->|Na].
        { destruct (gr_par _ _ _ _ GR) as (_ & _ & _ & _ & A5 & _). auto. }
        destruct (nid_eq_dec n (level_of nr, trunc (level_of nr - 1) nr)) as [->|Nb].
        { pose proof (gr_zero _ _ _ _ GR) as Z0. cbn [snd] in Z0.
          destruct (Z.eqb_spec (b_down (bget t (level_of nr - 1, trunc (level_of nr - 1) nr))) 0) as [E0|E0]; [exfalso|rewrite Z0; auto].
          eapply (no_zero_child t xl (level_of nr - 1)); eauto.
          - split; [apply Hpre; lia|]. intros B; inversion B; lia.
          - replace (level_of nr - 1 + 1) with (level_of nr) by lia. apply (tk_bl _ _ K); auto. }
        rewrite (gr_other _ _ _ _ GR n) by auto. auto.
    + rewrite (gr_new _ _ _ _ GR). reflexivity.
    + unfold brev. rewrite (gr_new _ _ _ _ GR). reflexivity.
  - (* an unlinked bucket is there already *)
    fold cv nr in DR. rewrite MM in EX. cbn [app] in EX.
    assert (Hd : In d xl) by (rewrite EX; apply in_or_app; right; right; left; auto).
    assert (Nd : d <> bmax).
    { intros ->. destruct (tk_bmax _ _ K) as (_ & B & _). rewrite MAX64_val in B. lia. }
    destruct d as [ld vd]. destruct (tk_bl _ _ K _ Hd) as [Pd _].
    destruct (tk_node _ _ K ld vd Pd Nd) as (HLd' & HVd & _ & _ & HRd & _).
    assert (vd = nr) by lia. subst vd.
    pose proof (linked_level t xl ld nr K Hd Nd ltac:(lia)) as EL.
    subst ld.
    destruct (bfpe_loop_spec t xl lv nr K NW) with (f := 15%nat) (l := 1)
      as (t' & lv' & E & [(_ & -> & ->)|(Hn & _)]); try (change (Z.of_nat 15) with 15; lia).
    + intros l Hl. apply (prefixes_present t xl K (level_of nr) nr Pd Nd). lia.
    + intros El. rewrite El. auto.
    + exists t, lv. cbv zeta. rewrite E. split; auto. split; [pose proof K as K'; rewrite EX in K'; exact K'|].
      split; [auto|]. split; [exact DD|]. split; auto.
    + contradiction.
Qed.
End Mid.

Lemma find_idx_shape f s b : make_bucket2 (S f) s b =
  let t := x_trie s in
  let nr := mid_rev t (prev_as_b (x_bl s) b) b in
  match bucket_from_pool_embedded t (x_lv s) nr with
  | None => Ret s
  | Some (t1, lv1, nb) =>
      if in_blist (x_bl s) nb then Undef else
      let s1 := mkX t1 (x_bl s) lv1 (x_len s) (x_max s) in
      if (brev t1 nb =? 0) && (1 <? lvl t1 nb) then Ret s1 else
      match b_pool (bget t1 b) with
      | None => Div
      | Some p =>
          match find_idx p nr with
          | None | Some O => Ret s1
          | Some i =>
              let t2 := tupd t1 nb (fun x => set_blen (set_pool x (Some (split_hi p i))) (p_len p - Z.of_nat i)) in
              let t3 := tupd t2 b (fun x => set_blen (set_pool x (Some (split_lo p i))) (Z.of_nat i)) in
              let bl := match bucket_below t3 (brev t3 nb) (x_bl s) with
                        | Some n => ins_before n nb (x_bl s)
                        | None => x_bl s
                        end in
              let lv := lv_set lv1 (lvl t3 nb)
                          (ins_level t3 (in_blist bl) nb (lv_get lv1 (lvl t3 nb))) in
              let s2 := mkX t3 bl lv (x_len s) (x_max s) in
              if x_max s <? p_len p - Z.of_nat i then make_bucket2 f s2 nb
              else if x_max s <? Z.of_nat i then make_bucket2 f s2 b
              else Ret s2
          end
      end
  end.
Proof. reflexivity. Qed.

Lemma in_blist_spec bl n : in_blist bl n = true <-> In n bl.
Proof.
  unfold in_blist. rewrite existsb_exists. split.
  - intros (x & H & E). apply nid_eqb_eq in E. subst. auto.
  - intros H. exists n. split; auto. apply nid_eqb_refl.
Qed.

(** after the split *)
Lemma split_loc {st} s xl A y b B p m t1 lv xa xb nr l1 l2 :
  einvb st s xl -> x_bl s = A ++ y :: b :: B -> b_pool (bget (x_trie s) b) = Some p ->
  let nb := (level_of nr, nr) in
  let xl1 := xa ++ y :: nb :: b :: xb in
  einvb st (mkX t1 (x_bl s) lv (x_len s) (x_max s)) xl1 ->
  (forall n, In n xl -> brev t1 n = brev (x_trie s) n /\ (n <> nb -> b_pool (bget t1 n) = b_pool (bget (x_trie s) n))) ->
  ext t1 (A ++ [y]) (xa ++ [y]) -> ext t1 (b :: B) (b :: xb) ->
  ~ In nb (x_bl s) -> nb <> bmax -> brev t1 nb = nr ->
  1 <= m -> up (x_trie s) y = brev (x_trie s) b + 2 ^ m -> (2 ^ m | brev (x_trie s) b) ->
  nr = brev (x_trie s) b + 2 ^ (m - 1) -> nr < brev (x_trie s) y ->
  live p = l1 ++ l2 -> l1 <> [] -> l2 <> [] ->
  (forall z, In z l1 -> sl_rev z < nr) -> (forall z, In z l2 -> nr <= sl_rev z) ->
  let i := List.length l1 in
  let t2 := tupd t1 nb (fun x => set_blen (set_pool x (Some (split_hi p i))) (p_len p - Z.of_nat i)) in
  let t3 := tupd t2 b (fun x => set_blen (set_pool x (Some (split_lo p i))) (Z.of_nat i)) in
  let bl := match bucket_below t3 (brev t3 nb) (x_bl s) with Some n => ins_before n nb (x_bl s) | None => x_bl s end in
  forall lv', let s2 := mkX t3 bl lv' (x_len s) (x_max s) in
  bl = A ++ y :: nb :: b :: B /\
  einvb st s2 xl1 /\ (enodel s -> enodel s2) /\ (forall x, cont s2 x <-> cont s x) /\
  (forall n, In n xl -> brev t3 n = brev (x_trie s) n) /\ brev t3 nb = nr /\
  b_pool (bget t3 nb) = Some (split_hi p i) /\ b_pool (bget t3 b) = Some (split_lo p i) /\
  (forall n, In n (x_bl s) -> n <> b -> b_pool (bget t3 n) = b_pool (bget (x_trie s) n)).
Proof.
  intros I EB HP nb xl1 I1 HO EA EBX NIN NBM RN Hm HU HD ENR HNY EL N1 N2 L1 L2 i t2 t3 bl lv' s2.
  pose proof (ei_sorted s xl I) as S. pose proof (ei_nodup s xl I) as NDB.
  assert (Hyb : adj (x_bl s) y b) by (exists A, B; auto).
  destruct (ei_adj_x s xl I _ _ Hyb) as [HyX HbX].
  pose proof (ei_adj_ne s xl I _ _ Hyb) as Nb.
  assert (NBb : nb <> b) by (intros E; apply NIN; rewrite E; apply adj_in in Hyb; tauto).
  assert (PW : 2 ^ m = 2 * 2 ^ (m - 1)) by (replace m with (Z.succ (m - 1)) at 1 by lia; apply Z.pow_succ_r; lia).
  pose proof (Z.pow_pos_nonneg 2 (m - 1) ltac:(lia) ltac:(lia)) as PP.
  assert (SS : same_shape t1 t3).
  { unfold t3, t2. eapply same_shape_trans; apply same_shape_tupd; intros; reflexivity. }
  assert (B3 : forall n, brev t3 n = brev t1 n) by (intros; symmetry; apply same_shape_brev; auto).
  assert (U3 : forall n, up t3 n = up t1 n) by (intros; unfold up; rewrite B3; auto).
  assert (BX : forall n, In n xl -> brev t3 n = brev (x_trie s) n) by (intros n Hn; rewrite B3; apply HO; auto).
  assert (Pnb : b_pool (bget t3 nb) = Some (split_hi p i)).
  { unfold t3, t2, tupd. rewrite bget_tset_ne by auto. rewrite bget_tset_eq. reflexivity. }
  assert (Pb : b_pool (bget t3 b) = Some (split_lo p i)).
  { unfold t3, tupd. rewrite bget_tset_eq. reflexivity. }
  assert (PO : forall n, n <> nb -> n <> b -> b_pool (bget t3 n) = b_pool (bget t1 n)).
  { intros n H1 H2. unfold t3, t2, tupd. rewrite !bget_tset_ne by auto. auto. }
  destruct (ei_pool _ _ I y b Hyb) as (p' & E' & Kp). rewrite HP in E'. injection E' as <-.
  assert (Hyu : up t3 y = up (x_trie s) y) by (unfold up; rewrite BX by auto; auto).
  destruct (split_ok p (brev (x_trie s) b) nr (up (x_trie s) y) l1 l2 Kp EL N1 N2 L1 L2) as (K1 & V1 & K2 & V2).
  fold i in K1, V1, K2, V2.
  assert (EBL : A ++ y :: b :: B = (A ++ [y]) ++ b :: B) by (rewrite <- app_assoc; auto).
  assert (XB : forall n, In n (x_bl s) -> In n xl) by (apply (ext_in _ _ _ (ei_ext _ _ I))).
  assert (Ebl : bl = A ++ y :: nb :: b :: B).
  { unfold bl. pose proof S as S'. rewrite EB in S'. destruct (sorted_before _ _ _ _ _ S') as [HA HC].
    assert (HBB : bucket_below t3 (brev t3 nb) (x_bl s) = Some b).
    { rewrite EB, EBL. rewrite B3, RN. apply bucket_below_app.
      - intros n Hn. rewrite BX by (apply XB; rewrite EB, EBL; apply in_or_app; auto). specialize (HA n Hn). lia.
      - rewrite BX by auto. lia. }
    rewrite HBB, EB, EBL, ins_before_app; [rewrite <- app_assoc; auto|].
    intros Hin. specialize (HA b Hin). lia. }
  pose proof (ei_nodup_x _ _ I1) as NDX1. cbn [x_trie] in *.
  assert (NDX2 : NoDup (xa ++ [y]) /\ NoDup (b :: xb) /\ (forall n, In n (xa ++ [y]) -> n <> nb /\ n <> b) /\ ~ In nb (b :: xb)).
  { unfold xl1 in NDX1. replace (xa ++ y :: nb :: b :: xb) with ((xa ++ [y]) ++ nb :: b :: xb) in NDX1 by (rewrite <- app_assoc; auto).
    clear -NDX1. set (u := xa ++ [y]) in *. clearbody u.
    pose proof (NoDup_remove _ _ _ NDX1) as [R1 R2].
    split; [|split; [|split]].
    - clear -R1. induction u as [|w u IH]; [constructor|]. cbn [app] in R1. apply NoDup_cons_iff in R1 as [X Y].
      constructor; auto. intros H; apply X; apply in_or_app; auto.
    - clear -R1. induction u as [|w u IH]; [auto|]. cbn [app] in R1. apply NoDup_cons_iff in R1 as [X Y]. auto.
    - intros n Hn. split; [intros ->; apply R2; apply in_or_app; auto|].
      intros ->. apply NoDup_remove in R1 as [_ R3]. apply R3. apply in_or_app; auto.
    - intros H. apply R2. apply in_or_app; auto. }
  destruct NDX2 as (ND1 & ND2 & ND3 & ND4).
  assert (KT : trie_ok t3 xl1) by (apply (trie_ok_shape t1); auto; apply (ei_trie _ _ I1)).
  assert (E3 : ext t3 bl xl1).
  { rewrite Ebl. unfold xl1.
    apply (ext_build t3 A y nb (b :: B) xa [] (b :: xb) (m - 1)).
    - apply (ext_change t1); auto. intros n Hn Hn2 D. unfold dead. destruct (ND3 n Hn). rewrite PO; auto.
    - unfold mid. rewrite Hyu, B3, RN. split; [lia|]. split; [|split; [lia|auto]].
      rewrite ENR. destruct HD as [q ->]. rewrite PW. exists (2 * q + 1). ring.
    - apply (ext_cons t3 nb b (m - 1) []).
      + unfold mid. rewrite BX by auto. unfold up. apply nid_eqb_neq in NBM. rewrite NBM, B3, RN. split; [auto|].
        split; [|split; [lia|auto]]. apply (Z.divide_trans _ (2 ^ m)); auto. apply pow2_divide; lia.
      + apply (ext_change t1); auto. intros n Hn Hn2 D. unfold dead. rewrite PO; auto.
        * intros ->; auto.
        * intros ->; apply Hn2; left; auto. }
  assert (S3 : StronglySorted (fun a b => brev t3 b < brev t3 a) bl) by (eapply ext_sorted; [exact E3|apply (tk_sorted _ _ KT)]).
  pose proof (sorted_nodup _ _ S3) as ND3b.
  assert (ADJ : forall u w, adj bl u w -> (u = y /\ w = nb) \/ (u = nb /\ w = b) \/ (adj (x_bl s) u w /\ w <> b /\ w <> nb)).
  { intros u w H. pose proof H as H0. rewrite Ebl in H. destruct (adj_insert _ _ _ _ _ _ _ H) as [X|[X|X]]; auto.
    rewrite <- EB in X.
    destruct (nid_eq_dec w b) as [->|Nw].
    { right; left. split; auto. apply (adj_uniq_l bl u nb b ND3b); auto. rewrite Ebl. exists (A ++ [y]), B. rewrite <- app_assoc. auto. }
    right; right. split; auto. split; auto. intros ->. apply NIN. apply adj_in in X. tauto. }
  assert (ADJ2 : forall u w, adj (x_bl s) u w -> w <> b -> adj bl u w).
  { intros u w (a0 & b0 & E0) Nw. rewrite EB in E0. rewrite Ebl. clear -E0 Nw.
    revert a0 E0. induction A as [|z A IH]; intros a0 E0; cbn [app] in *.
    - destruct a0 as [|q a0]; cbn [app] in E0.
      + exfalso. apply Nw. congruence.
      + injection E0 as -> E0. apply adj_cons. right. apply adj_cons. right. exists a0, b0. auto.
    - destruct a0 as [|q a0]; cbn [app] in E0.
      + injection E0 as -> E0. apply adj_cons. left. split; auto.
        destruct A as [|z' A']; cbn [app] in *; [assert (y = w) as -> by congruence|assert (z' = w) as -> by congruence]; eauto.
      + injection E0 as -> E0. apply adj_cons. right. apply (IH a0). auto. }
  assert (PU : forall u w, adj (x_bl s) u w -> w <> b -> w <> nb ->
     b_pool (bget t3 w) = b_pool (bget (x_trie s) w) /\ brev t3 w = brev (x_trie s) w /\ up t3 u = up (x_trie s) u).
  { intros u w H Nw Nw2. destruct (ei_adj_x s xl I _ _ H) as [Hu Hw]. rewrite PO by auto.
    split; [apply HO; auto|]. split; [apply BX; auto|]. unfold up. rewrite BX by auto. auto. }
  split; auto. split; [|split; [|split; [|split; [auto|split; [rewrite B3; auto|split; [auto|split; [auto|]]]]]]].
  - constructor; cbn [s2 x_trie x_bl]; auto.
    + intros n Hn. rewrite B3. apply (ei_16 _ _ I1); auto.
    + intros u w H. destruct (ADJ u w H) as [[-> ->]|[[-> ->]|(X & Nw & Nw2)]].
      * exists (split_hi p i). split; auto. rewrite Hyu, B3, RN. auto.
      * exists (split_lo p i). split; auto. rewrite BX by auto. unfold up. apply nid_eqb_neq in NBM. rewrite NBM, B3, RN. auto.
      * destruct (PU u w X Nw Nw2) as (-> & -> & ->). apply (ei_pool _ _ I); auto.
  - intros ND u w q H Hq. cbn [s2 x_trie x_bl] in *.
    assert (NP : nodel p) by (apply (ND y b p); auto).
    destruct (ADJ u w H) as [[-> ->]|[[-> ->]|(X & Nw & Nw2)]].
    + rewrite Pnb in Hq. injection Hq as <-. intros sl. rewrite V2. intros Hs. apply NP. rewrite EL. apply in_or_app; auto.
    + rewrite Pb in Hq. injection Hq as <-. intros sl. rewrite V1. intros Hs. apply NP. rewrite EL. apply in_or_app; auto.
    + destruct (PU u w X Nw Nw2) as (E & _). rewrite E in Hq. apply (ND u w q); auto.
  - intros x. split.
    + intros (u & w & q & H & Hq & Hin). cbn [s2 x_trie x_bl] in *.
      destruct (ADJ u w H) as [[-> ->]|[[-> ->]|(X & Nw & Nw2)]].
      * rewrite Pnb in Hq. injection Hq as <-. rewrite V2 in Hin. exists y, b, p. split; auto. split; auto.
        rewrite EL, map_app. apply in_or_app; auto.
      * rewrite Pb in Hq. injection Hq as <-. rewrite V1 in Hin. exists y, b, p. split; auto. split; auto.
        rewrite EL, map_app. apply in_or_app; auto.
      * destruct (PU u w X Nw Nw2) as (E & _). rewrite E in Hq. exists u, w, q. auto.
    + intros (u & w & q & H & Hq & Hin). destruct (nid_eq_dec w b) as [->|Nw].
      * rewrite HP in Hq. injection Hq as <-. rewrite EL, map_app in Hin. apply in_app_or in Hin as [Hin|Hin].
        -- exists nb, b, (split_lo p i). cbn [s2 x_trie x_bl]. split; [rewrite Ebl; exists (A ++ [y]), B; rewrite <- app_assoc; auto|].
           split; auto. rewrite V1; auto.
        -- exists y, nb, (split_hi p i). cbn [s2 x_trie x_bl]. split; [rewrite Ebl; exists A, (b :: B); auto|].
           split; auto. rewrite V2; auto.
      * assert (Nw2 : w <> nb) by (intros ->; apply NIN; apply adj_in in H; tauto).
        exists u, w, q. cbn [s2 x_trie x_bl]. destruct (PU u w H Nw Nw2) as (-> & _). auto.
  - intros n Hn Nn. assert (n <> nb) by (intros ->; contradiction). rewrite PO by auto. apply HO; auto.
Qed.

Lemma split_step {st} s xl A y b B p m t1 lv xa xb nr l1 l2 :
  einvb st s xl -> enodel s -> x_bl s = A ++ y :: b :: B -> b_pool (bget (x_trie s) b) = Some p ->
  let nb := (level_of nr, nr) in
  let xl1 := xa ++ y :: nb :: b :: xb in
  einvb st (mkX t1 (x_bl s) lv (x_len s) (x_max s)) xl1 ->
  (forall n, In n xl -> brev t1 n = brev (x_trie s) n /\ (n <> nb -> b_pool (bget t1 n) = b_pool (bget (x_trie s) n))) ->
  ext t1 (A ++ [y]) (xa ++ [y]) -> ext t1 (b :: B) (b :: xb) ->
  ~ In nb (x_bl s) -> nb <> bmax -> brev t1 nb = nr ->
  1 <= m -> up (x_trie s) y = brev (x_trie s) b + 2 ^ m -> (2 ^ m | brev (x_trie s) b) ->
  nr = brev (x_trie s) b + 2 ^ (m - 1) -> nr < brev (x_trie s) y ->
  live p = l1 ++ l2 -> l1 <> [] -> l2 <> [] ->
  (forall z, In z l1 -> sl_rev z < nr) -> (forall z, In z l2 -> nr <= sl_rev z) ->
  let i := List.length l1 in
  let t2 := tupd t1 nb (fun x => set_blen (set_pool x (Some (split_hi p i))) (p_len p - Z.of_nat i)) in
  let t3 := tupd t2 b (fun x => set_blen (set_pool x (Some (split_lo p i))) (Z.of_nat i)) in
  let bl := match bucket_below t3 (brev t3 nb) (x_bl s) with Some n => ins_before n nb (x_bl s) | None => x_bl s end in
  forall lv', let s2 := mkX t3 bl lv' (x_len s) (x_max s) in
  bl = A ++ y :: nb :: b :: B /\
  einvb st s2 xl1 /\ enodel s2 /\ (forall x, cont s2 x <-> cont s x) /\
  (forall n, In n xl -> brev t3 n = brev (x_trie s) n) /\ brev t3 nb = nr /\
  b_pool (bget t3 nb) = Some (split_hi p i) /\ b_pool (bget t3 b) = Some (split_lo p i).
Proof.
  intros I ND EB HP nb xl1 I1 HO EA EBX NIN NBM RN Hm HU HD ENR HNY EL N1 N2 L1 L2 i t2 t3 bl lv' s2.
  destruct (split_loc s xl A y b B p m t1 lv xa xb nr l1 l2 I EB HP I1 HO EA EBX NIN NBM RN Hm HU HD ENR HNY EL N1 N2 L1 L2 lv')
    as (H1 & H2 & H3 & H4 & H5 & H6 & H7 & H8 & _). repeat (split; auto).
Qed.

Lemma wide {st} s xl y b p m : einvb st s xl -> adj (x_bl s) y b -> pool_okb st p (brev (x_trie s) b) (up (x_trie s) y) ->
  up (x_trie s) y = brev (x_trie s) b + 2 ^ m -> 0 <= m < 5 -> narrow (x_max s) (live p) -> x_max s < p_len p -> False.
Proof.
  intros I Hy K HU Hm HN HL.
  assert (2 ^ m <= 2 ^ 4) by (apply Z.pow_le_mono_r; lia). change (2 ^ 4) with 16 in *.
  pose proof (HN (brev (x_trie s) b)) as H1. rewrite nwin_all in H1.
  - rewrite (live_length _ _ _ K) in H1. pose proof (po_len _ _ _ K). unfold p_n in H1. rewrite Z2Nat.id in H1 by lia.
    assert (p_len p <= x_max s); [apply H1|lia].
    apply (ei_16 _ _ I); [apply (ei_adj_x s xl I _ _ Hy)|eapply ei_adj_ne; eauto].
  - intros sl Hs. pose proof (po_rng _ _ _ K sl Hs). lia.
Qed.
Theorem make_bucket2_loc {st} : forall f s xl A y b B p m,
  einvb st s xl -> nodel p -> narrow (x_max s) (live p) -> x_bl s = A ++ y :: b :: B ->
  b_pool (bget (x_trie s) b) = Some p -> x_max s < p_len p ->
  up (x_trie s) y = brev (x_trie s) b + 2 ^ m -> 0 <= m <= Z.of_nat f ->
  exists s' xl' N, make_bucket2 f s b = Ret s' /\ einvb st s' xl' /\ (enodel s -> enodel s') /\
    (forall x, cont s' x <-> cont s x) /\ x_len s' = x_len s /\ x_max s' = x_max s /\ stored s' = stored s /\
    x_bl s' = A ++ y :: N ++ b :: B /\ (forall n, In n (x_bl s) -> brev (x_trie s') n = brev (x_trie s) n) /\
    (forall n, In n (x_bl s) -> n <> b -> b_pool (bget (x_trie s') n) = b_pool (bget (x_trie s) n)) /\
    (forall n, In n N -> brev (x_trie s) b < brev (x_trie s') n < up (x_trie s) y).
Proof.
  induction f as [|f IH]; intros s xl A y b B p m I NP HM EB HP HL HU Hf;
  (assert (Hyb : adj (x_bl s) y b) by (exists A, B; auto));
  destruct (ei_pool _ _ I y b Hyb) as (p' & E' & Kp); rewrite HP in E'; injection E' as <-;
  pose proof (ei_adj_lt s xl I _ _ Hyb) as LT;
  pose proof (Z.pow_pos_nonneg 2 m ltac:(lia) ltac:(lia)) as PM;
  (assert (Hm5 : 5 <= m) by (destruct (Z_lt_ge_dec m 5); [|lia]; exfalso; exact (wide s xl y b p m I Hyb Kp HU ltac:(lia) HM HL))).
  { exfalso. change (Z.of_nat 0) with 0 in Hf. lia. }
  rewrite find_idx_shape. cbv zeta. set (t := x_trie s) in *.
  pose proof (ei_nodup s xl I) as NDB.
  assert (EP : prev_as_b (x_bl s) b = y) by (rewrite EB in *; apply prev_as_b_adj; auto).
  rewrite EP.
  pose proof (ei_ext _ _ I) as EXT. rewrite EB in EXT. fold t in EXT.
  destruct (ext_at _ _ _ _ _ _ EXT) as (xa & ds & xb & m' & EX & EA & M & EBX).
  assert (m' = m).
  { destruct M as (MU & _ & M0 & _). rewrite HU in MU. apply Z.add_cancel_l in MU. symmetry in MU. apply Z.pow_inj_r in MU; lia. }
  subst m'.
  rewrite (md_mid_rev t xl xa y ds b xb m (ei_trie _ _ I) (ei_16 _ _ I) EX M Hm5).
  set (nr := brev t b + 2 ^ (m - 1)).
  destruct (md_nr t xl xa y ds b xb m (ei_trie _ _ I) (ei_16 _ _ I) EX M Hm5) as (N1 & N2 & N3 & N4). fold nr in N1, N2, N3, N4.
  destruct (md_bfpe t xl xa y ds b xb m (ei_trie _ _ I) (ei_16 _ _ I) EX M Hm5 (x_lv s)) as (t1 & lv1 & E & K1 & HO & PNB & RNB & NBM).
  fold nr in E, K1, HO, PNB, RNB, NBM. rewrite E. set (nb := (level_of nr, nr)) in *.
  assert (XB : forall n, In n (x_bl s) -> In n xl) by (apply (ext_in _ _ _ (ei_ext _ _ I))).
  assert (HyX : In y xl) by (apply XB, (adj_in _ _ _ Hyb)).
  assert (HbX : In b xl) by (apply XB, (adj_in _ _ _ Hyb)).
  assert (NIN : ~ In nb (x_bl s)).
  { intros H. destruct (HO nb (XB _ H)) as [R _]. rewrite RNB in R.
    apply (sorted_gap t (x_bl s) A y b B nb (ei_sorted s xl I) EB H). rewrite <- R. lia. }
  destruct (in_blist (x_bl s) nb) eqn:IB; [apply in_blist_spec in IB; contradiction|].
  rewrite RNB. destruct (Z.eqb_spec nr 0) as [Z0|_]; [lia|]. cbn [andb].
  assert (NBb : b <> nb) by (intros EQ; apply NIN; rewrite <- EQ; apply (adj_in _ _ _ Hyb)).
  assert (PB1 : b_pool (bget t1 b) = Some p) by (rewrite (proj2 (HO b HbX) NBb); auto).
  rewrite PB1.
  set (xl1 := xa ++ y :: nb :: b :: xb) in *.
  set (s1 := mkX t1 (x_bl s) lv1 (x_len s) (x_max s)).
  assert (INX : forall n, In n (xa ++ [y]) \/ In n (b :: xb) -> In n xl).
  { intros n [H|H]; rewrite EX.
    - apply in_app_or in H as [H|[<-|[]]]; apply in_or_app; [left; auto|right; left; auto].
    - apply in_or_app. right. right. apply in_or_app. right. auto. }
  pose proof (sorted_nodup _ _ (tk_sorted _ _ K1)) as NDX1.
  assert (NN : (forall n, In n (xa ++ [y]) -> n <> nb) /\ (forall n, In n (b :: xb) -> n <> nb) /\ NoDup (xa ++ [y]) /\ NoDup (b :: xb)).
  { unfold xl1 in NDX1. replace (xa ++ y :: nb :: b :: xb) with ((xa ++ [y]) ++ nb :: b :: xb) in NDX1 by (rewrite <- app_assoc; auto).
    clear -NDX1. set (u := xa ++ [y]) in *. clearbody u.
    pose proof (NoDup_remove _ _ _ NDX1) as [R1 R2].
    split; [intros n Hn ->; apply R2; apply in_or_app; auto|].
    split; [intros n Hn ->; apply R2; apply in_or_app; auto|].
    split; clear -R1; induction u as [|w u IH]; try (constructor; fail); auto; cbn [app] in R1; apply NoDup_cons_iff in R1 as [X Y]; auto.
    constructor; auto. intros H; apply X; apply in_or_app; auto. }
  destruct NN as (NN1 & NN2 & NN3 & NN4).
  assert (EA1 : ext t1 (A ++ [y]) (xa ++ [y])).
  { apply (ext_change t); auto.
    - intros n Hn. apply HO. auto.
    - intros n Hn _ D. unfold dead. rewrite (proj2 (HO n (INX n (or_introl Hn))) (NN1 n Hn)). auto. }
  assert (EB1 : ext t1 (b :: B) (b :: xb)).
  { apply (ext_change t); auto.
    - intros n Hn. apply HO. auto.
    - intros n Hn _ D. unfold dead. rewrite (proj2 (HO n (INX n (or_intror Hn))) (NN2 n Hn)). auto. }
  assert (I1 : einvb st s1 xl1).
  { constructor; cbn [s1 x_trie x_bl]; auto.
    - intros n Hn Nn. unfold xl1 in Hn. apply in_app_or in Hn as [Hn|[<-|[<-|Hn]]].
      + rewrite (proj1 (HO n (INX n (or_introl (in_or_app _ _ _ (or_introl Hn)))))).
        apply (ei_16 _ _ I); auto. apply INX. left. apply in_or_app; auto.
      + rewrite (proj1 (HO y HyX)). apply (ei_16 _ _ I); auto.
      + rewrite RNB. auto.
      + rewrite (proj1 (HO n (INX n (or_intror Hn)))). apply (ei_16 _ _ I); auto.
    - rewrite EB. unfold xl1. apply (ext_build t1 A y b B xa [nb] xb m); auto.
      unfold mid, up. rewrite (proj1 (HO y HyX)), (proj1 (HO b HbX)). fold (up t y).
      destruct M as (MU & MD & M0 & _). split; auto. split; auto. split; auto.
      right. exists nb. split; auto. split; auto. split; [rewrite RNB; auto|lia].
    - intros u w H. destruct (adj_in _ _ _ H) as [Hu Hw].
      assert (Nw : w <> nb) by (intros ->; contradiction).
      rewrite (proj2 (HO w (XB _ Hw)) Nw), (proj1 (HO w (XB _ Hw))).
      unfold up. rewrite (proj1 (HO u (XB _ Hu))). apply (ei_pool _ _ I); auto. }
  assert (C1 : forall x, cont s1 x <-> cont s x).
  { intros x. unfold cont. cbn [s1 x_trie x_bl]. split; intros (u & w & q & H & Hq & Hin); exists u, w, q;
    destruct (adj_in _ _ _ H) as [Hu Hw]; (assert (Nw : w <> nb) by (intros ->; contradiction));
    split; auto; split; auto; rewrite (proj2 (HO w (XB _ Hw)) Nw) in *; auto. }
  assert (ND1 : enodel s -> enodel s1).
  { intros ND u w q H Hq. cbn [s1 x_trie x_bl] in *. destruct (adj_in _ _ _ H) as [Hu Hw].
    assert (Nw : w <> nb) by (intros ->; contradiction). rewrite (proj2 (HO w (XB _ Hw)) Nw) in Hq. apply (ND u w q); auto. }
  assert (TRIV : exists s' xl' N, Ret s1 = Ret s' /\ einvb st s' xl' /\ (enodel s -> enodel s') /\
    (forall x, cont s' x <-> cont s x) /\ x_len s' = x_len s /\ x_max s' = x_max s /\ stored s' = stored s /\
    x_bl s' = A ++ y :: N ++ b :: B /\ (forall n, In n (x_bl s) -> brev (x_trie s') n = brev (x_trie s) n) /\
    (forall n, In n (x_bl s) -> n <> b -> b_pool (bget (x_trie s') n) = b_pool (bget (x_trie s) n)) /\
    (forall n, In n N -> brev (x_trie s) b < brev (x_trie s') n < up (x_trie s) y)).
  { exists s1, xl1, []. split; auto. split; auto. split; auto. split; auto. split; auto. split; auto. split.
    - unfold stored. cbn [s1 x_trie x_bl]. apply slist_ext. intros n Hn _. apply HO; auto. intros ->; contradiction.
    - split; [exact EB|]. split; [intros n Hn; apply HO; auto|]. split; [|intros n []].
      intros n Hn _. apply HO; auto. intros ->; contradiction. }
  destruct (find_idx p nr) as [[|i]|] eqn:FI; auto.
  destruct (find_idx_spec p _ _ nr (S i) Kp NP FI) as (l1 & x & l2 & EL & Ei & Rx & L1).
  assert (N1' : l1 <> []) by (intros ->; discriminate).
  assert (L2 : forall z, In z (x :: l2) -> nr <= sl_rev z).
  { intros z [<-|Hz]; auto. pose proof (po_sortedb _ _ _ Kp) as S. rewrite EL, map_app in S. apply sorted_app in S as (_ & S2 & _).
    cbn [map] in S2. apply StronglySorted_inv in S2 as [_ F]. rewrite Forall_forall in F.
    specialize (F (sl_rev z) (in_map _ _ _ Hz)). apply rel_le in F. lia. }
  pose proof (split_loc s xl A y b B p m t1 lv1 xa xb nr l1 (x :: l2) I EB HP I1 HO EA1 EB1 NIN NBM RNB ltac:(lia) HU
    ltac:(apply M) eq_refl N4 EL N1' ltac:(discriminate) L1 L2) as ST.
  cbv zeta in ST. rewrite <- Ei in ST. fold nb in ST. fold xl1 in ST. 
  match goal with |- context [mkX _ _ ?lvq _ _] => specialize (ST lvq) end.
  destruct ST as (S1 & S2 & S3 & S4 & S5 & S6 & S7 & S8 & S10).
  set (t3 := tupd (tupd t1 nb (fun x => set_blen (set_pool x (Some (split_hi p (S i)))) (p_len p - Z.of_nat (S i)))) b
      (fun x => set_blen (set_pool x (Some (split_lo p (S i)))) (Z.of_nat (S i)))) in *.
  set (bl := match bucket_below t3 (brev t3 nb) (x_bl s) with Some n => ins_before n nb (x_bl s) | None => x_bl s end) in *.
  match goal with |- context [mkX t3 bl ?l _ _] => set (lvq := l) in * end.
  set (s2 := mkX t3 bl lvq (x_len s) (x_max s)) in *.
  assert (PW : 2 ^ m = 2 * 2 ^ (m - 1)) by (replace m with (Z.succ (m - 1)) at 1 by lia; apply Z.pow_succ_r; lia).
  destruct (split_ok p (brev t b) nr (up t y) l1 (x :: l2) Kp EL N1' ltac:(discriminate) L1 L2) as (_ & V1 & _ & V2).
  rewrite <- Ei in V1, V2.
  assert (NW1 : narrow (x_max s) (live (split_lo p (S i)))) by (rewrite V1; rewrite EL in HM; apply narrow_app in HM; tauto).
  assert (NW2 : narrow (x_max s) (live (split_hi p (S i)))) by (rewrite V2; rewrite EL in HM; apply narrow_app in HM; tauto).
  assert (S9 : stored s2 = stored s).
  { unfold stored. cbn [s2 x_trie x_bl]. rewrite S1, EB.
    replace (A ++ y :: nb :: b :: B) with ((A ++ [y]) ++ [nb] ++ [b] ++ B) by (rewrite <- app_assoc; auto).
    replace (A ++ y :: b :: B) with ((A ++ [y]) ++ [b] ++ B) by (rewrite <- app_assoc; auto).
    assert (OTH : forall n, In n (x_bl s) -> n <> b -> b_pool (bget t3 n) = b_pool (bget t n)).
    { intros n Hn Nn. assert (n <> nb) by (intros ->; contradiction).
      unfold t3, tupd. rewrite !bget_tset_ne by auto. apply HO; auto. }
    rewrite EB in NDB. replace (A ++ y :: b :: B) with ((A ++ [y]) ++ b :: B) in NDB by (rewrite <- app_assoc; auto).
    assert (Nb2 : ~ In b ((A ++ [y]) ++ B)) by (apply NoDup_remove in NDB; tauto).
    fold t. set (P := A ++ [y]) in *. rewrite !slist_app. rewrite (slist_ext t t3 P), (slist_ext t t3 B).
    - rewrite <- !app_assoc. f_equal. rewrite !app_assoc. f_equal. unfold slist. cbn [rev flat_map app]. rewrite !app_nil_r.
      unfold of_bucket. pose proof (ei_adj_ne s xl I _ _ Hyb) as Nbm. apply nid_eqb_neq in Nbm, NBM. rewrite Nbm, NBM.
      rewrite S7, S8. fold t in HP. rewrite HP, V1, V2, EL. auto.
    - intros n Hn _. apply OTH; [rewrite EB; apply in_or_app; right; right; right; auto|].
      intros ->. apply Nb2. apply in_or_app; auto.
    - intros n Hn _. apply OTH; [rewrite EB|intros ->; apply Nb2; apply in_or_app; auto].
      unfold P in Hn. apply in_app_or in Hn as [Hn|[<-|[]]]; apply in_or_app; [left; auto|right; left; auto]. }
  assert (NPH : nodel (split_hi p (S i))) by (intros sl; rewrite V2; intros Hs; apply NP; rewrite EL; apply in_or_app; right; auto).
  assert (NPL : nodel (split_lo p (S i))) by (intros sl; rewrite V1; intros Hs; apply NP; rewrite EL; apply in_or_app; auto).
  assert (INB : forall n, In n (x_bl s) -> In n bl).
  { intros n Hn. rewrite S1. rewrite EB in Hn. apply in_app_or in Hn as [Hn|[Hn|Hn]]; apply in_or_app; [left; auto|right; left; auto|right; right; right; auto]. }
  assert (UY : up t3 y = up t y) by (unfold up; rewrite S5 by auto; reflexivity).
  assert (RB : brev t3 b = brev t b) by (apply S5; auto).
  destruct (Z.ltb_spec (x_max s) (p_len p - Z.of_nat (S i))) as [G1|G1].
  - destruct (IH s2 xl1 A y nb (b :: B) (split_hi p (S i)) (m - 1)) as (s' & xl' & N & R1 & R2 & R3 & R4 & R5 & R6 & R7 & R8 & R9 & R10 & R11); auto; try lia.
    + cbn [s2 x_trie]. rewrite UY, HU, S6. unfold nr. lia.
    + cbn [s2 x_trie x_bl] in R9, R10, R11. rewrite S6 in R11. rewrite UY in R11.
      exists s', xl', (N ++ [nb]). split; auto. split; auto. split; auto. split; [intros q; rewrite R4; auto|]. split; auto. split; auto. split; [congruence|].
      split; [rewrite R8, <- app_assoc; auto|]. split; [intros n Hn; rewrite R9 by auto; apply S5; auto|]. split.
      * intros n Hn Nn. rewrite R10; [apply S10; auto|auto|intros ->; contradiction].
      * intros n Hn. apply in_app_or in Hn as [Hn|[<-|[]]].
        -- specialize (R11 n Hn). fold t. lia.
        -- rewrite R9, S6; [fold t; lia|]. rewrite S1. apply in_or_app. right. right. left. auto.
  - destruct (Z.ltb_spec (x_max s) (Z.of_nat (S i))) as [G2|G2].
    + destruct (IH s2 xl1 (A ++ [y]) nb b B (split_lo p (S i)) (m - 1)) as (s' & xl' & N & R1 & R2 & R3 & R4 & R5 & R6 & R7 & R8 & R9 & R10 & R11); auto; try lia.
      * cbn [s2 x_bl]. rewrite S1, <- app_assoc. auto.
      * cbn [s2 x_trie]. unfold up. apply nid_eqb_neq in NBM. rewrite NBM, S6, S5 by auto. unfold nr. auto.
      * cbn [s2 x_trie x_bl] in R9, R10, R11. rewrite RB in R11.
        assert (UN : up t3 nb = nr) by (unfold up; apply nid_eqb_neq in NBM; rewrite NBM; exact S6). rewrite UN in R11.
        exists s', xl', (nb :: N). split; auto. split; auto. split; auto. split; [intros q; rewrite R4; auto|]. split; auto. split; auto. split; [congruence|].
        split; [rewrite R8, <- app_assoc; auto|]. split; [intros n Hn; rewrite R9 by auto; apply S5; auto|]. split.
        -- intros n Hn Nn. rewrite R10; [apply S10; auto|auto|auto].
        -- intros n [<-|Hn].
           ++ rewrite R9, S6; [fold t; lia|]. rewrite S1. apply in_or_app. right. right. left. auto.
           ++ specialize (R11 n Hn). fold t. lia.
    + exists s2, xl1, [nb]. split; auto. split; auto. split; auto. split; auto. split; auto. split; auto. split; auto. split; [exact S1|].
      split; [intros n Hn; apply S5; auto|]. split; [exact S10|]. intros n [<-|[]]. cbn [s2 x_trie]. rewrite S6. fold t. lia.
Qed.
Theorem make_bucket2_gen {st} : forall f s xl A y b B p m,
  einvb st s xl -> enodel s -> narrow (x_max s) (live p) -> x_bl s = A ++ y :: b :: B ->
  b_pool (bget (x_trie s) b) = Some p -> x_max s < p_len p ->
  up (x_trie s) y = brev (x_trie s) b + 2 ^ m -> 0 <= m <= Z.of_nat f ->
  exists s' xl', make_bucket2 f s b = Ret s' /\ einvb st s' xl' /\ enodel s' /\
    (forall x, cont s' x <-> cont s x) /\ x_len s' = x_len s /\ x_max s' = x_max s /\ stored s' = stored s.
Proof.
  intros f s xl A y b B p m I ND HM EB HP HL HU Hf.
  assert (NP : nodel p) by (apply (ND y b p); auto; exists A, B; auto).
  destruct (make_bucket2_loc f s xl A y b B p m I NP HM EB HP HL HU Hf) as (s' & xl' & N & R1 & R2 & R3 & R4 & R5 & R6 & R7 & _).
  exists s', xl'. auto 10.
Qed.
Theorem make_bucket2_spec : forall f s xl A y b B p m,
  einv s xl -> enodel s -> 16 <= x_max s -> x_bl s = A ++ y :: b :: B ->
  b_pool (bget (x_trie s) b) = Some p -> x_max s < p_len p ->
  up (x_trie s) y = brev (x_trie s) b + 2 ^ m -> 0 <= m <= Z.of_nat f ->
  exists s' xl', make_bucket2 f s b = Ret s' /\ einv s' xl' /\ enodel s' /\
    (forall x, cont s' x <-> cont s x) /\ x_len s' = x_len s /\ x_max s' = x_max s.
Proof.
  intros f s xl A y b B p m I ND HM EB HP HL HU Hf.
  assert (Hyb : adj (x_bl s) y b) by (exists A, B; auto).
  destruct (ei_pool _ _ I y b Hyb) as (p' & E' & Kp). rewrite HP in E'. injection E' as <-.
  destruct (make_bucket2_gen f s xl A y b B p m I ND (narrow_strict _ _ _ _ Kp HM) EB HP HL HU Hf)
    as (s' & xl' & R1 & R2 & R3 & R4 & R5 & R6 & R7). exists s', xl'. auto 10.
Qed.
