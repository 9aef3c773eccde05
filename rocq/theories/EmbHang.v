(** When a lookup of the embedded map does not come back. *)
From Verif Require Import Base BaseProofs Util UtilProofs Bucket TrieProofs TrieInv TrieGrow MapModel ItemProofs MapInv MapSplit
  MapInit Spec MapRefine EmbModel EmbPool EmbTrie EmbInv EmbSplit EmbSpec EmbRefine.
From Coq Require Import ZifyBool Sorted.
Local Open Scope Z_scope.
Local Opaque reverse64 level_of base find_bucket.

(** * One call of makeBucket2, before its recursion *)
Lemma mb_first {st} f s xl A y b B p m :
  einvb st s xl -> enodel s -> narrow (x_max s) (live p) -> x_bl s = A ++ y :: b :: B ->
  b_pool (bget (x_trie s) b) = Some p -> x_max s < p_len p ->
  up (x_trie s) y = brev (x_trie s) b + 2 ^ m -> 0 <= m ->
  let nr := brev (x_trie s) b + 2 ^ (m - 1) in
  let nb := (level_of nr, nr) in
  5 <= m /\ (2 ^ m | brev (x_trie s) b) /\
  exists t1 lv1 xa xb,
  let xl1 := xa ++ y :: nb :: b :: xb in
  let s1 := mkX t1 (x_bl s) lv1 (x_len s) (x_max s) in
  (xl = x_bl s -> xa = A /\ xb = B) /\
  einvb st s1 xl1 /\ enodel s1 /\ (forall x, cont s1 x <-> cont s x) /\
  (forall n, In n xl -> brev t1 n = brev (x_trie s) n /\ (n <> nb -> b_pool (bget t1 n) = b_pool (bget (x_trie s) n))) /\
  ext t1 (A ++ [y]) (xa ++ [y]) /\ ext t1 (b :: B) (b :: xb) /\
  ~ In nb (x_bl s) /\ nb <> bmax /\ brev t1 nb = nr /\ b_pool (bget t1 nb) = None /\ nr < brev (x_trie s) y /\
  make_bucket2 (S f) s b =
          match find_idx p nr with
          | None | Some O => Ret s1
          | Some i =>
              let t2 := tupd t1 nb (fun x => set_blen (set_pool x (Some (split_hi p i))) (p_len p - Z.of_nat i)) in
              let t3 := tupd t2 b (fun x => set_blen (set_pool x (Some (split_lo p i))) (Z.of_nat i)) in
              let bl := match bucket_below t3 (brev t3 nb) (x_bl s) with
                        | Some n => ins_before n nb (x_bl s)
                        | None => x_bl s
                        end in
              let lv := lv_set lv1 (lvl t3 nb)
                          (ins_level t3 (in_blist bl) nb (lv_get lv1 (lvl t3 nb))) in
              let s2 := mkX t3 bl lv (x_len s) (x_max s) in
              if x_max s <? p_len p - Z.of_nat i then make_bucket2 f s2 nb
              else if x_max s <? Z.of_nat i then make_bucket2 f s2 b
              else Ret s2
          end.
Proof.
  intros I ND HM EB HP HL HU Hf nr nb0.
  assert (Hyb : adj (x_bl s) y b) by (exists A, B; auto).
  destruct (ei_pool _ _ I y b Hyb) as (p' & E' & Kp); rewrite HP in E'; injection E' as <-.
  pose proof (ei_adj_lt s xl I _ _ Hyb) as LT.
  pose proof (Z.pow_pos_nonneg 2 m ltac:(lia) ltac:(lia)) as PM.
  assert (Hm5 : 5 <= m) by (destruct (Z_lt_ge_dec m 5); [|lia]; exfalso; exact (wide s xl y b p m I Hyb Kp HU ltac:(lia) HM HL)).
  split; [exact Hm5|].
  rewrite find_idx_shape. cbv zeta. set (t := x_trie s) in *.
  pose proof (ei_nodup s xl I) as NDB.
  assert (EP : prev_as_b (x_bl s) b = y) by (rewrite EB in *; apply prev_as_b_adj; auto).
  rewrite EP.
  pose proof (ei_ext _ _ I) as EXT. rewrite EB in EXT. fold t in EXT.
  destruct (ext_at _ _ _ _ _ _ EXT) as (xa & ds & xb & m' & EX & EA & M & EBX).
  assert (m' = m).
  { destruct M as (MU & _ & M0 & _). rewrite HU in MU. apply Z.add_cancel_l in MU. symmetry in MU. apply Z.pow_inj_r in MU; lia. }
  subst m'.
  rewrite (md_mid_rev t xl xa y ds b xb m (ei_trie _ _ I) (ei_16 _ _ I) EX M Hm5).
  change (brev t b + 2 ^ (m - 1)) with nr.
  destruct (md_nr t xl xa y ds b xb m (ei_trie _ _ I) (ei_16 _ _ I) EX M Hm5) as (N1 & N2 & N3 & N4). fold nr in N1, N2, N3, N4.
  destruct (md_bfpe t xl xa y ds b xb m (ei_trie _ _ I) (ei_16 _ _ I) EX M Hm5 (x_lv s)) as (t1 & lv1 & E & K1 & HO & PNB & RNB & NBM).
  fold nr in E, K1, HO, PNB, RNB, NBM. rewrite E. set (nb := (level_of nr, nr)) in *. change nb0 with nb.
  assert (XB : forall n, In n (x_bl s) -> In n xl) by (apply (ext_in _ _ _ (ei_ext _ _ I))).
  assert (HyX : In y xl) by (apply XB, (adj_in _ _ _ Hyb)).
  assert (HbX : In b xl) by (apply XB, (adj_in _ _ _ Hyb)).
  assert (NIN : ~ In nb (x_bl s)).
  { intros H. destruct (HO nb (XB _ H)) as [R _]. rewrite RNB in R.
    apply (sorted_gap t (x_bl s) A y b B nb (ei_sorted s xl I) EB H). rewrite <- R. lia. }
  destruct (in_blist (x_bl s) nb) eqn:IB; [apply in_blist_spec in IB; contradiction|].
  rewrite RNB. destruct (Z.eqb_spec nr 0) as [Z0|_]; [lia|]. cbn [andb].
  assert (NBb : b <> nb) by (intros EQ; apply NIN; rewrite <- EQ; apply (adj_in _ _ _ Hyb)).
  assert (PB1 : b_pool (bget t1 b) = Some p) by (rewrite (proj2 (HO b HbX) NBb); auto).
  rewrite PB1.
  set (xl1 := xa ++ y :: nb :: b :: xb) in *.
  set (s1 := mkX t1 (x_bl s) lv1 (x_len s) (x_max s)).
  assert (INX : forall n, In n (xa ++ [y]) \/ In n (b :: xb) -> In n xl).
  { intros n [H|H]; rewrite EX.
    - apply in_app_or in H as [H|[<-|[]]]; apply in_or_app; [left; auto|right; left; auto].
    - apply in_or_app. right. right. apply in_or_app. right. auto. }
  pose proof (sorted_nodup _ _ (tk_sorted _ _ K1)) as NDX1.
  assert (NN : (forall n, In n (xa ++ [y]) -> n <> nb) /\ (forall n, In n (b :: xb) -> n <> nb) /\ NoDup (xa ++ [y]) /\ NoDup (b :: xb)).
  { unfold xl1 in NDX1. replace (xa ++ y :: nb :: b :: xb) with ((xa ++ [y]) ++ nb :: b :: xb) in NDX1 by (rewrite <- app_assoc; auto).
    clear -NDX1. set (u := xa ++ [y]) in *. clearbody u.
    pose proof (NoDup_remove _ _ _ NDX1) as [R1 R2].
    split; [intros n Hn ->; apply R2; apply in_or_app; auto|].
    split; [intros n Hn ->; apply R2; apply in_or_app; auto|].
    split; clear -R1; induction u as [|w u IH]; try (constructor; fail); auto; cbn [app] in R1; apply NoDup_cons_iff in R1 as [X Y]; auto.
    constructor; auto. intros H; apply X; apply in_or_app; auto. }
  destruct NN as (NN1 & NN2 & NN3 & NN4).
  assert (EA1 : ext t1 (A ++ [y]) (xa ++ [y])).
  { apply (ext_change t); auto.
    - intros n Hn. apply HO. auto.
    - intros n Hn _ D. unfold dead. rewrite (proj2 (HO n (INX n (or_introl Hn))) (NN1 n Hn)). auto. }
  assert (EB1 : ext t1 (b :: B) (b :: xb)).
  { apply (ext_change t); auto.
    - intros n Hn. apply HO. auto.
    - intros n Hn _ D. unfold dead. rewrite (proj2 (HO n (INX n (or_intror Hn))) (NN2 n Hn)). auto. }
  assert (I1 : einvb st s1 xl1).
  { constructor; cbn [s1 x_trie x_bl]; auto.
    - intros n Hn Nn. unfold xl1 in Hn. apply in_app_or in Hn as [Hn|[<-|[<-|Hn]]].
      + rewrite (proj1 (HO n (INX n (or_introl (in_or_app _ _ _ (or_introl Hn)))))).
        apply (ei_16 _ _ I); auto. apply INX. left. apply in_or_app; auto.
      + rewrite (proj1 (HO y HyX)). apply (ei_16 _ _ I); auto.
      + rewrite RNB. auto.
      + rewrite (proj1 (HO n (INX n (or_intror Hn)))). apply (ei_16 _ _ I); auto.
    - rewrite EB. unfold xl1. apply (ext_build t1 A y b B xa [nb] xb m); auto.
      unfold mid, up. rewrite (proj1 (HO y HyX)), (proj1 (HO b HbX)). fold (up t y).
      destruct M as (MU & MD & M0 & _). split; auto. split; auto. split; auto.
      right. exists nb. split; auto. split; auto. split; [rewrite RNB; auto|lia].
    - intros u w H. destruct (adj_in _ _ _ H) as [Hu Hw].
      assert (Nw : w <> nb) by (intros ->; contradiction).
      rewrite (proj2 (HO w (XB _ Hw)) Nw), (proj1 (HO w (XB _ Hw))).
      unfold up. rewrite (proj1 (HO u (XB _ Hu))). apply (ei_pool _ _ I); auto. }
  assert (C1 : forall x, cont s1 x <-> cont s x).
  { intros x. unfold cont. cbn [s1 x_trie x_bl]. split; intros (u & w & q & H & Hq & Hin); exists u, w, q;
    destruct (adj_in _ _ _ H) as [Hu Hw]; (assert (Nw : w <> nb) by (intros ->; contradiction));
    split; auto; split; auto; rewrite (proj2 (HO w (XB _ Hw)) Nw) in *; auto. }
  assert (ND1 : enodel s1).
  { intros u w q H Hq. cbn [s1 x_trie x_bl] in *. destruct (adj_in _ _ _ H) as [Hu Hw].
    assert (Nw : w <> nb) by (intros ->; contradiction). rewrite (proj2 (HO w (XB _ Hw)) Nw) in Hq. apply (ND u w q); auto. }
  split; [apply M|]. exists t1, lv1, xa, xb. cbv zeta. fold s1. fold xl1.
  split.
  { intros EQ. rewrite EQ, EB in EX. rewrite EB in NDB.
    assert (XA : xa = A /\ ds ++ b :: xb = b :: B).
    { clear -EX NDB. revert xa EX. induction A as [|a A IH]; intros xa EX; destruct xa as [|z xa]; cbn [app] in *.
      - injection EX as <-. auto.
      - exfalso. injection EX as <- EX. apply NoDup_cons_iff in NDB as [N _]. apply N. rewrite EX. apply in_or_app; right; left; auto.
      - exfalso. injection EX as -> EX. apply NoDup_cons_iff in NDB as [N _]. apply N. apply in_or_app; right; left; auto.
      - injection EX as <- EX. apply NoDup_cons_iff in NDB as [_ NDB]. destruct (IH NDB _ EX) as [-> ->]. auto. }
    destruct XA as [-> XB2]. split; auto. destruct M as (_ & _ & _ & [->|(d & -> & D & _)]); cbn [app] in XB2; [congruence|].
    injection XB2 as -> _. unfold dead in D. congruence. }
  repeat (split; [assumption|]). reflexivity.
Qed.

(** * Routing *)
Lemma route_alive {st} s rv : einvb st s (x_bl s) -> 0 <= rv < W64 -> pool_of (x_trie s) (find_bucket (x_trie s) rv) <> None.
Proof.
  intros I Hrv. unfold pool_of. set (t := x_trie s) in *.
  destruct (find_bucket_spec t _ rv (ei_trie _ _ I) Hrv) as (l & v & E & N & Hle & HB).
  destruct (base_anchor t _ (find_bucket t rv) (ei_trie _ _ I)) as [A1 A2]; [rewrite E; apply N|].
  set (c := base t (find_bucket t rv)) in *.
  assert (Nc : c <> bmax).
  { destruct (base_ok t _ l v (ei_trie _ _ I) (proj1 N) (proj2 N)) as (l' & El & _ & NE).
    unfold c. rewrite E, El. exact NE. }
  destruct (ei_pred s _ I c A1 Nc) as (y & Hy). destruct (ei_pool _ _ I y c Hy) as (p & HP & _). fold t in HP. congruence.
Qed.
Lemma route_dead {st} s xl xa y nb b xb rv : einvb st s xl -> xl = xa ++ y :: nb :: b :: xb -> nb <> bmax ->
  b_pool (bget (x_trie s) nb) = None -> brev (x_trie s) nb <= rv < up (x_trie s) y -> 0 <= rv < W64 ->
  pool_of (x_trie s) (find_bucket (x_trie s) rv) = None.
Proof.
  intros I EX Nb HP R Hrv. unfold pool_of. set (t := x_trie s) in *.
  destruct (find_bucket_spec t _ rv (ei_trie _ _ I) Hrv) as (l & v & E & N & Hle & HB).
  destruct (base_anchor t _ (find_bucket t rv) (ei_trie _ _ I)) as [A1 A2]; [rewrite E; apply N|].
  set (c := base t (find_bucket t rv)) in *.
  assert (Nc : c <> bmax).
  { destruct (base_ok t _ l v (ei_trie _ _ I) (proj1 N) (proj2 N)) as (l' & El & _ & NE).
    unfold c. rewrite E, El. exact NE. }
  assert (Hnb : In nb xl) by (rewrite EX; apply in_or_app; right; right; left; auto).
  pose proof (find_bucket_max t xl rv (ei_trie _ _ I) Hrv (ei_16 _ _ I) nb Hnb Nb ltac:(fold t; lia)) as X. fold t in X.
  assert (BC : brev t c = v) by (rewrite A2, E; auto).
  assert (c = nb); [|congruence].
  pose proof (tk_sorted _ _ (ei_trie _ _ I)) as TS. fold t in TS.
  destruct (Z.eq_dec (brev t c) (brev t nb)) as [EQ|NE].
  - clear -TS A1 Hnb EQ. induction TS as [|z L S IH F]; [destruct A1|]. rewrite Forall_forall in F.
    destruct A1 as [->|A1], Hnb as [->|Hnb]; auto.
    + specialize (F _ Hnb). cbn in F. lia.
    + specialize (F _ A1). cbn in F. lia.
  - exfalso. assert (GT : brev t nb < brev t c) by (rewrite BC, <- HB, <- E in *; lia).
    assert (UB : brev t c < brev t y).
    { unfold up in R. destruct (nid_eqb y bmax) eqn:Ey; [|rewrite BC, <- HB, <- E in *; lia].
      apply nid_eqb_eq in Ey. subst y. destruct (tk_bmax _ _ (ei_trie _ _ I)) as (_ & BM & _). fold t in BM. rewrite BM.
      assert (H16 : (16 | brev t c)) by (apply (ei_16 _ _ I); auto).
      rewrite MAX64_val. destruct H16 as [z Hz]. rewrite W64_val in Hrv. rewrite BC in *. lia. }
    apply (sorted_gap t xl xa y nb (b :: xb) c TS EX A1). lia.
Qed.

Lemma route_dead_only {st} s xl xa y nb b xb rv : einvb st s xl -> xl = xa ++ y :: nb :: b :: xb -> x_bl s = xa ++ y :: b :: xb ->
  brev (x_trie s) nb < brev (x_trie s) y -> 0 <= rv < W64 ->
  pool_of (x_trie s) (find_bucket (x_trie s) rv) = None -> brev (x_trie s) nb <= rv < up (x_trie s) y.
Proof.
  intros I EX EB LT Hrv HP. unfold pool_of in HP. set (t := x_trie s) in *.
  destruct (find_bucket_spec t _ rv (ei_trie _ _ I) Hrv) as (l & v & E & N & Hle & HB).
  destruct (base_anchor t _ (find_bucket t rv) (ei_trie _ _ I)) as [A1 A2]; [rewrite E; apply N|].
  set (c := base t (find_bucket t rv)) in *.
  assert (Nc : c <> bmax).
  { destruct (base_ok t _ l v (ei_trie _ _ I) (proj1 N) (proj2 N)) as (l' & El & _ & NE).
    unfold c. rewrite E, El. exact NE. }
  assert (BC : brev t c = v) by (rewrite A2, E; auto).
  destruct (nid_eq_dec c nb) as [EQ|NE].
  - rewrite <- EQ. rewrite <- EQ in LT. split; [lia|]. unfold up. destruct (nid_eqb y bmax) eqn:Ey; [lia|]. apply nid_eqb_neq in Ey.
    destruct (Z_lt_ge_dec rv (brev t y)) as [|GE]; auto. exfalso.
    assert (Hy : In y xl) by (rewrite EX; apply in_or_app; right; left; auto).
    pose proof (find_bucket_max t xl rv (ei_trie _ _ I) Hrv (ei_16 _ _ I) y Hy Ey ltac:(fold t; lia)) as X. fold t in X.
    rewrite E, HB in X. lia.
  - exfalso. assert (Hc : In c (x_bl s)).
    { rewrite EB. rewrite EX in A1. apply in_app_or in A1 as [A1|[A1|[A1|A1]]]; apply in_or_app; auto; [right; left; auto|congruence|right; right; auto]. }
    destruct (ei_pred s _ I c Hc Nc) as (y' & Hy'). destruct (ei_pool _ _ I y' c Hy') as (p & HP' & _). fold t in HP'. congruence.
Qed.

(** * Storing a new key while no bucket is over-full and all buckets are linked *)
Definition fits (s : estate) : Prop :=
  forall y b p, adj (x_bl s) y b -> b_pool (bget (x_trie s) b) = Some p -> p_len p <= x_max s.
(** bucket b (below y) of s is the interval of 2^m positions from lo *)
Definition stripe (s : estate) (lo m : Z) : Prop :=
  exists y b, adj (x_bl s) y b /\ brev (x_trie s) b = lo /\ up (x_trie s) y = lo + 2 ^ m /\ 0 <= m /\ (2 ^ m | lo).
Lemma stripe_at {st} s xl y b : einvb st s xl -> adj (x_bl s) y b ->
  exists m, up (x_trie s) y = brev (x_trie s) b + 2 ^ m /\ 0 <= m <= 64 /\ (2 ^ m | brev (x_trie s) b).
Proof.
  intros I H. destruct (gap_pow s xl y b I H) as (m & U & M). exists m. split; auto. split; auto.
  destruct H as (A & B & E). pose proof (ei_ext _ _ I) as EXT. rewrite E in EXT.
  destruct (ext_at _ _ _ _ _ _ EXT) as (xa & ds & xb & m' & _ & _ & (MU & MD & M0 & _) & _).
  assert (m' = m); [|subst; auto]. rewrite U in MU. apply Z.add_cancel_l in MU. symmetry in MU. apply Z.pow_inj_r in MU; lia.
Qed.

Lemma eset_bal h s x v k conf : einv s (x_bl s) -> enodel s -> 16 <= x_max s -> fits s ->
  key_to_hash h (KStr x) = Some (k, conf) ->
  eload s k conf = Ret None -> (forall z, cont s z -> pr_rev z <> reverse64 k) -> reverse64 k < MAX64 ->
  exists s' y b p m, eset h s (KStr x) v = (s', Ret (RBool true)) /\ enodel s' /\
    x_max s' = x_max s /\ x_len s' = x_len s + 1 /\
    (forall z, cont s' z <-> (z = (reverse64 k, conf, false, KStr x, v) \/ cont s z)) /\
    adj (x_bl s) y b /\ b_pool (bget (x_trie s) b) = Some p /\
    brev (x_trie s) b <= reverse64 k < up (x_trie s) y /\
    up (x_trie s) y = brev (x_trie s) b + 2 ^ m /\ 0 <= m /\ (2 ^ m | brev (x_trie s) b) /\
    let lo := brev (x_trie s) b in let nr := lo + 2 ^ (m - 1) in
    let below := exists r, lo <= r < nr /\ (r = reverse64 k \/ exists z, cont s z /\ pr_rev z = r) in
    let above := exists r, nr <= r < up (x_trie s) y /\ (r = reverse64 k \/ exists z, cont s z /\ pr_rev z = r) in
    ((p_len p < x_max s /\ einv s' (x_bl s') /\ fits s' /\ forall l w, stripe s' l w -> stripe s l w) \/
     (p_len p = x_max s /\ 5 <= m /\ below /\ above /\ einv s' (x_bl s') /\ fits s' /\
        forall l w, stripe s' l w -> stripe s l w \/ (w = m - 1 /\ (l = lo \/ l = nr))) \/
     (p_len p = x_max s /\ 5 <= m /\ (~ below \/ ~ above) /\
        forall rv, 0 <= rv < W64 -> (pool_of (x_trie s') (find_bucket (x_trie s') rv) = None <-> nr <= rv < up (x_trie s) y))).
Proof.
  intros I ND HM FT HK EL HF HX. pose proof (reverse64_range k) as R.
  destruct (eload_spec s _ k conf I) as [E|[(n & j & p & E & _)|(_ & y & b & p & Hy & Eb & Ri & HP & K & _)]];
    [congruence|congruence|].
  destruct (stripe_at s _ y b I Hy) as (m & HU & Hm & HD).
  unfold eset. rewrite HK, EL. cbv zeta. unfold pool_of at 1.
  assert (BB : base (x_trie s) (base (x_trie s) (find_bucket (x_trie s) (reverse64 k))) = b).
  { rewrite <- Eb. apply (base_linked _ (x_bl s)); [apply (ei_trie _ _ I)|]. apply (ei_adj_x s _ I _ _ Hy). }
  rewrite BB, HP. rewrite <- Eb.
  assert (NP : forall sl, In sl (live p) -> sl_rev sl <> reverse64 k).
  { intros sl Hs E. apply (HF (pr sl)); [|exact E]. exists y, b, p. split; auto. split; auto. apply in_map; auto. }
  destruct (get_with_fn_ok p _ _ (reverse64 k) K (ND _ _ _ Hy HP) Ri NP) as (p1 & i & l1 & l2 & EG & ES & EM & EN & HL1 & HL2 & HUp).
  rewrite EG, ES. cbn [zero_slot sl_rev sl_conf sl_val sl_del sl_linked negb andb]. rewrite !Z.eqb_refl.
  destruct (set_value_zero v) as (ok & ->).
  set (fl := fun z : slot => mkS (reverse64 k) conf (sl_del z) (KStr x) v true).
  destruct (HUp fl eq_refl) as (K1 & EM1 & ND1). specialize (ND1 (ND _ _ _ Hy HP) eq_refl).
  set (p2 := upd_slot p1 i fl) in *.
  assert (LP2 : p_len p2 = p_len p + 1) by (unfold p2, upd_slot; exact EN).
  unfold set_bpool, set_xtrie. cbn [x_trie x_bl x_lv x_len x_max].
  set (t' := tupd (x_trie s) b (fun z => set_pool z (Some p2))).
  assert (SS : same_shape (x_trie s) t') by (apply same_shape_tupd; intros; reflexivity).
  assert (GN : b_pool (bget t' b) = Some p2) by (unfold t', tupd; rewrite bget_tset, nid_eqb_refl; reflexivity).
  assert (GO : forall m, m <> b -> b_pool (bget t' m) = b_pool (bget (x_trie s) m)).
  { intros m' Hm'. unfold t', tupd. rewrite bget_tset. destruct (nid_eqb b m') eqn:E; auto.
    apply nid_eqb_eq in E. congruence. }
  destruct (einv_pool s _ t' y b p p2 I SS Hy HP GN GO K1 (x_lv s) (x_len s + 1)) as (I' & C' & D').
  specialize (D' ND ND1).
  set (s2 := mkX t' (x_bl s) (x_lv s) (x_len s + 1) (x_max s)) in *.
  assert (CC : forall z, cont s2 z <-> (z = (reverse64 k, conf, false, KStr x, v) \/ cont s z)).
  { intros z. rewrite C', EM1, EM, !in_app_iff. cbn [In].
    assert (PC : In z l1 \/ In z l2 -> cont s z).
    { intros H. exists y, b, p. split; auto. split; auto. rewrite EM. apply in_or_app; auto. }
    change (pr (fl zero_slot)) with (reverse64 k, conf, false, KStr x, v).
    split.
    - intros [[H|[<-|H]]|[H _]]; auto.
    - intros [->|H]; auto. destruct (in_dec prj_dec z l1); auto. destruct (in_dec prj_dec z l2); auto. right. tauto. }
  assert (HB : forall n, brev t' n = brev (x_trie s) n) by (intros; symmetry; apply same_shape_brev; auto).
  assert (UB : forall n, up t' n = up (x_trie s) n) by (intros; unfold up; rewrite HB; auto).
  assert (Hy2 : adj (x_bl s2) y b) by exact Hy.
  set (lo := brev (x_trie s) b) in *. set (nr := lo + 2 ^ (m - 1)).
  (* what is in the bucket *)
  assert (INB : forall sl, In sl (live p2) -> lo <= sl_rev sl < up (x_trie s) y /\ (sl_rev sl = reverse64 k \/ exists z, cont s z /\ pr_rev z = sl_rev sl)).
  { intros sl Hs. split; [apply (po_rng _ _ _ K1 sl Hs)|].
    assert (Cx : cont s2 (pr sl)) by (exists y, b, p2; split; auto; split; auto; apply in_map; auto).
    apply CC in Cx as [Cx|Cx]; [left|right; exists (pr sl); auto]. unfold pr in Cx. congruence. }
  assert (OUTB : forall r, lo <= r < up (x_trie s) y -> (r = reverse64 k \/ exists z, cont s z /\ pr_rev z = r) -> exists sl, In sl (live p2) /\ sl_rev sl = r).
  { intros r Hr Hz. assert (Z2 : exists z, cont s2 z /\ pr_rev z = r).
    { destruct Hz as [->|(z & Cz & Ez)]; [|exists z; rewrite CC; auto].
      exists (reverse64 k, conf, false, KStr x, v). rewrite CC. auto. }
    destruct Z2 as (z & Cz & Ez).
    apply (cont_here s2 _ I' r y b p2 z Hy2) in Cz; auto.
    - apply in_map_iff in Cz as (sl & <- & Hs). exists sl. auto.
    - cbn [s2 x_trie]. rewrite HB, UB. fold lo. auto. }
  assert (STR2 : forall l w, stripe s2 l w <-> stripe s l w).
  { intros l w. unfold stripe. cbn [s2 x_bl x_trie]. split; intros (y0 & b0 & Q); exists y0, b0; rewrite ?HB, ?UB in *; auto. }
  (* the last step does not matter *)
  assert (LAST : forall s3 xl3, einv s3 xl3 ->
    let s4 := mkX (tupd (x_trie s3) b (fun z => set_blen z (b_len z + 1))) (x_bl s3) (x_lv s3) (x_len s3) (x_max s3) in
    einv s4 xl3 /\ (enodel s3 -> enodel s4) /\ (forall z, cont s4 z <-> cont s3 z) /\ (forall n, b_pool (bget (x_trie s4) n) = b_pool (bget (x_trie s3) n)) /\
    (forall n, brev (x_trie s4) n = brev (x_trie s3) n) /\ (forall n, up (x_trie s4) n = up (x_trie s3) n) /\ (fits s3 -> fits s4) /\
    (forall l w, stripe s4 l w <-> stripe s3 l w)).
  { intros s3 xl3 I3 s4.
    assert (S4 : same_shape (x_trie s3) (x_trie s4)) by (apply same_shape_tupd; intros; reflexivity).
    assert (P4 : forall n, b_pool (bget (x_trie s4) n) = b_pool (bget (x_trie s3) n)).
    { intros n. unfold s4. cbn [x_trie]. unfold tupd. rewrite bget_tset. destruct (nid_eqb b n) eqn:E; auto. apply nid_eqb_eq in E. subst; auto. }
    destruct (einv_same s3 xl3 (x_trie s4) (x_lv s3) (x_len s3) I3 S4 P4) as (I4 & C4 & N4).
    assert (HB4 : forall n, brev (x_trie s4) n = brev (x_trie s3) n) by (intros; symmetry; apply same_shape_brev; auto).
    assert (UB4 : forall n, up (x_trie s4) n = up (x_trie s3) n) by (intros; unfold up; rewrite HB4; auto).
    split; [exact I4|]. split; [exact N4|]. split; [exact C4|]. split; [exact P4|]. split; [exact HB4|]. split; [exact UB4|]. split.
    - intros F3 y0 b0 p0 A0 P0. rewrite P4 in P0. apply (F3 y0 b0 p0 A0 P0).
    - intros l w. unfold stripe. split; intros (y0 & b0 & Q); exists y0, b0; rewrite ?HB4, ?UB4 in *; auto. }
  pose proof (FT y b p Hy HP) as FP.
  destruct (Z.ltb_spec (reverse64 k) MAX64) as [_|]; [|lia]. cbn [andb].
  destruct (Z.ltb_spec (x_max s) (p_len p1)) as [OV|OV].
  2:{ (* room *)
    destruct (LAST s2 _ I') as (I4 & N4 & C4 & P4 & B4 & U4 & F4 & S4).
    eexists _, y, b, p, m. split; [reflexivity|]. split; [apply N4; auto|]. split; [reflexivity|]. split; [reflexivity|].
    split; [intros z; rewrite C4; apply CC|]. split; auto. split; auto. split; auto. split; auto. split; [lia|]. split; auto.
    cbv zeta. left. split; [lia|]. split; [exact I4|]. split.
    - apply F4. intros y0 b0 p0 A0 P0. cbn [s2 x_trie x_max x_bl] in *.
      destruct (nid_eq_dec b0 b) as [->|Nb]; [rewrite GN in P0; injection P0 as <-; lia|]. rewrite GO in P0 by auto. apply (FT y0 b0 p0); auto.
    - intros l w Q. apply S4 in Q. apply STR2; auto. }
  assert (PF : p_len p = x_max s) by lia.
  destruct Hy2 as (A & B & EAB).
  destruct (mb_first 63 s2 (x_bl s2) A y b B p2 m I' D' (narrow_strict _ _ _ _ K1 HM) EAB GN ltac:(cbn [s2 x_max]; lia)
    ltac:(cbn [s2 x_trie]; rewrite HB, UB; auto) ltac:(lia)) as (M5 & _ & t1 & lv1 & xa & xb & XE & I1 & ND2 & C1 & HO & EA1 & EB1 & NIN & NBM & RNB & PNB & NRY & EQ).
  cbn [s2 x_trie x_bl x_max x_len x_lv] in XE, I1, ND2, C1, HO, EA1, EB1, NIN, NBM, RNB, PNB, NRY, EQ. rewrite HB in *. fold lo in XE, I1, ND2, C1, HO, EA1, EB1, NIN, NBM, RNB, PNB, NRY, EQ.
  fold nr in XE, I1, ND2, C1, HO, EA1, EB1, NIN, NBM, RNB, PNB, NRY, EQ. set (nb := (level_of nr, nr)) in *.
  destruct (XE eq_refl) as [-> ->]. clear XE.
  set (s1 := mkX t1 (x_bl s) lv1 (x_len s + 1) (x_max s)) in *.
  change 64%nat with (S 63). rewrite EQ. clear EQ.
  assert (NP2 : nodel p2) by (apply (D' y b p2); auto).
  assert (BEL : forall sl, In sl (live p2) -> sl_rev sl < nr -> exists r, lo <= r < nr /\ (r = reverse64 k \/ exists z, cont s z /\ pr_rev z = r)).
  { intros sl Hs Hlt. destruct (INB sl Hs) as [Q1 Q2]. exists (sl_rev sl). split; [lia|auto]. }
  assert (ABV : forall sl, In sl (live p2) -> nr <= sl_rev sl -> exists r, nr <= r < up (x_trie s) y /\ (r = reverse64 k \/ exists z, cont s z /\ pr_rev z = r)).
  { intros sl Hs Hlt. destruct (INB sl Hs) as [Q1 Q2]. exists (sl_rev sl). split; [lia|auto]. }
  assert (ODD : ((~ exists r, lo <= r < nr /\ (r = reverse64 k \/ exists z, cont s z /\ pr_rev z = r)) \/
                 (~ exists r, nr <= r < up (x_trie s) y /\ (r = reverse64 k \/ exists z, cont s z /\ pr_rev z = r))) ->
    exists s' y0 b0 p0 m0,
     (mkX (tupd (x_trie s1) b (fun z => set_blen z (b_len z + 1))) (x_bl s1) (x_lv s1) (x_len s1) (x_max s1), Ret (RBool true)) = (s', Ret (RBool true)) /\ enodel s' /\
    x_max s' = x_max s /\ x_len s' = x_len s + 1 /\
    (forall z, cont s' z <-> (z = (reverse64 k, conf, false, KStr x, v) \/ cont s z)) /\
    adj (x_bl s) y0 b0 /\ b_pool (bget (x_trie s) b0) = Some p0 /\
    brev (x_trie s) b0 <= reverse64 k < up (x_trie s) y0 /\
    up (x_trie s) y0 = brev (x_trie s) b0 + 2 ^ m0 /\ 0 <= m0 /\ (2 ^ m0 | brev (x_trie s) b0) /\
    let lo := brev (x_trie s) b0 in let nr := lo + 2 ^ (m0 - 1) in
    let below := exists r, lo <= r < nr /\ (r = reverse64 k \/ exists z, cont s z /\ pr_rev z = r) in
    let above := exists r, nr <= r < up (x_trie s) y0 /\ (r = reverse64 k \/ exists z, cont s z /\ pr_rev z = r) in
    ((p_len p0 < x_max s /\ einv s' (x_bl s') /\ fits s' /\ forall l w, stripe s' l w -> stripe s l w) \/
     (p_len p0 = x_max s /\ 5 <= m0 /\ below /\ above /\ einv s' (x_bl s') /\ fits s' /\
        forall l w, stripe s' l w -> stripe s l w \/ (w = m0 - 1 /\ (l = lo \/ l = nr))) \/
     (p_len p0 = x_max s /\ 5 <= m0 /\ (~ below \/ ~ above) /\
        forall rv, 0 <= rv < W64 -> (pool_of (x_trie s') (find_bucket (x_trie s') rv) = None <-> nr <= rv < up (x_trie s) y0)))).
  { intros HOdd. destruct (LAST s1 _ I1) as (I4 & N4 & C4 & P4 & B4 & U4 & F4 & S4).
    set (s4 := mkX (tupd (x_trie s1) b (fun z => set_blen z (b_len z + 1))) (x_bl s1) (x_lv s1) (x_len s1) (x_max s1)) in *.
    exists s4, y, b, p, m. split; [reflexivity|]. split; [apply N4; auto|]. split; [reflexivity|]. split; [reflexivity|].
    split; [intros z; rewrite C4, C1; apply CC|]. split; auto. split; auto. split; auto. split; auto. split; [lia|]. split; auto.
    cbv zeta. fold lo. fold nr. right. right. split; auto. split; auto. split; [exact HOdd|].
    assert (YB : In y (x_bl s)) by (apply (adj_in _ _ _ Hy)).
    assert (UY : up (x_trie s4) y = up (x_trie s) y) by (rewrite U4; unfold up; cbn [s1 x_trie]; rewrite (proj1 (HO y YB)), HB; auto).
    assert (NB4 : brev (x_trie s4) nb = nr) by (rewrite B4; exact RNB).
    intros rv Hrv. rewrite <- UY, <- NB4. split; intros Hrv1.
    - apply (route_dead_only s4 _ A y nb b B rv I4 eq_refl EAB); auto.
      rewrite NB4, B4. cbn [s1 x_trie]. rewrite (proj1 (HO y YB)). exact NRY.
    - apply (route_dead s4 _ A y nb b B rv I4 eq_refl NBM); auto.
      rewrite P4. exact PNB. }
  assert (PW0 : 2 ^ m = 2 * 2 ^ (m - 1)) by (replace m with (Z.succ (m - 1)) at 1 by lia; apply Z.pow_succ_r; lia).
  assert (PWP : 0 < 2 ^ (m - 1)) by (apply Z.pow_pos_nonneg; lia).
  assert (NRU : lo < nr < up (x_trie s) y) by (rewrite HU; unfold nr; fold lo; lia).
  destruct (find_idx p2 nr) as [[|j]|] eqn:FI.
  - apply ODD. left. intros (r & Hr & Hz). destruct (OUTB r ltac:(lia) Hz) as (sl & Hs & Es).
    destruct (find_idx_spec p2 _ _ nr 0%nat K1 NP2 FI) as (q1 & z & q2 & EQ & E0 & Rz & _). destruct q1; [|discriminate]. cbn [app] in EQ.
    pose proof (po_sorted _ _ _ K1) as SO. rewrite EQ in SO, Hs. cbn [map] in SO. apply StronglySorted_inv in SO as [_ FF].
    rewrite Forall_forall in FF. destruct Hs as [<-|Hs]; [lia|]. specialize (FF _ (in_map sl_rev _ _ Hs)). lia.
  - (* both sides *)
    clear ODD. destruct (find_idx_spec p2 _ _ nr (S j) K1 NP2 FI) as (q1 & z & q2 & EQ & E0 & Rz & L1).
    assert (Q1 : q1 <> []) by (intros ->; discriminate).
    assert (L2 : forall w, In w (z :: q2) -> nr <= sl_rev w).
    { intros w [<-|Hw]; auto. pose proof (po_sorted _ _ _ K1) as SO. rewrite EQ, map_app in SO. apply sorted_app in SO as (_ & SO & _).
      cbn [map] in SO. apply StronglySorted_inv in SO as [_ FF]. rewrite Forall_forall in FF.
      specialize (FF (sl_rev w) (in_map _ _ _ Hw)). lia. }
    assert (PW : 2 ^ m = 2 * 2 ^ (m - 1)) by (replace m with (Z.succ (m - 1)) at 1 by lia; apply Z.pow_succ_r; lia).
    assert (HO2 : forall n, In n (x_bl s2) -> brev t1 n = brev (x_trie s2) n /\ (n <> nb -> b_pool (bget t1 n) = b_pool (bget (x_trie s2) n))) by (exact HO).
    pose proof (split_step s2 (x_bl s2) A y b B p2 m t1 lv1 A B nr q1 (z :: q2) I' D' EAB GN I1 HO2 EA1 EB1 NIN NBM RNB ltac:(lia)
      ltac:(cbn [s2 x_trie]; rewrite HB, UB; auto) ltac:(cbn [s2 x_trie]; rewrite HB; auto) ltac:(cbn [s2 x_trie]; rewrite HB; reflexivity)
      ltac:(exact NRY) EQ Q1 ltac:(discriminate) L1 L2) as ST.
    cbv zeta in ST. rewrite <- E0 in ST. fold nb in ST. cbn [s2 x_trie x_bl x_max x_len] in ST. cbv zeta.
    match goal with |- context [mkX _ _ ?lvq (x_len s + 1) _] => specialize (ST lvq) end.
    destruct ST as (S1 & S2 & S3 & S4 & S5 & S6 & S7 & S8).
    set (t3 := tupd (tupd t1 nb (fun x => set_blen (set_pool x (Some (split_hi p2 (S j)))) (p_len p2 - Z.of_nat (S j)))) b
      (fun x => set_blen (set_pool x (Some (split_lo p2 (S j)))) (Z.of_nat (S j)))) in *.
    set (bl := match bucket_below t3 (brev t3 nb) (x_bl s) with Some n => ins_before n nb (x_bl s) | None => x_bl s end) in *.
    assert (LQ : p_len p2 = Z.of_nat (List.length q1) + 1 + Z.of_nat (List.length q2)).
    { pose proof (live_length _ _ _ K1) as LL. rewrite EQ, app_length in LL. cbn [List.length] in LL.
      pose proof (po_len _ _ _ K1). unfold p_n in LL. lia. }
    assert (LJ : (0 < List.length q1)%nat) by (destruct q1; [congruence|cbn; lia]).
    destruct (Z.ltb_spec (x_max s) (p_len p2 - Z.of_nat (S j))) as [G|G]; [lia|].
    destruct (Z.ltb_spec (x_max s) (Z.of_nat (S j))) as [G2|G2]; [lia|].
    match goal with |- context [mkX t3 bl ?l (x_len s + 1) _] => set (lvq := l) in * end.
    set (s3 := mkX t3 bl lvq (x_len s + 1) (x_max s)) in *.
    assert (I3 : einv s3 (x_bl s3)) by (cbn [s3 x_bl]; rewrite S1; exact S2).
    destruct (LAST s3 _ I3) as (I4 & N4 & C4 & P4 & B4 & U4 & F4 & SS4).
    eexists _, y, b, p, m. split; [reflexivity|]. split; [apply N4; auto|]. split; [reflexivity|]. split; [reflexivity|].
    split; [intros w; rewrite C4, S4; apply CC|]. split; auto. split; auto. split; auto. split; auto. split; [lia|]. split; auto.
    cbv zeta. fold lo. fold nr. right. left. split; auto. split; auto.
    assert (H1 : In z (live p2)) by (rewrite EQ; apply in_or_app; right; left; auto).
    split. { destruct q1 as [|w q1]; [congruence|]. apply (BEL w); [rewrite EQ; left; auto|apply L1; left; auto]. }
    split. { apply (ABV z); auto. }
    split; [exact I4|].
    assert (ADJ : forall u w, adj bl u w -> (u = y /\ w = nb) \/ (u = nb /\ w = b) \/ (adj (x_bl s) u w /\ w <> b /\ w <> nb)).
    { pose proof (ei_nodup s3 _ I3) as ND3b. cbn [s3 x_bl] in ND3b.
      intros u w H. pose proof H as H0. rewrite S1 in H. destruct (adj_insert _ _ _ _ _ _ _ H) as [X|[X|X]]; auto.
      cbn [s2 x_bl] in EAB. rewrite <- EAB in X.
      destruct (nid_eq_dec w b) as [->|Nw].
      { right; left. split; auto. apply (adj_uniq_l bl u nb b ND3b); auto. rewrite S1. exists (A ++ [y]), B. rewrite <- app_assoc. auto. }
      right; right. split; auto. split; auto. intros ->. apply NIN. apply adj_in in X. tauto. }
    assert (BR3 : forall n, In n (x_bl s) -> brev t3 n = brev (x_trie s) n) by (intros n Hn; rewrite S5 by auto; apply HB).
    assert (YB : In y (x_bl s)) by (apply (adj_in _ _ _ Hy)).
    assert (BB2 : In b (x_bl s)) by (apply (adj_in _ _ _ Hy)).
    assert (U3 : forall n, In n (x_bl s) -> up t3 n = up (x_trie s) n) by (intros n Hn; unfold up; rewrite BR3; auto).
    split.
    + apply F4. intros u w q Hu Hq. cbn [s3 x_trie x_bl x_max] in *. destruct (ADJ u w Hu) as [[-> ->]|[[-> ->]|(X & Nw & Nw2)]].
      * rewrite S7 in Hq. injection Hq as <-. cbn [split_hi p_len]. lia.
      * rewrite S8 in Hq. injection Hq as <-. cbn [split_lo p_len]. lia.
      * assert (Pw : b_pool (bget t3 w) = b_pool (bget (x_trie s) w)).
        { unfold t3, tupd. rewrite !bget_tset_ne by auto. rewrite (proj2 (HO w (proj2 (adj_in _ _ _ X))) Nw2). apply GO; auto. }
        rewrite Pw in Hq. apply (FT u w q X Hq).
    + intros l w Q. apply SS4 in Q. destruct Q as (u & c & Hu & E1 & E2 & E3 & E4). cbn [s3 x_trie x_bl] in *.
      assert (PI : forall w', 0 <= w' -> 2 ^ w' = 2 ^ (m - 1) -> w' = m - 1) by (intros w' W1 W2; apply Z.pow_inj_r in W2; lia).
      destruct (ADJ u c Hu) as [[-> ->]|[[-> ->]|(X & Nw & Nw2)]].
      * right. rewrite S6 in E1. rewrite U3 in E2 by auto. split; auto. apply PI; auto. unfold nr in E1. lia.
      * right. rewrite BR3 in E1 by auto. fold lo in E1. unfold up in E2. apply nid_eqb_neq in NBM. rewrite NBM, S6 in E2.
        split; auto. apply PI; auto. unfold nr in E2. lia.
      * left. exists u, c. destruct (adj_in _ _ _ X) as [Xu Xc]. rewrite BR3 in E1 by auto. rewrite U3 in E2 by auto. auto.
  - apply ODD. right. intros (r & Hr & Hz). destruct (OUTB r ltac:(lia) Hz) as (sl & Hs & Es).
    unfold find_idx in FI. pose proof (first_ge_none _ _ _ FI) as FN.
    specialize (FN sl Hs (NP2 sl Hs)). lia.
Qed.
