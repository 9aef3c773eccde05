(** The lists of buckets per level (h.levels) in the embedded mode. A bucket that makeBucket2 created but did not link is in
    no list; every other bucket is in the list of its level, once. *)
From Verif Require Import Base BaseProofs Util UtilProofs Bucket TrieProofs TrieInv TrieGrow LevelList MapModel ItemProofs MapInv MapSplit MapInit
  Spec MapRefine EmbSpec EmbModel EmbPool EmbTrie EmbInv EmbSplit EmbRefine EmbHandle.
From Coq Require Import ZifyBool Sorted Permutation.
Local Open Scope Z_scope.
Local Opaque level_of trunc sz reverse64 base find_bucket.

(** a slot-0 child, or a bucket in the bucket list *)
Definition shown (t : trie) (bl : list nid) (n : nid) : Prop := present t n /\ (b_parent (bget t n) <> None \/ In n bl).
Definition lists_ok (t : trie) (bl : list nid) (lv : levels) : Prop := List.length lv = 16%nat /\
  forall l, 1 <= l <= 16 -> NoDup (lv_get lv l) /\ forall n, In n (lv_get lv l) <-> shown t bl n /\ lvl t n = l.
Record elv (t : trie) (bl : list nid) (lv : levels) : Prop := {
  el_lists : lists_ok t bl lv;
  el_down : forall n, present t n -> 0 < b_down (bget t n) -> shown t bl n;
  el_top : forall i, 0 <= i < 16 -> In (top i) bl }.

Lemma shown_shape t t' bl n : same_shape t t' -> shown t bl n <-> shown t' bl n.
Proof.
  intros S. unfold shown, present. rewrite (same_shape_lvl _ _ _ S). specialize (S n). apply shape_parent in S. rewrite S. tauto.
Qed.
Lemma elv_shape t t' bl lv : same_shape t t' -> elv t bl lv -> elv t' bl lv.
Proof.
  intros S [[H1 H2] H3 H4]. constructor; auto.
  - split; auto. intros l Hl. destruct (H2 l Hl) as [A B]. split; auto. intros n. rewrite B, (shown_shape _ _ _ _ S), (same_shape_lvl _ _ _ S). tauto.
  - intros n Hp Hd. apply (shown_shape t); auto. apply H3; [unfold present in *; rewrite (same_shape_lvl t t'); auto|]. rewrite (shape_down _ _ (S n)). auto.
Qed.

(** the level lists after bucketFromPoolEmbedded created a bucket *)
Lemma bfpe_lv t bl lv nr : trie_ok t bl -> 0 < nr < W64 ->
  (forall l, 1 <= l < level_of nr -> present t (l, trunc l nr)) -> ~ present t (level_of nr, nr) ->
  forall f l, 1 <= l < level_of nr -> (level_of nr - l <= Z.of_nat f) ->
  let L := level_of nr in let r := trunc (L - 1) nr in
  snd (fst (bfpe_loop f t lv (l + 1) L nr (l, trunc l nr))) =
    if b_down (bget t (L - 1, r)) =? 0 then lv_set lv L (ins_level0 t r (L, r) (lv_get lv L)) else lv.
Proof.
  intros K Hnr Hpre Hp. destruct (level_of_spec nr Hnr) as (HLr & HLd & HLn). cbv zeta.
  set (L := level_of nr) in *. assert (HtL : trunc L nr = nr) by (apply trunc_id; auto; lia).
  intros f. induction f as [|f IH]; intros l Hl Hf; [lia|].
  cbn [bfpe_loop]. destruct (Z.ltb_spec L (l + 1)) as [Hlt|Hge]; [lia|].
  assert (Hl15 : l <= 15) by lia. assert (Hpl : present t (l, trunc l nr)) by (apply Hpre; lia).
  assert (Hnl : (l, trunc l nr) <> bmax) by (intros B; inversion B; lia).
  destruct (tk_node _ _ K _ _ Hpl Hnl) as (_ & HVl & HDl & HLvl & HRl & Hdn).
  assert (Hc : child (l, trunc l nr) (nib nr (l + 1)) = (l + 1, trunc (l + 1) nr)) by (rewrite child_eq, trunc_step by lia; reflexivity).
  pose proof (nib_range nr (l + 1) ltac:(lia) ltac:(lia)) as Hnib.
  destruct (Z.eq_dec (l + 1) L) as [EL|NL].
  - assert (Hnz : nib nr (l + 1) <> 0).
    { intros Z0. apply nib_0 in Z0; try lia. rewrite EL, HtL in Z0. apply HLn. replace (L - 1) with l by lia. rewrite Z0. apply trunc_div. }
    assert (Hch0 : child (l, trunc l nr) 0 = (L, trunc l nr)) by (rewrite child_eq, EL; f_equal; lia).
    assert (Hcp : (L, nr) <> (l, trunc l nr)) by (intros B; inversion B; lia).
    assert (Hc0c : (L, trunc l nr) <> (L, nr)).
    { intros B; inversion B as [B1]. apply Hnz. apply nib_0; try lia. rewrite EL, HtL. auto. }
    rewrite Hc, EL, HtL. rewrite EL in Hnz, Hnib. replace (L - 1) with l by lia. unfold ensure_down. rewrite Hch0, HRl.
    destruct (Z.eqb_spec (b_down (bget t (l, trunc l nr))) 0) as [D0|D0].
    + rewrite bget_tset_eq. cbn [b_down set_down]. destruct (Z.leb_spec 1 (nib nr L)); [|lia].
      assert (Lc : forall X, lvl (tupd (tset (tset t (L, trunc l nr) X) (l, trunc l nr) (set_down (bget t (l, trunc l nr)) 1)) (l, trunc l nr) (fun b => set_down b (nib nr L + 1))) (L, nr) = 0).
      { intros X. unfold lvl, tupd. rewrite !bget_tset_ne by auto. unfold present, lvl in Hp. lia. }
      rewrite Lc. reflexivity.
    + destruct (Z.leb_spec (b_down (bget t (l, trunc l nr))) (nib nr L)).
      * assert (Lc : lvl (tupd t (l, trunc l nr) (fun b => set_down b (nib nr L + 1))) (L, nr) = 0).
        { unfold lvl, tupd. rewrite !bget_tset_ne by auto. unfold present, lvl in Hp. lia. }
        rewrite Lc. reflexivity.
      * destruct (Z.eqb_spec (lvl t (L, nr)) 0) as [Z0|NZ]; [reflexivity|exfalso; apply Hp; exact NZ].
  - assert (Hpc : present t (l + 1, trunc (l + 1) nr)) by (apply Hpre; lia).
    pose proof (present_child t bl l nr K ltac:(lia) ltac:(lia) Hpc) as Hb.
    rewrite ensure_down_id by lia. rewrite Hc.
    destruct (Z.leb_spec (b_down (bget t (l, trunc l nr))) (nib nr (l + 1))); [lia|].
    destruct (Z.eqb_spec (lvl t (l + 1, trunc (l + 1) nr)) 0) as [Z0|_]; [unfold present in Hpc; lia|].
    apply IH; lia.
Qed.

(** an unlinked bucket is alone in its gap *)
Lemma ext_dead t bl xl : ext t bl xl -> forall d, In d xl -> ~ In d bl -> exists a x c b m,
  xl = a ++ x :: d :: c :: b /\ up t x = brev t c + 2 ^ m /\ (2 ^ m | brev t c) /\ brev t d = brev t c + 2 ^ (m - 1) /\ 1 <= m.
Proof.
  induction 1 as [c|x c m ds bl xl M E IH]; intros d Hd Nd; [contradiction|].
  destruct Hd as [->|Hd]; [exfalso; apply Nd; left; auto|].
  apply in_app_or in Hd as [Hd|Hd].
  - destruct M as (A1 & A2 & A3 & [->|(e & -> & _ & A4 & A5)]); [destruct Hd|]. destruct Hd as [->|[]].
    exists [], x, c, xl, m. auto.
  - destruct (IH d Hd) as (a & x' & c' & b & m' & -> & R); [intros H; apply Nd; right; auto|].
    exists (x :: ds ++ a), x', c', b, m'. split; auto. cbn [app]. rewrite <- app_assoc. reflexivity.
Qed.

(** the parent of a new bucket is not one of the unlinked ones *)
Lemma parent_linked t bl xl xa y b xb m (n : nid) : trie_ok t xl -> ext t bl xl -> xl = xa ++ y :: b :: xb -> In b bl -> 1 <= m ->
  let nr := brev t b + 2 ^ (m - 1) in
  nr < brev t y -> nr < MAX64 -> forall l, 1 <= l <= 16 -> n = (l, trunc l nr) -> l < level_of nr -> In n xl -> In n bl.
Proof.
  intros K EX EQ Hb Hm nr HY HM l Hl En HLv Hn.
  destruct (in_dec nid_eq_dec n bl) as [|NI]; auto. exfalso.
  pose proof (Z.pow_pos_nonneg 2 (m - 1) ltac:(lia) ltac:(lia)) as PP.
  assert (Pb : 0 <= brev t b).
  { destruct (nid_eq_dec b bmax) as [->|Nb]; [destruct (tk_bmax _ _ K) as (_ & -> & _); rewrite MAX64_val; lia|].
    assert (HbX : In b xl) by (apply (ext_in _ _ _ EX); auto).
    destruct (tk_bl _ _ K _ HbX) as [P _]. destruct b as [lb vb]. destruct (tk_node _ _ K _ _ P Nb) as (_ & H & _ & _ & -> & _). lia. }
  assert (NRW : 0 <= nr < W64) by (rewrite W64_val; rewrite MAX64_val in HM; unfold nr in *; lia).
  assert (Nn : n <> bmax).
  { intros ->. destruct (tk_head _ _ K) as (q & E & _). destruct (ext_head _ _ _ EX) as (x0 & b0 & y0 & E1 & E2). apply NI. rewrite E1. left. congruence. }
  destruct (tk_bl _ _ K _ Hn) as [Pn _]. rewrite En in Pn, Nn.
  destruct (tk_node _ _ K _ _ Pn Nn) as (_ & HVn & HDn & _ & HRn & _). rewrite <- En in HRn, Pn, Nn.
  pose proof (trunc_le l nr ltac:(lia) ltac:(lia)) as TL.
  pose proof (tk_sorted _ _ K) as TS.
  assert (NB : n <> b) by (intros ->; contradiction).
  (* below b *)
  assert (LT : brev t n < brev t b).
  { destruct (Z_lt_ge_dec (brev t n) (brev t b)) as [|GE]; auto. exfalso.
    pose proof TS as TS2. rewrite EQ in TS2.
    replace (xa ++ y :: b :: xb) with ((xa ++ [y]) ++ b :: xb) in TS2, EQ by (rewrite <- app_assoc; auto).
    rewrite EQ in Hn. apply in_app_or in Hn as [Hn|[Hn|Hn]]; [|congruence|].
    - (* above y *) rewrite EQ in TS. rewrite <- app_assoc in TS. cbn [app] in TS.
      apply in_app_or in Hn as [Hn|[<-|[]]]; [|lia]. clear - TS Hn HY HRn TL.
      apply sorted_app in TS as (_ & _ & F). specialize (F n y Hn (or_introl eq_refl)). cbn in F. lia.
    - apply sorted_app in TS2 as (_ & S2 & _). apply StronglySorted_inv in S2 as [_ F]. rewrite Forall_forall in F. specialize (F n Hn). cbn in F. lia. }
  destruct (ext_dead t bl xl EX n Hn NI) as (a & x & c & q & m' & E & U & D & V & M1).
  assert (PW : 2 ^ m' = 2 * 2 ^ (m' - 1)) by (replace m' with (Z.succ (m' - 1)) at 1 by lia; apply Z.pow_succ_r; lia).
  pose proof (Z.pow_pos_nonneg 2 (m' - 1) ltac:(lia) ltac:(lia)) as PP'.
  (* the block of n ends before the end of its gap *)
  assert (SZ : sz l <= 2 ^ (m' - 1)).
  { rewrite sz_pow2 by lia. apply Z.pow_le_mono_r; [lia|].
    destruct (Z_le_gt_dec (64 - 4 * l) (m' - 1)) as [|G]; auto. exfalso.
    rewrite <- HRn, V in HDn. rewrite sz_pow2 in HDn by lia.
    assert (D2 : (2 ^ m' | brev t c + 2 ^ (m' - 1))) by (apply (Z.divide_trans _ (2 ^ (64 - 4 * l))); auto; apply pow2_divide; lia).
    destruct D as [u Hu]. destruct D2 as [w Hw]. rewrite Hu, PW in Hw.
    assert (X : 2 ^ (m' - 1) * (2 * (w - u) - 1) = 0) by (rewrite PW in *; nia).
    apply Z.mul_eq_0 in X. lia. }
  assert (TT : nr < trunc l nr + sz l) by lia.
  assert (XB : brev t x <= brev t b).
  { rewrite EQ in Hn. pose proof TS as TS3. rewrite E in TS3.
    assert (HbX : In b (a ++ x :: n :: c :: q)) by (rewrite <- E, EQ; apply in_or_app; right; right; left; auto).
    replace (a ++ x :: n :: c :: q) with ((a ++ [x]) ++ n :: c :: q) in TS3, HbX by (rewrite <- app_assoc; auto).
    apply in_app_or in HbX as [HbX|[HbX|HbX]]; [|congruence|].
    - apply in_app_or in HbX as [HbX|[->|[]]]; [|lia].
      apply sorted_app in TS3 as (TS4 & _ & _). apply sorted_app in TS4 as (_ & _ & F). specialize (F b x HbX (or_introl eq_refl)). cbn in F. lia.
    - apply sorted_app in TS3 as (_ & S2 & _). apply StronglySorted_inv in S2 as [_ F]. rewrite Forall_forall in F. specialize (F b HbX). cbn in F. lia. }
  assert (UX : up t x <= brev t b + 0 \/ x = bmax).
  { unfold up. destruct (nid_eqb x bmax) eqn:EB; [right; apply nid_eqb_eq; auto|left; lia]. }
  destruct UX as [UX| ->].
  - rewrite HRn in V. unfold nr in *. lia.
  - destruct (tk_bmax _ _ K) as (_ & BM & _). unfold nr in *. lia.
Qed.

(** a bucket appears without being linked *)
Lemma elv_new t t1 bl xl lv nr : let L := level_of nr in let r := trunc (L - 1) nr in
  trie_ok t xl -> 0 < nr < MAX64 -> 2 <= L -> (forall l, 1 <= l < L -> present t (l, trunc l nr)) -> ~ present t (L, nr) ->
  ~ In (L, nr) bl -> shown t bl (L - 1, r) -> elv t bl lv -> grown t t1 L nr ->
  elv t1 bl (if b_down (bget t (L - 1, r)) =? 0 then lv_set lv L (ins_level0 t r (L, r) (lv_get lv L)) else lv).
Proof.
  cbv zeta. intros K Hnr HL2 Hpre Hp NB SH [[HLEN LV] EDN ETOP] GR. assert (HnW : 0 < nr < W64) by (rewrite W64_val; rewrite MAX64_val in Hnr; lia).
  destruct (level_of_spec nr HnW) as (HLr & HLd & HLn). set (L := level_of nr) in *. clearbody L. remember (trunc (L - 1) nr) as r eqn:Er. set (p := (L - 1, r)) in *.
  assert (Pp : present t p) by (unfold p; rewrite Er; apply Hpre; lia). assert (Np : p <> bmax) by (unfold p, bmax; intros B; inversion B; lia).
  assert (Rr : r <> nr). { intros E. apply HLn. rewrite <- E, Er. apply trunc_div. }
  destruct (tk_node _ _ K _ _ Pp Np) as (_ & HVp & HDp & HLp & HRp & Hdn).
  pose proof (gr_par _ _ _ _ GR) as GP. pose proof (gr_zero _ _ _ _ GR) as GZ. pose proof (gr_new _ _ _ _ GR) as GN. cbv zeta in GP, GZ. cbn [snd] in GZ. rewrite <- Er in GP, GZ. fold p in GP, GZ.
  assert (GO : forall n, n <> (L, nr) -> n <> p -> n <> (L, r) -> bget t1 n = bget t n). { intros n. unfold p. rewrite Er. apply (gr_other _ _ _ _ GR). }
  assert (Z0 : b_down (bget t p) = 0 -> ~ present t (L, r)). { intros D. replace L with (L - 1 + 1) by lia. apply (no_zero_child t xl); auto. split; auto. }
  assert (Z1 : b_down (bget t p) <> 0 -> present t (L, r)). { intros D. replace L with (L - 1 + 1) by lia. apply (tk_down _ _ K); auto. unfold p in *. lia. }
  (* who is shown now *)
  assert (SN : ~ shown t1 bl (L, nr)).
  { intros [_ [H|H]]; [rewrite GN in H; apply H; reflexivity|contradiction]. }
  assert (SO : forall n, n <> (L, nr) -> (b_down (bget t p) = 0 -> n <> (L, r)) -> (shown t1 bl n <-> shown t bl n) /\ lvl t1 n = lvl t n).
  { intros n H1 H2. destruct (nid_eq_dec n p) as [->|N3].
    - unfold shown, present, lvl. destruct GP as (G1 & _ & G2 & _). rewrite G1, G2. tauto.
    - destruct (nid_eq_dec n (L, r)) as [->|N4].
      + rewrite <- (Z.eqb_neq (b_down (bget t p)) 0) in Z1. destruct (Z.eqb_spec (b_down (bget t p)) 0) as [D|D]; [exfalso; apply (H2 D); reflexivity|].
        unfold shown, present, lvl. rewrite GZ. tauto.
      + unfold shown, present, lvl. rewrite (GO n) by auto. tauto. }
  assert (SZ : b_down (bget t p) = 0 -> shown t1 bl (L, r) /\ lvl t1 (L, r) = L).
  { intros D. rewrite D in GZ. cbn [Z.eqb] in GZ. unfold shown, present, lvl. rewrite GZ. cbn [fresh0 b_level b_parent]. split; auto. split; [lia|]. left. discriminate. }
  assert (NZ : (L, r) <> (L, nr)) by (intros B; injection B; auto).
  constructor; auto.
  - split; [destruct (_ =? _); [rewrite lv_set_len|]; auto|].
    assert (CH : forall l n, n <> (L, r) \/ b_down (bget t p) <> 0 -> (shown t1 bl n /\ lvl t1 n = l <-> shown t bl n /\ lvl t n = l)).
    { intros l n HN. destruct (nid_eq_dec n (L, nr)) as [->|N1].
      - split; [intros [H _]; contradiction|]. intros [[H _] _]. contradiction.
      - destruct (SO n N1) as [A B]; [intros D ->; destruct HN; congruence|]. rewrite A, B. tauto. }
    intros l Hl. destruct (LV l Hl) as [ND IF]. destruct (Z.eqb_spec (b_down (bget t p)) 0) as [D|D].
    + rewrite lv_get_set_is by (auto; lia). destruct (Z.eqb_spec L l) as [<-|N].
      * assert (PM := ins_level0_perm t r (L, r) (lv_get lv L)). split.
        -- apply (Permutation_NoDup (Permutation_sym PM)). constructor; auto. intros H. apply IF in H as [[H _] _]. exact (Z0 D H).
        -- intros n. split.
           ++ intros H. apply (Permutation_in _ PM) in H as [<-|H]; [apply SZ; auto|]. apply CH; [left; intros ->; apply IF in H as [[H _] _]; exact (Z0 D H)|apply IF; auto].
           ++ intros H. apply (Permutation_in _ (Permutation_sym PM)). destruct (nid_eq_dec n (L, r)) as [->|NE]; [left; auto|right]. apply IF. apply CH in H; auto.
      * split; auto. intros n. rewrite IF. destruct (nid_eq_dec n (L, r)) as [->|NE]; [|symmetry; apply CH; auto].
        split; [intros [[H _] _]; exfalso; exact (Z0 D H)|]. intros [_ H]. destruct (SZ D) as [_ H']. congruence.
    + split; auto. intros n. rewrite IF. symmetry. apply CH. auto.
  - intros n Hn Hd. destruct (nid_eq_dec n (L, nr)) as [->|N1]; [rewrite GN in Hd; cbn in Hd; lia|].
    destruct (nid_eq_dec n p) as [->|N2]; [apply SO; auto; intros _ B; unfold p in B; injection B; lia|].
    destruct (nid_eq_dec n (L, r)) as [->|N3].
    + rewrite GZ in Hd. destruct (Z.eqb_spec (b_down (bget t p)) 0) as [D|D]; [cbn in Hd; lia|]. apply SO; auto; congruence.
    + apply SO; auto. apply EDN; [unfold present, lvl in *|]; rewrite (GO n) in * by auto; auto.
Qed.
(** an unlinked bucket is linked *)
Lemma elv_link t t3 bl bl' xl lv lk nr : let L := level_of nr in
  trie_ok t xl -> 0 < nr < MAX64 -> present t (L, nr) -> b_parent (bget t (L, nr)) = None -> ~ In (L, nr) bl -> same_shape t t3 ->
  (forall n, In n bl' <-> n = (L, nr) \/ In n bl) -> elv t bl lv ->
  elv t3 bl' (lv_set lv L (ins_level t3 lk (L, nr) (lv_get lv L))).
Proof.
  cbv zeta. intros K Hnr Hp HP NB SS HB [[HLEN LV] EDN ETOP]. assert (HnW : 0 < nr < W64) by (rewrite W64_val; rewrite MAX64_val in Hnr; lia).
  destruct (level_of_spec nr HnW) as (HLr & HLd & HLn). set (L := level_of nr) in *. clearbody L.
  assert (Nb : (L, nr) <> bmax) by (unfold bmax; intros B; inversion B; lia).
  destruct (tk_node _ _ K _ _ Hp Nb) as (_ & _ & _ & HLp & HRp & _).
  assert (HL2 : 2 <= L).
  { destruct (Z.eq_dec L 1) as [E1|]; [|lia]. exfalso. apply NB. rewrite E1 in *. destruct HLd as [q Hq].
    pose proof (ETOP q) as T. rewrite top_eq in T. rewrite Hq. apply T.
    rewrite W64_val in HnW. assert (sz 1 = 1152921504606846976) as Es by reflexivity. rewrite Es in Hq. lia. }
  destruct (tk_up _ _ K _ _ Hp Nb HL2) as [Pp Hd]. set (r := trunc (L - 1) nr) in *.
  assert (Np : (L - 1, r) <> bmax) by (unfold bmax; intros B; inversion B; lia).
  assert (HnT : trunc L nr = nr) by (apply trunc_id; auto; lia).
  assert (NBZ : nib nr L <> 0).
  { intros Z0. replace L with (L - 1 + 1) in Z0 by lia. apply nib_0 in Z0; try lia. replace (L - 1 + 1) with L in Z0 by lia. rewrite HnT in Z0. apply HLn. rewrite Z0. apply trunc_div. }
  pose proof (nib_range nr L ltac:(lia) ltac:(lia)) as NR.
  pose proof (tk_down _ _ K _ _ Pp Np ltac:(lia)) as Pz. replace (L - 1 + 1) with L in Pz by lia.
  assert (Nz : (L, r) <> bmax) by (unfold bmax; intros B; inversion B; lia).
  destruct (tk_node _ _ K _ _ Pz Nz) as (_ & HVz & _ & HLz & HRz & _).
  assert (SZ : shown t bl (L, r)).
  { split; auto. left. destruct (tk_link _ _ K _ _ Pz Nz) as [(_ & _ & ->)|([H|H] & _ & _)]; [discriminate|lia|]. exfalso. apply H.
    replace L with (L - 1 + 1) at 1 by lia. apply nib_0; try lia. replace (L - 1 + 1) with L by lia.
    assert (Dr : (sz (L - 1) | r)) by (unfold r; apply trunc_div).
    rewrite (trunc_id (L - 1) r) by (auto; lia). rewrite (trunc_id L r); auto; [lia|].
    apply (Z.divide_trans _ (sz (L - 1))); auto. apply sz_le; lia. }
  destruct (LV L ltac:(lia)) as [ND IF].
  assert (PM : Permutation (ins_level t3 lk (L, nr) (lv_get lv L)) ((L, nr) :: lv_get lv L)).
  { apply ins_level_perm.
    - intros E. assert (X : In (L, r) (lv_get lv L)) by (apply IF; auto). rewrite E in X. destruct X.
    - intros y Hy E. rewrite <- !(same_shape_brev _ _ _ SS), HRp in E. apply IF in Hy as [[Py Sy] Ly].
      destruct (nid_eq_dec y bmax) as [->|Ny]; [destruct (tk_bmax _ _ K) as (_ & BM & _); lia|].
      destruct y as [a v]. destruct (tk_node _ _ K _ _ Py Ny) as (_ & _ & _ & A1 & A2 & _). assert (a = L) by congruence. assert (v = nr) by congruence. subst a v.
      destruct Sy as [Sy|Sy]; contradiction. }
  assert (SH : forall n, n <> (L, nr) -> (shown t3 bl' n <-> shown t bl n)).
  { intros n Hn. rewrite <- (shown_shape _ _ _ _ SS). unfold shown. rewrite HB. tauto. }
  assert (SNR : shown t3 bl' (L, nr)).
  { apply (shown_shape t); auto. split; auto. right. apply HB. auto. }
  constructor.
  - split; [rewrite lv_set_len; auto|]. intros l Hl. rewrite lv_get_set_is by (auto; lia). destruct (Z.eqb_spec L l) as [<-|NL].
    + split.
      * apply (Permutation_NoDup (Permutation_sym PM)). constructor; auto. intros H. apply IF in H as [[_ [H|H]] _]; contradiction.
      * intros n. rewrite <- (same_shape_lvl _ _ _ SS). split.
        -- intros H. apply (Permutation_in _ PM) in H as [<-|H]; [auto|]. apply IF in H as [H1 H2]. split; auto. apply SH; auto. intros ->. destruct H1 as [_ [H1|H1]]; contradiction.
        -- intros [H1 H2]. apply (Permutation_in _ (Permutation_sym PM)). destruct (nid_eq_dec n (L, nr)) as [->|N]; [left; auto|right]. apply IF. split; auto. apply SH; auto.
    + destruct (LV l Hl) as [ND' IF']. split; auto. intros n. rewrite IF', <- (same_shape_lvl _ _ _ SS). destruct (nid_eq_dec n (L, nr)) as [->|N].
      * split; intros [_ H]; congruence.
      * rewrite SH by auto. tauto.
  - intros n Hn Hdn. destruct (nid_eq_dec n (L, nr)) as [->|N]; auto. apply SH; auto. apply EDN.
    + unfold present in *. rewrite (same_shape_lvl _ _ _ SS). auto.
    + rewrite (shape_down _ _ (SS n)). auto.
  - intros i Hi. apply HB. right. auto.
Qed.

(** what one round of makeBucket2 does to the table: the bucket is there already, unlinked, or it is created *)
Lemma round_cases t xl xa y ds c xb m lv t1 lv1 : trie_ok t xl -> (forall n, In n xl -> n <> bmax -> (16 | brev t n)) ->
  xl = xa ++ y :: ds ++ c :: xb -> mid t y c m ds -> 5 <= m ->
  let nr := brev t c + 2 ^ (m - 1) in let L := level_of nr in let r := trunc (L - 1) nr in
  bucket_from_pool_embedded t lv nr = Some (t1, lv1, (L, nr)) ->
  0 < nr < MAX64 /\
  ((present t (L, nr) /\ t1 = t /\ lv1 = lv) \/
   (~ present t (L, nr) /\ grown t t1 L nr /\ 2 <= L /\ xl = xa ++ y :: c :: xb /\ nr < brev t y /\
    (forall l, 1 <= l < L -> present t (l, trunc l nr)) /\
    lv1 = if b_down (bget t (L - 1, r)) =? 0 then lv_set lv L (ins_level0 t r (L, r) (lv_get lv L)) else lv)).
Proof.
  intros K H16 EX M Hm. cbv zeta.
  destruct (md_nr t xl xa y ds c xb m K H16 EX M Hm) as (N1 & N2 & N3 & N4).
  destruct (md_cv t xl xa y ds c xb m K H16 EX M) as (C1 & C2).
  set (nr := brev t c + 2 ^ (m - 1)) in *. rewrite MAX64_val in N2.
  assert (NW : 0 < nr < W64) by (rewrite W64_val; lia).
  destruct (level_of_spec nr NW) as (HL & HLd & HLn).
  rewrite bfpe_eq by auto. intros E. split; [rewrite MAX64_val; lia|].
  assert (NBM : (level_of nr, nr) <> bmax) by (intros B; inversion B; lia).
  destruct M as (MU & MD & M0 & [MM|(d & MM & DD & DR & _)]).
  - right. rewrite MM in EX. cbn [app] in EX. pose proof (tk_sorted _ _ K) as TS.
    destruct (tk_dyadic _ _ K xa y c xb EX) as (m' & Hm0 & Hu & Hd & Hp).
    assert (m' = m).
    { rewrite MU in Hu. apply Z.add_cancel_l in Hu. symmetry in Hu. apply Z.pow_inj_r in Hu; lia. }
    subst m'.
    assert (Hnp : ~ present t (level_of nr, nr)).
    { intros P. assert (Hin : In (level_of nr, nr) xl).
      { destruct (tk_link _ _ K _ _ P) as [(H2 & Hz & _)|(_ & _ & H)]; auto.
        exfalso. apply HLn. replace (level_of nr) with (level_of nr - 1 + 1) in Hz by lia.
        apply nib_0 in Hz; try lia. replace (level_of nr - 1 + 1) with (level_of nr) in Hz by lia.
        rewrite (trunc_id (level_of nr)) in Hz by (auto; lia). pose proof (trunc_div (level_of nr - 1) nr) as TD. rewrite <- Hz in TD. exact TD. }
      apply (sorted_gap _ _ xa y c xb _ TS EX Hin).
      destruct (tk_node _ _ K _ _ P) as (_ & _ & _ & _ & -> & _); [auto|lia]. }
    assert (HL2 : 2 <= level_of nr).
    { destruct (Z.eq_dec (level_of nr) 1) as [E1|]; [|lia]. exfalso. apply Hnp. rewrite E1.
      rewrite E1 in HLd. destruct HLd as [q Hq].
      pose proof (tk_top _ _ K q) as T. rewrite top_eq in T. rewrite Hq. apply T.
      rewrite W64_val in NW. assert (sz 1 = 1152921504606846976) as Es by reflexivity. rewrite Es in Hq. lia. }
    assert (En : nr = brev t c + 2 ^ (m - 1)) by reflexivity.
    assert (KX : trie_ok t (xa ++ y :: c :: xb)) by (rewrite <- EX; auto).
    assert (NM : nr < MAX64) by (rewrite MAX64_val; lia).
    assert (Hpre : forall l, 1 <= l < level_of nr -> present t (l, trunc l nr)).
    { intros l Hl.
      pose proof (gw_level t xa y c xb m (brev t c) nr (level_of nr) eq_refl En eq_refl KX ltac:(lia) MU MD Hp NM) as GL.
      rewrite (gw_same_trunc t xa y c xb m (brev t c) nr (level_of nr) eq_refl En eq_refl KX ltac:(lia) MU MD Hp NM l) by lia.
      apply Hp; lia. }
    destruct (bfpe_loop_spec t xl lv nr K NW Hpre) with (f := 15%nat) (l := 1)
      as (t' & lv' & E' & [(Hn & _)|(_ & GR & _)]); try (change (Z.of_nat 15) with 15; lia); [contradiction|].
    pose proof (bfpe_lv t xl lv nr K NW Hpre Hnp 15%nat 1 ltac:(lia) ltac:(change (Z.of_nat 15) with 15; lia)) as EL. cbv zeta in EL.
    rewrite E' in E, EL. cbn [fst snd] in EL. injection E as -> ->. split; auto 10.
  - left. rewrite MM in EX. cbn [app] in EX.
    assert (Hd : In d xl) by (rewrite EX; apply in_or_app; right; right; left; auto).
    assert (Nd : d <> bmax).
    { intros ->. destruct (tk_bmax _ _ K) as (_ & B & _). rewrite MAX64_val in B. fold nr in DR. lia. }
    destruct d as [ld vd]. destruct (tk_bl _ _ K _ Hd) as [Pd _].
    destruct (tk_node _ _ K ld vd Pd Nd) as (HLd' & HVd & _ & _ & HRd & _). fold nr in DR.
    assert (vd = nr) by lia. subst vd.
    pose proof (linked_level t xl ld nr K Hd Nd ltac:(lia)) as EL.
    subst ld.
    destruct (bfpe_loop_spec t xl lv nr K NW) with (f := 15%nat) (l := 1)
      as (t' & lv' & E' & [(_ & -> & ->)|(Hn & _)]); try (change (Z.of_nat 15) with 15; lia).
    + intros l Hl. apply (prefixes_present t xl K (level_of nr) nr Pd Nd). lia.
    + intros El. rewrite El. auto.
    + rewrite E' in E. injection E as <- <-. auto.
    + contradiction.
Qed.

Lemma make_bucket2_elv : forall f s xl A y b B p m,
  einv s xl -> enodel s -> 16 <= x_max s -> x_bl s = A ++ y :: b :: B ->
  b_pool (bget (x_trie s) b) = Some p -> x_max s < p_len p ->
  up (x_trie s) y = brev (x_trie s) b + 2 ^ m -> 0 <= m <= Z.of_nat f ->
  elv (x_trie s) (x_bl s) (x_lv s) ->
  forall s', make_bucket2 f s b = Ret s' -> elv (x_trie s') (x_bl s') (x_lv s').
Proof.
  induction f as [|f IH]; intros s xl A y b B p m I ND HM EB HP HL HU Hf V s' EM; [discriminate|].
  assert (Hyb : adj (x_bl s) y b) by (exists A, B; auto).
  destruct (ei_pool _ _ I y b Hyb) as (p' & E' & Kp); rewrite HP in E'; injection E' as <-.
  assert (NW : narrow (x_max s) (live p)) by (eapply narrow_strict; eauto).
  destruct (round_first f s xl A y b B p m I ND NW EB HP HL HU ltac:(lia)) as (Hm5 & MD & t1 & lv1 & xa & xb & R).
  cbv zeta in R. destruct R as (_ & I1 & ND1 & C1 & HO & EA1 & EB1 & NIN & NBM & RNB & PNB & N4 & (ds & EX & M) & BF & MB & _).
  assert (XB : forall n, In n (x_bl s) -> In n xl) by (apply (ext_in _ _ _ (ei_ext _ _ I))).
  assert (V1 : elv t1 (x_bl s) lv1 /\ 0 < brev (x_trie s) b + 2 ^ (m - 1) < MAX64).
  { destruct (round_cases _ _ _ _ _ _ _ _ _ _ _ (ei_trie _ _ I) (ei_16 _ _ I) EX M Hm5 BF) as [HN [(_ & -> & ->)|(Hnp & GR & HL2 & EX2 & HY & Hpre & ->)]]; split; auto.
    set (nr := brev (x_trie s) b + 2 ^ (m - 1)) in *. assert (HnW : 0 < nr < W64) by (rewrite W64_val; rewrite MAX64_val in HN; lia).
    destruct (level_of_spec nr HnW) as (HLr & _ & _).
    pose proof (Hpre (level_of nr - 1) ltac:(lia)) as Pp.
    assert (Np : (level_of nr - 1, trunc (level_of nr - 1) nr) <> bmax) by (unfold bmax; intros B0; inversion B0; lia).
    assert (SH : shown (x_trie s) (x_bl s) (level_of nr - 1, trunc (level_of nr - 1) nr)).
    { split; [exact Pp|]. destruct (tk_link _ _ (ei_trie _ _ I) _ _ Pp Np) as [(_ & _ & PE)|(_ & _ & Hin)]; [left; intros PE2; rewrite PE in PE2; discriminate|right].
      exact (parent_linked (x_trie s) (x_bl s) xl xa y b xb m (level_of nr - 1, trunc (level_of nr - 1) nr) (ei_trie _ _ I) (ei_ext _ _ I) EX2
        (proj2 (adj_in _ _ _ Hyb)) ltac:(lia) HY ltac:(fold nr; lia) (level_of nr - 1) ltac:(lia) eq_refl ltac:(fold nr; lia) Hin). }
    exact (elv_new (x_trie s) t1 (x_bl s) xl (x_lv s) nr (ei_trie _ _ I) HN HL2 Hpre Hnp NIN SH V GR). }
  destruct V1 as [V1 HNR].
  set (nr := brev (x_trie s) b + 2 ^ (m - 1)) in *. set (nb := (level_of nr, nr)) in *. rewrite MB in EM. clear MB.
  destruct (find_idx p nr) as [[|i]|] eqn:FI; try (injection EM as <-; exact V1).
  assert (NP : nodel p) by (apply (ND y b p); auto).
  destruct (find_idx_spec p _ _ nr (S i) Kp NP FI) as (l1 & x & l2 & EL & Ei & Rx & L1).
  assert (N1' : l1 <> []) by (intros ->; discriminate).
  assert (L2 : forall z, In z (x :: l2) -> nr <= sl_rev z).
  { intros z [<-|Hz]; auto. pose proof (po_sorted _ _ _ Kp) as S. rewrite EL, map_app in S. apply sorted_app in S as (_ & S2 & _).
    cbn [map] in S2. apply StronglySorted_inv in S2 as [_ F]. rewrite Forall_forall in F.
    specialize (F (sl_rev z) (in_map _ _ _ Hz)). lia. }
  pose proof (split_loc s xl A y b B p m t1 lv1 xa xb nr l1 (x :: l2) I EB HP I1 HO EA1 EB1 NIN NBM RNB ltac:(lia) HU
    MD eq_refl N4 EL N1' ltac:(discriminate) L1 L2) as ST.
  cbv zeta in ST, EM. rewrite <- Ei in ST. fold nb in ST.
  match type of EM with context [mkX _ _ ?lvq _ _] => specialize (ST lvq) end.
  destruct ST as (S1 & S2 & S3 & S4 & S5 & S6 & S7 & S8 & S10).
  set (t3 := tupd (tupd t1 nb (fun x => set_blen (set_pool x (Some (split_hi p (S i)))) (p_len p - Z.of_nat (S i)))) b
      (fun x => set_blen (set_pool x (Some (split_lo p (S i)))) (Z.of_nat (S i)))) in *.
  set (bl := match bucket_below t3 (brev t3 nb) (x_bl s) with Some n => ins_before n nb (x_bl s) | None => x_bl s end) in *.
  assert (SS : same_shape t1 t3) by (unfold t3; eapply same_shape_trans; apply same_shape_tupd; intros; reflexivity).
  assert (HnX : In nb (xa ++ y :: nb :: b :: xb)) by (apply in_or_app; right; right; left; auto).
  assert (V3 : elv t3 bl (lv_set lv1 (lvl t3 nb) (ins_level t3 (in_blist bl) nb (lv_get lv1 (lvl t3 nb))))).
  { destruct (tk_bl _ _ (ei_trie _ _ I1) _ HnX) as [P1 P2]. cbn [x_trie] in P1, P2.
    pose proof (ei_trie _ _ I1) as K1. cbn [x_trie] in K1.
    assert (LN : lvl t3 nb = level_of nr).
    { rewrite <- (same_shape_lvl _ _ _ SS). destruct (tk_node _ _ K1 _ _ P1 NBM) as (_ & _ & _ & H & _). exact H. }
    rewrite LN. apply (elv_link t1 t3 (x_bl s) bl _ lv1 (in_blist bl) nr K1 HNR P1 P2 NIN SS); auto.
    intros n. rewrite S1, EB, !in_app_iff. fold nb. cbn [In]. intuition (subst; auto). }
  match type of EM with context [mkX t3 bl ?l _ _] => set (lvq := l) in * end.
  set (s2 := mkX t3 bl lvq (x_len s) (x_max s)) in *.
  assert (PW : 2 ^ m = 2 * 2 ^ (m - 1)) by (replace m with (Z.succ (m - 1)) at 1 by lia; apply Z.pow_succ_r; lia).
  assert (HyX : In y xl) by (apply XB, (adj_in _ _ _ Hyb)).
  assert (HbX : In b xl) by (apply XB, (adj_in _ _ _ Hyb)).
  assert (UY : up t3 y = up (x_trie s) y) by (unfold up; rewrite S5 by auto; reflexivity).
  destruct (Z.ltb_spec (x_max s) (p_len p - Z.of_nat (S i))) as [G1|G1].
  - apply (IH s2 _ A y nb (b :: B) (split_hi p (S i)) (m - 1) S2 (S3 ND)); auto; try lia.
    cbn [s2 x_trie]. rewrite UY, HU, S6. unfold nr. lia.
  - destruct (Z.ltb_spec (x_max s) (Z.of_nat (S i))) as [G2|G2].
    + apply (IH s2 _ (A ++ [y]) nb b B (split_lo p (S i)) (m - 1) S2 (S3 ND)); auto; try lia.
      * cbn [s2 x_bl]. rewrite S1, <- app_assoc. auto.
      * cbn [s2 x_trie]. unfold up. apply nid_eqb_neq in NBM. rewrite NBM, S6, S5 by auto. unfold nr. auto.
    + injection EM as <-. exact V3.
Qed.

(** * Histories *)
Definition el (s : estate) : Prop := elv (x_trie s) (x_bl s) (x_lv s).
Lemma el_upd s n i f : el s -> el (upd_item s n i f).
Proof.
  intros V. unfold upd_item. destruct (b_pool (bget (x_trie s) n)) as [p|]; auto. unfold el, set_bpool, set_xtrie. cbn [x_trie x_bl x_lv].
  apply (elv_shape (x_trie s)); auto. apply same_shape_tupd; intros; reflexivity.
Qed.
Lemma el_eupdate s n i v : el s -> el (fst (eupdate s n i v)).
Proof. intros V. unfold eupdate. destruct (set_value _ _ _) as [[v' ok]|]; auto. apply el_upd; auto. Qed.
Lemma new_set_el h s xl x v k conf : einv s xl -> enodel s -> 16 <= x_max s -> key_to_hash h (KStr x) = Some (k, conf) ->
  eload s k conf = Ret None -> (forall z, cont s z -> pr_rev z <> reverse64 k) -> el s -> el (fst (eset h s (KStr x) v)).
Proof.
  intros I ND HM HK EL HF V. pose proof (reverse64_range k) as R.
  destruct (eload_spec s xl k conf I) as [E|[(n & j & p & E & _)|(_ & y & b & p & Hy & Eb & Ri & HP & K & _)]]; [congruence|congruence|].
  unfold eset. rewrite HK, EL. cbv zeta. unfold pool_of.
  assert (BB : base (x_trie s) (base (x_trie s) (find_bucket (x_trie s) (reverse64 k))) = b).
  { rewrite <- Eb. apply (base_linked _ xl); [apply (ei_trie _ _ I)|]. apply (ei_adj_x s xl I _ _ Hy). }
  rewrite BB, HP. rewrite <- Eb.
  assert (NP : forall sl, In sl (live p) -> sl_rev sl <> reverse64 k).
  { intros sl Hs E. apply (HF (pr sl)); [|exact E]. exists y, b, p. split; auto. split; auto. apply in_map; auto. }
  destruct (get_with_fn_ok p _ _ (reverse64 k) K (ND _ _ _ Hy HP) Ri NP) as (p1 & i & l1 & l2 & EG & ES & EM & EN & HL1 & HL2 & HU).
  rewrite EG, ES. cbn [zero_slot sl_rev sl_conf sl_val sl_del sl_linked negb andb]. rewrite !Z.eqb_refl.
  destruct (set_value_zero v) as (ok & ->).
  set (fl := fun z : slot => mkS (reverse64 k) conf (sl_del z) (KStr x) v true).
  destruct (HU fl eq_refl) as (K1 & EM1 & ND1). specialize (ND1 (ND _ _ _ Hy HP) eq_refl).
  set (p2 := upd_slot p1 i fl) in *.
  unfold set_bpool, set_xtrie. cbn [x_trie x_bl x_lv x_len x_max].
  set (t' := tupd (x_trie s) b (fun z => set_pool z (Some p2))).
  assert (SS : same_shape (x_trie s) t') by (apply same_shape_tupd; intros; reflexivity).
  assert (GN : b_pool (bget t' b) = Some p2) by (unfold t', tupd; rewrite bget_tset, nid_eqb_refl; reflexivity).
  assert (GO : forall m, m <> b -> b_pool (bget t' m) = b_pool (bget (x_trie s) m)).
  { intros m Hm. unfold t', tupd. rewrite bget_tset. destruct (nid_eqb b m) eqn:E; auto. apply nid_eqb_eq in E. congruence. }
  destruct (einv_pool s xl t' y b p p2 I SS Hy HP GN GO K1 (x_lv s) (x_len s + 1)) as (I' & C' & D').
  assert (V1 : elv t' (x_bl s) (x_lv s)) by (apply (elv_shape (x_trie s)); auto).
  set (s2 := mkX t' (x_bl s) (x_lv s) (x_len s + 1) (x_max s)) in *.
  assert (V2 : el s2) by exact V1.
  assert (BL : forall s3, el s3 -> el (mkX (tupd (x_trie s3) b (fun z => set_blen z (b_len z + 1))) (x_bl s3) (x_lv s3) (x_len s3) (x_max s3))).
  { intros s3 V3. unfold el. cbn [x_trie x_bl x_lv]. apply (elv_shape (x_trie s3)); auto. apply same_shape_tupd; intros; reflexivity. }
  destruct ((reverse64 k <? MAX64) && (x_max s <? p_len p1)) eqn:EC; [|apply BL; exact V2].
  apply andb_true_iff in EC as [_ EC]. apply Z.ltb_lt in EC.
  assert (Hy2 : adj (x_bl s2) y b) by exact Hy.
  destruct (gap_pow s2 xl y b I' Hy2) as (m & MU & M0). destruct Hy2 as (A & B & EAB).
  destruct (make_bucket2_spec 64 s2 xl A y b B p2 m I' (D' ND ND1) HM EAB GN EC MU M0) as (s3 & xl' & E3 & _).
  pose proof (make_bucket2_elv 64 s2 xl A y b B p2 m I' (D' ND ND1) HM EAB GN EC MU M0 V2 s3 E3) as V3.
  rewrite E3. apply BL. exact V3.
Qed.
Lemma estep_el h s m o : erel s m -> store_or_read o ->
  (forall k c c', writes h o = Some (k, c) -> c' <> c -> sm_map m (k, c') = None) -> el s -> el (fst (estep h s o)).
Proof.
  intros H HO HC V. destruct o as [key v|i|key|k c|key|k c|key|key|]; try contradiction; cbn [estep].
  - destruct HO as (x & ->). destruct (key_to_hash h (KStr x)) as [[k c]|] eqn:EK; [|discriminate].
    destruct (key_range _ _ _ _ EK) as [Hk Hc].
    destruct (eload_rel s m k c H Hk) as [E|[(n & j & p & E & HT & HI & EM)|(E & EM)]].
    + unfold eset. rewrite EK, E. exact V.
    + unfold eset. rewrite EK, E. apply el_eupdate; auto.
    + destruct (er_inv _ _ H) as (xl & I).
      assert (NC : forall c', sm_map m (k, c') = None).
      { intros c'. destruct (Z.eq_dec c' c) as [->|N]; auto. exact (HC k c c' EK N). }
      apply (new_set_el h s xl x v k c I (er_nd _ _ H) (er_max _ _ H) EK E); auto.
      intros [[[[r cf] d] ky] vl] HZ Er. cbn [pr_rev fst] in Er. subst r.
      assert (D0 : d = false).
      { destruct HZ as (y & b & p & Hy & HP & Hin). apply in_map_iff in Hin as (sl & Es & Hs).
        pose proof (er_nd _ _ H y b p Hy HP sl Hs) as D. unfold pr in Es. congruence. }
      subst d. assert (EX : sm_map m (k, cf) = Some (mkBd KSample ky vl)) by (apply (er_at _ _ H); eauto).
      rewrite NC in EX. discriminate.
  - unfold ewith, eget. destruct (key_to_hash h key) as [[k c]|]; auto. destruct (eload s k c) as [[[n i]|]| | |]; auto.
  - unfold eget. destruct (eload s (u64 k) (u64 c)) as [[[n i]|]| | |]; auto.
  - unfold ewith, eget_item. destruct (key_to_hash h key) as [[k c]|]; auto. destruct (eload s k c) as [[[n i]|]| | |]; auto.
  - unfold eget_item. destruct (eload s (u64 k) (u64 c)) as [[[n i]|]| | |]; auto.
  - exact V.
Qed.
Lemma erun_el h : forall os s m, erel s m -> Forall store_or_read os ->
  (forall o k c c', In o os -> writes h o = Some (k, c) -> c' <> c -> sm_map m (k, c') = None) ->
  no_collision h os -> el s -> el (erun h s os).
Proof.
  induction os as [|o os IH]; intros s m H HF HC HN V; cbn [erun]; auto.
  apply Forall_cons_iff in HF as [HO HF].
  pose proof (estep_agrees h s m o H HO (fun k c c' => HC o k c c' (or_introl eq_refl))) as A.
  pose proof (estep_el h s m o H HO (fun k c c' => HC o k c c' (or_introl eq_refl)) V) as V'.
  destruct (estep h s o) as [s' r]. cbn [fst snd] in A, V'. destruct (stops r) eqn:ST; auto.
  destruct A as [[-> ->]|[E A]]; [discriminate|].
  apply (IH s' (fst (sm_step h m o)) A HF); auto.
  - intros o' k c c' Hin HW Nc. destruct (sm_map (fst (sm_step h m o)) (k, c')) eqn:EM; auto. exfalso.
    destruct (sm_step_writes h m o k c') as [N|W]; [congruence| |].
    + apply N. apply (HC o' k c c'); auto. right; auto.
    + apply Nc. apply (HN o o' k c' c); auto; [left|right]; auto.
  - intros o1 o2 k c c' H1 H2. apply HN; right; auto.
Qed.
Lemma new_el max : el (new_emb max).
Proof.
  destruct init_lvok as [LEN LV]. unfold el, new_emb. cbn [x_trie x_bl x_lv].
  apply (elv_shape init_trie); [apply emb_trie_shape|].
  assert (IB : forall n, present init_trie n -> In n init_bl).
  { intros n H. apply init_present in H. destruct H as [H|H]; [left; exact H|right]. apply in_rev in H. exact H. }
  constructor.
  - split; auto. intros l Hl. destruct (LV l Hl) as [A B]. split; auto. intros n. rewrite B. unfold shown. intuition auto.
  - intros n H _. split; auto.
  - intros i Hi. apply IB. apply (tk_top _ _ init_trie_ok). auto.
Qed.
Theorem run_el h max os : 16 <= max -> Forall store_or_read os -> no_collision h os ->
  let s := erun h (new_emb max) os in (exists xl, einv s xl) /\ el s.
Proof.
  intros HM HF HN s. pose proof (new_emb_rel max HM) as R.
  assert (HC : forall o k c c', In o os -> writes h o = Some (k, c) -> c' <> c -> sm_map (sm_empty KSample) (k, c') = None) by reflexivity.
  destruct (erun_agrees h os _ _ R HF HC HN) as (_ & _ & m' & H').
  split; [apply (er_inv _ _ H')|]. apply (erun_el h os _ _ R HF HC HN). apply new_el.
Qed.
