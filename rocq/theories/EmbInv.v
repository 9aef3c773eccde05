(** Invariant of the embedded mode. xl is the bucket list together with the buckets that makeBucket2 created
    but did not link (dead: they have no pool). *)
From Verif Require Import Base BaseProofs Util UtilProofs Bucket TrieProofs TrieInv TrieGrow MapModel ItemProofs MapInv MapSplit
  EmbModel EmbPool EmbTrie.
From Coq Require Import ZifyBool Sorted.
Local Open Scope Z_scope.
Local Opaque reverse64 level_of base find_bucket.

Definition dead (t : trie) (n : nid) : Prop := b_pool (bget t n) = None.
Definition mid (t : trie) (x c : nid) (m : Z) (ds : list nid) : Prop :=
  up t x = brev t c + 2 ^ m /\ (2 ^ m | brev t c) /\ 0 <= m /\
  (ds = [] \/ exists d, ds = [d] /\ dead t d /\ brev t d = brev t c + 2 ^ (m - 1) /\ 1 <= m).
Inductive ext (t : trie) : list nid -> list nid -> Prop :=
| ext_one c : ext t [c] [c]
| ext_cons x c m ds bl xl : mid t x c m ds -> ext t (c :: bl) (c :: xl) -> ext t (x :: c :: bl) (x :: ds ++ c :: xl).

Lemma ext_head t bl xl : ext t bl xl -> exists x b y, bl = x :: b /\ xl = x :: y.
Proof. intros H; inversion H; subst; eauto. Qed.
Lemma ext_in t bl xl : ext t bl xl -> forall n, In n bl -> In n xl.
Proof.
  induction 1 as [c|x c m ds bl xl M E IH]; auto. intros n [->|Hn]; [left; auto|].
  right. apply in_or_app. right. auto.
Qed.
Lemma ext_in_inv t bl xl : ext t bl xl -> forall n, In n xl -> In n bl \/ dead t n.
Proof.
  induction 1 as [c|x c m ds bl xl M E IH]; auto. intros n [->|Hn]; [left; left; auto|].
  apply in_app_or in Hn as [Hn|Hn].
  - destruct M as (_ & _ & _ & [->|(d & -> & D & _)]); [destruct Hn|]. destruct Hn as [->|[]]. auto.
  - destruct (IH n Hn); auto. left. right. auto.
Qed.
Lemma ext_sorted t bl xl R : ext t bl xl -> StronglySorted R xl -> StronglySorted R bl.
Proof.
  induction 1 as [c|x c m ds bl xl M E IH]; auto. intros S. apply StronglySorted_inv in S as [S F].
  apply sorted_app in S as (_ & S & _). constructor; auto.
  apply Forall_forall. intros n Hn. rewrite Forall_forall in F. apply F. apply in_or_app. right.
  apply (ext_in _ _ _ E). auto.
Qed.
Lemma ext_inv t x l xl : ext t (x :: l) xl -> (l = [] /\ xl = [x]) \/
  exists c m ds bl' xl', l = c :: bl' /\ xl = x :: ds ++ c :: xl' /\ mid t x c m ds /\ ext t (c :: bl') (c :: xl').
Proof.
  intros H. remember (x :: l) as L eqn:EL. destruct H as [c|y c m ds bl xl M E]; injection EL as -> <-; auto.
  right. exists c, m, ds, bl, xl. auto.
Qed.
Lemma ext_split t a x b xl : ext t (a ++ x :: b) xl ->
  exists xa xb, xl = xa ++ x :: xb /\ ext t (a ++ [x]) (xa ++ [x]) /\ ext t (x :: b) (x :: xb).
Proof.
  revert xl. induction a as [|z a IH]; intros xl H; cbn [app] in *.
  - destruct (ext_head _ _ _ H) as (y & b' & q & E1 & E2). injection E1 as -> ->. subst xl.
    exists [], q. split; auto. split; auto. constructor.
  - destruct (ext_inv _ _ _ _ H) as [[E _]|(c & m & ds & bl' & xl' & E1 & -> & M & E)]; [destruct a; discriminate|].
    rewrite <- E1 in E. destruct (IH _ E) as (xa & xb & Q1 & Q2 & Q3).
    exists (z :: ds ++ xa), xb. split; [cbn [app]; rewrite <- app_assoc, <- Q1; auto|]. split; auto.
    destruct (ext_head _ _ _ Q2) as (h & r & r' & H1 & H2).
    assert (h = c).
    { destruct xa; cbn [app] in H2, Q1; congruence. }
    subst h. rewrite H1. cbn [app]. rewrite <- app_assoc, H2. apply (ext_cons t z c m ds); [auto|].
    rewrite <- H1, <- H2; auto.
Qed.
Lemma ext_join t a x b xa xb : ext t (a ++ [x]) (xa ++ [x]) -> ext t (x :: b) (x :: xb) -> ext t (a ++ x :: b) (xa ++ x :: xb).
Proof.
  revert xa. induction a as [|z a IH]; intros xa H1 H2; cbn [app] in *.
  - destruct (ext_inv _ _ _ _ H1) as [[_ E]|(c & m & ds & bl' & xl' & E1 & _)]; [|discriminate].
    destruct xa as [|q xa]; [auto|]. destruct xa; discriminate.
  - destruct (ext_inv _ _ _ _ H1) as [[E _]|(c & m & ds & bl' & xl' & E1 & E2 & M & E)]; [destruct a; discriminate|].
    destruct xa as [|q xa].
    { exfalso. destruct ds; discriminate. }
    cbn [app] in E2. injection E2 as -> E2.
    assert (exists xa', xa ++ [x] = ds ++ xa' ++ [x] /\ c :: xl' = xa' ++ [x] /\ xa = ds ++ xa') as (xa' & A & B & C).
    { clear -E2. revert ds E2. induction xa as [|w xa IH]; intros ds E2.
      - destruct ds as [|e ds]; [exists []; auto|]. cbn [app] in E2. injection E2 as _ E2. destruct ds; discriminate.
      - destruct ds as [|e ds]; [exists (w :: xa); auto|]. cbn [app] in E2. injection E2 as -> E2.
        destruct (IH _ E2) as (xa' & A & B & C). exists xa'. cbn [app]. rewrite A, C. auto. }
    subst xa. cbn [app]. rewrite <- app_assoc.
    assert (E' : ext t (a ++ [x]) (xa' ++ [x])) by (rewrite <- B, E1; exact E).
    specialize (IH _ E' H2).
    destruct (ext_head _ _ _ IH) as (h & r & r' & P1 & P2).
    assert (h = c). { destruct xa'; cbn [app] in B, P2; congruence. }
    subst h. rewrite P1, P2. apply (ext_cons t z c m ds); auto. rewrite <- P1, <- P2; auto.
Qed.
Lemma ext_at t a x c b xl : ext t (a ++ x :: c :: b) xl -> exists xa ds xb m,
  xl = xa ++ x :: ds ++ c :: xb /\ ext t (a ++ [x]) (xa ++ [x]) /\ mid t x c m ds /\ ext t (c :: b) (c :: xb).
Proof.
  intros H. destruct (ext_split _ _ _ _ _ H) as (xa & xb & -> & A & B).
  destruct (ext_inv _ _ _ _ B) as [[E _]|(c' & m & ds & bl' & xl' & E1 & E2 & M & E)]; [discriminate|].
  injection E1 as -> ->. injection E2 as ->. exists xa, ds, xl', m. auto.
Qed.
Lemma ext_build t a x c b xa ds xb m : ext t (a ++ [x]) (xa ++ [x]) -> mid t x c m ds -> ext t (c :: b) (c :: xb) ->
  ext t (a ++ x :: c :: b) (xa ++ x :: ds ++ c :: xb).
Proof. intros A M B. apply ext_join; auto. apply (ext_cons _ _ _ m); auto. Qed.
Lemma mid_change t t' x c m ds : (forall n, In n (x :: c :: ds) -> brev t' n = brev t n) ->
  (forall n, In n ds -> dead t n -> dead t' n) -> mid t x c m ds -> mid t' x c m ds.
Proof.
  intros HB HD (A & B & C & D). unfold mid, up in *. rewrite !HB by (cbn [In]; auto).
  split; auto. split; auto. split; auto. destruct D as [D|(d & -> & D1 & D2 & D3)]; auto.
  right. exists d. split; auto. split; [apply HD; cbn [In]; auto|]. rewrite HB by (cbn [In]; auto). auto.
Qed.
Lemma ext_change t t' bl xl : (forall n, In n xl -> brev t' n = brev t n) ->
  (forall n, In n xl -> ~ In n bl -> dead t n -> dead t' n) -> NoDup xl -> ext t bl xl -> ext t' bl xl.
Proof.
  intros HB HD ND E. induction E as [c|x c m ds bl xl M E IH]; [constructor|].
  assert (Hh : In c (c :: bl)) by (left; auto).
  apply NoDup_cons_iff in ND as [NX ND].
  assert (ND2 : NoDup (c :: xl) /\ forall n, In n ds -> ~ In n (c :: xl)).
  { clear -ND. induction ds as [|d ds IH]; cbn [app] in *; auto. apply NoDup_cons_iff in ND as [N1 N2].
    destruct (IH N2) as [A B]. split; auto. intros n [<-|Hn]; auto. intros H. apply N1. apply in_or_app; auto. }
  destruct ND2 as [ND2 ND3].
  apply (ext_cons _ _ _ m).
  - apply (mid_change t); auto.
    + intros n Hn. apply HB. cbn [In] in *. rewrite in_app_iff. cbn [In]. tauto.
    + intros n Hn. apply HD.
      * right. apply in_or_app; auto.
      * intros [->|H]; [apply NX; apply in_or_app; auto|].
        apply (ND3 n Hn). apply (ext_in _ _ _ E). exact H.
  - apply IH; auto.
    + intros n Hn. apply HB. right. apply in_or_app; auto.
    + intros n Hn Hn2. apply HD; [right; apply in_or_app; auto|]. intros [->|H]; [|auto].
      apply NX. apply in_or_app; auto.
Qed.

(** * The invariant *)
Record einvb (st : bool) (s : estate) (xl : list nid) : Prop := {
  ei_trie : trie_ok (x_trie s) xl;
  ei_16 : forall n, In n xl -> n <> bmax -> (16 | brev (x_trie s) n);
  ei_ext : ext (x_trie s) (x_bl s) xl;
  ei_pool : forall y c, adj (x_bl s) y c -> exists p, b_pool (bget (x_trie s) c) = Some p /\
      pool_okb st p (brev (x_trie s) c) (up (x_trie s) y) }.
Arguments ei_trie {st} _ _ _. Arguments ei_16 {st} _ _ _ _ _ _. Arguments ei_ext {st} _ _ _. Arguments ei_pool {st} _ _ _ _ _ _.
Notation einv := (einvb true).
(** what is stored *)
Definition cont (s : estate) (x : prj) : Prop :=
  exists y c p, adj (x_bl s) y c /\ b_pool (bget (x_trie s) c) = Some p /\ In x (map pr (live p)).
Definition enodel (s : estate) : Prop :=
  forall y c p, adj (x_bl s) y c -> b_pool (bget (x_trie s) c) = Some p -> nodel p.

Lemma adj_in {A} (l : list A) u w : adj l u w -> In u l /\ In w l.
Proof. intros (a & b & ->). split; apply in_or_app; right; [left|right; left]; auto. Qed.
Lemma adj_at {A} (a : list A) u w b : adj (a ++ u :: w :: b) u w.
Proof. exists a, b; auto. Qed.
Lemma sorted_nodup t l : StronglySorted (fun a b => brev t b < brev t a) l -> NoDup l.
Proof.
  induction 1 as [|x l S IH F]; constructor; auto. intros H. rewrite Forall_forall in F.
  specialize (F x H). cbn in F. lia.
Qed.
Lemma adj_uniq_l {A} (l : list A) u u' w : NoDup l -> adj l u w -> adj l u' w -> u = u'.
Proof.
  induction l as [|z l IH]; intros ND H H'.
  - destruct H as (a & b & E). destruct a; discriminate.
  - apply NoDup_cons_iff in ND as [N ND].
    apply adj_cons in H as [(-> & b & ->)|H]; apply adj_cons in H' as [(-> & b' & E')|H']; auto.
    + exfalso. destruct H' as ([|q a'] & b2 & E2); cbn [app] in E2.
      * injection E2 as -> ->. apply NoDup_cons_iff in ND as [N2 _]. apply N2. left; auto.
      * injection E2 as -> ->. apply NoDup_cons_iff in ND as [N2 _]. apply N2. apply in_or_app. right. right. left. auto.
    + exfalso. subst l. destruct H as ([|q a'] & b2 & E2); cbn [app] in E2.
      * injection E2 as -> ->. apply NoDup_cons_iff in ND as [N2 _]. apply N2. left; auto.
      * injection E2 as -> ->. apply NoDup_cons_iff in ND as [N2 _]. apply N2. apply in_or_app. right. right. left. auto.
Qed.
Lemma adj_pred {A} (l : list A) w : In w l -> (exists b, l = w :: b) \/ exists u, adj l u w.
Proof.
  induction l as [|z l IH]; intros H; [destruct H|].
  destruct H as [->|H]; [left; eauto|]. right.
  destruct (IH H) as [(b & ->)|(u & Hu)].
  - exists z. apply adj_cons. left. eauto.
  - exists u. apply adj_cons. auto.
Qed.

Section Inv.
Context {st : bool}.
Variables (s : estate) (xl : list nid).
Hypothesis I : einvb st s xl.
Let t := x_trie s.

Lemma ei_sorted : StronglySorted (fun a b => brev t b < brev t a) (x_bl s).
Proof. eapply ext_sorted; [apply (ei_ext _ _ I)|apply (tk_sorted _ _ (ei_trie _ _ I))]. Qed.
Lemma ei_nodup : NoDup (x_bl s).
Proof. eapply sorted_nodup. apply ei_sorted. Qed.
Lemma ei_nodup_x : NoDup xl.
Proof. eapply sorted_nodup. apply (tk_sorted _ _ (ei_trie _ _ I)). Qed.
Lemma ei_bl_head : exists b, x_bl s = bmax :: b.
Proof.
  destruct (ext_head _ _ _ (ei_ext _ _ I)) as (x & b & y & E1 & E2).
  destruct (tk_head _ _ (ei_trie _ _ I)) as (bl' & E3 & _). exists b. congruence.
Qed.
Lemma ei_pred c : In c (x_bl s) -> c <> bmax -> exists y, adj (x_bl s) y c.
Proof.
  intros H N. destruct (adj_pred _ _ H) as [(b & E)|]; auto.
  destruct ei_bl_head as (b' & E'). rewrite E' in E. injection E as <- _. congruence.
Qed.
Lemma ei_adj_ne y c : adj (x_bl s) y c -> c <> bmax.
Proof.
  intros H ->. destruct ei_bl_head as (b' & E'). pose proof ei_nodup as ND. rewrite E' in *.
  destruct H as (a & b & E). destruct a as [|z a]; cbn [app] in E; injection E as <- ->;
  apply NoDup_cons_iff in ND as [N _]; apply N; [left; auto|apply in_or_app; right; right; left; auto].
Qed.
Lemma ei_adj_x y c : adj (x_bl s) y c -> In y xl /\ In c xl.
Proof. intros H. apply adj_in in H as [A B]. split; apply (ext_in _ _ _ (ei_ext _ _ I)); auto. Qed.
Lemma ei_adj_lt y c : adj (x_bl s) y c -> brev t c < brev t y.
Proof. intros (a & b & E). apply (sorted_adj t (x_bl s) a y c b); auto. apply ei_sorted. Qed.

(** intervals of different buckets are disjoint *)
Lemma ei_disjoint y c y' c' rv : adj (x_bl s) y c -> adj (x_bl s) y' c' ->
  brev t c <= rv < up t y -> brev t c' <= rv < up t y' -> c = c' /\ y = y'.
Proof.
  assert (W : forall y c y' c', adj (x_bl s) y c -> adj (x_bl s) y' c' ->
    brev t c <= rv < up t y -> brev t c' <= rv < up t y' -> brev t c <= brev t c').
  { clear y c y' c'. intros y c y' c' H H' R R'. destruct (Z_lt_ge_dec (brev t c') (brev t c)) as [L|]; [|lia]. exfalso.
    pose proof ei_sorted as S. destruct H' as (a & b & E).
    assert (Hc : In c (x_bl s)) by (apply adj_in in H; tauto).
    rewrite E in S. destruct (sorted_before _ _ _ _ _ S) as [S1 S2].
    assert (NB : y' <> bmax \/ y' = bmax) by (destruct (nid_eq_dec y' bmax); auto).
    rewrite E in Hc. apply in_app_or in Hc as [Hc|Hc].
    - (* c before y' *)
      assert (Ny : y' <> bmax).
      { intros ->. destruct ei_bl_head as (b' & E'). pose proof ei_nodup as ND. rewrite E' in *.
        destruct a as [|z a]; [destruct Hc|]. cbn [app] in E. injection E as <- ->.
        apply NoDup_cons_iff in ND as [N _]. apply N. apply in_or_app. right. left. auto. }
      specialize (S1 c (in_or_app _ _ _ (or_introl Hc))). unfold up in R'. apply nid_eqb_neq in Ny. rewrite Ny in R'. lia.
    - destruct Hc as [->|Hc].
      + assert (Ny : c <> bmax) by (eapply ei_adj_ne; eauto). unfold up in R'. apply nid_eqb_neq in Ny. rewrite Ny in R'. lia.
      + specialize (S2 c Hc). lia. }
  intros H H' R R'. pose proof (W _ _ _ _ H H' R R'). pose proof (W _ _ _ _ H' H R' R).
  assert (c = c').
  { apply adj_in in H as [_ Hc]. apply adj_in in H' as [_ Hc']. pose proof ei_sorted as S.
    assert (E : brev t c = brev t c') by lia. clear -S Hc Hc' E.
    induction S as [|z l S IH F]; [destruct Hc|]. rewrite Forall_forall in F.
    destruct Hc as [->|Hc], Hc' as [->|Hc']; auto.
    - specialize (F _ Hc'). cbn in F. lia.
    - specialize (F _ Hc). cbn in F. lia. }
  subst c'. split; auto. eapply adj_uniq_l; eauto. apply ei_nodup.
Qed.

(** the bucket a key is routed to *)
Lemma ei_route rv p : 0 <= rv < W64 -> pool_of t (find_bucket t rv) = Some p ->
  let c := base t (find_bucket t rv) in
  exists y, adj (x_bl s) y c /\ brev t c <= rv < up t y /\ b_pool (bget t c) = Some p /\ pool_okb st p (brev t c) (up t y).
Proof.
  intros Hrv HP c. unfold pool_of in HP. fold c in HP.
  destruct (find_bucket_spec t xl rv (ei_trie _ _ I) Hrv) as (l & v & E & N & Hle & HB).
  destruct (base_anchor t xl (find_bucket t rv) (ei_trie _ _ I)) as [A1 A2]; [rewrite E; apply N|].
  fold c in A1, A2.
  assert (Hc : In c (x_bl s)).
  { destruct (ext_in_inv _ _ _ (ei_ext _ _ I) _ A1) as [|D]; auto. unfold dead in D. fold t in D. congruence. }
  assert (Nc : c <> bmax).
  { destruct (base_ok t xl l v (ei_trie _ _ I) (proj1 N) (proj2 N)) as (l' & El & _ & NE).
    unfold c. rewrite E, El. exact NE. }
  destruct (ei_pred c Hc Nc) as (y & Hy). exists y. split; auto.
  assert (R : brev t c <= rv < up t y).
  { rewrite A2, E, HB. split; auto. unfold up. destruct (nid_eqb y bmax) eqn:Ey; [lia|].
    assert (Ny : y <> bmax) by (intros ->; rewrite nid_eqb_refl in Ey; discriminate).
    destruct (Z_lt_ge_dec rv (brev t y)) as [|G]; auto. exfalso.
    pose proof (find_bucket_max t xl rv (ei_trie _ _ I) Hrv (ei_16 _ _ I) y (proj1 (ei_adj_x _ _ Hy)) Ny ltac:(lia)) as X.
    pose proof (ei_adj_lt _ _ Hy) as Y. rewrite A2 in Y. lia. }
  split; auto. split; auto.
  destruct (ei_pool _ _ I y c Hy) as (p' & E1 & K'). fold t in E1, K'. rewrite HP in E1. injection E1 as <-. auto.
Qed.

(** everything stored at position rv is in the pool of its bucket *)
Lemma cont_here rv y c p x : adj (x_bl s) y c -> brev t c <= rv < up t y -> b_pool (bget t c) = Some p ->
  pr_rev x = rv -> (cont s x <-> In x (map pr (live p))).
Proof.
  intros H R HP Hx. split.
  - intros (y' & c' & p' & H' & HP' & Hin).
    destruct (ei_pool _ _ I y' c' H') as (p2 & E2 & K'). fold t in E2, K', HP'. rewrite HP' in E2. injection E2 as <-.
    assert (R' : brev t c' <= rv < up t y').
    { apply in_map_iff in Hin as (sl & <- & Hs). rewrite <- Hx. apply (po_rng _ _ _ K' sl Hs). }
    destruct (ei_disjoint _ _ _ _ _ H H' R R') as [-> ->]. rewrite HP in HP'. injection HP' as <-. auto.
  - intros Hin. exists y, c, p. auto.
Qed.
Lemma cont_rev x : cont s x -> 0 <= pr_rev x < W64.
Proof.
  intros (y & c & p & H & HP & Hin).
  destruct (ei_pool _ _ I y c H) as (p2 & E2 & K'). rewrite HP in E2. injection E2 as <-.
  apply in_map_iff in Hin as (sl & <- & Hs). pose proof (po_rng _ _ _ K' sl Hs) as R.
  cbn [pr_rev pr fst]. destruct (ei_adj_x _ _ H) as [Hy Hc]. pose proof (ei_adj_ne _ _ H) as Nc.
  destruct (tk_bl _ _ (ei_trie _ _ I) _ Hc) as [Pc _]. destruct c as [l v].
  destruct (tk_node _ _ (ei_trie _ _ I) l v Pc Nc) as (_ & HV & _ & _ & HR & _).
  assert (U : up (x_trie s) y <= W64).
  { unfold up. destruct (nid_eqb y bmax) eqn:Ey; [lia|].
    assert (Ny : y <> bmax) by (intros ->; rewrite nid_eqb_refl in Ey; discriminate).
    destruct (tk_bl _ _ (ei_trie _ _ I) _ Hy) as [Py _]. destruct y as [l' v'].
    destruct (tk_node _ _ (ei_trie _ _ I) l' v' Py Ny) as (_ & HV' & _ & _ & HR' & _). lia. }
  lia.
Qed.
End Inv.
(** one entry per position *)
Lemma cont_uniq s xl (I : einv s xl) x x' : cont s x -> cont s x' -> pr_rev x = pr_rev x' -> x = x'.
Proof.
  intros C C' E. destruct C as (y & c & p & H & HP & Hin).
  destruct (ei_pool _ _ I y c H) as (p2 & E2 & K'). rewrite HP in E2. injection E2 as <-.
  assert (R : brev (x_trie s) c <= pr_rev x < up (x_trie s) y).
  { apply in_map_iff in Hin as (sl & <- & Hs). apply (po_rng _ _ _ K' sl Hs). }
  apply (cont_here s xl I (pr_rev x) y c p x') in C'; auto.
  apply in_map_iff in Hin as (sl & <- & Hs). apply in_map_iff in C' as (sl' & <- & Hs').
  destruct (in_live _ _ _ _ K' Hs) as (i & Hi & <-). destruct (in_live _ _ _ _ K' Hs') as (j & Hj & <-).
  rewrite (slot_inj _ _ _ i j K' Hi Hj E). auto.
Qed.

(** * Changing one pool in place *)
Lemma einv_pool {st} s xl t' y c p p' : einvb st s xl -> same_shape (x_trie s) t' -> adj (x_bl s) y c ->
  b_pool (bget (x_trie s) c) = Some p -> b_pool (bget t' c) = Some p' ->
  (forall n, n <> c -> b_pool (bget t' n) = b_pool (bget (x_trie s) n)) ->
  pool_okb st p' (brev (x_trie s) c) (up (x_trie s) y) ->
  forall lv l, let s' := mkX t' (x_bl s) lv l (x_max s) in
  einvb st s' xl /\
  (forall x, cont s' x <-> (In x (map pr (live p')) \/ (cont s x /\ ~ In x (map pr (live p))))) /\
  (enodel s -> nodel p' -> enodel s').
Proof.
  intros I SS H HP HP' HO K lv l s'.
  assert (HB : forall n, brev t' n = brev (x_trie s) n) by (intros; symmetry; apply same_shape_brev; auto).
  assert (HU : forall n, up t' n = up (x_trie s) n) by (intros; unfold up; rewrite HB; auto).
  pose proof (ei_nodup s xl I) as ND.
  assert (HC : forall u, adj (x_bl s) u c -> u = y) by (intros u Hu; eapply adj_uniq_l; eauto).
  split; [constructor; cbn [s' x_trie x_bl]|split].
  - apply (trie_ok_shape (x_trie s)); auto. apply (ei_trie _ _ I).
  - intros n Hn. rewrite HB. apply (ei_16 _ _ I); auto.
  - apply (ext_change (x_trie s)); auto.
    + intros n Hn Hnb. unfold dead. rewrite HO; auto. intros ->. apply Hnb. apply adj_in in H; tauto.
    + apply (ei_nodup_x s xl I).
    + apply (ei_ext _ _ I).
  - intros u w Hu. rewrite HB, HU. destruct (nid_eq_dec w c) as [->|N].
    + rewrite (HC _ Hu). eauto.
    + rewrite HO by auto. apply (ei_pool _ _ I); auto.
  - intros x. split.
    + intros (u & w & q & Hu & Hq & Hin). cbn [s' x_trie x_bl] in *. destruct (nid_eq_dec w c) as [->|N].
      * rewrite HP' in Hq. injection Hq as <-. auto.
      * right. rewrite HO in Hq by auto. split; [exists u, w, q; auto|].
        intros Hin2. destruct (ei_pool _ _ I u w Hu) as (q2 & E2 & K2). rewrite Hq in E2. injection E2 as <-.
        destruct (ei_pool _ _ I y c H) as (p2 & E2 & Kp). rewrite HP in E2. injection E2 as <-.
        apply N. apply (ei_disjoint s xl I u w y c (pr_rev x)); auto.
        -- apply in_map_iff in Hin as (sl & <- & Hs). apply (po_rng _ _ _ K2 sl Hs).
        -- apply in_map_iff in Hin2 as (sl & <- & Hs). apply (po_rng _ _ _ Kp sl Hs).
    + intros [Hin|[(u & w & q & Hu & Hq & Hin) Hn]].
      * exists y, c, p'. auto.
      * exists u, w, q. cbn [s' x_trie x_bl]. split; auto. split; auto.
        rewrite HO; auto. intros ->. rewrite HP in Hq. injection Hq as <-. auto.
  - intros N Np u w q Hu Hq. cbn [s' x_trie x_bl] in *. destruct (nid_eq_dec w c) as [->|NE].
    + rewrite HP' in Hq. injection Hq as <-. auto.
    + rewrite HO in Hq by auto. apply (N u w q); auto.
Qed.
(** Changing nothing that matters *)
Lemma einv_same {st} s xl t' lv l : einvb st s xl -> same_shape (x_trie s) t' ->
  (forall n, b_pool (bget t' n) = b_pool (bget (x_trie s) n)) ->
  let s' := mkX t' (x_bl s) lv l (x_max s) in
  einvb st s' xl /\ (forall x, cont s' x <-> cont s x) /\ (enodel s -> enodel s').
Proof.
  intros I SS HO s'.
  assert (HB : forall n, brev t' n = brev (x_trie s) n) by (intros; symmetry; apply same_shape_brev; auto).
  assert (HU : forall n, up t' n = up (x_trie s) n) by (intros; unfold up; rewrite HB; auto).
  split; [constructor; cbn [s' x_trie x_bl]|split].
  - apply (trie_ok_shape (x_trie s)); auto. apply (ei_trie _ _ I).
  - intros n Hn. rewrite HB. apply (ei_16 _ _ I); auto.
  - apply (ext_change (x_trie s)); auto.
    + intros n Hn Hnb. unfold dead. rewrite HO; auto.
    + apply (ei_nodup_x s xl I).
    + apply (ei_ext _ _ I).
  - intros u w Hu. rewrite HB, HU, HO. apply (ei_pool _ _ I); auto.
  - intros x. unfold cont. cbn [s' x_trie x_bl]. split; intros (u & w & q & Hu & Hq & Hin); exists u, w, q; rewrite ?HO in *; auto.
  - intros N u w q Hu Hq. cbn [s' x_trie x_bl] in *. rewrite HO in Hq. apply (N u w q); auto.
Qed.

(** * Everything stored, in order *)
Definition of_bucket (t : trie) (n : nid) : list slot :=
  if nid_eqb n bmax then [] else match b_pool (bget t n) with Some p => live p | None => [] end.
Definition slist (t : trie) (bl : list nid) : list slot := flat_map (of_bucket t) (rev bl).
Lemma slist_cons t n b : slist t (n :: b) = slist t b ++ of_bucket t n.
Proof. unfold slist. cbn [rev]. rewrite flat_map_app. cbn [flat_map]. rewrite app_nil_r. auto. Qed.
Lemma slist_app t a b : slist t (a ++ b) = slist t b ++ slist t a.
Proof. unfold slist. rewrite rev_app_distr, flat_map_app. auto. Qed.
Lemma slist_ext t t' bl : (forall n, In n bl -> n <> bmax -> b_pool (bget t' n) = b_pool (bget t n)) -> slist t' bl = slist t bl.
Proof.
  induction bl as [|n bl IH]; intros H; auto. rewrite !slist_cons, IH by (intros; apply H; auto; right; auto). f_equal.
  unfold of_bucket. destruct (nid_eqb n bmax) eqn:E; auto. rewrite H; [auto|left; auto|].
  intros ->. rewrite nid_eqb_refl in E. discriminate.
Qed.
Definition stored (s : estate) : list slot := slist (x_trie s) (x_bl s).
