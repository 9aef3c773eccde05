(** makeBucket keeps the invariant and never panics (entries below MAX64 - 1). *)
From Verif Require Import Base BaseProofs Util UtilProofs Bucket TrieProofs TrieInv TrieGrow LevelList MapModel ItemProofs MapInv.
From Coq Require Import ZifyBool Sorted.
Local Open Scope Z_scope.

(** * The bucket list *)
Lemma from_b_in bl n x : In x (from_b bl n) -> In x bl.
Proof.
  induction bl as [|y bl IH]; cbn [from_b]; auto.
  destruct (nid_eqb y n); auto. intros H; right; auto.
Qed.
Lemma first_below_spec t rv bl c : first_below t rv bl = Some c -> In c bl /\ brev t c < rv.
Proof.
  induction bl as [|y bl IH]; cbn [first_below]; [discriminate|].
  destruct (Z.ltb_spec (brev t y) rv).
  - intros E; inversion E; subst. split; auto. left; auto.
  - intros E. destruct (IH E). split; auto. right; auto.
Qed.
Lemma before_b_app A c B : ~ In c A -> forall acc, before_b acc (A ++ c :: B) c = rev A ++ acc.
Proof.
  induction A as [|x A IH]; cbn [app before_b]; intros HN acc.
  - rewrite nid_eqb_refl. auto.
  - destruct (nid_eqb x c) eqn:E.
    { apply nid_eqb_eq in E. subst. exfalso. apply HN. left; auto. }
    rewrite IH by (intros H; apply HN; right; auto). cbn [rev]. rewrite <- app_assoc. auto.
Qed.

Lemma walk_up_spec t rv bl : StronglySorted (fun a b => brev t b < brev t a) bl ->
  forall ups c next b, bl = rev ups ++ next :: c :: b -> brev t c <= rv ->
  exists a' c' n' b', walk_up t rv c next ups = (c', n') /\ bl = a' ++ n' :: c' :: b' /\
    brev t c' <= rv /\ (rv < brev t n' \/ a' = []).
Proof.
  intros S ups. induction ups as [|u ups IH]; intros c next b E Hc; cbn [walk_up].
  - exists [], c, next, b. auto.
  - destruct (Z.ltb_spec rv (brev t next)) as [Hlt|Hge].
    { exists (rev (u :: ups)), c, next, b. auto. }
    assert (Hcn : brev t c < brev t next).
    { rewrite E in S. apply sorted_app in S as (_ & S2 & _). inversion S2 as [|? ? _ F]; subst.
      apply Forall_inv in F. auto. }
    destruct (Z.ltb_spec (brev t c) (brev t next)); [|lia].
    apply (IH next u (c :: b)); auto. rewrite E. cbn [rev]. rewrite <- app_assoc. auto.
Qed.

Lemma sorted_adj t bl a x c b : StronglySorted (fun a b => brev t b < brev t a) bl ->
  bl = a ++ x :: c :: b -> brev t c < brev t x.
Proof.
  intros S ->. apply sorted_app in S as (_ & S2 & _). inversion S2 as [|? ? _ F]; subst.
  apply Forall_inv in F. auto.
Qed.
(** nothing in the list lies strictly between two neighbours *)
Lemma sorted_gap t bl a x c b n : StronglySorted (fun a b => brev t b < brev t a) bl ->
  bl = a ++ x :: c :: b -> In n bl -> brev t c < brev t n < brev t x -> False.
Proof.
  intros S -> Hn Hb. apply sorted_app in S as (_ & S2 & S3).
  apply in_app_or in Hn as [Hn|[<-|[<-|Hn]]]; try lia.
  - specialize (S3 n x Hn (or_introl eq_refl)). cbn in S3. lia.
  - inversion S2 as [|? ? S4 F]; subst. inversion S4 as [|? ? S5 F']; subst.
    rewrite Forall_forall in F'. specialize (F' n Hn). cbn in F'. lia.
Qed.

Lemma pair_of_er t bl er c0 : trie_ok t bl -> er <= MAX64 - 2 ->
  In c0 bl -> brev t c0 < er ->
  exists a c n b, walk_up t er c0 c0 (before_b [] bl c0) = (c, n) /\ bl = a ++ n :: c :: b /\
    brev t c <= er < brev t n.
Proof.
  intros K Her Hin Hlt. pose proof (tk_sorted _ _ K) as S.
  destruct (in_split _ _ Hin) as (A & B & E).
  assert (HA : ~ In c0 A).
  { intros H. rewrite E in S. apply sorted_app in S as (_ & _ & S3).
    specialize (S3 c0 c0 H (or_introl eq_refl)). cbn in S3. lia. }
  assert (EB : before_b [] bl c0 = rev A) by (rewrite E, before_b_app, app_nil_r by auto; auto).
  rewrite EB. clear EB.
  destruct (tk_head _ _ K) as (bl' & Eh & _).
  assert (Hb : brev t bmax = MAX64) by apply (tk_bmax _ _ K).
  destruct (rev A) as [|u ups] eqn:EA.
  { assert (A = []) by (destruct A; auto; apply (f_equal (@List.length _)) in EA; rewrite rev_length in EA; discriminate).
    subst A. rewrite E in Eh. cbn in Eh. inversion Eh; subst. lia. }
  cbn [walk_up]. destruct (Z.ltb_spec er (brev t c0)); [lia|].
  rewrite Z.ltb_irrefl.
  assert (E2 : bl = rev ups ++ u :: c0 :: B).
  { rewrite E. apply (f_equal (@rev _)) in EA. rewrite rev_involutive in EA. rewrite EA. cbn [rev].
    rewrite <- app_assoc. auto. }
  destruct (walk_up_spec t er bl S ups c0 u B E2 ltac:(lia)) as (a' & c' & n' & b' & W & E3 & H1 & H2).
  exists a', c', n', b'. split; auto. split; auto. split; auto.
  destruct H2 as [H2|H2]; auto. subst a'. rewrite E3 in Eh. cbn in Eh. inversion Eh; subst. lia.
Qed.

(** * The new position *)
Lemma new_reverse_spec t bl a x c b er : trie_ok t bl -> bl = a ++ x :: c :: b ->
  brev t c <= er < brev t x -> er <= MAX64 - 2 ->
  exists m, 0 <= m /\ up t x = brev t c + 2 ^ m /\ (2 ^ m | brev t c) /\
    (forall l, 1 <= l <= 16 -> m < 68 - 4 * l -> present t (l, trunc l (brev t c))) /\
    ((m = 0 /\ er = brev t c /\ new_reverse t c x = brev t c) \/
     (1 <= m /\ new_reverse t c x = brev t c + 2 ^ (m - 1) /\
      brev t c < new_reverse t c x < brev t x)).
Proof.
  intros K E Her Hmax. destruct (tk_dyadic _ _ K a x c b E) as (m & Hm & Hu & Hd & Hp).
  exists m. split; auto. split; auto. split; auto. split; auto.
  assert (Hb : brev t bmax = MAX64) by apply (tk_bmax _ _ K).
  assert (Hcx : brev t c < brev t x) by lia.
  assert (Hc0 : 0 <= brev t c).
  { destruct (nid_eq_dec c bmax) as [->|N]; [rewrite Hb, MAX64_val; lia|].
    destruct (tk_bl _ _ K c) as [P _]. { rewrite E. apply in_or_app; right; right; left; auto. }
    destruct c as [l v]. destruct (tk_node _ _ K l v P N) as (_ & H & _ & _ & -> & _). lia. }
  assert (Ncx : nid_eqb c x = false) by (apply nid_eqb_neq; intros ->; lia).
  assert (P2 : 1 <= m -> 2 ^ m = 2 * 2 ^ (m - 1)).
  { intros H. replace m with (Z.succ (m - 1)) at 1 by lia. apply Z.pow_succ_r; lia. }
  assert (P3 : 1 <= m -> 0 < 2 ^ (m - 1)) by (intros; apply Z.pow_pos_nonneg; lia).
  assert (Hxr : brev t x <= MAX64 /\ (x <> bmax -> brev t x < MAX64)).
  { destruct (nid_eq_dec x bmax) as [->|N]; [split; [lia|congruence]|].
    destruct (tk_head _ _ K) as (bl' & Eh & _). pose proof (tk_sorted _ _ K) as S. rewrite Eh in S.
    inversion S as [|? ? _ F]; subst. rewrite Forall_forall in F.
    assert (Hx : In x bl').
    { assert (H : In x (bmax :: bl')) by (rewrite <- Eh; apply in_or_app; right; left; auto).
      destruct H as [H|H]; [congruence|auto]. }
    specialize (F x Hx). cbn in F. split; lia. }
  unfold new_reverse. rewrite Ncx. unfold up in Hu.
  rewrite MAX64_val, W64_val in *.
  destruct (nid_eqb x bmax) eqn:Ex.
  - apply nid_eqb_eq in Ex. subst x. rewrite Hb.
    assert (Hm1 : 1 <= m).
    { destruct (Z.eq_dec m 0) as [->|]; [|lia]. rewrite Z.pow_0_r in Hu. lia. }
    specialize (P2 Hm1). specialize (P3 Hm1).
    assert (2 <= 2 ^ (m - 1)).
    { destruct (Z.eq_dec m 1) as [->|]; [|]. 
      - exfalso. rewrite Z.pow_1_r in Hu. lia.
      - replace (m - 1) with (Z.succ (m - 2)) by lia. rewrite Z.pow_succ_r by lia.
        pose proof (Z.pow_pos_nonneg 2 (m - 2)). lia. }
    right. split; auto. rewrite Z.eqb_refl.
    assert (EV : exists q, brev t c = 2 * q).
    { destruct Hd as [q Hq]. exists (q * 2 ^ (m - 1)). rewrite Hq, P2. ring. }
    destruct EV as [q Hq].
    destruct (Z.eqb_spec (brev t c) 0) as [Z0|NZ]; cbn [andb].
    + assert (2 ^ (m - 1) = 9223372036854775808) by lia.
      replace (reverse64 1) with 9223372036854775808 by reflexivity. lia.
    + assert (Hu1 : u64 (brev t c / 2 + 18446744073709551615 / 2) = q + 9223372036854775807).
      { rewrite Hq. replace (2 * q) with (q * 2) by ring. rewrite Z.div_mul by lia.
        change (18446744073709551615 / 2) with 9223372036854775807. unfold u64. rewrite W64_val.
        apply Z.mod_small. lia. }
      rewrite Hu1. unfold u64. rewrite W64_val. rewrite Z.mod_small by lia. lia.
  - assert (Nx : x <> bmax) by (intros ->; rewrite nid_eqb_refl in Ex; discriminate).
    destruct Hxr as [_ Hxr]. specialize (Hxr Nx).
    destruct (Z.eqb_spec (brev t x) 18446744073709551615); [lia|]. cbn [andb].
    pose proof (half_spec (brev t c) (brev t x)) as HS.
    rewrite ?W64_val in HS. change (2 ^ 64) with 18446744073709551616 in HS.
    specialize (HS ltac:(lia) ltac:(lia)). destruct HS as (_ & HS1 & HS2).
    destruct (Z.eq_dec m 0) as [->|].
    + left. rewrite Z.pow_0_r in Hu. repeat split; lia.
    + right. assert (Hm1 : 1 <= m) by lia. specialize (P2 Hm1). specialize (P3 Hm1).
      split; auto. lia.
Qed.

(** prefixes of a node are present *)
Lemma prefixes_present t bl : trie_ok t bl -> forall l v, present t (l, v) -> (l, v) <> bmax ->
  forall j, 1 <= j <= l -> present t (j, trunc j v).
Proof.
  intros K l v Hp Hn. destruct (tk_node _ _ K l v Hp Hn) as (HL & HV & HD & _).
  assert (forall f, forall j, 1 <= j <= l -> l - j <= Z.of_nat f -> present t (j, trunc j v)).
  { induction f as [|f IH]; intros j Hj Hf.
    - assert (j = l) by lia. subst. rewrite trunc_id by (auto; lia). auto.
    - destruct (Z.eq_dec j l) as [->|N]; [rewrite trunc_id by (auto; lia); auto|].
      assert (H1 : present t (j + 1, trunc (j + 1) v)) by (apply IH; lia).
      destruct (tk_up _ _ K _ _ H1) as [H2 _]; [intros B; inversion B; lia|lia|].
      replace (j + 1 - 1) with j in H2 by lia. rewrite trunc_trunc in H2 by lia. auto. }
  intros j Hj. apply (H (Z.to_nat l)); lia.
Qed.

(** the level of a linked bucket *)
Lemma linked_level t bl l v : trie_ok t bl -> In (l, v) bl -> (l, v) <> bmax -> 0 < v -> level_of v = l.
Proof.
  intros K Hin Hn Hv. destruct (tk_bl _ _ K _ Hin) as [Hp HP].
  destruct (tk_node _ _ K l v Hp Hn) as (HL & HV & HD & _).
  apply level_of_unique; auto; try lia.
  destruct (tk_link _ _ K l v Hp Hn) as [(_ & _ & E)|([->|HN] & _ & _)]; [congruence| |].
  - intros [q Hq]. replace (sz (1 - 1)) with W64 in Hq by reflexivity. rewrite W64_val in *.
    assert (q = 0 \/ 1 <= q \/ q <= -1) as [->|[|]] by lia; lia.
  - destruct (Z.eq_dec l 1) as [->|].
    { intros [q Hq]. replace (sz (1 - 1)) with W64 in Hq by reflexivity. rewrite W64_val in *.
      assert (q = 0 \/ 1 <= q \/ q <= -1) as [->|[|]] by lia; lia. }
    intros HD'. apply HN. replace l with (l - 1 + 1) by lia. apply nib_0; try lia.
    replace (l - 1 + 1) with l by lia. rewrite !trunc_id; auto; lia.
Qed.

Definition same_cfg (s s' : mstate) : Prop :=
  m_len s' = m_len s /\ m_view s' = m_view s /\ m_max s' = m_max s /\ m_mode s' = m_mode s /\ m_pool s' = m_pool s.
Definition new_dummy (items items' : list entry) : Prop :=
  exists n rv, items' = ins_sorted (dummy_of n rv) items /\
    forall d, In d items -> is_dummy d = true -> e_rev d <> rv.

Lemma bucket_below_app t rv a c b : (forall n, In n a -> rv < brev t n) -> brev t c < rv ->
  bucket_below t rv (a ++ c :: b) = Some c.
Proof.
  intros Ha Hc. induction a as [|x a IH]; cbn [app bucket_below].
  - destruct (Z.eqb_spec (brev t c) rv); [lia|]. destruct (Z.ltb_spec (brev t c) rv); [auto|lia].
  - pose proof (Ha x (or_introl eq_refl)).
    destruct (Z.eqb_spec (brev t x) rv); [lia|]. destruct (Z.ltb_spec (brev t x) rv); [lia|].
    apply IH. intros q Hq; apply Ha; right; auto.
Qed.
Lemma ins_before_app y x a b : ~ In y a -> ins_before y x (a ++ y :: b) = a ++ x :: y :: b.
Proof.
  induction a as [|z a IH]; cbn [app ins_before]; intros H.
  - rewrite nid_eqb_refl. auto.
  - destruct (nid_eqb z y) eqn:E.
    { apply nid_eqb_eq in E; subst. exfalso; apply H; left; auto. }
    rewrite IH; auto. intros Hi; apply H; right; auto.
Qed.

Lemma sorted_before t a x c b : StronglySorted (fun a b => brev t b < brev t a) (a ++ x :: c :: b) ->
  (forall n, In n (a ++ [x]) -> brev t x <= brev t n) /\ (forall n, In n (c :: b) -> brev t n <= brev t c).
Proof.
  intros S. apply sorted_app in S as (_ & S2 & S3). split.
  - intros n Hn. apply in_app_or in Hn as [Hn|[<-|[]]]; [|lia].
    specialize (S3 n x Hn (or_introl eq_refl)). cbn in S3. lia.
  - intros n [<-|Hn]; [lia|]. inversion S2 as [|? ? S4 _]; subst. inversion S4 as [|? ? _ F]; subst.
    rewrite Forall_forall in F. specialize (F n Hn). cbn in F. lia.
Qed.

Lemma same_shape_sym t t' : same_shape t t' -> same_shape t' t.
Proof. intros H q. symmetry. apply H. Qed.

(** the new bucket y = (L, nr) enters the lists *)
Lemma add_bucket_spec s t' a x c b y nr lv' :
  sinv s -> m_bl s = a ++ x :: c :: b ->
  trie_ok t' (a ++ x :: y :: c :: b) ->
  (forall n, In n (m_bl s) -> brev t' n = brev (m_trie s) n) ->
  ~ In y (m_bl s) -> brev t' y = nr -> brev (m_trie s) c < nr < brev (m_trie s) x ->
  let sA := set_lv (set_trie s t') lv' in
  let s2 := add_bucket sA y nr in
  m_items s2 = ins_sorted (dummy_of y nr) (m_items s) /\ m_bl s2 = a ++ x :: y :: c :: b /\
  m_trie s2 = t' /\ m_lv s2 = lv' /\ same_cfg s s2 /\
  rsorted (m_items s2) /\ dummies (m_items s2) = rev (m_bl s2) /\
  (forall e n, In e (m_items s2) -> e_dummy e = Some n -> e_rev e = brev t' n) /\
  (forall d, In d (m_items s) -> is_dummy d = true -> e_rev d <> nr).
Proof.
  intros I Ebl K HB Hy Hyr Hnr sA s2.
  pose proof (tk_sorted _ _ (sv_trie _ I)) as TS.
  assert (Hc : In c (m_bl s)) by (rewrite Ebl; apply in_or_app; right; right; left; auto).
  assert (Hx : In x (m_bl s)) by (rewrite Ebl; apply in_or_app; right; left; auto).
  pose proof TS as TS'. rewrite Ebl in TS'. destruct (sorted_before _ _ _ _ _ TS') as [HA HC].
  assert (EBL : a ++ x :: c :: b = (a ++ [x]) ++ c :: b) by (rewrite <- app_assoc; auto).
  assert (HBB : bucket_below t' nr (m_bl s) = Some c).
  { rewrite Ebl, EBL. apply bucket_below_app.
    - intros n Hn. rewrite HB by (rewrite Ebl, EBL; apply in_or_app; auto). specialize (HA n Hn). lia.
    - rewrite HB by auto. lia. }
  destruct (tk_bl _ _ (sv_trie _ I) c Hc) as [Hpc _].
  destruct (head_z_some s c I Hpc) as (l & d & r & Hz & Ei & Hd & Hr).
  rewrite (base_linked _ _ _ (sv_trie _ I) Hc) in Hd.
  assert (Hzc : head_z sA c = Some (l, d :: r)).
  { unfold head_z in *. change (m_trie sA) with t'. change (m_items sA) with (m_items s).
    rewrite (base_linked _ _ _ K); [|apply in_or_app; right; right; right; left; auto].
    rewrite (base_linked _ _ _ (sv_trie _ I) Hc) in Hz. auto. }
  pose proof (sv_sorted _ I) as S.
  assert (Hdi : In d (m_items s)) by (rewrite Ei; apply in_or_app; right; left; auto).
  assert (Hadd : exists z', add_dummy (m_items s) (l, d :: r) (dummy_of y nr) = Some z' /\
                   unzip z' = ins_sorted (dummy_of y nr) (m_items s)).
  { unfold add_dummy. cbn [fst snd e_rev dummy_of].
    destruct (suffix_has_max s (rev l) d r I Ei) as (w & Hw & Rw); [congruence|].
    pose proof (sv_brev_le s x I Hx) as Rx.
    destruct (find_gt nr l (d :: r)) as [z|] eqn:F.
    - destruct (find_gt_spec _ _ _ _ F) as (mid & e & r' & E2 & -> & He & Fm).
      pose proof S as S'. rewrite Ei in S'. apply sorted_app in S' as (S1 & S2 & S3).
      rewrite checked_insert_ok.
      + eexists; split; [reflexivity|].
        apply (insert_gt_sorted _ _ (rev mid ++ l, e :: r')); auto.
        * rewrite unzip_eq, rev_app_distr, rev_involutive, <- app_assoc, <- E2. auto.
        * exists e, r'. auto.
        * apply checked_insert_ok; cbn; [lia|]. intros p Hp. apply in_app_or in Hp as [Hp|Hp].
          -- rewrite Forall_forall in Fm. apply in_rev in Hp. specialize (Fm p Hp). lia.
          -- apply in_rev in Hp. specialize (S3 p d Hp (or_introl eq_refl)). unfold rle in S3. lia.
      + cbn; lia.
      + cbn. intros p Hp. apply in_app_or in Hp as [Hp|Hp].
        * rewrite Forall_forall in Fm. apply in_rev in Hp. specialize (Fm p Hp). lia.
        * apply in_rev in Hp. specialize (S3 p d Hp (or_introl eq_refl)). unfold rle in S3. lia.
    - pose proof (find_gt_none _ _ _ F w Hw). lia. }
  destruct Hadd as (z' & Hadd & Hun).
  assert (E2 : s2 = set_bl (set_items sA (unzip z')) (ins_before c y (m_bl s))).
  { unfold s2, add_bucket. cbn [m_trie m_bl sA set_lv set_trie]. fold sA. rewrite HBB, Hzc.
    replace (m_items sA) with (m_items s) by reflexivity. rewrite Hadd. reflexivity. }
  assert (Hbl : ins_before c y (m_bl s) = a ++ x :: y :: c :: b).
  { rewrite Ebl, EBL, ins_before_app; [rewrite <- app_assoc; auto|].
    intros Hin. specialize (HA c Hin). lia. }
  assert (Hnd : forall d0, In d0 (m_items s) -> is_dummy d0 = true -> e_rev d0 <> nr).
  { intros d0 H0 H1 H2. unfold is_dummy in H1. destruct (e_dummy d0) as [n|] eqn:En; [|discriminate].
    apply (sorted_gap _ _ a x c b n TS Ebl).
    - eapply sv_dummy_bl; eauto.
    - rewrite <- (sv_drev _ I d0 n H0 En). lia. }
  rewrite E2. cbn [m_items m_bl m_trie m_lv set_bl set_items]. rewrite Hun, Hbl.
  repeat (split; [auto; fail|]). split; [repeat split|].
  split; [apply ins_sorted_sorted; auto|]. split; [|split].
  - rewrite (dummies_ins (m_trie s) _ y); auto; [|apply (sv_drev _ I)].
    rewrite (sv_dum _ I), Ebl. cbn [e_rev dummy_of].
    rewrite !rev_app_distr. cbn [rev]. rewrite <- !app_assoc. cbn [app].
    replace (rev b ++ c :: x :: rev a) with ((rev b ++ [c]) ++ x :: rev a) by (rewrite <- app_assoc; auto).
    rewrite ins_name_app.
    + rewrite <- !app_assoc. auto.
    + intros n Hn. assert (Hn' : In n (c :: b)).
      { apply in_app_or in Hn as [Hn|[->|[]]]; [right; apply in_rev; auto|left; auto]. }
      specialize (HC n Hn'). lia.
    + intros n Hn. assert (Hn' : In n (a ++ [x])).
      { apply in_or_app. destruct Hn as [<-|Hn]; [right; left; auto|left; apply in_rev; auto]. }
      specialize (HA n Hn'). lia.
  - intros e n He Hn. apply ins_sorted_in in He as [->|He].
    + cbn in Hn. inversion Hn; subst. cbn. auto.
    + rewrite HB; [apply (sv_drev _ I); auto|]. eapply sv_dummy_bl; eauto.
  - auto.
Qed.

Lemma bucket_from_pool_eq t lv nr : 0 < nr < W64 ->
  bucket_from_pool t lv nr = Some (bfp_loop 15 t lv (1 + 1) (level_of nr) nr (1, trunc 1 nr)).
Proof.
  intros H. unfold bucket_from_pool. destruct (level_of_spec nr H) as (HL & _).
  rewrite top_of_eq by lia. generalize dependent (level_of nr). intros L HL.
  destruct (Z.eqb_spec L 0); [lia|]. reflexivity.
Qed.

Lemma base_no_parent t n : b_parent (bget t n) = None -> base t n = n.
Proof. intros H. unfold base. cbn [to_base]. rewrite H. auto. Qed.

Theorem make_bucket_spec s er : sinv s -> 0 <= er <= MAX64 - 2 ->
  exists s', make_bucket s er = (s', false) /\ sinv s' /\ same_cfg s s' /\
    (m_items s' = m_items s \/ new_dummy (m_items s) (m_items s')).
Proof.
  intros I Her. unfold make_bucket.
  assert (Triv : exists s', (s, false) = (s', false) /\ sinv s' /\ same_cfg s s' /\
    (m_items s' = m_items s \/ new_dummy (m_items s) (m_items s'))).
  { exists s. split; [auto|]. split; [auto|]. split; [repeat split|auto]. }
  destruct (first_below _ er _) as [c0|] eqn:FB; auto.
  apply first_below_spec in FB as [Hc0 Hlt]. apply from_b_in in Hc0.
  pose proof (sv_trie _ I) as K.
  destruct (pair_of_er _ _ er c0 K ltac:(lia) Hc0 Hlt) as (a & c & x & b & -> & Ebl & Hr).
  destruct ((brev (m_trie s) x <? er) || (er <? brev (m_trie s) c)) eqn:G; auto. clear Triv.
  destruct (new_reverse_spec _ _ a x c b er K Ebl Hr ltac:(lia)) as (m & Hm & Hu & Hd & Hp & Hcase).
  pose proof (sv_brev_le s c0 I Hc0) as R0.
  assert (Hc : In c (m_bl s)) by (rewrite Ebl; apply in_or_app; right; right; left; auto).
  assert (Hx : In x (m_bl s)) by (rewrite Ebl; apply in_or_app; right; left; auto).
  pose proof (sv_brev_le s c I Hc) as Rc. pose proof (sv_brev_le s x I Hx) as Rx.
  pose proof (tk_sorted _ _ K) as TS.
  assert (Ncb : c <> bmax).
  { intros ->. destruct (tk_bmax _ _ K) as (_ & E & _). lia. }
  set (nr := new_reverse (m_trie s) c x) in *.
  destruct Hcase as [(-> & Ee & En)|(Hm1 & En & Hb)].
  - (* the position is the lower bucket itself *)
    rewrite En. destruct c as [lc vc].
    destruct (tk_bl _ _ K _ Hc) as [Hpc _].
    destruct (tk_node _ _ K lc vc Hpc Ncb) as (HL & HV & HD & HLv & HRv & _).
    rewrite HRv in *. assert (Hv0 : 0 < vc) by lia.
    rewrite bucket_from_pool_eq by lia.
    pose proof (linked_level _ _ lc vc K Hc Ncb Hv0) as Elv.
    destruct (bfp_loop_spec (m_trie s) (m_bl s) (m_lv s) vc K ltac:(lia)) with (f := 15%nat) (l := 1)
      as (t' & lv' & -> & [(_ & -> & ->)|(Hn & _)]).
    + intros l Hl. rewrite Elv in Hl. apply (prefixes_present _ _ K lc vc); auto. lia.
    + rewrite Elv. lia.
    + rewrite Elv. change (Z.of_nat 15) with 15. lia.
    + intros E1. rewrite E1, Elv. auto.
    + rewrite Elv.
      assert (Es : set_lv (set_trie s (m_trie s)) (m_lv s) = s) by (destruct s; reflexivity).
      rewrite Es. destruct (head_z_some s (lc, vc) I Hpc) as (l & d & r & -> & _).
      exists s. split; [auto|]. split; [auto|]. split; [repeat split|auto].
    + exfalso. apply Hn. rewrite Elv. auto.
  - (* a new position strictly inside *)
    clearbody nr. rewrite MAX64_val in *.
    assert (Hnr : 0 < nr < W64) by (rewrite W64_val; lia).
    rewrite bucket_from_pool_eq by auto.
    destruct (level_of_spec nr Hnr) as (HL & HLd & HLn).
    assert (Hnp : ~ present (m_trie s) (level_of nr, nr)).
    { intros P. assert (Hin : In (level_of nr, nr) (m_bl s)).
      { destruct (tk_link _ _ K _ _ P) as [(H2 & Hz & _)|(_ & _ & H)]; auto.
        - intros B; inversion B; lia.
        - exfalso. apply HLn. replace (level_of nr) with (level_of nr - 1 + 1) in Hz by lia.
          apply nib_0 in Hz; try lia. replace (level_of nr - 1 + 1) with (level_of nr) in Hz by lia.
          rewrite (trunc_id (level_of nr)) in Hz by (auto; lia). pose proof (trunc_div (level_of nr - 1) nr) as TD. rewrite <- Hz in TD. exact TD. }
      apply (sorted_gap _ _ a x c b _ TS Ebl Hin).
      destruct (tk_node _ _ K _ _ P) as (_ & _ & _ & _ & -> & _); [intros B; inversion B; lia|lia]. }
    assert (HL2 : 2 <= level_of nr).
    { destruct (Z.eq_dec (level_of nr) 1) as [E1|]; [|lia]. exfalso. apply Hnp. rewrite E1.
      rewrite E1 in HLd. destruct HLd as [q Hq].
      pose proof (tk_top _ _ K q) as T. rewrite top_eq in T. rewrite Hq. apply T.
      rewrite W64_val in Hnr. assert (sz 1 = 1152921504606846976) as Es by reflexivity. rewrite Es in Hq. lia. }
    assert (Hpre : forall l, 1 <= l < level_of nr -> present (m_trie s) (l, trunc l nr)).
    { intros l Hl.
      pose proof (gw_level (m_trie s) a x c b m _ nr (level_of nr) eq_refl En eq_refl) as GL.
      rewrite <- Ebl, MAX64_val in GL. specialize (GL K Hm1 Hu Hd Hp ltac:(lia)).
      pose proof (gw_same_trunc (m_trie s) a x c b m _ nr (level_of nr) eq_refl En eq_refl) as GT.
      rewrite <- Ebl, MAX64_val in GT. rewrite (GT K Hm1 Hu Hd Hp ltac:(lia) l) by lia.
      apply Hp; lia. }
    pose proof (bfp_lv (m_trie s) (m_bl s) (m_lv s) nr K Hnr Hpre Hnp 15%nat 1 ltac:(lia) ltac:(change (Z.of_nat 15) with 15; lia)) as LVE. cbv zeta in LVE.
    destruct (bfp_loop_spec (m_trie s) (m_bl s) (m_lv s) nr K Hnr Hpre) with (f := 15%nat) (l := 1)
      as (t' & lv' & EB & [(Hn & _)|(_ & GR & _ & _)]); try (change (Z.of_nat 15) with 15; lia); [contradiction|]. rewrite EB in LVE |- *. cbn [fst snd] in LVE.
    remember (level_of nr) as L eqn:EL.
    assert (NT : trie_ok t' (a ++ x :: (L, nr) :: c :: b)).
    { apply (trie_ok_grow (m_trie s) a x c b m _ nr L eq_refl En EL) with (tr := trunc (L - 1) nr); auto.
      - rewrite <- Ebl; auto.
      - rewrite MAX64_val; lia. }
    assert (NB : forall n, In n (m_bl s) -> brev t' n = brev (m_trie s) n).
    { intros n Hn. apply (gw_brev_in (m_trie s) a x c b m _ nr L eq_refl En EL) with (tr := trunc (L - 1) nr); auto;
        try (rewrite <- Ebl; auto). rewrite MAX64_val; lia. }
    assert (NP : forall n, present (m_trie s) n -> present t' n).
    { apply (gw_mono (m_trie s) a x c b m _ nr L eq_refl En EL) with (tr := trunc (L - 1) nr); auto;
        try (rewrite <- Ebl; auto). rewrite MAX64_val; lia. }
    assert (Hny : ~ In (L, nr) (m_bl s)).
    { intros Hin. apply Hnp. apply (tk_bl _ _ K); auto. }
    pose proof (gr_new _ _ _ _ GR) as GN.
    assert (Hb1 : head_z (set_lv (set_trie s t') lv') (L, nr) = None).
    { unfold head_z. cbn [m_trie m_items set_lv set_trie]. rewrite base_no_parent by (rewrite GN; auto).
      apply seek_none. rewrite (sv_dum _ I). rewrite <- in_rev. auto. }
    assert (Eb : brev t' (L, nr) = nr) by (unfold brev; rewrite GN; auto).
    rewrite Hb1, Eb, Z.eqb_refl.
    destruct (Z.eqb_spec nr 0) as [Z0|NZ0]; [lia|]. cbn [andb].
    match goal with |- context [add_bucket (set_trie _ ?t4)] => set (t4' := t4) end.
    assert (SS : same_shape t' t4').
    { unfold t4'. eapply same_shape_trans; [|apply same_shape_tupd; intros; reflexivity]. apply same_shape_tupd; intros; reflexivity. }
    clearbody t4'.
    assert (NT4 : trie_ok t4' (a ++ x :: (L, nr) :: c :: b)) by (eapply trie_ok_shape; eauto).
    assert (Eset : set_trie (set_lv (set_trie s t') lv') t4' = set_lv (set_trie s t4') lv') by reflexivity.
    rewrite Eset. clear Eset.
    destruct (add_bucket_spec s t4' a x c b (L, nr) nr lv' I Ebl NT4) as (F1 & F2 & F3 & F4 & F5 & F6 & F7 & F8 & F9).
    { intros n Hn. rewrite <- (same_shape_brev _ _ _ SS). auto. }
    { auto. }
    { rewrite <- (same_shape_brev _ _ _ SS). unfold brev. rewrite GN. auto. }
    { lia. }
    set (s2 := add_bucket (set_lv (set_trie s t4') lv') (L, nr) nr) in *.
    assert (PS : forall n, present t' n -> present t4' n).
    { intros n Hn. unfold present. rewrite <- (same_shape_lvl _ _ _ SS). auto. }
    assert (Py : present t4' (L, nr)).
    { apply (tk_bl _ _ NT4). apply in_or_app; right; right; left; auto. }
    set (s3 := set_lv s2 (lv_set (m_lv s2) (lvl t4' (L, nr)) (ins_level t4' (in_blist (m_bl s2)) (L, nr) (lv_get (m_lv s2) (lvl t4' (L, nr)))))).
    assert (I2 : sinv s3).
    { constructor; unfold s3; cbn [set_lv m_items m_trie m_bl m_lv]; auto.
      - rewrite F3, F2. auto.
      - intros e n He Hn. rewrite F3. auto.
      - rewrite F3, F4. assert (E4 : lvl t4' (L, nr) = L) by (rewrite <- (same_shape_lvl _ _ _ SS); unfold lvl; rewrite GN; reflexivity). rewrite E4, LVE.
        pose proof (lvok_grow (m_trie s) t' t4' (m_bl s) (m_lv s) nr (in_blist (m_bl s2))) as LG. cbv zeta in LG. rewrite <- EL in LG. apply LG; [exact K|rewrite MAX64_val; lia|exact HL2|exact Hpre|exact Hnp|apply (sv_lv _ I)|exact GR|exact SS].
      - intros e He Hd0. rewrite F1 in He. apply ins_sorted_in in He as [->|He]; [discriminate|].
        apply (sv_rng _ I); auto. }
    assert (H3 : head_z s2 (L, nr) = head_z s3 (L, nr)) by reflexivity. rewrite H3. destruct (head_z_some s3 (L, nr) I2) as (l & d & r & -> & _); [unfold s3; cbn [set_lv m_trie]; rewrite F3; auto|].
    exists s3. split; [reflexivity|]. split; [|split].
    + exact I2.
    + exact F5.
    + right. exists (L, nr), nr. split; auto.
Qed.
