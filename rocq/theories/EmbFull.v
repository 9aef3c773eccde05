(** Embedded mode: a full bucket in which one slot is dead is split like the bucket without that slot. *)
From Verif Require Import Base BaseProofs Util UtilProofs Bucket TrieProofs TrieInv TrieGrow MapModel ItemProofs MapInv MapSplit
  MapInit Spec MapRefine EmbModel EmbPool EmbTrie EmbInv EmbSplit EmbSpec EmbRefine EmbDel EmbReuse EmbLinked.
From Coq Require Import ZifyBool Sorted.
Local Open Scope Z_scope.
Local Opaque reverse64 level_of base find_bucket.

(** * Q is P, perhaps with one dead slot more, which is not the first *)
Definition gp (P Q : pool) : Prop := exists l1 xs l2, live P = l1 ++ l2 /\ live Q = l1 ++ xs ++ l2 /\
  (xs = [] \/ exists x, xs = [x] /\ sl_del x = true /\ l1 <> []) /\
  p_len P = Z.of_nat (List.length (l1 ++ l2)) /\ p_len Q = Z.of_nat (List.length (l1 ++ xs ++ l2)) /\
  (forall sl, In sl (l1 ++ l2) -> sl_del sl = false) /\ StronglySorted Z.lt (map sl_rev (l1 ++ l2)).

Lemma nth_app_r {A} (d : A) a b i : (List.length a <= i)%nat -> nth i (a ++ b) d = nth (i - List.length a) b d.
Proof. intros H. apply app_nth2. lia. Qed.

Lemma search_same P Q r : live P = live Q -> p_len P = p_len Q -> emb_search P r = emb_search Q r.
Proof.
  intros HL HN. apply emb_search_ext. split; auto. intros i Hi. rewrite <- !live_nth; [congruence| |auto]. unfold p_n in *. congruence.
Qed.

Lemma search_ghost P Q l1 x l2 r : live P = l1 ++ l2 -> live Q = l1 ++ x :: l2 -> sl_del x = true -> l1 <> [] ->
  p_len P = Z.of_nat (List.length (l1 ++ l2)) -> p_len Q = Z.of_nat (List.length (l1 ++ x :: l2)) ->
  (forall sl, In sl (l1 ++ l2) -> sl_del sl = false) -> StronglySorted Z.lt (map sl_rev (l1 ++ l2)) ->
  match emb_search P r, emb_search Q r with
  | None, None => True
  | Some i, Some i' => slot_at P i = slot_at Q i'
  | _, _ => False
  end.
Proof.
  intros EP EQ DX N1 LP LQ ND SO. set (d := List.length l1) in *. set (n := List.length (l1 ++ l2)) in *.
  assert (D0 : (0 < d)%nat) by (unfold d; destruct l1; [congruence|cbn; lia]).
  assert (Dn : (d <= n)%nat) by (unfold n, d; rewrite app_length; lia).
  assert (PN : p_n P = n) by (unfold p_n; lia).
  assert (QN : p_n Q = S n) by (unfold p_n, n in *; rewrite app_length in *; cbn [List.length] in *; lia).
  assert (SP : forall i, (i < n)%nat -> slot_at P i = nth i (l1 ++ l2) zero_slot) by (intros i Hi; rewrite <- live_nth, EP by lia; auto).
  assert (SQ : forall i, (i < S n)%nat -> slot_at Q i = nth i (l1 ++ x :: l2) zero_slot) by (intros i Hi; rewrite <- live_nth, EQ by lia; auto).
  assert (QL : forall i, (i < d)%nat -> slot_at Q i = slot_at P i) by (intros i Hi; rewrite SQ, SP by lia; rewrite !app_nth1 by auto; auto).
  assert (QR : forall i, (d <= i < n)%nat -> slot_at Q (S i) = slot_at P i).
  { intros i Hi. rewrite SQ, SP by lia. fold d. rewrite !app_nth2 by (fold d; lia). fold d. replace (S i - d)%nat with (S (i - d)) by lia. reflexivity. }
  assert (QD : slot_at Q d = x) by (rewrite SQ by lia; rewrite app_nth2, Nat.sub_diag by (fold d; lia); reflexivity).
  assert (DP : forall i, (i < n)%nat -> sl_del (slot_at P i) = false) by (intros i Hi; rewrite SP by auto; apply ND, nth_In; exact Hi).
  assert (KP : forall i, (i < n)%nat -> skip_left (p_slots P) i = i) by (intros i Hi; apply skip_left_self, DP; auto).
  assert (KL : forall i, (i < d)%nat -> skip_left (p_slots Q) i = i) by (intros i Hi; apply skip_left_self; fold (slot_at Q i); rewrite QL by auto; apply DP; lia).
  assert (KR : forall i, (d <= i < n)%nat -> skip_left (p_slots Q) (S i) = S i) by (intros i Hi; apply skip_left_self; fold (slot_at Q (S i)); rewrite QR by auto; apply DP; lia).
  assert (KD : skip_left (p_slots Q) d = (d - 1)%nat).
  { destruct d as [|d']; [lia|]. cbn [skip_left]. fold (slot_at Q (S d')). rewrite QD, DX. rewrite KL by lia. lia. }
  set (f := fun i => r <=? sl_rev (slot_at P (skip_left (p_slots P) i))). set (g := fun i => r <=? sl_rev (slot_at Q (skip_left (p_slots Q) i))).
  set (psi := fun i => if Nat.ltb i d then i else (i - 1)%nat).
  assert (G : forall i, (i < S n)%nat -> g i = f (psi i)).
  { intros i Hi. unfold g, f, psi. destruct (Nat.ltb_spec i d) as [LT|GE].
    - rewrite KL, KP, QL by lia. auto.
    - destruct (Nat.eq_dec i d) as [->|NE].
      + rewrite KD, KP, QL by lia. auto.
      + destruct i as [|i]; [lia|]. replace (S i - 1)%nat with i by lia. rewrite KR, KP, QR by lia. auto. }
  assert (MF : forall a b, (a <= b)%nat -> (b < n)%nat -> f a = true -> f b = true).
  { intros a b Hab Hb. unfold f. rewrite !KP by lia. destruct (Nat.eq_dec a b) as [->|NE]; auto.
    pose proof (sorted_nth _ SO a b) as X. rewrite map_length in X. fold n in X. specialize (X ltac:(lia)).
    change 0 with (sl_rev zero_slot) in X. rewrite !map_nth, <- !SP in X by lia. lia. }
  assert (IQ : sort_search (S n) 0 (S n) g = let i := sort_search n 0 n f in if Nat.ltb i d then i else S i).
  { destruct (sort_search_spec f n 0 n) as (A & B & C); try lia. { intros a b [_ Hab] Hb Ha. apply (MF a b); auto. }
    destruct (sort_search_spec g (S n) 0 (S n)) as (A' & B' & C'); try lia.
    { intros a b Hab Hb. rewrite !G by lia. apply MF; unfold psi; destruct (Nat.ltb_spec a d), (Nat.ltb_spec b d); lia. }
    set (i := sort_search n 0 n f) in *. set (i' := sort_search (S n) 0 (S n) g) in *. cbv zeta.
    destruct (Nat.ltb_spec i d) as [LT|GE].
    - assert (i' <= i)%nat.
      { destruct (Nat.le_gt_cases i' i); auto. exfalso. specialize (B' i ltac:(lia)). rewrite G in B' by lia. unfold psi in B'. destruct (Nat.ltb_spec i d); [|lia]. rewrite C in B' by lia. discriminate. }
      destruct (Nat.eq_dec i' i); auto. exfalso. specialize (C' i' ltac:(lia)). rewrite G in C' by lia. unfold psi in C'. destruct (Nat.ltb_spec i' d); [|lia]. rewrite B in C' by lia. discriminate.
    - assert (S i <= i')%nat.
      { destruct (Nat.le_gt_cases (S i) i') as [|L]; auto. exfalso. specialize (C' i' ltac:(lia)). rewrite G in C' by lia. rewrite B in C'; [discriminate|]. unfold psi. destruct (Nat.ltb_spec i' d); lia. }
      destruct (Nat.eq_dec i' (S i)); auto. exfalso. specialize (B' (S i) ltac:(lia)). rewrite G in B' by lia. unfold psi in B'. destruct (Nat.ltb_spec (S i) d); [lia|].
      replace (S i - 1)%nat with i in B' by lia. rewrite C in B' by lia. discriminate. }
  unfold emb_search. fold f g. cbv zeta. rewrite PN, QN, IQ. cbv zeta. set (i := sort_search n 0 n f).
  destruct (Nat.ltb_spec i d) as [LT|GE].
  - destruct (Nat.ltb_spec i (S n)); [|lia]. destruct (Nat.ltb_spec i n); [|lia]. cbn [andb]. rewrite QL by auto.
    destruct (sl_rev (slot_at P i) =? r); auto. rewrite KL, KP, QL by lia. auto.
  - destruct (Nat.ltb_spec i n) as [Hi|Hi].
    + destruct (Nat.ltb_spec (S i) (S n)); [|lia]. cbn [andb]. rewrite QR by lia. destruct (sl_rev (slot_at P i) =? r); auto. rewrite KR, KP, QR by lia. auto.
    + destruct (Nat.ltb_spec (S i) (S n)); [lia|]. cbn [andb]. auto.
Qed.

Lemma gp_search P Q r : gp P Q ->
  match emb_search P r, emb_search Q r with
  | None, None => True
  | Some i, Some i' => slot_at P i = slot_at Q i'
  | _, _ => False
  end.
Proof.
  intros (l1 & xs & l2 & EP & EQ & [->|(x & -> & DX & N1)] & LP & LQ & ND & SO).
  - cbn [app] in *. assert (LL : live P = live Q) by congruence. assert (LN : p_len P = p_len Q) by congruence.
    rewrite <- (search_same P Q r LL LN). destruct (emb_search P r) as [i|] eqn:E; auto.
    assert (Hi : (i < p_n P)%nat).
    { unfold emb_search in E. match type of E with (if ?c then _ else _) = _ => destruct c eqn:C end; [|discriminate].
      apply andb_true_iff in C as [C _]. injection E as <-. match goal with |- (skip_left ?a ?b < _)%nat => pose proof (skip_left_le a b) end. lia. }
    rewrite <- !live_nth; [congruence| |auto]. unfold p_n in *. congruence.
  - cbn [app] in *. apply (search_ghost P Q l1 x l2); auto.
Qed.

Lemma gp_refl P lo hi : pool_ok P lo hi -> nodel P -> gp P P.
Proof.
  intros K N. exists (live P), [], []. cbn [app]. rewrite app_nil_r. pose proof (live_length _ _ _ K) as L. pose proof (po_len _ _ _ K). repeat (split; auto).
  - rewrite L. unfold p_n. lia.
  - rewrite L. unfold p_n. lia.
  - apply (po_sorted _ _ _ K).
Qed.

(** * The place of the split *)
Lemma first_ge_app r a : forall b i, first_ge r i (a ++ b) = match first_ge r i a with Some k => Some k | None => first_ge r (i + List.length a) b end.
Proof.
  induction a as [|z a IH]; intros b i; cbn [app first_ge List.length].
  - rewrite Nat.add_0_r. auto.
  - destruct (_ && _); auto. rewrite IH. replace (S i + List.length a)%nat with (i + S (List.length a))%nat by lia. auto.
Qed.
Lemma first_ge_shift r l : forall i, first_ge r i l = match first_ge r 0 l with Some k => Some (i + k)%nat | None => None end.
Proof.
  induction l as [|z l IH]; intros i; cbn [first_ge]; auto. destruct (_ && _); [f_equal; lia|].
  rewrite (IH (S i)), (IH 1%nat). destruct (first_ge r 0 l); auto. f_equal. lia.
Qed.
Lemma first_ge_range r l i k : first_ge r i l = Some k -> (i <= k < i + List.length l)%nat.
Proof.
  intros E. apply first_ge_spec in E as (a & x & b & -> & -> & _). rewrite app_length. cbn [List.length]. lia.
Qed.
Lemma live_lo P i : p_len P = Z.of_nat (List.length (live P)) -> (i <= List.length (live P))%nat -> live (split_lo P i) = firstn i (live P) /\ p_len (split_lo P i) = Z.of_nat i.
Proof.
  intros L H. unfold live, split_lo, p_n. cbn [p_len p_slots]. rewrite Nat2Z.id. split; auto.
  rewrite !firstn_firstn. f_equal. unfold live, p_n in H. rewrite firstn_length in H. lia.
Qed.
Lemma live_hi P i : p_len P = Z.of_nat (List.length (live P)) -> (i <= List.length (live P))%nat -> live (split_hi P i) = skipn i (live P) /\ p_len (split_hi P i) = Z.of_nat (List.length (live P) - i).
Proof.
  intros L H. split; [|unfold split_hi; cbn [p_len]; lia]. unfold live at 1, split_hi, p_n. cbn [p_len p_slots]. unfold live, p_n. rewrite skipn_firstn_comm. f_equal. lia.
Qed.
Lemma sorted_part (l a b c : list slot) : l = a ++ b ++ c -> StronglySorted Z.lt (map sl_rev l) -> StronglySorted Z.lt (map sl_rev b).
Proof.
  intros -> S. rewrite !map_app in S. apply sorted_app in S as (_ & S & _). apply sorted_app in S as (S & _ & _). exact S.
Qed.
Lemma gp_make P Q l1 xs l2 (l a c : list slot) : live P = l1 ++ l2 -> live Q = l1 ++ xs ++ l2 -> (xs = [] \/ exists x, xs = [x] /\ sl_del x = true /\ l1 <> []) ->
  p_len P = Z.of_nat (List.length (live P)) -> p_len Q = Z.of_nat (List.length (live Q)) ->
  l = a ++ (l1 ++ l2) ++ c -> (forall sl, In sl l -> sl_del sl = false) -> StronglySorted Z.lt (map sl_rev l) -> gp P Q.
Proof.
  intros EP EQ X LP LQ EL ND SO. exists l1, xs, l2. rewrite EP in LP. rewrite EQ in LQ. repeat (split; auto).
  - intros sl H. apply ND. rewrite EL. apply in_or_app. right. apply in_or_app. auto.
  - eapply sorted_part; eauto.
Qed.
Lemma gp_find P Q r : gp P Q ->
  match find_idx P r with
  | None => find_idx Q r = None
  | Some O => find_idx Q r = Some O
  | Some (S i) => exists i', find_idx Q r = Some (S i') /\ gp (split_lo P (S i)) (split_lo Q (S i')) /\ gp (split_hi P (S i)) (split_hi Q (S i'))
  end.
Proof.
  intros (l1 & xs & l2 & EP & EQ & X & LP & LQ & ND & SO). unfold find_idx. fold (live P) (live Q). rewrite EP, EQ.
  rewrite <- EP in LP. rewrite <- EQ in LQ. rewrite !first_ge_app.
  destruct (first_ge r 0 l1) as [k|] eqn:E1.
  - apply first_ge_range in E1. destruct k as [|i]; auto. exists i. split; auto.
    assert (HP : (S i <= List.length (live P))%nat) by (rewrite EP, app_length; lia). assert (HQ : (S i <= List.length (live Q))%nat) by (rewrite EQ, app_length; lia).
    destruct (live_lo P (S i) LP HP) as [A1 A2]. destruct (live_lo Q (S i) LQ HQ) as [B1 B2]. destruct (live_hi P (S i) LP HP) as [C1 C2]. destruct (live_hi Q (S i) LQ HQ) as [D1 D2].
    assert (FN : forall b : list slot, firstn (S i) (l1 ++ b) = firstn (S i) l1) by (intros b; rewrite firstn_app; replace (S i - List.length l1)%nat with 0%nat by lia; rewrite firstn_O, app_nil_r; auto).
    assert (SN : forall b : list slot, skipn (S i) (l1 ++ b) = skipn (S i) l1 ++ b) by (intros b; rewrite skipn_app; replace (S i - List.length l1)%nat with 0%nat by lia; rewrite skipn_O; auto).
    rewrite EP, FN in A1. rewrite EQ, FN in B1. split.
    + apply (gp_make _ _ (firstn (S i) l1) [] [] (l1 ++ l2) [] (skipn (S i) l1 ++ l2)); rewrite ?app_nil_r; auto.
      * rewrite A1, A2, firstn_length. f_equal. lia.
      * rewrite B1, B2, firstn_length. f_equal. lia.
      * cbn [app]. rewrite app_assoc, firstn_skipn. auto.
    + apply (gp_make _ _ (skipn (S i) l1) xs l2 (l1 ++ l2) (firstn (S i) l1) []); auto.
      * rewrite <- SN, <- EP. apply (proj1 (live_hi P (S i) LP HP)).
      * rewrite <- SN, <- EQ. apply (proj1 (live_hi Q (S i) LQ HQ)).
      * destruct X as [X|(x & X1 & X2 & X3)]; auto. right. exists x. split; auto. split; auto. intros EN. assert (L : List.length (skipn (S i) l1) = 0%nat) by (rewrite EN; auto). rewrite skipn_length in L. lia.
      * rewrite C2, (proj1 (live_hi P (S i) LP HP)), skipn_length. auto.
      * rewrite D2, (proj1 (live_hi Q (S i) LQ HQ)), skipn_length. auto.
      * rewrite app_nil_r, app_assoc, firstn_skipn. auto.
  - assert (E2 : first_ge r (0 + List.length l1) xs = None).
    { destruct X as [->|(x & -> & DX & _)]; cbn [first_ge]; auto. rewrite DX. auto. }
    rewrite E2. cbn [Nat.add]. rewrite (first_ge_shift r l2 (List.length l1)), (first_ge_shift r l2 (List.length l1 + List.length xs)).
    destruct (first_ge r 0 l2) as [k|] eqn:E3; auto. apply first_ge_range in E3.
    destruct (List.length l1 + k)%nat as [|i] eqn:EI.
    + destruct X as [->|(x & -> & _ & N1)]; [cbn [List.length]; f_equal; lia|]. exfalso. apply N1. destruct l1; auto. discriminate EI.
    + assert (HI : exists i', (List.length l1 + List.length xs + k)%nat = S i') by (exists (List.length l1 + List.length xs + k - 1)%nat; lia).
      destruct HI as (i' & EI'). rewrite EI'. exists i'. split; auto.
      assert (HP : (S i <= List.length (live P))%nat) by (rewrite EP, app_length; lia). assert (HQ : (S i' <= List.length (live Q))%nat) by (rewrite EQ, !app_length; lia).
      destruct (live_lo P (S i) LP HP) as [A1 A2]. destruct (live_lo Q (S i') LQ HQ) as [B1 B2]. destruct (live_hi P (S i) LP HP) as [C1 C2]. destruct (live_hi Q (S i') LQ HQ) as [D1 D2].
      assert (FP : firstn (S i) (l1 ++ l2) = l1 ++ firstn k l2) by (rewrite <- EI; apply firstn_app_2).
      assert (FQ : firstn (S i') (l1 ++ xs ++ l2) = l1 ++ xs ++ firstn k l2) by (rewrite <- EI', app_assoc, <- app_length, firstn_app_2, app_assoc; auto).
      assert (SP : skipn (S i) (l1 ++ l2) = skipn k l2).
      { rewrite <- EI, skipn_app. rewrite (skipn_all2 l1) by lia. cbn [app]. f_equal. lia. }
      assert (SQ : skipn (S i') (l1 ++ xs ++ l2) = skipn k l2).
      { rewrite <- EI', app_assoc, <- app_length, skipn_app. rewrite (skipn_all2 (l1 ++ xs)) by lia. cbn [app]. f_equal. lia. }
      split.
      * apply (gp_make _ _ l1 xs (firstn k l2) (l1 ++ l2) [] (skipn k l2)); auto.
        -- rewrite A1, EP. auto.
        -- rewrite B1, EQ. auto.
        -- rewrite A1, A2, firstn_length. f_equal. lia.
        -- rewrite B1, B2, firstn_length. f_equal. lia.
        -- cbn [app]. rewrite <- app_assoc, firstn_skipn. auto.
      * apply (gp_make _ _ (skipn k l2) [] [] (l1 ++ l2) (l1 ++ firstn k l2) []); rewrite ?app_nil_r; auto.
        -- rewrite C1, EP. auto.
        -- rewrite D1, EQ. auto.
        -- rewrite C1, C2, skipn_length. auto.
        -- rewrite D1, D2, skipn_length. auto.
        -- rewrite <- app_assoc, firstn_skipn. auto.
Qed.
Lemma gp_len P Q : gp P Q -> p_len Q - 1 <= p_len P <= p_len Q.
Proof.
  intros (l1 & xs & l2 & EP & EQ & X & LP & LQ & _). rewrite LP, LQ, !app_length. destruct X as [->|(x & -> & _)]; cbn [List.length]; lia.
Qed.

(** * States that differ in this way *)
Definition osim (a b : option pool) : Prop := a = b \/ exists P Q, a = Some P /\ b = Some Q /\ gp P Q.
Definition tsim (t t' : trie) : Prop := same_shape t t' /\ forall n, osim (b_pool (bget t n)) (b_pool (bget t' n)).
Definition gsim (s s' : estate) : Prop := tsim (x_trie s) (x_trie s') /\ x_bl s' = x_bl s /\ x_len s' = x_len s /\ x_max s' = x_max s.

Lemma tsim_tset t t' n b b' : tsim t t' -> shape b = shape b' -> osim (b_pool b) (b_pool b') -> tsim (tset t n b) (tset t' n b').
Proof.
  intros [S P] HS HP. split; intros m; rewrite !bget_tset; destruct (nid_eqb n m); auto.
Qed.
Lemma tsim_shape t t' n : tsim t t' -> shape (bget t n) = shape (bget t' n).
Proof. intros [S _]. apply S. Qed.
Lemma tsim_down t t' lv lv' l n : tsim t t' -> tsim (fst (ensure_down t lv l n)) (fst (ensure_down t' lv' l n)).
Proof.
  intros T. unfold ensure_down. rewrite <- (shape_down _ _ (tsim_shape _ _ n T)). destruct (_ =? 0); cbn [fst]; auto.
  apply tsim_tset.
  - apply tsim_tset; auto; [|left; reflexivity]. unfold new_child0, shape. cbn [b_level b_rev b_down b_parent].
    rewrite (shape_level _ _ (tsim_shape _ _ n T)). unfold brev. rewrite (shape_rev _ _ (tsim_shape _ _ n T)). auto.
  - unfold set_down, shape. cbn [b_level b_rev b_down b_parent]. rewrite (shape_level _ _ (tsim_shape _ _ n T)), (shape_rev _ _ (tsim_shape _ _ n T)), (shape_parent _ _ (tsim_shape _ _ n T)). auto.
  - apply T.
Qed.
Lemma tsim_bfpe : forall f t t' lv lv' l lev r n, tsim t t' ->
  tsim (fst (fst (bfpe_loop f t lv l lev r n))) (fst (fst (bfpe_loop f t' lv' l lev r n))) /\ snd (bfpe_loop f t lv l lev r n) = snd (bfpe_loop f t' lv' l lev r n).
Proof.
  induction f as [|f IH]; intros t t' lv lv' l lev r n T; cbn [bfpe_loop]; auto. destruct (lev <? l); auto.
  pose proof (tsim_down t t' lv lv' l n T) as TD. destruct (ensure_down t lv l n) as [t1 lv1], (ensure_down t' lv' l n) as [t1' lv1']. cbn [fst] in TD.
  cbv zeta. rewrite <- (shape_down _ _ (tsim_shape _ _ n TD)).
  set (t2 := if b_down (bget t1 n) <=? nib r l then tupd t1 n (fun b => set_down b (nib r l + 1)) else t1).
  set (t2' := if b_down (bget t1 n) <=? nib r l then tupd t1' n (fun b => set_down b (nib r l + 1)) else t1').
  assert (T2 : tsim t2 t2').
  { unfold t2, t2'. destruct (_ <=? _); auto. apply tsim_tset; auto; [|apply TD]. unfold set_down, shape. cbn [b_level b_rev b_down b_parent].
    rewrite (shape_level _ _ (tsim_shape _ _ n TD)), (shape_rev _ _ (tsim_shape _ _ n TD)), (shape_parent _ _ (tsim_shape _ _ n TD)). auto. }
  unfold lvl. rewrite <- (shape_level _ _ (tsim_shape _ _ (child n (nib r l)) T2)). destruct (_ =? 0); cbn [fst snd]; [|apply IH; auto].
  split; auto. apply tsim_tset; auto; [|left; reflexivity]. unfold new_child, shape. cbn [b_level b_rev b_down b_parent].
  unfold brev. rewrite (shape_level _ _ (tsim_shape _ _ n T2)), (shape_rev _ _ (tsim_shape _ _ n T2)). auto.
Qed.
Lemma below_shape t t' r : same_shape t t' -> forall bl, bucket_below t r bl = bucket_below t' r bl.
Proof.
  intros S. induction bl as [|n bl IH]; cbn [bucket_below]; auto. rewrite (same_shape_brev _ _ n S), IH. auto.
Qed.

(** * One round of the split, for the bucket without the dead slot *)
Lemma make_step s xl A y b B p m : einv s xl -> enodel s -> x_bl s = A ++ y :: b :: B -> b_pool (bget (x_trie s) b) = Some p ->
  up (x_trie s) y = brev (x_trie s) b + 2 ^ m -> 5 <= m ->
  exists t1 lv1 nb nr, prev_as_b (x_bl s) b = y /\ mid_rev (x_trie s) y b = nr /\ bucket_from_pool_embedded (x_trie s) (x_lv s) nr = Some (t1, lv1, nb) /\
    in_blist (x_bl s) nb = false /\ brev t1 nb = nr /\ nr <> 0 /\ b_pool (bget t1 b) = Some p /\ b <> nb /\
    (exists xl1, let s1 := mkX t1 (x_bl s) lv1 (x_len s) (x_max s) in einv s1 xl1 /\ enodel s1 /\ forall x, cont s1 x <-> cont s x) /\
    forall i, find_idx p nr = Some (S i) ->
      let t2 := tupd t1 nb (fun x => set_blen (set_pool x (Some (split_hi p (S i)))) (p_len p - Z.of_nat (S i))) in
      let t3 := tupd t2 b (fun x => set_blen (set_pool x (Some (split_lo p (S i)))) (Z.of_nat (S i))) in
      let bl := match bucket_below t3 (brev t3 nb) (x_bl s) with Some n => ins_before n nb (x_bl s) | None => x_bl s end in
      exists l1 l2, live p = l1 ++ l2 /\ live (split_lo p (S i)) = l1 /\ live (split_hi p (S i)) = l2 /\
      forall lv, let s2 := mkX t3 bl lv (x_len s) (x_max s) in
      exists xl1, einv s2 xl1 /\ enodel s2 /\ (forall x, cont s2 x <-> cont s x) /\ bl = A ++ y :: nb :: b :: B /\
        b_pool (bget t3 nb) = Some (split_hi p (S i)) /\ b_pool (bget t3 b) = Some (split_lo p (S i)) /\
        up t3 y = brev t3 nb + 2 ^ (m - 1) /\ up t3 nb = brev t3 b + 2 ^ (m - 1).
Proof.
  intros I ND EB HP HU Hm5. assert (Hyb : adj (x_bl s) y b) by (exists A, B; auto).
  destruct (ei_pool _ _ I y b Hyb) as (p' & E' & Kp). rewrite HP in E'. injection E' as <-.
  set (t := x_trie s) in *. pose proof (ei_nodup s xl I) as NDB.
  assert (EP : prev_as_b (x_bl s) b = y) by (rewrite EB in *; apply prev_as_b_adj; auto).
  pose proof (ei_ext _ _ I) as EXT. rewrite EB in EXT. fold t in EXT.
  destruct (ext_at _ _ _ _ _ _ EXT) as (xa & ds & xb & m' & EX & EA & M & EBX).
  assert (m' = m).
  { destruct M as (MU & _ & M0 & _). rewrite HU in MU. apply Z.add_cancel_l in MU. symmetry in MU. apply Z.pow_inj_r in MU; lia. }
  subst m'.
  set (nr := brev t b + 2 ^ (m - 1)).
  destruct (md_nr t xl xa y ds b xb m (ei_trie _ _ I) (ei_16 _ _ I) EX M Hm5) as (N1 & N2 & N3 & N4). fold nr in N1, N2, N3, N4.
  destruct (md_bfpe t xl xa y ds b xb m (ei_trie _ _ I) (ei_16 _ _ I) EX M Hm5 (x_lv s)) as (t1 & lv1 & E & K1 & HO & PNB & RNB & NBM).
  fold nr in E, K1, HO, PNB, RNB, NBM. set (nb := (level_of nr, nr)) in *.
  assert (XB : forall n, In n (x_bl s) -> In n xl) by (apply (ext_in _ _ _ (ei_ext _ _ I))).
  assert (HyX : In y xl) by (apply XB, (adj_in _ _ _ Hyb)).
  assert (HbX : In b xl) by (apply XB, (adj_in _ _ _ Hyb)).
  assert (NIN : ~ In nb (x_bl s)).
  { intros H. destruct (HO nb (XB _ H)) as [R _]. rewrite RNB in R.
    apply (sorted_gap t (x_bl s) A y b B nb (ei_sorted s xl I) EB H). rewrite <- R. lia. }
  assert (NBb : b <> nb) by (intros EQ; apply NIN; rewrite <- EQ; apply (adj_in _ _ _ Hyb)).
  assert (PB1 : b_pool (bget t1 b) = Some p) by (rewrite (proj2 (HO b HbX) NBb); auto).
  set (xl1 := xa ++ y :: nb :: b :: xb) in *.
  set (s1 := mkX t1 (x_bl s) lv1 (x_len s) (x_max s)).
  assert (INX : forall n, In n (xa ++ [y]) \/ In n (b :: xb) -> In n xl).
  { intros n [H|H]; rewrite EX.
    - apply in_app_or in H as [H|[<-|[]]]; apply in_or_app; [left; auto|right; left; auto].
    - apply in_or_app. right. right. apply in_or_app. right. auto. }
  pose proof (sorted_nodup _ _ (tk_sorted _ _ K1)) as NDX1.
  assert (NN : (forall n, In n (xa ++ [y]) -> n <> nb) /\ (forall n, In n (b :: xb) -> n <> nb) /\ NoDup (xa ++ [y]) /\ NoDup (b :: xb)).
  { unfold xl1 in NDX1. replace (xa ++ y :: nb :: b :: xb) with ((xa ++ [y]) ++ nb :: b :: xb) in NDX1 by (rewrite <- app_assoc; auto).
    clear -NDX1. set (u := xa ++ [y]) in *. clearbody u.
    pose proof (NoDup_remove _ _ _ NDX1) as [R1 R2].
    split; [intros n Hn ->; apply R2; apply in_or_app; auto|].
    split; [intros n Hn ->; apply R2; apply in_or_app; auto|].
    split; clear -R1; induction u as [|w u IH]; try (constructor; fail); auto; cbn [app] in R1; apply NoDup_cons_iff in R1 as [X Y]; auto.
    constructor; auto. intros H; apply X; apply in_or_app; auto. }
  destruct NN as (NN1 & NN2 & NN3 & NN4).
  assert (EA1 : ext t1 (A ++ [y]) (xa ++ [y])).
  { apply (ext_change t); auto.
    - intros n Hn. apply HO. auto.
    - intros n Hn _ D. unfold dead. rewrite (proj2 (HO n (INX n (or_introl Hn))) (NN1 n Hn)). auto. }
  assert (EB1 : ext t1 (b :: B) (b :: xb)).
  { apply (ext_change t); auto.
    - intros n Hn. apply HO. auto.
    - intros n Hn _ D. unfold dead. rewrite (proj2 (HO n (INX n (or_intror Hn))) (NN2 n Hn)). auto. }
  assert (I1 : einv s1 xl1).
  { constructor; cbn [s1 x_trie x_bl]; auto.
    - intros n Hn Nn. unfold xl1 in Hn. apply in_app_or in Hn as [Hn|[<-|[<-|Hn]]].
      + rewrite (proj1 (HO n (INX n (or_introl (in_or_app _ _ _ (or_introl Hn)))))).
        apply (ei_16 _ _ I); auto. apply INX. left. apply in_or_app; auto.
      + rewrite (proj1 (HO y HyX)). apply (ei_16 _ _ I); auto.
      + rewrite RNB. auto.
      + rewrite (proj1 (HO n (INX n (or_intror Hn)))). apply (ei_16 _ _ I); auto.
    - rewrite EB. unfold xl1. apply (ext_build t1 A y b B xa [nb] xb m); auto.
      unfold mid, up. rewrite (proj1 (HO y HyX)), (proj1 (HO b HbX)). fold (up t y).
      destruct M as (MU & MD & M0 & _). split; auto. split; auto. split; auto.
      right. exists nb. split; auto. split; auto. split; [rewrite RNB; auto|lia].
    - intros u w H. destruct (adj_in _ _ _ H) as [Hu Hw].
      assert (Nw : w <> nb) by (intros ->; contradiction).
      rewrite (proj2 (HO w (XB _ Hw)) Nw), (proj1 (HO w (XB _ Hw))).
      unfold up. rewrite (proj1 (HO u (XB _ Hu))). apply (ei_pool _ _ I); auto. }
  assert (C1 : forall x, cont s1 x <-> cont s x).
  { intros x. unfold cont. cbn [s1 x_trie x_bl]. split; intros (u & w & q & H & Hq & Hin); exists u, w, q;
    destruct (adj_in _ _ _ H) as [Hu Hw]; (assert (Nw : w <> nb) by (intros ->; contradiction));
    split; auto; split; auto; rewrite (proj2 (HO w (XB _ Hw)) Nw) in *; auto. }
  assert (ND1 : enodel s1).
  { intros u w q H Hq. cbn [s1 x_trie x_bl] in *. destruct (adj_in _ _ _ H) as [Hu Hw].
    assert (Nw : w <> nb) by (intros ->; contradiction). rewrite (proj2 (HO w (XB _ Hw)) Nw) in Hq. apply (ND u w q); auto. }
  exists t1, lv1, nb, nr. split; [exact EP|]. split; [apply (md_mid_rev t xl xa y ds b xb m (ei_trie _ _ I) (ei_16 _ _ I) EX M Hm5)|].
  split; [exact E|]. split; [destruct (in_blist (x_bl s) nb) eqn:IB; auto; apply in_blist_spec in IB; contradiction|]. split; [exact RNB|]. split; [lia|].
  split; [exact PB1|]. split; [exact NBb|]. split; [exists xl1; auto|].
  intros i FI. cbv zeta. assert (NP : nodel p) by (apply (ND y b p); auto).
  destruct (find_idx_spec p _ _ nr (S i) Kp NP FI) as (l1 & x & l2 & EL & Ei & Rx & L1).
  assert (N1' : l1 <> []) by (intros ->; discriminate).
  assert (L2 : forall z, In z (x :: l2) -> nr <= sl_rev z).
  { intros z [<-|Hz]; auto. pose proof (po_sortedb _ _ _ Kp) as S. rewrite EL, map_app in S. apply sorted_app in S as (_ & S2 & _).
    cbn [map] in S2. apply StronglySorted_inv in S2 as [_ F]. rewrite Forall_forall in F.
    specialize (F (sl_rev z) (in_map _ _ _ Hz)). apply rel_le in F. lia. }
  destruct (split_ok p (brev t b) nr (up t y) l1 (x :: l2) Kp EL N1' ltac:(discriminate) L1 L2) as (_ & V1 & _ & V2).
  rewrite <- Ei in V1, V2. exists l1, (x :: l2). split; [exact EL|]. split; [exact V1|]. split; [exact V2|]. intros lv.
  pose proof (split_step s xl A y b B p m t1 lv1 xa xb nr l1 (x :: l2) I ND EB HP I1 HO EA1 EB1 NIN NBM RNB ltac:(lia) HU
    ltac:(apply M) eq_refl N4 EL N1' ltac:(discriminate) L1 L2) as ST.
  cbv zeta in ST. rewrite <- Ei in ST. fold nb in ST. fold xl1 in ST. specialize (ST lv).
  destruct ST as (S1 & S2 & S3 & S4 & S5 & S6 & S7 & S8). exists xl1.
  split; [exact S2|]. split; [exact S3|]. split; [exact S4|]. split; [exact S1|]. split; [exact S7|]. split; [exact S8|].
  assert (PW : 2 ^ m = 2 * 2 ^ (m - 1)) by (replace m with (Z.succ (m - 1)) at 1 by lia; apply Z.pow_succ_r; lia).
  split.
  - match goal with |- up ?t3 y = _ => assert (UY : up t3 y = up t y) by (unfold up; rewrite S5 by auto; reflexivity) end.
    rewrite UY, HU, S6. unfold nr. lia.
  - unfold up. apply nid_eqb_neq in NBM. rewrite NBM, S6, S5 by auto. reflexivity.
Qed.

Lemma wide1 s xl y b p m mx : einv s xl -> adj (x_bl s) y b -> pool_ok p (brev (x_trie s) b) (up (x_trie s) y) ->
  up (x_trie s) y = brev (x_trie s) b + 2 ^ m -> 0 <= m < 5 -> narrow mx (live p) -> mx < p_len p -> False.
Proof.
  intros I Hy K HU Hm HN HL. set (s' := mkX (x_trie s) (x_bl s) (x_lv s) (x_len s) mx).
  assert (I' : einv s' xl) by (destruct I as [A B C D]; constructor; auto). exact (wide s' xl y b p m I' Hy K HU Hm HN HL).
Qed.

Theorem full_make : forall f s xl A y b B p m s' q, einv s xl -> enodel s -> narrow (x_max s - 1) (live p) -> x_bl s = A ++ y :: b :: B ->
  b_pool (bget (x_trie s) b) = Some p -> gsim s s' -> b_pool (bget (x_trie s') b) = Some q -> gp p q -> x_max s < p_len q ->
  up (x_trie s) y = brev (x_trie s) b + 2 ^ m -> 0 <= m <= Z.of_nat f ->
  exists s3 sB xl', make_bucket2 f s' b = Ret s3 /\ einv sB xl' /\ enodel sB /\ (forall x, cont sB x <-> cont s x) /\ x_len sB = x_len s /\ x_max sB = x_max s /\ gsim sB s3.
Proof.
  induction f as [|f IH]; intros s xl A y b B p m s' q I ND HM EB HP GS HQ PQ HL HU Hf;
  (assert (Hyb : adj (x_bl s) y b) by (exists A, B; auto));
  destruct (ei_pool _ _ I y b Hyb) as (p' & E' & Kp); rewrite HP in E'; injection E' as <-; pose proof (gp_len _ _ PQ) as GL;
  (assert (Hm5 : 5 <= m) by (destruct (Z_lt_ge_dec m 5); [|lia]; exfalso; refine (wide1 s xl y b p m (x_max s - 1) I Hyb Kp HU _ HM _); lia)).
  { exfalso. change (Z.of_nat 0) with 0 in Hf. lia. }
  destruct (make_step s xl A y b B p m I ND EB HP HU Hm5) as (t1 & lv1 & nb & nr & EP & EM & EF & NI & RN & N0 & PB & NB & (xl1 & I1 & ND1 & C1) & SP).
  destruct GS as (T & GB & GLn & GM). rewrite find_idx_shape. cbv zeta. rewrite GB, EP.
  assert (EM' : mid_rev (x_trie s') y b = nr) by (rewrite <- EM; unfold mid_rev; rewrite <- !(same_shape_brev _ _ _ (proj1 T)); auto). rewrite EM'.
  unfold bucket_from_pool_embedded in *. destruct (level_of nr =? 0); [discriminate EF|].
  pose proof (tsim_bfpe 15 (x_trie s) (x_trie s') (x_lv s) (x_lv s') 2 (level_of nr) nr (top_of nr) T) as TB.
  assert (EF2 : bfpe_loop 15 (x_trie s) (x_lv s) 2 (level_of nr) nr (top_of nr) = (t1, lv1, nb)) by congruence. rewrite EF2 in TB. clear EF. destruct (bfpe_loop 15 (x_trie s') (x_lv s') 2 (level_of nr) nr (top_of nr)) as [[t1' lv1'] nb']. cbn [fst snd] in TB.
  destruct TB as [T1 <-]. rewrite NI. rewrite <- (same_shape_brev _ _ nb (proj1 T1)), RN. destruct (Z.eqb_spec nr 0); [contradiction|]. cbn [andb].
  assert (NP : nodel p) by (apply (ND y b p); auto).
  assert (PB' : exists q1, b_pool (bget t1' b) = Some q1 /\ gp p q1).
  { destruct (proj2 T1 b) as [EQ|(P0 & Q0 & E1 & E2 & G)].
    - exists p. split; [congruence|]. eapply gp_refl; eauto.
    - exists Q0. split; auto. rewrite PB in E1. injection E1 as <-. auto. }
  destruct PB' as (q1 & PB' & G1). rewrite PB'. pose proof (gp_find p q1 nr G1) as GF.
  assert (GS1 : gsim (mkX t1 (x_bl s) lv1 (x_len s) (x_max s)) (mkX t1' (x_bl s) lv1' (x_len s') (x_max s'))) by (split; [exact T1|]; cbn [x_bl x_len x_max]; auto).
  assert (TRIV : exists s3 sB xl', @Ret estate (mkX t1' (x_bl s) lv1' (x_len s') (x_max s')) = Ret s3 /\ einv sB xl' /\ enodel sB /\ (forall x, cont sB x <-> cont s x) /\ x_len sB = x_len s /\ x_max sB = x_max s /\ gsim sB s3).
  { eexists _, _, xl1. split; [reflexivity|]. split; [exact I1|]. split; [exact ND1|]. split; [exact C1|]. split; [reflexivity|]. split; [reflexivity|exact GS1]. }
  destruct (find_idx p nr) as [[|i]|] eqn:FI; [rewrite GF; exact TRIV| |rewrite GF; exact TRIV].
  destruct GF as (i' & FI' & GLO & GHI). rewrite FI'. destruct (SP i eq_refl) as (l1 & l2 & EL & V1 & V2 & SP'). specialize (SP' lv1). cbv zeta in SP'.
  set (t2 := tupd t1 nb (fun x => set_blen (set_pool x (Some (split_hi p (S i)))) (p_len p - Z.of_nat (S i)))) in *.
  set (t3 := tupd t2 b (fun x => set_blen (set_pool x (Some (split_lo p (S i)))) (Z.of_nat (S i)))) in *.
  set (bl := match bucket_below t3 (brev t3 nb) (x_bl s) with Some n => ins_before n nb (x_bl s) | None => x_bl s end) in *.
  destruct SP' as (xl2 & I2 & ND2 & C2 & EBL & PNB & PB3 & UY & UN).
  set (t2' := tupd t1' nb (fun x => set_blen (set_pool x (Some (split_hi q1 (S i')))) (p_len q1 - Z.of_nat (S i')))) in *.
  set (t3' := tupd t2' b (fun x => set_blen (set_pool x (Some (split_lo q1 (S i')))) (Z.of_nat (S i')))) in *.
  assert (T2 : tsim t2 t2').
  { apply tsim_tset; [exact T1| |right; eexists _, _; split; [reflexivity|split; [reflexivity|exact GHI]]].
    pose proof (tsim_shape _ _ nb T1) as SH. unfold shape in *. cbn [set_blen set_pool b_level b_rev b_down b_parent]. exact SH. }
  assert (T3 : tsim t3 t3').
  { apply tsim_tset; [exact T2| |right; eexists _, _; split; [reflexivity|split; [reflexivity|exact GLO]]].
    pose proof (tsim_shape _ _ b T2) as SH. unfold shape in *. cbn [set_blen set_pool b_level b_rev b_down b_parent]. exact SH. }
  rewrite <- (below_shape t3 t3' _ (proj1 T3)), <- (same_shape_brev _ _ nb (proj1 T3)). fold bl.
  match goal with |- context [mkX t3' bl ?l _ _] => set (lvq := l) end.
  set (s2 := mkX t3 bl lv1 (x_len s) (x_max s)) in *. set (s2' := mkX t3' bl lvq (x_len s') (x_max s')).
  assert (GS2 : gsim s2 s2') by (split; [exact T3|]; cbn [s2 s2' x_bl x_len x_max]; auto).
  assert (NW : narrow (x_max s - 1) l1 /\ narrow (x_max s - 1) l2) by (rewrite EL in HM; apply narrow_app in HM; tauto). destruct NW as [NW1 NW2].
  assert (PN' : b_pool (bget t3' nb) = Some (split_hi q1 (S i'))) by (unfold t3', t2', tupd; rewrite bget_tset_ne by auto; rewrite bget_tset_eq; reflexivity).
  assert (PBB : b_pool (bget t3' b) = Some (split_lo q1 (S i'))) by (unfold t3', tupd; rewrite bget_tset_eq; reflexivity).
  destruct (Z.ltb_spec (x_max s') (p_len q1 - Z.of_nat (S i'))) as [G2|G2].
  - destruct (IH s2 xl2 A y nb (b :: B) (split_hi p (S i)) (m - 1) s2' (split_hi q1 (S i')) I2 ND2) as (s3 & sB & xl' & R1 & R2 & R3 & R4 & R5 & R6 & R7); auto.
    + cbn [s2 x_max]. rewrite V2. exact NW2.
    + cbn [s2 x_max]. rewrite <- GM. exact G2.
    + lia.
    + exists s3, sB, xl'. split; [exact R1|]. split; [exact R2|]. split; [exact R3|]. split; [intros x; rewrite R4; apply C2|]. split; [exact R5|]. split; [exact R6|exact R7].
  - destruct (Z.ltb_spec (x_max s') (Z.of_nat (S i'))) as [G3|G3].
    + destruct (IH s2 xl2 (A ++ [y]) nb b B (split_lo p (S i)) (m - 1) s2' (split_lo q1 (S i')) I2 ND2) as (s3 & sB & xl' & R1 & R2 & R3 & R4 & R5 & R6 & R7); auto.
      * cbn [s2 x_max]. rewrite V1. exact NW1.
      * cbn [s2 x_bl]. rewrite EBL, <- app_assoc. auto.
      * cbn [s2 x_max]. rewrite <- GM. exact G3.
      * lia.
      * exists s3, sB, xl'. split; [exact R1|]. split; [exact R2|]. split; [exact R3|]. split; [intros x; rewrite R4; apply C2|]. split; [exact R5|]. split; [exact R6|exact R7].
    + exists s2', s2, xl2. split; [reflexivity|]. split; [exact I2|]. split; [exact ND2|]. split; [exact C2|]. split; [reflexivity|]. split; [reflexivity|exact GS2].
Qed.

(** lookups give the same *)
Lemma gsim_looked s s' : gsim s s' -> forall k c, looked s k c = looked s' k c.
Proof.
  intros (T & _) k c. unfold looked, eload, pool_of, item_at. rewrite <- (find_bucket_shape _ _ (proj1 T)), <- (base_shape _ _ (proj1 T)).
  set (b := base (x_trie s) (find_bucket (x_trie s) (reverse64 k))).
  destruct (proj2 T b) as [E|(P & Q & E1 & E2 & G)].
  - rewrite <- E. destruct (b_pool (bget (x_trie s) b)) as [p|] eqn:EP; auto. destruct (emb_search p (reverse64 k)) as [i|]; auto. destruct (_ && _); auto. rewrite <- E, EP. auto.
  - rewrite E1, E2. pose proof (gp_search P Q (reverse64 k) G) as GS. destruct (emb_search P (reverse64 k)) as [i|], (emb_search Q (reverse64 k)) as [i'|]; try contradiction; auto.
    rewrite <- GS. destruct (_ && _); auto. rewrite E1, E2, <- GS. auto.
Qed.
Lemma gsim_blen s s' n g : gsim s s' -> gsim s (set_xtrie s' (tupd (x_trie s') n (fun b => set_blen b (g b)))).
Proof.
  intros ((SS & PP) & A & B & C). split; [|unfold set_xtrie; cbn [x_bl x_len x_max]; auto]. unfold set_xtrie. cbn [x_trie]. split.
  - eapply same_shape_trans; [exact SS|]. apply same_shape_tupd. intros; reflexivity.
  - intros k. unfold tupd. rewrite bget_tset. destruct (nid_eqb n k) eqn:E; [|apply PP]. apply nid_eqb_eq in E. subst k. exact (PP n).
Qed.
Lemma live_seq p : (p_n p <= List.length (p_slots p))%nat -> live p = map (slot_at p) (seq 0 (p_n p)).
Proof.
  intros H. apply (nth_ext _ _ zero_slot (slot_at p 0)).
  - unfold live. rewrite map_length, seq_length, firstn_length. lia.
  - intros i Hi. unfold live in Hi. rewrite firstn_length in Hi. rewrite live_nth by lia. rewrite map_nth, seq_nth by lia. auto.
Qed.

(** * Delete of the last key of its bucket, then Set of it: in every bucket *)
Lemma ru_deleted_last_any h s m x v k c n j p reads : erel s m -> key_to_hash h (KStr x) = Some (k, c) -> eload s k c = Ret (Some (n, j)) -> hit s k c n j p ->
  Forall read_only reads -> p_len p - 1 = Z.of_nat j -> (0 < j)%nat -> narrow (x_max s - 1) (live p) ->
  agree (eouts h (upd_item s n j set_sdel) (OpSet (KStr x) v :: reads))
        (RBool true :: sm_outs h (mkSM (sm_put m (k, c) (Some (mkBd KSample (KStr x) v))) KSample (sm_created m + 1)) reads).
Proof.
  intros H EK EL HT RO EJ J0 NW. destruct (Z_lt_ge_dec (p_len p) (x_max s)) as [PM|PM]; [apply (ru_deleted_last h s m x v k c n j p reads); auto|].
  pose proof (proj1 (key_range _ _ _ _ EK)) as Hk.
  destruct (ru_ok s m k c n j p H HT) as (lo & hi & K & ND & Hj & Hr & Hc & HL). pose proof (ru_pool s k c n j p HT) as HP.
  assert (EN : p_n p = S j) by (unfold p_n; lia).
  assert (EU : upd_item s n j set_sdel = set_bpool s n (upd_slot p j set_sdel)) by (unfold upd_item; rewrite HP; reflexivity).
  rewrite EU. set (q := upd_slot p j set_sdel).
  destruct (upd_slot_ok p lo hi j set_sdel K Hj eq_refl) as (K' & _ & N' & S'). fold q in K', N', S'.
  pose proof (moved_set s n q) as M. set (s1 := set_bpool s n q) in *.
  assert (Sj : slot_at q j = set_sdel (slot_at p j)) by (rewrite S', Nat.eqb_refl by auto; auto).
  assert (SO : forall i, (i < j)%nat -> slot_at q i = slot_at p i) by (intros i Hi; rewrite S' by lia; destruct (Nat.eqb_spec j i); [lia|auto]).
  assert (ES : emb_search q (reverse64 k) = None) by (apply (search_hidden q lo hi _ K' j); [lia|rewrite Sj; exact Hr|rewrite Sj; reflexivity|auto]).
  destruct (get_behind_full q lo hi (reverse64 k) j K' ltac:(rewrite N'; exact EN) J0 ltac:(rewrite Sj; reflexivity) ltac:(rewrite Sj; exact Hr)
     ltac:(intros i Hi; rewrite SO by auto; apply (nodel_at p lo hi i K ND); lia)) as (q1 & EG & LN & SQ & SZ & LQ).
  destruct (ru_base s m k c n j p H EL HT q _ s1 M) as [B1 B2].
  pose proof (eset_slot h s1 x v k c n q q1 (S j) EK B1 B2 ltac:(apply M) (ru_absent s m k c n j p H EL HT q _ s1 M ES) EG) as SL.
  rewrite SZ in SL. cbn [zero_slot sl_val sl_del sl_linked] in SL. destruct (set_value_zero v) as (ok & EV). rewrite EV in SL. destruct SL as (s2 & M2 & _ & SPL & _).
  assert (XM : x_max s1 = x_max s) by apply M. assert (XL : x_len s1 = x_len s) by apply M.
  set (Q := filled q1 (S j) (reverse64 k) c (KStr x) v true) in *.
  assert (QS : slot_at Q (S j) = mkS (reverse64 k) c false (KStr x) v true).
  { unfold Q, filled, upd_slot, slot_at at 1. cbn [p_slots]. rewrite nth_upd_nth_same by auto. rewrite SZ. reflexivity. }
  assert (QO : forall i, (i < S j)%nat -> slot_at Q i = slot_at q i).
  { intros i Hi. rewrite <- SQ by auto. unfold Q, filled, upd_slot, slot_at at 1. cbn [p_slots]. apply nth_upd_nth_other. lia. }
  assert (QL : p_len Q = Z.of_nat (S (S j))) by (unfold Q, filled, upd_slot; cbn [p_len]; rewrite LN; change (p_len q) with (p_len p); lia).
  assert (QN : p_n Q = S (S j)) by (unfold p_n; lia).
  set (P := upd_slot p j (rewrite_slot false (KStr x) v true)).
  destruct (upd_slot_ok p lo hi j (rewrite_slot false (KStr x) v true) K Hj eq_refl) as (KP & _ & NP & SP). fold P in KP, NP, SP.
  assert (NDP : nodel P).
  { intros sl Hs. destruct (in_live _ _ _ _ KP Hs) as (i & Hi & <-). rewrite SP by lia. destruct (Nat.eqb j i); [reflexivity|]. apply (nodel_at p lo hi i K ND). lia. }
  assert (PJ : slot_at P j = mkS (reverse64 k) c false (KStr x) v true) by (rewrite SP, Nat.eqb_refl by auto; unfold rewrite_slot; rewrite Hr, Hc; auto).
  assert (PL : p_len P = Z.of_nat (S j)) by (unfold P, upd_slot; cbn [p_len]; lia).
  assert (GPQ : gp P Q).
  { assert (LP : live P = map (slot_at P) (seq 0 j) ++ [slot_at P j]).
    { rewrite live_seq by (apply (po_n _ _ _ KP)). rewrite NP, EN, seq_S, map_app. reflexivity. }
    assert (LQ' : live Q = map (slot_at P) (seq 0 j) ++ [slot_at q j] ++ [slot_at P j]).
    { rewrite live_seq, QN, !seq_S, !map_app, <- app_assoc.
      - cbn [Nat.add map app]. rewrite QO, QS, PJ by lia. f_equal. apply map_ext_in. intros i Hi. apply in_seq in Hi.
        rewrite QO, SO, SP by lia. destruct (Nat.eqb_spec j i); [lia|auto].
      - rewrite QN. unfold Q, filled, upd_slot. cbn [p_slots]. rewrite upd_nth_length. lia. }
    exists (map (slot_at P) (seq 0 j)), [slot_at q j], [slot_at P j]. split; [exact LP|]. split; [exact LQ'|]. split; [|split; [|split; [|split]]].
    - right. exists (slot_at q j). split; auto. split; [rewrite Sj; reflexivity|]. destruct j; [lia|discriminate].
    - rewrite PL, app_length, map_length, seq_length. cbn [List.length]. f_equal. lia.
    - rewrite QL, !app_length, map_length, seq_length. cbn [List.length]. f_equal. lia.
    - rewrite <- LP. exact NDP.
    - rewrite <- LP. apply (po_sorted _ _ _ KP). }
  set (s3 := set_bpool s n P). pose proof (moved_set s n P) as M3. fold s3 in M3.
  set (sx := mkX (x_trie s3) (x_bl s3) (x_lv s3) (x_len s3 + 1) (x_max s3)).
  assert (MX : moved s sx n P (sm_created m + 1)).
  { destruct M3 as (C1 & C2 & C3 & C4 & C5 & C6). split; [exact C1|]. split; [exact C2|]. split; [exact C3|]. split; [cbn; rewrite <- (er_len _ _ H); auto|]. split; [exact C5|exact C6]. }
  assert (MS : moved s s2 n Q (sm_created m + 1)) by (rewrite <- (er_len _ _ H); rewrite XL in M2; exact (moved_trans _ _ _ _ _ _ _ _ M M2)).
  pose proof (reuse_srel s m k c n j p sx false (KStr x) v true _ H Hk HT MX) as R. cbn [andb] in R.
  destruct MX as (X1 & X2 & X3 & X4 & X5 & X6). destruct MS as (S1 & S2 & S3 & S4 & S5 & S6).
  assert (GS : gsim sx s2).
  { split; [split|split; [congruence|split; congruence]].
    - eapply same_shape_trans; [intros z; symmetry; apply X1|exact S1].
    - intros z. destruct (nid_eq_dec z n) as [->|NE]; [right; exists P, Q; auto|left; rewrite X6, S6 by auto; auto]. }
  assert (NDX : enodel sx).
  { intros y0 c0 p0 AD PE. rewrite X2 in AD. destruct (nid_eq_dec c0 n) as [->|NE].
    - rewrite X5 in PE. injection PE as <-. exact NDP.
    - rewrite X6 in PE by auto. apply (er_nd _ _ H y0 c0 p0 AD PE). }
  assert (EX : erel sx (mkSM (sm_put m (k, c) (Some (mkBd KSample (KStr x) v))) KSample (sm_created m + 1))) by (eapply srel_erel; [exact R|exact NDX|rewrite X3; apply (er_max _ _ H)]).
  destruct (er_inv _ _ EX) as (xl & IX). destruct HT as (y & Hy & _). rewrite <- X2 in Hy.
  destruct (gap_pow sx xl y n IX Hy) as (mm & UP & HM). destruct Hy as (A & B & EB).
  assert (NWP : narrow (x_max sx - 1) (live P)).
  { rewrite X3. intros a Ha. specialize (NW a Ha). replace (nwin a (live P)) with (nwin a (live p)); auto. unfold nwin. f_equal.
    rewrite !live_seq by (eapply po_n; eauto). rewrite NP. assert (EE : map (inwin a) (map (slot_at p) (seq 0 (p_n p))) = map (inwin a) (map (slot_at P) (seq 0 (p_n p)))).
    { rewrite !map_map. apply map_ext_in. intros i Hi. apply in_seq in Hi. rewrite SP by lia. destruct (Nat.eqb_spec j i) as [<-|]; auto. }
    revert EE. generalize (map (slot_at p) (seq 0 (p_n p))) (map (slot_at P) (seq 0 (p_n p))). induction l as [|u l IH]; intros [|w l0] EE; try discriminate; auto.
    cbn [map] in EE. injection EE as E1 E2. cbn [filter]. rewrite E1. destruct (inwin a w); cbn [List.length]; rewrite (IH _ E2); auto. }
  destruct (full_make 64 sx xl A y n B P mm s2 Q IX NDX NWP EB X5 GS S5 GPQ) as (s3' & sB & xl' & R1 & R2 & R3 & R4 & R5 & R6 & R7); auto.
  { rewrite X3, QL. lia. }
  destruct (SPL s3') as (s4 & E4 & ES'); [rewrite XM, LN; change (p_len q) with (p_len p); lia|exact R1|].
  apply agree_cons. cbn [estep]. right. rewrite ES'. cbn [fst snd seen]. split; auto.
  assert (FIN : forall sy, erel sy (mkSM (sm_put m (k, c) (Some (mkBd KSample (KStr x) v))) KSample (sm_created m + 1)) -> gsim sy s4 ->
     agree (eouts h (set_xtrie s4 (tupd (x_trie s4) n (fun b => set_blen b (b_len b + 1)))) reads) (sm_outs h (mkSM (sm_put m (k, c) (Some (mkBd KSample (KStr x) v))) KSample (sm_created m + 1)) reads)).
  { intros sy EY GY. apply (gsim_blen _ _ n (fun b => b_len b + 1)) in GY. rewrite <- (reads_looked h reads sy _ (gsim_looked _ _ GY)); [apply erel_reads; auto| |auto].
    symmetry. apply GY. }
  destruct E4 as [->| ->]; [apply (FIN sx EX GS)|]. apply (FIN sB); auto.
  eapply erel_cont; eauto.
Qed.
