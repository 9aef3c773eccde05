(** What each call does to a default map in a state satisfying the invariant. *)
From Verif Require Import Base BaseProofs Util UtilProofs Bucket TrieProofs TrieInv TrieGrow MapModel ItemProofs MapInv MapSplit.
From Coq Require Import ZifyBool Sorted.
Local Open Scope Z_scope.
Local Opaque reverse64 level_of base find_bucket bucket_from_pool.

(** zippers of a list *)
Definition zip_of (items : list entry) (z : zip) : Prop := rev (fst z) ++ snd z = items.

Lemma zip_of_find_gt x items l r z : zip_of items (l, r) -> find_gt x l r = Some z -> zip_of items z.
Proof.
  unfold zip_of. cbn [fst snd]. intros H F. destruct (find_gt_spec _ _ _ _ F) as (mid & e & r' & -> & -> & _).
  cbn [fst snd]. rewrite rev_app_distr, rev_involutive, <- app_assoc. auto.
Qed.
Lemma zip_of_find_ge x items l r z : zip_of items (l, r) -> find_ge x l r = Some z -> zip_of items z.
Proof.
  unfold zip_of. cbn [fst snd]. intros H F. destruct (find_ge_spec _ _ _ _ F) as (mid & e & r' & -> & -> & _).
  cbn [fst snd]. rewrite rev_app_distr, rev_involutive, <- app_assoc. auto.
Qed.
Lemma zip_of_back items z : zip_of items z -> zip_of items (back z).
Proof.
  unfold zip_of, back. destruct z as [[|p l] r]; cbn [fst snd]; auto. cbn [rev]. rewrite <- app_assoc. auto.
Qed.
Lemma zip_of_forth items z : zip_of items z -> zip_of items (forth z).
Proof.
  unfold zip_of, forth. destruct z as [l [|e [|y r]]]; cbn [fst snd]; auto. intros <-. cbn [rev].
  rewrite <- app_assoc. auto.
Qed.


Lemma t_start_spec items rk l d r : rsorted items -> zip_of items (l, d :: r) -> e_rev d <= rk ->
  zip_of items (t_start rk (l, d :: r)) /\
  (forall p, In p (fst (t_start rk (l, d :: r))) -> e_rev p <= rk) /\
  (forall y, In y (d :: r) -> rk <= e_rev y -> In y (snd (t_start rk (l, d :: r)))).
Proof.
  intros S Z Hd. unfold t_start. cbn [fst snd].
  assert (L0 : forall p, In p l -> e_rev p <= rk).
  { intros p Hp. unfold zip_of in Z; cbn in Z. rewrite <- Z in S. apply sorted_app in S as (_ & _ & S3).
    apply in_rev in Hp. specialize (S3 p d Hp (or_introl eq_refl)). unfold rle in S3. lia. }
  destruct (find_ge rk l (d :: r)) as [z|] eqn:F; [|repeat split; auto].
  pose proof (zip_of_find_ge _ _ _ _ _ Z F) as Zz.
  destruct (find_ge_spec _ _ _ _ F) as (mid & e & r' & E & -> & He & Fm). cbn [fst] in *.
  destruct (rev mid ++ l) as [|p ps] eqn:El; [repeat split; auto|].
  destruct (Z.ltb_spec (e_rev p) rk); [|repeat split; auto].
  split; [apply zip_of_back; auto|]. unfold back; cbn [fst snd]. split.
  - intros q Hq. assert (Hin : In q (rev mid ++ l)) by (rewrite El; right; auto).
    apply in_app_or in Hin as [Hin|Hin]; auto.
    rewrite Forall_forall in Fm. apply in_rev in Hin. specialize (Fm q Hin). lia.
  - intros y Hy Hlt. rewrite E in Hy. apply in_app_or in Hy as [Hy|Hy].
    + rewrite Forall_forall in Fm. specialize (Fm y Hy). lia.
    + right; auto.
Qed.

(** [added s s' e rk]: what _set leaves behind; e may be refused only if its own position
    field disagrees with the position rk of its hash. *)
Definition added (s s' : mstate) (e : entry) (rk : Z) : Prop :=
  sinv s' /\ m_len s' = m_len s + 1 /\ m_view s' = m_view s /\ m_max s' = m_max s /\
  m_mode s' = m_mode s /\ m_pool s' = m_pool s /\
  exists items1, (items1 = ins_sorted e (m_items s) \/ (items1 = m_items s /\ e_rev e <> rk)) /\
    (m_items s' = items1 \/ new_dummy items1 (m_items s')).

Lemma add_item_spec s n l d r rk e : sinv s -> m_items s = rev l ++ d :: r -> e_dummy d <> None ->
  e_rev d <= rk -> rk <= MAX64 -> e_dummy e = None -> 0 <= e_rev e <= MAX64 - 2 ->
  match add_item s n (l, d :: r) (t_start rk (l, d :: r)) e with
  | Some z => unzip z = ins_sorted e (m_items s) /\
              0 <= match fst z with p :: _ => e_rev p | [] => 0 end <= MAX64 - 2
  | None => e_rev e <> rk
  end.
Proof.
  intros I Ei Hdd Hdr Hrk Hd Hr.
  assert (Zd : zip_of (m_items s) (l, d :: r)) by (unfold zip_of; cbn; auto).
  pose proof (sv_sorted _ I) as S.
  destruct (t_start_spec _ rk l d r S Zd ltac:(lia)) as (Zs & Ls & Rs).
  set (zs := t_start rk (l, d :: r)) in *. clearbody zs.
  destruct (suffix_has_max s (rev l) d r I Ei) as (w & Hw & Rw); [congruence|].
  unfold add_item.
  destruct (find_gt (e_rev e) (fst zs) (snd zs)) as [z|] eqn:F.
  - assert (Zz : zip_of (m_items s) z).
    { eapply zip_of_find_gt; eauto. }
    destruct (find_gt_spec _ _ _ _ F) as (mid & x & r' & E2 & Ez & Hx & Fm).
    destruct (checked_insert z e) as [z'|] eqn:C.
    + assert (Hun : unzip z' = ins_sorted e (m_items s)).
      { apply (insert_gt_sorted _ _ z); auto.
        - destruct z; rewrite unzip_eq. exact Zz.
        - subst z. cbn. eauto. }
      split; auto.
      apply checked_insert_some in C as (-> & _ & Hl). cbn [fst].
      destruct Hl as [->|(p & ps & Ep & Hpe)]; [rewrite MAX64_val; lia|]. rewrite Ep.
      assert (Hpi : In p (m_items s)).
      { rewrite <- Zz, Ep. apply in_or_app. left. cbn. apply in_or_app; right; left; auto. }
      pose proof (sv_rev_range s p I Hpi). lia.
    + intros E. subst z. revert C. rewrite checked_insert_ok; [discriminate|lia|].
      intros p Hpl. apply in_app_or in Hpl as [Hpl|Hpl].
      * rewrite Forall_forall in Fm. apply in_rev in Hpl. specialize (Fm p Hpl). lia.
      * specialize (Ls p Hpl). lia.
  - exfalso. pose proof (find_gt_none _ _ _ F w (Rs w Hw ltac:(lia))). lia.
Qed.

Lemma set_tail s n e rk items1 er : sinv s -> sinv (set_items s items1) -> 0 <= er <= MAX64 - 2 ->
  (items1 = ins_sorted e (m_items s) \/ (items1 = m_items s /\ e_rev e <> rk)) ->
  let s1 := set_len (set_items s items1) (m_len s + 1) in
  let s2 := if 0 <? lvl (m_trie s1) n
            then set_trie s1 (tupd (m_trie s1) n (fun b => set_blen b (b_len b + 1))) else s1 in
  exists s', (if m_max s2 <? b_len (bget (m_trie s2) n) then make_bucket s2 er else (s2, false)) = (s', false) /\
    added s s' e rk.
Proof.
  intros I I0 Her Hit s1 s2.
  assert (I1 : sinv s1) by (apply sinv_len; auto).
  assert (I2 : sinv s2 /\ m_items s2 = items1 /\ m_len s2 = m_len s + 1 /\ m_view s2 = m_view s /\
     m_max s2 = m_max s /\ m_mode s2 = m_mode s /\ m_pool s2 = m_pool s).
  { unfold s2. destruct (0 <? _); [split; [|repeat split]|split; [auto|repeat split]].
    apply sinv_shape; auto. apply same_shape_tupd. intros; reflexivity. }
  clearbody s2. destruct I2 as (I2 & A1 & A2 & A3 & A4 & A5 & A6).
  destruct (_ <? _).
  - destruct (make_bucket_spec s2 er I2 Her) as (s' & -> & I' & (B1 & B2 & B3 & B4 & B5) & HB).
    exists s'. split; auto. split; auto. repeat (split; [congruence|]).
    exists items1. split; auto. rewrite A1 in HB. auto.
  - exists s2. split; auto. split; auto. repeat (split; [congruence|]).
    exists items1. split; auto.
Qed.

Lemma set_spec s k n e : sinv s -> present (m_trie s) n -> brev (m_trie s) n <= reverse64 k ->
  e_dummy e = None -> 0 <= e_rev e <= MAX64 - 2 ->
  exists s', set_ s k n e = (s', false) /\ added s s' e (reverse64 k).
Proof.
  intros I Hp Hn Hd Hr.
  destruct (head_z_some s n I Hp) as (l & d & r & HZ & Ei & Hdd & Hdr).
  pose proof (reverse64_range k) as Hrk. rewrite W64_val in Hrk.
  pose proof (add_item_spec s n l d r (reverse64 k) e I Ei ltac:(congruence) ltac:(lia)
      ltac:(rewrite MAX64_val; lia) Hd Hr) as HA.
  unfold set_. rewrite HZ.
  destruct (add_item s n (l, d :: r) (t_start (reverse64 k) (l, d :: r)) e) as [z|].
  - destruct HA as [HU HE]. rewrite HU. apply set_tail; auto. apply sinv_ins_item; auto.
  - apply set_tail; auto; try lia. destruct s; exact I.
Qed.
