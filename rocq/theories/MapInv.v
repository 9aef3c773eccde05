(** The invariant of the default map and what each internal function does under it. *)
From Verif Require Import Base BaseProofs Util UtilProofs Bucket TrieProofs TrieInv TrieGrow LevelList MapModel ItemProofs.
From Coq Require Import ZifyBool Sorted.
Local Open Scope Z_scope.

Record sinv (s : mstate) : Prop := {
  sv_sorted : rsorted (m_items s);
  sv_trie : trie_ok (m_trie s) (m_bl s);
  sv_dum : dummies (m_items s) = rev (m_bl s);
  sv_drev : forall e n, In e (m_items s) -> e_dummy e = Some n -> e_rev e = brev (m_trie s) n;
  sv_lv : lvok (m_trie s) (m_lv s);
  sv_rng : forall e, In e (m_items s) -> e_dummy e = None -> 0 <= e_rev e <= MAX64 - 2 }.

(** * head() *)
Lemma head_z_some s n : sinv s -> present (m_trie s) n -> exists l d r,
  head_z s n = Some (l, d :: r) /\ m_items s = rev l ++ d :: r /\
  e_dummy d = Some (base (m_trie s) n) /\ e_rev d = brev (m_trie s) n.
Proof.
  intros I Hp. destruct (base_anchor _ _ _ (sv_trie _ I) Hp) as [HI HB].
  unfold head_z. destruct (seek_some (base (m_trie s) n) (m_items s) []) as [z Hz].
  { rewrite (sv_dum _ I). apply -> in_rev. auto. }
  rewrite Hz. destruct (seek_spec _ _ _ _ Hz) as (mid & d & r & E & -> & Hd).
  exists (rev mid), d, r. rewrite app_nil_r. split; auto. rewrite rev_involutive. split; auto. split; auto.
  rewrite <- HB. apply (sv_drev _ I); auto. rewrite E. apply in_or_app; right; left; auto.
Qed.


(** every element is at most MAX64, and an element with MAX64 is the dummy of bmax *)
Lemma sv_brev_le s n : sinv s -> In n (m_bl s) -> 0 <= brev (m_trie s) n <= MAX64.
Proof.
  intros I Hn. destruct (nid_eq_dec n bmax) as [->|N].
  - destruct (tk_bmax _ _ (sv_trie _ I)) as (_ & -> & _). rewrite MAX64_val. lia.
  - destruct (tk_bl _ _ (sv_trie _ I) n Hn) as [Hp _]. destruct n as [l v].
    destruct (tk_node _ _ (sv_trie _ I) l v Hp N) as (_ & H & _ & _ & -> & _).
    rewrite MAX64_val. rewrite W64_val in H. lia.
Qed.
Lemma sv_dummy_in s n : sinv s -> In n (m_bl s) -> exists d, In d (m_items s) /\ e_dummy d = Some n.
Proof.
  intros I H. apply in_rev in H. rewrite <- (sv_dum _ I) in H. apply in_dummies in H. auto.
Qed.
Lemma sv_dummy_bl s e n : sinv s -> In e (m_items s) -> e_dummy e = Some n -> In n (m_bl s).
Proof.
  intros I He Hn. apply in_rev. rewrite <- (sv_dum _ I). apply in_dummies. eauto.
Qed.
Lemma sv_rev_range s e : sinv s -> In e (m_items s) -> 0 <= e_rev e <= MAX64.
Proof.
  intros I He. destruct (e_dummy e) as [n|] eqn:En.
  - rewrite (sv_drev _ I e n He En). eapply sv_brev_le; eauto. eapply sv_dummy_bl; eauto.
  - pose proof (sv_rng _ I e He En). lia.
Qed.

(** the element with the largest reverse is in every suffix that starts at a dummy or before a
    smaller element *)
Lemma suffix_has_max s l d r : sinv s -> m_items s = l ++ d :: r -> e_dummy d <> None ->
  exists x, In x (d :: r) /\ e_rev x = MAX64.
Proof.
  intros I E Hd. destruct (e_dummy d) as [n|] eqn:En; [clear Hd|congruence].
  assert (Hdi : In d (m_items s)) by (rewrite E; apply in_or_app; right; left; auto).
  destruct (nid_eq_dec n bmax) as [->|N].
  { exists d. split; [left; auto|]. rewrite (sv_drev _ I d _ Hdi En). apply (tk_bmax _ _ (sv_trie _ I)). }
  destruct (sv_dummy_in s bmax I (bmax_in _ _ (sv_trie _ I))) as (x & Hx & Ex).
  exists x. assert (Rx : e_rev x = MAX64).
  { rewrite (sv_drev _ I x _ Hx Ex). apply (tk_bmax _ _ (sv_trie _ I)). }
  split; auto. rewrite E in Hx. apply in_app_or in Hx as [Hx|Hx]; auto. exfalso.
  (* bmax before n in the item order: its name precedes n in dummies = rev bl, but bmax is the head of bl *)
  pose proof (sv_sorted _ I) as S. rewrite E in S. apply sorted_app in S as (_ & _ & S3).
  specialize (S3 x d Hx (or_introl eq_refl)). unfold rle in S3.
  rewrite (sv_drev _ I d _ Hdi En) in S3.
  destruct (tk_head _ _ (sv_trie _ I)) as (bl' & Ebl & _).
  pose proof (tk_sorted _ _ (sv_trie _ I)) as TS. rewrite Ebl in TS. inversion TS as [|? ? _ F]; subst.
  pose proof (sv_dummy_bl s d n I Hdi En) as Hnb. rewrite Ebl in Hnb. destruct Hnb as [B|Hnb]; [congruence|].
  rewrite Forall_forall in F. specialize (F n Hnb). cbn in F.
  destruct (tk_bmax _ _ (sv_trie _ I)) as (_ & EB & _). rewrite EB in F. lia.
Qed.

(** * Searching *)
Lemma next_on_in lst n : In (next_on lst n) lst \/ next_on lst n = n.
Proof.
  induction lst as [|x lst IH]; cbn [next_on]; auto.
  destruct (nid_eqb x n).
  - destruct lst; auto. left; right; left; auto.
  - destruct IH; auto. left; right; auto.
Qed.
Lemma next_on_present t lv l n : lv_all (present t) lv -> present t n -> present t (next_on (lv_get lv l) n).
Proof. intros H Hn. destruct (next_on_in (lv_get lv l) n) as [H1| ->]; auto. eapply H; eauto. Qed.

Lemma search_spec s n rv : sinv s -> present (m_trie s) n -> exists z, search s n rv = Ret z /\
  match z with
  | Some (l, e :: r) => m_items s = rev l ++ e :: r /\ live e = true /\ e_rev e = rv
  | Some _ => False
  | None => clear rv (m_items s) -> live_at rv (m_items s) = []
  end.
Proof.
  intros I Hp. unfold search. cbv zeta.
  match goal with |- context [if ?c then next_on ?a ?b else ?d] => set (st := if c then next_on a b else d) end.
  assert (Hst : present (m_trie s) st).
  { unfold st. destruct (_ && _); auto. apply next_on_present; auto. apply lvok_all, (sv_lv _ I). }
  clearbody st. destruct (head_z_some s st I Hst) as (l & d & r & -> & E & Hd & Hr).
  pose proof (sv_sorted _ I) as S. pose proof S as S'. rewrite E in S'.
  apply sorted_app in S' as (S1 & S2 & S3).
  assert (Hno : forall P : Prop, (forall e, In e (m_items s) -> live e = true -> e_rev e = rv -> False) ->
            (live_at rv (m_items s) = [] -> P) -> P).
  { intros P H K. apply K. destruct (live_at rv (m_items s)) as [|e q] eqn:EL; auto. exfalso.
    assert (In e (live_at rv (m_items s))) as Hin by (rewrite EL; left; auto).
    apply filter_In in Hin as [Hin Ha]. apply andb_true_iff in Ha as [Ha1 Ha2]. apply (H e); auto. lia. }
  destruct (Z.ltb_spec (brev (m_trie s) st) rv) as [Hlt|Hge].
  - eexists; split; [reflexivity|]. destruct (scan_fwd rv l (d :: r)) as [z|] eqn:F.
    + destruct (scan_fwd_some _ _ _ _ F) as (mid & e & r' & E2 & -> & HL & HR).
      split; auto. rewrite rev_app_distr, rev_involutive, <- app_assoc, <- E2. auto.
    + intros _. apply Hno; auto. intros e He HL HR. rewrite E in He.
      apply in_app_or in He as [He|He].
      * specialize (S3 e d He (or_introl eq_refl)). unfold rle in S3. lia.
      * eapply (scan_fwd_none rv (d :: r) l); eauto.
  - eexists; split; [reflexivity|]. destruct (scan_bwd rv (d :: l) r) as [z|] eqn:F.
    + destruct (scan_bwd_some _ _ _ _ F) as (mid & e & l' & E2 & -> & HL & HR).
      split; auto. rewrite E. change (rev l ++ d :: r) with (rev l ++ [d] ++ r).
      rewrite app_assoc. change (rev l ++ [d]) with (rev (d :: l)). rewrite E2, rev_app_distr.
      cbn [rev]. rewrite <- !app_assoc. auto.
    + intros (A & B & EAB & HB & HA). apply Hno; auto. intros e He HL HR.
      assert (Hbw : In e (d :: l) -> False).
      { intros Hin. eapply (scan_bwd_none rv (d :: l) r); eauto. cbn [rev].
        apply sorted_app. repeat split; auto.
        - repeat constructor.
        - intros a b Ha [<-|[]]. apply S3; auto. left; auto. }
      rewrite E in He. apply in_app_or in He as [He|[He|He]].
      * apply Hbw. right. apply in_rev; auto.
      * apply Hbw. left; auto.
      * (* after the dummy *)
        inversion S2 as [|? ? _ F2]; subst. rewrite Forall_forall in F2. specialize (F2 e He). unfold rle in F2.
        assert (Erv : e_rev d = e_rev e) by lia.
        (* d is in B, so e is *)
        rewrite E in EAB. 
        assert (HdB : ~ In d A).
        { intros HdA. apply (HA d HdA); auto. unfold is_dummy. rewrite Hd; auto. }
        apply app_eq_split in EAB as [(x & -> & E3)|(x & E4 & ->)].
        -- destruct x as [|y x]; cbn in E3.
           ++ apply (HB e); auto. rewrite <- E3. right; auto.
           ++ inversion E3; subst. apply HdB. apply in_or_app; right; left; auto.
        -- apply (HB e); auto. apply in_or_app; right; right; auto.
Qed.

(** * The two lookups *)
Lemma find_bucket_present s rv : sinv s -> 0 <= rv < W64 ->
  present (m_trie s) (find_bucket (m_trie s) rv) /\ brev (m_trie s) (find_bucket (m_trie s) rv) <= rv.
Proof.
  intros I H. destruct (find_bucket_spec _ _ rv (sv_trie _ I) H) as (l & v & -> & [Hp _] & Hle & ->). auto.
Qed.
Lemma prev_as_b_in bl n : In (prev_as_b bl n) bl \/ prev_as_b bl n = n.
Proof.
  induction bl as [|x bl IH]; cbn [prev_as_b]; auto.
  destruct bl as [|y bl]; auto. destruct (nid_eqb y n).
  - left; left; auto.
  - destruct IH; auto. left; right; auto.
Qed.
Lemma prev_as_b_present s n : sinv s -> present (m_trie s) n -> present (m_trie s) (prev_as_b (m_bl s) n).
Proof.
  intros I Hp. destruct (prev_as_b_in (m_bl s) n) as [H| ->]; auto. apply (tk_bl _ _ (sv_trie _ I)); auto.
Qed.

(** what a lookup of (rv, c) has to answer, as far as the items at rv determine it *)
Definition found (items : list entry) (rv c : Z) (z : option zip) : Prop :=
  (forall l e r, z = Some (l, e :: r) ->
     items = rev l ++ e :: r /\ live e = true /\ e_rev e = rv /\ e_conf e = c) /\
  (forall l, z <> Some (l, [])) /\
  (z = None -> clear rv items -> match live_at rv items with [] => True | [e] => e_conf e <> c | _ => True end).

Lemma check_pair_found s n rv c : sinv s -> present (m_trie s) n ->
  exists z, search s n rv = Ret z /\ found (m_items s) rv c (check_pair rv c z).
Proof.
  intros I Hp. destruct (search_spec s n rv I Hp) as (z & E & H). exists z. split; auto.
  destruct z as [[l [|e r]]|]; cbn [check_pair].
  - destruct H.
  - destruct H as (Ei & HL & HR). 
    destruct ((e_rev e =? rv) && (e_conf e =? c)) eqn:C; (refine (conj _ (conj _ _)); [| |]); try discriminate.
    + intros l1 e1 r1 X. inversion X; subst. repeat split; auto. lia.
    + intros _ _. destruct (live_at rv (m_items s)) as [|x [|y q]] eqn:EL; auto.
      assert (Hin : In e (live_at rv (m_items s))).
      { apply filter_In. split; [rewrite Ei; apply in_or_app; right; left; auto|].
        unfold at_rv. rewrite HL, HR, Z.eqb_refl. auto. }
      rewrite EL in Hin. destruct Hin as [->|[]]. lia.
  - split; [discriminate|split; [discriminate|]]. intros _ HC. rewrite H; auto.
Qed.

Lemma load_spec s k c : sinv s -> exists z, load s k c = Ret z /\ found (m_items s) (reverse64 k) c z.
Proof.
  intros I. unfold load. pose proof (reverse64_range k) as R. generalize dependent (reverse64 k). intros rv R.
  destruct (find_bucket_present s rv I R) as [Hp _].
  destruct (check_pair_found s _ rv c I Hp) as (z & -> & H). cbn [rbind]. eauto.
Qed.
Lemma get_spec s k c : sinv s -> exists z, get s k c = Ret z /\ found (m_items s) (reverse64 k) c z.
Proof.
  intros I. unfold get. pose proof (reverse64_range k) as R. generalize dependent (reverse64 k). intros rv R.
  destruct (find_bucket_present s rv I R) as [Hp _].
  cbv zeta. match goal with |- context [search s (if ?c then ?a else ?d) rv] => set (b := if c then a else d) end.
  assert (Hb : present (m_trie s) b).
  { unfold b. destruct (_ && _); auto. apply prev_as_b_present; auto. }
  clearbody b. destruct (check_pair_found s _ rv c I Hb) as (z & -> & H). cbn [rbind]. eauto.
Qed.

(** * Changing the table without changing its shape *)
Lemma sinv_shape s t' : sinv s -> same_shape (m_trie s) t' -> sinv (set_trie s t').
Proof.
  intros I H. destruct I as [I1 I2 I3 I4 I5 I6]. constructor; cbn; auto.
  - eapply trie_ok_shape; eauto.
  - intros e n He Hn. rewrite (I4 e n He Hn). apply same_shape_brev; auto.
  - eapply lvok_shape; eauto.
Qed.
Lemma sinv_len s x : sinv s -> sinv (set_len s x).
Proof. intros [I1 I2 I3 I4 I5 I6]. constructor; auto. Qed.
Lemma sinv_view s x : sinv s -> sinv (set_view s x).
Proof. intros [I1 I2 I3 I4 I5 I6]. constructor; auto. Qed.
Lemma sinv_mpool s x : sinv s -> sinv (set_mpool s x).
Proof. intros [I1 I2 I3 I4 I5 I6]. constructor; auto. Qed.

Lemma sinv_ins_item s e : sinv s -> e_dummy e = None -> 0 <= e_rev e <= MAX64 - 2 ->
  sinv (set_items s (ins_sorted e (m_items s))).
Proof.
  intros I Hd Hr. destruct I as [I1 I2 I3 I4 I5 I6]. constructor; cbn; auto.
  - apply ins_sorted_sorted; auto.
  - rewrite dummies_ins_item; auto.
  - intros x n Hx Hn. apply ins_sorted_in in Hx as [->|Hx]; [congruence|eauto].
  - intros x Hx Hn. apply ins_sorted_in in Hx as [->|Hx]; auto.
Qed.

(** replacing one entry by one with the same place *)
Lemma sinv_replace s l e e' r : sinv s -> m_items s = rev l ++ e :: r ->
  e_dummy e' = e_dummy e -> e_rev e' = e_rev e -> sinv (set_items s (rev l ++ e' :: r)).
Proof.
  intros I E Hd Hr. destruct I as [I1 I2 I3 I4 I5 I6].
  assert (P : forall x, In x (rev l ++ e' :: r) -> exists y, In y (m_items s) /\ e_dummy x = e_dummy y /\ e_rev x = e_rev y).
  { intros x Hx. rewrite E. apply in_app_or in Hx as [Hx|[<-|Hx]].
    - exists x. split; auto. apply in_or_app; auto.
    - exists e. split; auto. apply in_or_app; right; left; auto.
    - exists x. split; auto. apply in_or_app; right; right; auto. }
  constructor; cbn; auto.
  - rewrite E in I1. apply sorted_app in I1 as (S1 & S2 & S3). inversion S2 as [|? ? S4 F]; subst.
    apply sorted_app. repeat split; auto.
    + constructor; auto. eapply Forall_impl; [|exact F]. unfold rle. intros; lia.
    + intros a b Ha [<-|Hb]; unfold rle in *.
      * rewrite Hr. apply (S3 a e Ha). left; auto.
      * apply S3; auto. right; auto.
  - rewrite <- I3, E, !dummies_app. f_equal. unfold dummies. cbn [flat_map]. rewrite Hd. auto.
  - intros x n Hx Hn. destruct (P x Hx) as (y & Hy & E1 & E2). rewrite E2. apply I4; auto. congruence.
  - intros x Hx Hn. destruct (P x Hx) as (y & Hy & E1 & E2). rewrite E2. apply I6; auto. congruence.
Qed.
