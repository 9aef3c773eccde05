(** Further facts about the default map: boundary keys, Range, provenance of values, panics, the
    pool switch. *)
From Verif Require Import Base BaseProofs Util UtilProofs Bucket TrieProofs TrieInv TrieGrow MapModel ItemProofs
  MapInv MapSplit MapStep MapInit Spec MapRefine MapAny MapSafe.
From Coq Require Import ZifyBool Sorted.
Local Open Scope Z_scope.
Local Opaque reverse64 level_of base.

(** * A linked bucket is found exactly *)
Lemma find_loop_exact t bl L rv : trie_ok t bl -> present t (L, rv) -> (L, rv) <> bmax -> L <= 15 ->
  forall f l, l + Z.of_nat f = 15 -> 1 <= l -> present t (l, trunc l rv) ->
  exists l', find_loop f t (l + 1) rv (l, trunc l rv) = (l', rv) /\ present t (l', rv).
Proof.
  intros K Hp Hn HL. destruct (tk_node _ _ K _ _ Hp Hn) as (HL1 & HV & HD & _).
  assert (TR : forall l, L <= l <= 16 -> trunc l rv = rv).
  { intros l Hl. apply trunc_id; [lia|]. eapply Z.divide_trans; [|exact HD]. apply sz_le; lia. }
  induction f as [|f IH]; intros l Hf Hl Pl.
  - cbn [find_loop]. exists l. rewrite TR in * by lia. auto.
  - cbn [find_loop].
    assert (Nl : (l, trunc l rv) <> bmax) by (intros B; inversion B; lia).
    destruct (tk_node _ _ K _ _ Pl Nl) as (_ & _ & _ & _ & _ & Hd).
    destruct (Z.eqb_spec (b_down (bget t (l, trunc l rv))) 0) as [E0|E0].
    + (* no children: only possible at or below L *)
      destruct (Z_lt_le_dec l L) as [H|H].
      * exfalso. pose proof (prefixes_present t bl K L rv Hp Hn (l + 1) ltac:(lia)) as P1.
        destruct (tk_up _ _ K _ _ P1) as [_ X]; [intros B; inversion B; lia|lia|].
        replace (l + 1 - 1) with l in X by lia. rewrite trunc_trunc in X by lia.
        rewrite nib_trunc in X by lia.
        pose proof (nib_range rv (l + 1) ltac:(lia) ltac:(lia)). lia.
      * exists l. rewrite TR in * by lia. auto.
    + assert (P1 : present t (l + 1, trunc (l + 1) rv) /\ nib rv (l + 1) < b_down (bget t (l, trunc l rv))).
      { destruct (Z_lt_le_dec l L) as [H|H].
        - pose proof (prefixes_present t bl K L rv Hp Hn (l + 1) ltac:(lia)) as P1. split; auto.
          destruct (tk_up _ _ K _ _ P1) as [_ X]; [intros B; inversion B; lia|lia|].
          replace (l + 1 - 1) with l in X by lia. rewrite trunc_trunc in X by lia.
          rewrite nib_trunc in X by lia. auto.
        - assert (Z0 : nib rv (l + 1) = 0).
          { apply nib_0; try lia. rewrite !TR by lia. auto. }
          rewrite Z0. split; [|lia]. rewrite (TR (l + 1)) by lia. rewrite (TR l) in * by lia.
          apply (tk_down _ _ K); auto. lia. }
      destruct P1 as [P1 X].
      assert (Hc : child (l, trunc l rv) (nib rv (l + 1)) = (l + 1, trunc (l + 1) rv)).
      { rewrite child_eq, trunc_step by lia. reflexivity. }
      rewrite Hc.
      destruct (Z.leb_spec (b_down (bget t (l, trunc l rv))) (nib rv (l + 1))); [lia|]. cbn [orb].
      destruct (Z.eqb_spec (lvl t (l + 1, trunc (l + 1) rv)) 0) as [E|_]; [exfalso; apply P1; auto|].
      apply IH; auto; lia.
Qed.

Lemma find_bucket_exact s rv : sinv s -> In rv (dump_bucket s) -> (16 | rv) ->
  exists l, find_bucket (m_trie s) rv = (l, rv) /\ present (m_trie s) (l, rv) /\ brev (m_trie s) (l, rv) = rv.
Proof.
  intros I H H16. pose proof (sv_trie _ I) as K. unfold dump_bucket in H. apply in_map_iff in H as ([L v] & E & Hin).
  destruct (nid_eq_dec (L, v) bmax) as [B|N].
  { exfalso. rewrite B in E. destruct (tk_bmax _ _ K) as (_ & X & _). rewrite X in E. subst rv.
    destruct H16 as [q Hq]. rewrite MAX64_val in Hq. lia. }
  destruct (tk_bl _ _ K _ Hin) as [Hp HPa].
  destruct (tk_node _ _ K _ _ Hp N) as (HL & HV & HD & _ & E' & _).
  rewrite E' in E. subst v.
  assert (L15 : L <= 15).
  { destruct (Z.eq_dec rv 0) as [->|Nz].
    - destruct (tk_link _ _ K _ _ Hp N) as [(_ & _ & X)|([->|X] & _)]; [congruence|lia|].
      exfalso. apply X. unfold nib. rewrite Z.shiftr_0_l. reflexivity.
    - rewrite <- (linked_level _ _ L rv K Hin N) by lia.
      destruct (level_of_spec rv) as (A & B & C); [lia|].
      destruct (Z.eq_dec (level_of rv) 16) as [E16|]; [|lia].
      exfalso. rewrite E16 in *. apply C. change (sz (16 - 1)) with 16. auto. }
  unfold find_bucket. rewrite top_of_eq by lia.
  pose proof (prefixes_present _ _ K L rv Hp N 1 ltac:(lia)) as P1.
  destruct (find_loop_exact _ _ L rv K Hp N L15 14 1 ltac:(reflexivity) ltac:(lia) P1) as (l' & F & P').
  exists l'. split; auto. split; auto.
  apply (tk_node _ _ K _ _ P'). intros B. inversion B; subst.
  destruct (find_bucket_spec _ _ 0 K HV) as (l & v & E2 & [N1 N2] & _). unfold find_bucket in E2.
  rewrite top_of_eq in E2 by lia. change 2 with (1 + 1) in E2. rewrite F in E2. inversion E2; subst. auto.
Qed.

(** * Entries behind their boundary are not found *)
Definition behind (rv : Z) (items : list entry) : Prop :=
  forall l d r x, items = l ++ d :: r -> is_dummy d = true -> e_rev d = rv -> In x l -> live x = true -> e_rev x <> rv.

Lemma behind_search s n rv : sinv s -> present (m_trie s) n -> brev (m_trie s) n = rv -> behind rv (m_items s) ->
  search s n rv = Ret None.
Proof.
  intros I Hp Hr HB. unfold search. rewrite Hr, Z.ltb_irrefl, andb_false_r. cbv zeta. rewrite Hr, Z.ltb_irrefl.
  destruct (head_z_some s n I Hp) as (l & d & r & -> & Ei & Hd & Hdr).
  destruct (scan_bwd rv (d :: l) r) as [z|] eqn:F; auto. exfalso.
  destruct (scan_bwd_some _ _ _ _ F) as (mid & e & l' & E & _ & HL & HR).
  assert (Hin : In e (d :: l)) by (rewrite E; apply in_or_app; right; left; auto).
  destruct Hin as [->|Hin].
  - unfold live, ignored in HL. rewrite Hd in HL. discriminate.
  - apply (HB (rev l) d r e); auto.
    + unfold is_dummy; rewrite Hd; auto.
    + lia.
    + apply -> in_rev. auto.
Qed.
Lemma behind_get s k c : sinv s -> In (reverse64 k) (dump_bucket s) -> (16 | reverse64 k) ->
  behind (reverse64 k) (m_items s) -> get s k c = Ret None /\ load s k c = Ret None.
Proof.
  intros I H H16 HB. destruct (find_bucket_exact s (reverse64 k) I H H16) as (l & F & P & R).
  unfold get, load. cbv zeta. rewrite F, R.
  assert (Hb : forall b', b' = (l, reverse64 k) -> search s b' (reverse64 k) = Ret None).
  { intros b' ->. apply behind_search; auto. }
  split; [|rewrite Hb; auto].
  set (p := prev_as_b (m_bl s) (l, reverse64 k)).
  assert (Nr : near (brev (m_trie s) p) (reverse64 k) (reverse64 k) = reverse64 k).
  { unfold near, abs_diff. rewrite Z.ltb_irrefl. destruct (Z.ltb_spec (brev (m_trie s) p) (reverse64 k));
    match goal with |- (if ?c then _ else _) = _ => destruct c eqn:C end; auto; lia. }
  rewrite Nr, Z.eqb_refl, andb_false_r. rewrite Hb; auto.
Qed.

Lemma behind_added s s' e rv : rsorted (m_items s) -> added s s' e rv -> e_rev e = rv -> e_dummy e = None ->
  In rv (map e_rev (filter is_dummy (m_items s))) -> live_at rv (m_items s) = [] -> behind rv (m_items s').
Proof.
  intros S (_ & _ & _ & _ & _ & _ & items1 & H1 & H2) Hr Hd Hb L0.
  destruct H1 as [->|[_ X]]; [|congruence].
  apply in_map_iff in Hb as (d0 & Hd0r & Hd0). apply filter_In in Hd0 as [Hd0 Hd0d].
  destruct (ins_sorted_split e (m_items s) S) as (l1 & l2 & Es & Ei & F1 & F2).
  rewrite Forall_forall in F1, F2.
  assert (B1 : behind rv (ins_sorted e (m_items s))).
  { intros l d r x E Hdd Hdr Hx HL HR. rewrite Ei in E.
    assert (Hxe : x = e).
    { assert (Hin : In x (l1 ++ e :: l2)) by (rewrite E; apply in_or_app; auto).
      apply in_app_or in Hin as [Hin|[Hin|Hin]]; auto; exfalso;
      assert (Hl : In x (live_at rv (m_items s))) by
        (apply live_at_in; split; auto; rewrite Es; apply in_or_app; auto); rewrite L0 in Hl; destruct Hl. }
    subst x. apply app_eq_split in E as [(y & -> & E)|(y & -> & E)].
    - destruct y as [|z y]; cbn in E.
      + inversion E; subst. unfold is_dummy in Hdd. rewrite Hd in Hdd. discriminate.
      + injection E as <- ->.
        assert (In d (y ++ d :: r)) as Hdi by (apply in_or_app; right; left; auto).
        specialize (F2 d Hdi). lia.
    - assert (Hl : In e (live_at rv (m_items s))).
      { apply live_at_in. split; auto. rewrite Es. apply in_or_app. left. apply in_or_app; auto. }
      rewrite L0 in Hl; destruct Hl. }
  destruct H2 as [->|(n & nr & -> & Hn)]; auto.
  assert (Nr : nr <> rv).
  { intros ->. apply (Hn d0); auto. apply ins_sorted_in; auto. }
  assert (S1 : rsorted (ins_sorted e (m_items s))) by (apply ins_sorted_sorted; auto).
  destruct (ins_sorted_split (dummy_of n nr) _ S1) as (m1 & m2 & Es2 & Ei2 & _ & _).
  intros l d r x E Hdd Hdr Hx HL HR. rewrite Ei2 in E.
  apply app_eq_split in E as [(y & -> & E)|(y & -> & E)].
  - destruct y as [|z y]; cbn in E.
    + injection E as <- _. cbn in Hdr. congruence.
    + injection E as <- ->. apply (B1 (m1 ++ y) d r x); auto.
      * rewrite Es2, <- app_assoc. auto.
      * apply in_app_or in Hx as [Hx|[Hx|Hx]]; [apply in_or_app; auto| |apply in_or_app; auto].
        subst x. discriminate.
  - destruct y as [|z y]; cbn in E.
    + injection E as -> _. cbn in Hdr. congruence.
    + injection E as <- E. apply (B1 l d (y ++ m2) x); auto.
      rewrite Es2, <- app_assoc. auto.
Qed.

(** * Range *)
Lemma range_visit {A} s (f : A -> option gkey -> gval -> A * bool) a :
  range s f a = visit (fun a x => f a (fst x) (snd x)) a
                  (map (fun e => (view_key (m_view s) e, e_val e)) (filter live (m_items s))).
Proof.
  unfold range. generalize (m_items s) as l. intros l. revert a.
  induction l as [|e l IH]; intros a; cbn [range_loop filter map visit]; auto.
  unfold live at 1. destruct (ignored e); cbn [negb]; auto. cbn [map visit fst snd].
  destruct (f a (view_key (m_view s) e) (e_val e)) as [a' go]. cbn [fst snd]. destruct go; auto.
Qed.
Lemma sorted_filter {A} (R : A -> A -> Prop) f l : StronglySorted R l -> StronglySorted R (filter f l).
Proof.
  induction 1 as [|x l S IH F]; cbn [filter]; [constructor|]. destruct (f x); auto. constructor; auto.
  rewrite Forall_forall in *. intros y Hy. apply filter_In in Hy as [Hy _]. auto.
Qed.
Lemma sorted_map {A B} (R : B -> B -> Prop) (g : A -> B) l :
  StronglySorted (fun a b => R (g a) (g b)) l -> StronglySorted R (map g l).
Proof.
  induction 1 as [|x l S IH F]; cbn [map]; constructor; auto. apply Forall_forall. intros y Hy.
  apply in_map_iff in Hy as (z & <- & Hz). rewrite Forall_forall in F. auto.
Qed.

Definition binding_of (e : entry) : (Z * Z) * binding := ((reverse64 (e_rev e), e_conf e), bd_of e).
Definition ranged_map (m : smap) : Prop := forall k c, sm_map m (k, c) <> None -> 0 <= k < W64.

Lemma strict_live items : rsorted items ->
  (forall rv, match live_at rv items with [] | [_] => True | _ => False end) ->
  StronglySorted (fun a b => e_rev a < e_rev b) (filter live items).
Proof.
  intros S H. assert (S' : StronglySorted rle (filter live items)) by (apply sorted_filter; auto).
  assert (H' : forall rv, match filter (fun e => e_rev e =? rv) (filter live items) with [] | [_] => True | _ => False end).
  { intros rv. specialize (H rv).
    replace (filter (fun e => e_rev e =? rv) (filter live items)) with (live_at rv items); auto.
    unfold live_at. clear. induction items as [|x l IH]; cbn [filter]; auto. unfold at_rv at 1.
    destruct (live x); cbn [filter andb]; [|auto]. destruct (e_rev x =? rv); rewrite IH; auto. }
  clear H S. induction S' as [|x l S IH F]; constructor.
  - apply IH. intros rv. specialize (H' rv). cbn [filter] in H'. destruct (e_rev x =? rv); auto.
    destruct (filter _ l) as [|? [|]]; auto.
  - rewrite Forall_forall in *. intros y Hy. specialize (F y Hy). unfold rle in F.
    destruct (Z.eq_dec (e_rev x) (e_rev y)) as [E|]; [|lia]. exfalso.
    specialize (H' (e_rev x)). cbn [filter] in H'. rewrite Z.eqb_refl in H'.
    destruct (filter (fun e => e_rev e =? e_rev x) l) as [|z q] eqn:Ef; [|auto].
    assert (In y (filter (fun e => e_rev e =? e_rev x) l)) as Hin by (apply filter_In; split; auto; lia).
    rewrite Ef in Hin. destruct Hin.
Qed.

Lemma holds_bindings s m : holds s m -> ranged_map m ->
  let P := map binding_of (filter live (m_items s)) in
  StronglySorted (fun a b => reverse64 (fst (fst a)) < reverse64 (fst (fst b))) P /\
  forall p b, In (p, b) P <-> sm_map m p = Some b.
Proof.
  intros H RM P. pose proof (hd_inv _ _ H) as I.
  assert (RG : forall e, In e (m_items s) -> 0 <= e_rev e < W64).
  { intros e He. pose proof (sv_rev_range s e I He). rewrite MAX64_val in *. rewrite W64_val. lia. }
  assert (Inv : forall e, In e (m_items s) -> reverse64 (reverse64 (e_rev e)) = e_rev e).
  { intros e He. apply reverse64_involutive, RG; auto. }
  split.
  - apply sorted_map. eapply sorted_ext_in; [|apply (strict_live (m_items s))].
    + intros a b Ha Hb Hlt. apply filter_In in Ha as [Ha _]. apply filter_In in Hb as [Hb _].
      cbn [binding_of fst]. rewrite !Inv; auto.
    + apply (sv_sorted _ I).
    + intros rv. destruct (live_at rv (m_items s)) as [|x [|y q]] eqn:E; auto.
      assert (Hx : In x (live_at rv (m_items s))) by (rewrite E; left; auto).
      apply live_at_in in Hx as (Hx & _ & Hr).
      destruct (hd_at _ _ H (reverse64 (e_rev x)) (reverse64_range _)) as [_ SL].
      rewrite Inv, Hr, E in SL by auto. destruct SL.
  - intros [k c] b. unfold P. rewrite in_map_iff. split.
    + intros (e & E & He). apply filter_In in He as [He HL]. unfold binding_of in E. inversion E; subst. clear E.
      destruct (hd_at _ _ H (reverse64 (e_rev e)) (reverse64_range _)) as [_ SL]. rewrite Inv in SL by auto.
      assert (Hin : In e (live_at (e_rev e) (m_items s))) by (apply live_at_in; auto).
      destruct (live_at (e_rev e) (m_items s)) as [|x [|y q]]; [destruct Hin| |destruct SL].
      destruct Hin as [->|[]]. apply SL.
    + intros E. assert (Hk : 0 <= k < W64) by (apply (RM k c); congruence).
      destruct (hd_at _ _ H k Hk) as [_ SL].
      destruct (live_at (reverse64 k) (m_items s)) as [|x [|y q]] eqn:EL; cbn in SL.
      * rewrite SL in E. discriminate.
      * destruct SL as [S1 S2]. destruct (Z.eq_dec c (e_conf x)) as [->|N]; [|rewrite S2 in E; auto; discriminate].
        assert (Hx : In x (live_at (reverse64 k) (m_items s))) by (rewrite EL; left; auto).
        apply live_at_in in Hx as (Hx & HL & Hr).
        exists x. split; [|apply filter_In; auto]. unfold binding_of. rewrite Hr, reverse64_involutive by auto.
        rewrite S1 in E. inversion E. auto.
      * destruct SL.
Qed.
Lemma sm_ranged h os : forall m, ranged_map m -> ranged_map (sm_run h m os).
Proof.
  induction os as [|o os IH]; intros m H; cbn [sm_run]; auto. apply IH.
  assert (HP : forall key k c b vw cr, key_to_hash h key = Some (k, c) -> ranged_map (mkSM (sm_put m (k, c) b) vw cr)).
  { intros key k c b vw cr K k' c'. cbn [sm_map]. unfold sm_put, pair_eqb. cbn [fst snd].
    apply key_range in K as [Hk _]. destruct (Z.eqb_spec k k'); [subst; auto|]. cbn [andb]. apply H. }
  assert (HU : forall key k c b v, key_to_hash h key = Some (k, c) -> ranged_map (fst (sm_update m (k, c) b v))).
  { intros. unfold sm_update. destruct (assign _ _ _) as [[? ?]|]; cbn [fst]; eauto. }
  destruct o; cbn [sm_step fst]; auto.
  - destruct (key_to_hash h key) as [[k c]|] eqn:K; auto. destruct (sm_map m (k, c)); eauto.
    destruct key; cbn [fst]; eauto.
  - destruct (key_to_hash h (i_key i)) as [[k c]|] eqn:K; auto. destruct (sm_map m (k, c)); cbn [fst]; eauto.
  - destruct (key_to_hash h key) as [[k c]|] eqn:K; auto. destruct (sm_map m (k, c)); cbn [fst]; eauto.
  - destruct (key_to_hash h key) as [[k c]|] eqn:K; auto. destruct (sm_map m (k, c)); cbn [fst]; eauto.
Qed.

(** two lists with the same elements in the same strict order are equal *)
Lemma strict_sorted_unique {A} (g : A -> Z) l1 : forall l2,
  StronglySorted (fun a b => g a < g b) l1 -> StronglySorted (fun a b => g a < g b) l2 ->
  (forall x, In x l1 <-> In x l2) -> l1 = l2.
Proof.
  induction l1 as [|x l1 IH]; intros l2 S1 S2 H.
  - destruct l2 as [|y l2]; auto. exfalso. apply (H y). left; auto.
  - destruct l2 as [|y l2]; [exfalso; apply (H x); left; auto|].
    inversion S1 as [|? ? S1' F1]; inversion S2 as [|? ? S2' F2]; subst.
    rewrite Forall_forall in *.
    assert (E : x = y).
    { destruct (proj1 (H x) (or_introl eq_refl)) as [|Hx]; auto.
      destruct (proj2 (H y) (or_introl eq_refl)) as [|Hy]; auto.
      specialize (F1 y Hy). specialize (F2 x Hx). lia. }
    subst y. f_equal. apply IH; auto. intros z. split; intros Hz.
    + destruct (proj1 (H z) (or_intror Hz)) as [->|]; auto. specialize (F1 z Hz). lia.
    + destruct (proj2 (H z) (or_intror Hz)) as [->|]; auto. specialize (F2 z Hz). lia.
Qed.

(** * Where values come from *)
Definition came_from (h : hashes) (os : list op) (e : entry) : Prop :=
  exists o k c, In o os /\ writes h o = Some (k, c) /\ e_rev e = reverse64 k /\ e_conf e = c /\ written o = e_val e.
Lemma run_came_from h os : forall pre s, Forall fresh_item os -> inv0 (came_from h pre) s ->
  inv0 (came_from h (pre ++ os)) (run h s os).
Proof.
  induction os as [|o os IH]; intros pre s F I; cbn [run]; [rewrite app_nil_r; auto|].
  inversion F as [|? ? Fo F']; subst.
  change (pre ++ o :: os) with (pre ++ [o] ++ os). rewrite app_assoc. apply IH; auto.
  assert (IN : In o (pre ++ [o])) by (apply in_or_app; right; left; auto).
  apply (step_any h s o (came_from h pre)); auto.
  - intros x (o' & k & c & Ho & X). exists o', k, c. split; [apply in_or_app; auto|auto].
  - intros x vw (o' & k & c & Ho & X). exists o', k, c. split; [apply in_or_app; auto|auto].
  - intros x k c W Hr Hc _. exists o, k, c. auto.
  - intros key v k c -> W. exists (OpSet key v), k, c. auto.
  - intros i k c -> W. destruct Fo as (F1 & F2 & F3). split.
    + exists (OpStore i), k, c. cbn. rewrite F1, F2. auto.
    + cbn. rewrite F1. cbn. apply reverse64_range.
Qed.
Lemma new_map_inv0 Q view max mode pool : inv0 Q (new_map view max mode pool).
Proof.
  split; [split; [|split]|].
  - apply (sv_sorted _ (new_map_sinv view max mode pool)).
  - eexists. reflexivity.
  - intros e He Hd. cbn in He. repeat (destruct He as [<-|He]; [discriminate|]). destruct He.
  - intros n. unfold brev, bget. cbn [new_map m_trie].
    destruct (tget init_trie n) as [b|] eqn:E; [|cbn; lia].
    assert (H : In b (map snd init_trie)).
    { revert E. generalize init_trie. intros t. induction t as [|[m b'] t IH]; cbn [tget map snd]; [discriminate|].
      destruct (nid_eqb m n); [intros X; inversion X; left; auto|right; auto]. }
    vm_compute in H. repeat (destruct H as [<-|H]; [vm_compute; discriminate|]). destruct H.
Qed.

(** sorted and with its ends whatever is stored *)
Lemma run_any h os : forall s, Forall item_u64 os -> inv0 (fun _ => True) s -> inv0 (fun _ => True) (run h s os).
Proof.
  induction os as [|o os IH]; intros s F I; cbn [run]; auto. inversion F as [|? ? Fo F']; subst. apply IH; auto.
  apply (step_any h s o (fun _ => True)); auto.
  intros i k c -> W. split; auto. cbn. destruct (i_rev i =? 0); [apply reverse64_range|]. cbn in Fo. lia.
Qed.

(** * The pool switch is invisible *)
Definition mp (b : bool) (x : mstate * bool) : mstate * bool := (set_mpool (fst x) b, snd x).
Lemma mp_make s b er : make_bucket (set_mpool s b) er = mp b (make_bucket s er).
Proof.
  unfold make_bucket. cbn [set_mpool m_trie m_bl m_lv]. cbv zeta.
  destruct (first_below _ _ _) as [c0|]; [|reflexivity]. destruct (walk_up _ _ _ _ _) as [c next].
  destruct (_ || _); [reflexivity|]. destruct (bucket_from_pool _ _ _) as [[[t1 lv1] bb]|]; [|reflexivity].
  change (head_z (set_lv (set_trie (set_mpool s b) t1) lv1)) with (head_z (set_lv (set_trie s t1) lv1)).
  destruct (head_z (set_lv (set_trie s t1) lv1) bb); [reflexivity|].
  destruct (_ && _); [reflexivity|].
  match goal with |- context [add_bucket (set_trie (set_lv (set_trie (set_mpool s b) t1) lv1) ?t4) bb ?nr] =>
    generalize t4; generalize nr; intros nr' t4' end.
  assert (AB : add_bucket (set_trie (set_lv (set_trie (set_mpool s b) t1) lv1) t4') bb nr' =
     set_mpool (add_bucket (set_trie (set_lv (set_trie s t1) lv1) t4') bb nr') b).
  { unfold add_bucket. cbn [set_trie set_lv m_trie m_bl m_items set_mpool].
    destruct (bucket_below _ _ _) as [n|]; [|reflexivity].
    match goal with |- match head_z ?x n with _ => _ end = set_mpool (match head_z ?y n with _ => _ end) b =>
      change (head_z x n) with (head_z y n); destruct (head_z y n) end; [|reflexivity].
    destruct (add_dummy _ _ _); reflexivity. }
  rewrite AB. change (head_z (set_mpool ?x b)) with (head_z x).
  destruct (head_z _ bb); reflexivity.
Qed.
Lemma mp_set s b k n e : set_ (set_mpool s b) k n e = mp b (set_ s k n e).
Proof.
  unfold set_. change (head_z (set_mpool s b) n) with (head_z s n). destruct (head_z s n) as [zd|]; [|reflexivity].
  cbv zeta. change (add_item (set_mpool s b)) with (add_item s).
  cbn [set_mpool m_items].
  destruct (match add_item s n zd (t_start (reverse64 k) zd) e with Some z => _ | None => _ end) as [items er].
  cbn [set_len set_items set_trie m_trie m_len m_max].
  destruct (0 <? _); cbn [set_len set_items set_trie m_trie m_len m_max]; (destruct (_ <? _); [|reflexivity]).
  - exact (mp_make (set_trie (set_len (set_items s items) (m_len s + 1))
       (tupd (m_trie s) n (fun b0 => set_blen b0 (b_len b0 + 1)))) b er).
  - exact (mp_make (set_len (set_items s items) (m_len s + 1)) b er).
Qed.
Definition same_but_pool (s s' : mstate) : Prop := exists b, s' = set_mpool s b.
Lemma sbp_refl s : same_but_pool s s.
Proof. exists (m_pool s). destruct s; reflexivity. Qed.
Lemma sbp_set s b : same_but_pool s (set_mpool s b).
Proof. exists b. auto. Qed.
Lemma sbp_trans s1 s2 s3 : same_but_pool s1 s2 -> same_but_pool s2 s3 -> same_but_pool s1 s3.
Proof. intros [b ->] [b' ->]. exists b'. reflexivity. Qed.
Lemma sbp_sym s s' : same_but_pool s s' -> same_but_pool s' s.
Proof. intros [b ->]. exists (m_pool s). destruct s; reflexivity. Qed.

Lemma sbp_step h s s' o : same_but_pool s s' ->
  same_but_pool (fst (step h s o)) (fst (step h s' o)) /\ snd (step h s o) = snd (step h s' o).
Proof.
  intros [b ->].
  assert (LD : forall k c, load (set_mpool s b) k c = load s k c) by reflexivity.
  assert (GT : forall k c, get (set_mpool s b) k c = get s k c) by reflexivity.
  assert (GV : forall r, same_but_pool (fst (get_val s r)) (fst (get_val (set_mpool s b) r)) /\
     snd (get_val s r) = snd (get_val (set_mpool s b) r)).
  { intros r. unfold get_val. destruct r as [[[l [|e r]]|]| | |]; split; auto; apply sbp_set. }
  assert (GI : forall r, same_but_pool (fst (get_item s r)) (fst (get_item (set_mpool s b) r)) /\
     snd (get_item s r) = snd (get_item (set_mpool s b) r)).
  { intros r. unfold get_item. destruct r as [[[l [|e r]]|]| | |]; split; auto; apply sbp_set. }
  assert (UP : forall z v, same_but_pool (fst (update s z v)) (fst (update (set_mpool s b) z v)) /\
     snd (update s z v) = snd (update (set_mpool s b) z v)).
  { intros z v. unfold update. cbn [set_mpool m_view]. destruct (snd z); [split; auto; apply sbp_set|].
    destruct (set_value _ _ _) as [[v' ok]|]; split; auto; eexists; reflexivity. }
  assert (DE : forall key, same_but_pool (fst (delete h s key)) (fst (delete h (set_mpool s b) key)) /\
     snd (delete h s key) = snd (delete h (set_mpool s b) key)).
  { intros key. unfold delete. destruct (key_to_hash h key) as [[k c]|]; [|split; auto; apply sbp_set].
    rewrite LD. destruct (load s k c) as [[z|]| | |]; split; auto; eexists; reflexivity. }
  destruct o; cbn [step]; auto.
  - unfold set. destruct (key_to_hash h key) as [[k c]|]; [|split; auto; apply sbp_set].
    rewrite LD. destruct (load s k c) as [[z|]| | |]; try (split; auto; apply sbp_set); auto.
    cbv zeta. cbn [set_mpool m_pool m_mode m_trie].
    set (s1 := if negb (m_pool s) && _ then _ else s).
    set (s1' := if negb b && _ then _ else _).
    assert (X : exists b', s1' = set_mpool s1 b').
    { unfold s1, s1'. destruct (negb (m_pool s) && _), (negb b && _);
      first [exists true; reflexivity | exists b; reflexivity]. }
    destruct X as [b' ->]. destruct key; try (split; auto; apply sbp_set).
    change (set_view (set_mpool s1 b') KSample) with (set_mpool (set_view s1 KSample) b'). rewrite mp_set.
    unfold mp. destruct (set_ (set_view s1 KSample) k _ _) as [s3 p]. cbn [fst snd]. split; auto. eexists; reflexivity.
  - unfold store. destruct (item_hash h i) as [[k c]|]; [|split; auto; apply sbp_set].
    rewrite LD. destruct (load s k c) as [[z|]| | |]; try (split; auto; apply sbp_set); auto.
    cbn [set_mpool m_trie]. change (mkM _ _ _ _ _ _ _ _ b) with (set_mpool s b). rewrite mp_set.
    unfold mp. destruct (set_ s k _ _) as [s3 p]. cbn [fst snd]. split; auto. eexists; reflexivity.
  - unfold with_key. destruct (key_to_hash h key) as [[k c]|]; [|split; auto; apply sbp_set].
    exact (GV (get s k c)).
  - unfold with_key. destruct (key_to_hash h key) as [[k c]|]; [|split; auto; apply sbp_set].
    exact (GI (load s k c)).
  - split; auto. apply sbp_set.
Qed.
Lemma sbp_outs h os : forall s s', same_but_pool s s' ->
  outs h s os = outs h s' os /\ same_but_pool (run h s os) (run h s' os).
Proof.
  induction os as [|o os IH]; intros s s' H; cbn [outs run]; auto.
  destruct (sbp_step h s s' o H) as [H1 E]. destruct (IH _ _ H1) as [E2 H2]. rewrite E, E2. auto.
Qed.

(** * Panics *)
Lemma get_val_panic s r : snd (get_val s r) = RPanic -> r = Pan \/ r = Div \/ r = Undef.
Proof. destruct r as [[[l [|e r]]|]| | |]; cbn; auto; discriminate. Qed.
Lemma get_item_panic s r : snd (get_item s r) = RPanic -> r = Pan \/ r = Div \/ r = Undef.
Proof. destruct r as [[[l [|e r]]|]| | |]; cbn; auto; discriminate. Qed.

Definition type_clash (h : hashes) (s : mstate) (o : op) : Prop :=
  exists k c l e r, writes h o = Some (k, c) /\ load s k c = Ret (Some (l, e :: r)) /\
    assign (m_view s) (e_val e) (written o) = None.
Definition new_nonstring (h : hashes) (s : mstate) (o : op) : Prop :=
  exists key v k c, o = OpSet key v /\ key_to_hash h key = Some (k, c) /\ (forall x, key <> KStr x) /\
    load s k c = Ret None.
Lemma step_panic h s o : sinv s -> safe_op h o -> snd (step h s o) = RPanic ->
  (touches h o = None /\ o <> OpLen) \/ new_nonstring h s o \/ type_clash h s o.
Proof.
  intros I SO.
  assert (LD : forall k c, exists z, load s k c = Ret z) by (intros k c; destruct (load_spec s k c I) as (z & E & _); eauto).
  assert (GT : forall k c, exists z, get s k c = Ret z) by (intros k c; destruct (get_spec s k c I) as (z & E & _); eauto).
  assert (GV : forall k c, snd (get_val s (get s k c)) <> RPanic).
  { intros k c E. destruct (GT k c) as (z & X). rewrite X in E. apply get_val_panic in E as [?|[?|?]]; discriminate. }
  assert (GI : forall k c, snd (get_item s (get s k c)) <> RPanic).
  { intros k c E. destruct (GT k c) as (z & X). rewrite X in E. apply get_item_panic in E as [?|[?|?]]; discriminate. }
  assert (GI2 : forall k c, snd (get_item s (load s k c)) <> RPanic).
  { intros k c E. destruct (LD k c) as (z & X). rewrite X in E. apply get_item_panic in E as [?|[?|?]]; discriminate. }
  assert (DE : forall key, snd (delete h s key) = RPanic -> key_to_hash h key = None).
  { intros key. unfold delete. destruct (key_to_hash h key) as [[k c]|]; auto.
    destruct (LD k c) as ([z|] & ->); discriminate. }
  pose proof (step_effect h s o I SO) as E.
  destruct o as [key v|i|key|k c|key|k c|key|key|]; cbn [step touches].
  - intros P. cbn [step] in E. rewrite P in E. unfold set in P.
    destruct (key_to_hash h key) as [[k c]|] eqn:K; [|left; split; auto; discriminate]. right.
    destruct (LD k c) as ([z|] & L); rewrite L in P.
    + right. pose proof (load_hit _ _ _ _ L) as (l & e & r & -> & _). rewrite update_eq in P.
      exists k, c, l, e, r. split; [auto|]. split; [auto|]. cbn [written].
      destruct (assign _ _ _) as [[? ?]|]; [discriminate|auto].
    + left. exists key, v, k, c. split; auto. split; auto. split; auto.
      intros x ->. destruct E as [_ _ X _| | |k1 c1 i s0 _ _ _ _ _ _ _ _ _ _ _ _ _ X]; try discriminate.
      cbv zeta in P.
      cbn [safe_op writes] in SO. rewrite K in SO. destruct SO as [S1 S2].
      destruct (key_range _ _ _ _ K) as [Hk _].
      pose proof (storable_rev k Hk S1 S2) as SR.
      destruct (find_bucket_present s (reverse64 k) I ltac:(apply reverse64_range)) as [P1 P2].
      match type of P with context [set_ ?a ?b ?n ?e] =>
        destruct (set_spec a b n e) as (s' & E' & A) end.
      { apply sinv_view. destruct (_ && _); auto. apply sinv_mpool; auto. }
      { destruct (_ && _); auto. } { destruct (_ && _); auto. } { reflexivity. } { exact SR. }
      rewrite E' in P. discriminate.
  - intros P. unfold store, item_hash in P.
    destruct (key_to_hash h (i_key i)) as [[k c]|] eqn:K; [|left; split; auto; discriminate]. right.
    destruct (LD k c) as ([z|] & L); rewrite L in P.
    + right. pose proof (load_hit _ _ _ _ L) as (l & e & r & -> & _). rewrite update_eq in P.
      exists k, c, l, e, r. split; [auto|]. split; [auto|]. cbn [written].
      destruct (assign _ _ _) as [[? ?]|]; [discriminate|auto].
    + exfalso. destruct (key_range _ _ _ _ K) as [Hk _]. cbn [safe_op writes] in SO. rewrite K in SO.
      assert (SR : 0 <= e_rev (entry_of i k c) <= MAX64 - 2).
      { cbn [entry_of e_rev]. destruct SO as [(R0 & S1 & S2)|R].
        - rewrite R0. cbn [Z.eqb]. apply storable_rev; auto.
        - destruct (Z.eqb_spec (i_rev i) 0); [lia|]. rewrite MAX64_val. lia. }
      destruct (find_bucket_present s (reverse64 k) I ltac:(apply reverse64_range)) as [P1 P2].
      destruct (set_spec s k _ (entry_of i k c) I P1 P2 eq_refl SR) as (s' & E' & A).
      rewrite E' in P. discriminate.
  - unfold with_key. destruct (key_to_hash h key) as [[k c]|] eqn:K; intros P; [exfalso; eapply GV; eauto|].
    left; split; auto; discriminate.
  - intros P. exfalso. eapply GV; eauto.
  - unfold with_key. destruct (key_to_hash h key) as [[k c]|] eqn:K; intros P; [exfalso; eapply GI2; eauto|].
    left; split; auto; discriminate.
  - intros P. exfalso. eapply GI; eauto.
  - intros P. left. split; auto; discriminate.
  - intros P. left. split; auto; discriminate.
  - discriminate.
Qed.

Lemma assign_typed ty view a b : of_type ty a -> of_type ty b -> assign view a b <> None.
Proof.
  intros Ha Hb. destruct view; cbn; [|discriminate].
  destruct b as [|t p], a as [|t' p']; cbn in *; try discriminate. subst. rewrite Z.eqb_refl. cbn. discriminate.
Qed.
Definition typed_inv (ty : Z) : entry -> Prop := fun e => of_type ty (e_val e).
Lemma step_no_panic h ty s o : sinv s -> inv0 (typed_inv ty) s -> safe_op h o -> plain_op ty o ->
  snd (step h s o) <> RPanic.
Proof.
  intros I [(_ & _ & A) _] SO PO P.
  destruct (step_panic h s o I SO P) as [[T N]|[(key & v & k & c & -> & K & X & L)|(k & c & l & e & r & W & L & C)]].
  - destruct o; cbn in T, PO; try congruence.
    + destruct PO as [(x & ->) _]. discriminate.
    + destruct PO as [X _]. destruct (i_key i); try discriminate. congruence.
    + destruct key; try discriminate. congruence.
    + destruct key; try discriminate. congruence.
    + destruct key; try discriminate. congruence.
    + destruct key; try discriminate. congruence.
  - destruct PO as [(x & ->) _]. apply (X x); auto.
  - pose proof (load_hit _ _ _ _ L) as (l' & e' & r' & E & Ei & HL & _). inversion E; subst l' e' r'.
    apply (assign_typed ty (m_view s) (e_val e) (written o)); auto.
    + apply A; [rewrite Ei; apply in_or_app; right; left; auto|]. apply live_not_dummy; auto.
    + destruct o; try discriminate; cbn in PO |- *; tauto.
Qed.
Theorem run_no_panic h ty os : forall s, sinv s -> inv0 (typed_inv ty) s -> Forall (safe_op h) os -> Forall (plain_op ty) os ->
  ~ In RPanic (outs h s os).
Proof.
  induction os as [|o os IH]; intros s I A F1 F2; cbn [outs]; [intros []|].
  inversion F1 as [|? ? SO F1']; inversion F2 as [|? ? PO F2']; subst. intros [H|H].
  - eapply step_no_panic; eauto.
  - revert H. apply IH; auto.
    + eapply effect_sinv; [exact I|]. apply step_effect; auto.
    + apply (step_any h s o (typed_inv ty)); auto.
      * intros x k c W _ _ _. unfold typed_inv. cbn. destruct o; try discriminate; cbn in *; tauto.
      * intros key v k c -> W. unfold typed_inv. cbn in *. tauto.
      * intros i k c -> W. unfold typed_inv. cbn in PO |- *. split; [tauto|].
        cbn in SO. cbn in W. rewrite W in SO. destruct (Z.eqb_spec (i_rev i) 0); [apply reverse64_range|lia].
Qed.

(** * Item kinds *)
Definition kind_map (h : hashes) (kd : ikind) (m : smap) : Prop :=
  sm_view m = kd /\ forall p b, sm_map m p = Some b -> bd_kind b = kd /\ key_to_hash h (bd_key b) = Some p.
Lemma pair_eqb_eq p q : pair_eqb p q = true <-> p = q.
Proof. unfold pair_eqb. destruct p, q; cbn. rewrite andb_true_iff, !Z.eqb_eq. split; [intros []; subst; auto|intros X; inversion X; auto]. Qed.
Lemma run_kind h kd os : forall m, kind_map h kd m -> Forall (kind_op kd) os -> kind_map h kd (sm_run h m os).
Proof.
  induction os as [|o os IH]; intros m K F; cbn [sm_run]; auto. inversion F as [|? ? KO F']; subst. apply IH; auto.
  destruct K as [K1 K2].
  assert (HP : forall p b vw cr, (forall x, b = Some x -> bd_kind x = kd /\ key_to_hash h (bd_key x) = Some p) -> vw = kd ->
     kind_map h kd (mkSM (sm_put m p b) vw cr)).
  { intros p b vw cr Hb Hv. split; auto. intros q x. cbn [sm_map]. unfold sm_put.
    destruct (pair_eqb p q) eqn:E; auto. apply pair_eqb_eq in E; subst. auto. }
  assert (HU : forall p b v, sm_map m p = Some b -> kind_map h kd (fst (sm_update m p b v))).
  { intros p b v Hb. unfold sm_update. destruct (assign _ _ _) as [[? ?]|]; cbn [fst]; [|split; auto].
    apply HP; auto. intros x X. inversion X; subst. cbn. apply K2; auto. }
  destruct o; cbn [sm_step fst]; try (split; auto; fail).
  - destruct (key_to_hash h key) as [p|] eqn:E; [|split; auto]. destruct (sm_map m p) eqn:EM; auto.
    destruct key; try (split; auto; fail). cbn [fst kind_op] in *. apply HP; auto. intros x X. inversion X; subst. auto.
  - destruct (key_to_hash h (i_key i)) as [p|] eqn:E; [|split; auto]. destruct (sm_map m p) eqn:EM; auto.
    cbn [fst kind_op] in *. apply HP; auto. intros x X. inversion X; subst. auto.
  - destruct (key_to_hash h key) as [p|] eqn:E; [|split; auto]. destruct (sm_map m p) eqn:EM; [|split; auto].
    cbn [fst]. apply HP; auto. discriminate.
  - destruct (key_to_hash h key) as [p|] eqn:E; [|split; auto]. destruct (sm_map m p) eqn:EM; [|split; auto].
    cbn [fst]. apply HP; auto. discriminate.
Qed.
