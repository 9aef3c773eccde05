(** The embedded map when keys collide: at each position the entry created last is the visible one. *)
From Verif Require Import Base BaseProofs Util UtilProofs Bucket TrieProofs TrieInv TrieGrow MapModel ItemProofs MapInv MapSplit
  MapInit Spec MapRefine EmbModel EmbPool EmbTrie EmbInv EmbSplit EmbSpec EmbRefine.
From Coq Require Import ZifyBool Sorted Permutation.
Local Open Scope Z_scope.
Local Opaque reverse64 level_of base find_bucket.

(** * The list of everything stored, as seen by callers *)
Definition plist (s : estate) : list prj := map pr (stored s).
Definition first_at (r : Z) (l : list prj) : option prj := find (fun x => pr_rev x =? r) l.

Lemma first_none r l : (forall x, In x l -> pr_rev x <> r) -> first_at r l = None.
Proof.
  intros H. unfold first_at. induction l as [|x l IH]; cbn [find]; auto.
  destruct (Z.eqb_spec (pr_rev x) r) as [E|_]; [exfalso; apply (H x); auto; left; auto|]. apply IH. intros; apply H; right; auto.
Qed.
Lemma first_app r l l' : first_at r (l ++ l') = match first_at r l with Some x => Some x | None => first_at r l' end.
Proof.
  unfold first_at. induction l as [|x l IH]; cbn [app find]; auto. destruct (pr_rev x =? r); auto.
Qed.
Lemma first_mid r a m b : (forall x, In x a \/ In x b -> pr_rev x <> r) -> first_at r (a ++ m ++ b) = first_at r m.
Proof.
  intros H. rewrite !first_app, (first_none r a), (first_none r b) by (intros; apply H; auto).
  destruct (first_at r m); auto.
Qed.
Lemma first_here r l x l' : (forall z, In z l -> pr_rev z < r) -> pr_rev x = r -> first_at r (l ++ x :: l') = Some x.
Proof.
  intros H E. rewrite first_app, first_none by (intros z Hz; specialize (H z Hz); lia).
  unfold first_at. cbn [find]. rewrite E, Z.eqb_refl. auto.
Qed.
Lemma first_skip r l x l' : pr_rev x <> r -> first_at r (l ++ x :: l') = first_at r (l ++ l').
Proof.
  intros E. rewrite !first_app. destruct (first_at r l); auto. unfold first_at at 1. cbn [find].
  destruct (Z.eqb_spec (pr_rev x) r); [contradiction|reflexivity].
Qed.

(** the part of the list that one bucket contributes *)
Lemma stored_at {st} s xl y b p : einvb st s xl -> adj (x_bl s) y b -> b_pool (bget (x_trie s) b) = Some p ->
  exists L1 L2, stored s = L1 ++ live p ++ L2 /\
    (forall sl, In sl L1 \/ In sl L2 -> ~ brev (x_trie s) b <= sl_rev sl < up (x_trie s) y) /\
    forall t', (forall n, n <> b -> b_pool (bget t' n) = b_pool (bget (x_trie s) n)) ->
      forall p', b_pool (bget t' b) = Some p' -> slist t' (x_bl s) = L1 ++ live p' ++ L2.
Proof.
  intros I Hy HP. pose proof (ei_adj_ne s xl I _ _ Hy) as Nb. pose proof (ei_nodup s xl I) as ND.
  destruct Hy as (A & B & E). pose proof (ex_intro _ A (ex_intro _ B E) : adj (x_bl s) y b) as Hy.
  exists (slist (x_trie s) B), (slist (x_trie s) (A ++ [y])).
  assert (EA : x_bl s = (A ++ [y]) ++ [b] ++ B) by (rewrite E, <- app_assoc; auto).
  set (C := A ++ [y]) in *.
  assert (NI : ~ In b C /\ ~ In b B).
  { rewrite EA in ND. cbn [app] in ND. apply NoDup_remove in ND as [_ ND].
    split; intros H; apply ND; apply in_or_app; auto. }
  assert (ONE : forall t' p', b_pool (bget t' b) = Some p' -> slist t' [b] = live p').
  { intros t' p' H. unfold slist. cbn [rev app flat_map]. rewrite app_nil_r. unfold of_bucket. rewrite H.
    apply nid_eqb_neq in Nb. rewrite Nb. auto. }
  split; [unfold stored; rewrite EA, !slist_app, (ONE _ _ HP), <- app_assoc; auto|]. split.
  - intros sl Hsl Rb.
    assert (X : exists n, In n (x_bl s) /\ n <> b /\ In sl (of_bucket (x_trie s) n)).
    { rewrite EA. destruct Hsl as [H|H]; unfold slist in H; apply in_flat_map in H as (n & Hn & Hs); rewrite <- in_rev in Hn; exists n.
      - split; [apply in_or_app; right; apply in_or_app; auto|]. split; auto. intros ->; tauto.
      - split; [apply in_or_app; auto|]. split; auto. intros ->; tauto. }
    destruct X as (n & Hn & Nn & Hs). unfold of_bucket in Hs. destruct (nid_eqb n bmax) eqn:Em; [destruct Hs|].
    assert (NM : n <> bmax) by (intros ->; rewrite nid_eqb_refl in Em; discriminate).
    destruct (ei_pred s xl I n Hn NM) as (u & Hu). destruct (ei_pool _ _ I u n Hu) as (q & HQ & KQ). rewrite HQ in Hs.
    apply Nn. apply (ei_disjoint s xl I u n y b (sl_rev sl)); auto. apply (po_rng _ _ _ KQ sl Hs).
  - intros t' HO p' HP'. rewrite EA, !slist_app, (ONE _ _ HP'), <- app_assoc.
    rewrite (slist_ext (x_trie s) t' B), (slist_ext (x_trie s) t' C); auto; intros n Hn _; apply HO; intros ->; tauto.
Qed.

(** * Lookup *)
Definition found {st} (s : estate) (k : Z) (n : nid) (p : pool) (y : nid) (L1 L2 : list slot) : Prop :=
  adj (x_bl s) y n /\ n = base (x_trie s) (find_bucket (x_trie s) (reverse64 k)) /\
  brev (x_trie s) n <= reverse64 k < up (x_trie s) y /\ b_pool (bget (x_trie s) n) = Some p /\
  pool_okb st p (brev (x_trie s) n) (up (x_trie s) y) /\ stored s = L1 ++ live p ++ L2 /\
  (forall sl, In sl L1 \/ In sl L2 -> ~ brev (x_trie s) n <= sl_rev sl < up (x_trie s) y) /\
  forall t', (forall m, m <> n -> b_pool (bget t' m) = b_pool (bget (x_trie s) m)) ->
      forall p', b_pool (bget t' n) = Some p' -> slist t' (x_bl s) = L1 ++ live p' ++ L2.

Lemma nth_find p j r : (j < p_n p)%nat -> (p_n p <= List.length (p_slots p))%nat ->
  exists l1 l2, live p = l1 ++ slot_at p j :: l2 /\ List.length l1 = j /\
    ((forall i, (i < j)%nat -> sl_rev (slot_at p i) < r) -> forall sl, In sl l1 -> sl_rev sl < r).
Proof.
  intros Hj HL. assert (LL : List.length (live p) = p_n p) by (unfold live; apply firstn_length_le; auto).
  destruct (upd_nth_split j (slot_at p j) zero_slot (live p)) as (l1 & l2 & E1 & E2 & _); [lia|].
  rewrite live_nth in E1 by auto. exists l1, l2. split; auto. split; auto.
  intros H sl Hs. apply In_nth with (d := zero_slot) in Hs as (i & Hi & <-).
  assert (EQ : nth i l1 zero_slot = slot_at p i).
  { rewrite <- live_nth by lia. rewrite E1, app_nth1 by auto. auto. }
  rewrite EQ. apply H. lia.
Qed.

Lemma cload {st} s xl k c : einvb st s xl -> enodel s ->
  eload s k c = Div \/
  exists n p y L1 L2, @found st s k n p y L1 L2 /\
    match first_at (reverse64 k) (plist s) with
    | None => eload s k c = Ret None
    | Some (r, c', d, key, v) => exists j, (j < p_n p)%nat /\ pr (slot_at p j) = (reverse64 k, c', false, key, v) /\
        (forall i, (i < j)%nat -> sl_rev (slot_at p i) < reverse64 k) /\
        eload s k c = Ret (if c' =? c then Some (n, j) else None)
    end.
Proof.
  intros I ND. unfold eload. pose proof (reverse64_range k) as R.
  destruct (pool_of (x_trie s) (find_bucket (x_trie s) (reverse64 k))) as [p|] eqn:EP; [|auto]. right.
  destruct (ei_route s xl I _ p R EP) as (y & Hy & Ri & HP & K).
  set (n := base (x_trie s) (find_bucket (x_trie s) (reverse64 k))) in *.
  destruct (stored_at s xl y n p I Hy HP) as (L1 & L2 & ES & HN & HT).
  exists n, p, y, L1, L2. split; [unfold found; auto 10|].
  assert (F : first_at (reverse64 k) (plist s) = first_at (reverse64 k) (map pr (live p))).
  { unfold plist. rewrite ES, !map_app. apply first_mid. intros x Hx E.
    destruct Hx as [Hx|Hx]; apply in_map_iff in Hx as (sl & <- & Hs); cbn [pr_rev pr fst] in E;
    (apply (HN sl); [auto|rewrite E; auto]). }
  rewrite F. pose proof (search_first p _ _ (reverse64 k) K (ND _ _ _ Hy HP)) as SF.
  destruct (emb_search p (reverse64 k)) as [j|].
  - destruct SF as (Hj & Ej & Hi). rewrite Ej, Z.eqb_refl. cbn [andb].
    destruct (nth_find p j (reverse64 k) Hj (po_n _ _ _ K)) as (l1 & l2 & EL & E2 & HL).
    specialize (HL Hi). rewrite EL, map_app. cbn [map].
    rewrite (first_here (reverse64 k)); [|intros z Hz; apply in_map_iff in Hz as (sl & <- & Hs); apply HL; auto|exact Ej].
    assert (D : sl_del (slot_at p j) = false) by (apply (ND _ _ _ Hy HP); eapply live_in; eauto).
    unfold pr. exists j. split; auto. split; [rewrite Ej, D; auto|]. split; auto.
    destruct (sl_conf (slot_at p j) =? c); auto.
  - rewrite first_none; auto. intros x Hx. apply in_map_iff in Hx as (sl & <- & Hs). apply SF; auto.
Qed.

(** * Changing the visible entry *)
Lemma cupd s xl k n p y L1 L2 j v' : einvb false s xl -> enodel s -> @found false s k n p y L1 L2 ->
  (j < p_n p)%nat -> sl_rev (slot_at p j) = reverse64 k -> (forall i, (i < j)%nat -> sl_rev (slot_at p i) < reverse64 k) ->
  let s' := upd_item s n j (set_sval v') in
  einvb false s' xl /\ enodel s' /\ x_max s' = x_max s /\ x_len s' = x_len s /\
  map pr_rev (plist s') = map pr_rev (plist s) /\
  forall r, first_at r (plist s') = if r =? reverse64 k then Some (pr (set_sval v' (slot_at p j))) else first_at r (plist s).
Proof.
  intros I ND (Hy & Eb & Ri & HP & K & ES & HN & HT) Hj Er Hi s'.
  destruct (upd_slot_ok p _ _ j (set_sval v') K Hj eq_refl) as (K' & L' & N' & S').
  unfold s', upd_item. rewrite HP. unfold set_bpool, set_xtrie. set (p' := upd_slot p j (set_sval v')) in *.
  set (t' := tupd (x_trie s) n (fun b => set_pool b (Some p'))).
  assert (SS : same_shape (x_trie s) t') by (apply same_shape_tupd; intros; reflexivity).
  assert (GN : b_pool (bget t' n) = Some p') by (unfold t', tupd; rewrite bget_tset, nid_eqb_refl; reflexivity).
  assert (GO : forall m, m <> n -> b_pool (bget t' m) = b_pool (bget (x_trie s) m)).
  { intros m Hm. unfold t', tupd. rewrite bget_tset. destruct (nid_eqb n m) eqn:E; auto. apply nid_eqb_eq in E. congruence. }
  destruct (einv_pool s xl t' y n p p' I SS Hy HP GN GO K' (x_lv s) (x_len s)) as (I' & _ & D').
  destruct (nth_find p j (reverse64 k) Hj (po_n _ _ _ K)) as (l1 & l2 & EL & E2 & HL). specialize (HL Hi).
  assert (EL' : live p' = l1 ++ set_sval v' (slot_at p j) :: l2) by (rewrite L', EL, <- E2; apply upd_nth_app).
  assert (NP : nodel p').
  { intros sl. rewrite EL'. intros Hs. pose proof (ND _ _ _ Hy HP) as NDp. apply in_app_or in Hs as [Hs|[<-|Hs]].
    - apply NDp. rewrite EL. apply in_or_app; auto.
    - apply (NDp (slot_at p j)). rewrite EL. apply in_or_app; right; left; auto.
    - apply NDp. rewrite EL. apply in_or_app; right; right; auto. }
  split; [exact I'|]. split; [apply D'; auto|]. split; [reflexivity|]. split; [reflexivity|].
  unfold plist, stored. cbn [x_trie x_bl]. fold (stored s). rewrite (HT t' GO p' GN), ES, EL, EL'. split.
  - rewrite !map_app. cbn [map]. auto.
  - intros r. rewrite !map_app. cbn [map]. destruct (Z.eqb_spec r (reverse64 k)) as [->|NE].
    + rewrite first_mid.
      * rewrite (first_here (reverse64 k)); auto. intros z Hz. apply in_map_iff in Hz as (sl & <- & Hs). apply HL; auto.
      * intros x Hx E. destruct Hx as [Hx|Hx]; apply in_map_iff in Hx as (sl & <- & Hs); cbn [pr_rev pr fst] in E;
        (apply (HN sl); [auto|rewrite E; auto]).
    + rewrite !first_app. destruct (first_at r (map pr L1)); auto. destruct (first_at r (map pr l1)); auto.
      unfold first_at. cbn [find app pr_rev pr fst set_sval sl_rev]. rewrite Er.
      destruct (Z.eqb_spec (reverse64 k) r); [congruence|auto].
Qed.

(** * Creating an entry *)
Lemma nwin_pr a l l' : Permutation (map sl_rev l) (map sl_rev l') -> nwin a l = nwin a l'.
Proof.
  intros H. unfold nwin. f_equal.
  assert (G : forall l, List.length (filter (inwin a) l) = List.length (filter (fun r => (a <=? r) && (r <? a + 16)) (map sl_rev l))).
  { clear. induction l as [|x l IH]; cbn [map filter]; auto. unfold inwin at 1. destruct ((a <=? sl_rev x) && (sl_rev x <? a + 16)); cbn [List.length]; auto. }
  rewrite !G. clear G. induction H as [|x l1 l2 P IH|x z l1|l1 l2 l3 P1 IH1 P2 IH2]; cbn [filter]; auto.
  - destruct ((a <=? x) && (x <? a + 16)); cbn [List.length]; auto.
  - destruct ((a <=? x) && (x <? a + 16)), ((a <=? z) && (z <? a + 16)); cbn [List.length]; auto.
  - congruence.
Qed.
Lemma cset_new h s xl x v k conf : einvb false s xl -> enodel s -> key_to_hash h (KStr x) = Some (k, conf) ->
  eload s k conf = Ret None ->
  (forall a, (16 | a) -> nwin a (stored s) + (if (a <=? reverse64 k) && (reverse64 k <? a + 16) then 1 else 0) <= x_max s) ->
  exists s' xl', eset h s (KStr x) v = (s', Ret (RBool true)) /\ einvb false s' xl' /\ enodel s' /\
    x_max s' = x_max s /\ x_len s' = x_len s + 1 /\
    Permutation (map pr_rev (plist s')) (reverse64 k :: map pr_rev (plist s)) /\
    forall r, first_at r (plist s') = if r =? reverse64 k then Some (reverse64 k, conf, false, KStr x, v) else first_at r (plist s).
Proof.
  intros I ND HK EL HM.
  destruct (cload s xl k conf I ND) as [E|(b & p & y & L1 & L2 & (Hy & Eb & Ri & HP & K & ES & HN & HT) & _)]; [congruence|].
  unfold eset. rewrite HK, EL. cbv zeta. unfold pool_of.
  assert (BB : base (x_trie s) (base (x_trie s) (find_bucket (x_trie s) (reverse64 k))) = b).
  { rewrite <- Eb. apply (base_linked _ xl); [apply (ei_trie _ _ I)|]. apply (ei_adj_x s xl I _ _ Hy). }
  rewrite BB, HP. rewrite <- Eb.
  destruct (get_with_fn_okb p _ _ (reverse64 k) K (ND _ _ _ Hy HP) Ri) as (p1 & i & l1 & l2 & EG & EZ & EM & EN & HL1 & HL2 & HU).
  { discriminate. }
  rewrite EG, EZ. cbn [zero_slot sl_rev sl_conf sl_val sl_del sl_linked negb andb]. rewrite !Z.eqb_refl.
  destruct (set_value_zero v) as (ok & ->).
  set (fl := fun z : slot => mkS (reverse64 k) conf (sl_del z) (KStr x) v true).
  destruct (HU fl eq_refl) as (K1 & EM1 & ND1). specialize (ND1 (ND _ _ _ Hy HP) eq_refl).
  set (p2 := upd_slot p1 i fl) in *.
  unfold set_bpool, set_xtrie. cbn [x_trie x_bl x_lv x_len x_max].
  set (t' := tupd (x_trie s) b (fun z => set_pool z (Some p2))).
  assert (SS : same_shape (x_trie s) t') by (apply same_shape_tupd; intros; reflexivity).
  assert (GN : b_pool (bget t' b) = Some p2) by (unfold t', tupd; rewrite bget_tset, nid_eqb_refl; reflexivity).
  assert (GO : forall m, m <> b -> b_pool (bget t' m) = b_pool (bget (x_trie s) m)).
  { intros m Hm. unfold t', tupd. rewrite bget_tset. destruct (nid_eqb b m) eqn:E; auto. apply nid_eqb_eq in E. congruence. }
  destruct (einv_pool s xl t' y b p p2 I SS Hy HP GN GO K1 (x_lv s) (x_len s + 1)) as (I' & _ & D').
  set (s2 := mkX t' (x_bl s) (x_lv s) (x_len s + 1) (x_max s)) in *.
  change (pr (fl zero_slot)) with (reverse64 k, conf, false, KStr x, v) in EM1.
  assert (E2 : stored s2 = L1 ++ live p2 ++ L2) by (apply (HT t' GO p2 GN)).
  assert (PM : Permutation (map pr_rev (plist s2)) (reverse64 k :: map pr_rev (plist s))).
  { unfold plist. rewrite E2, ES, !map_app, EM1, EM, !map_app. cbn [map pr_rev fst].
    rewrite <- !app_assoc. cbn [app].
    rewrite (app_assoc _ (map pr_rev l1) (reverse64 k :: _)), (app_assoc _ (map pr_rev l1) (map pr_rev l2 ++ _)).
    apply Permutation_sym, Permutation_middle. }
  assert (FA : forall r, first_at r (plist s2) = if r =? reverse64 k then Some (reverse64 k, conf, false, KStr x, v) else first_at r (plist s)).
  { intros r. unfold plist. rewrite E2, ES, !map_app, EM1, EM. destruct (Z.eqb_spec r (reverse64 k)) as [->|NE].
    - rewrite first_mid; [apply (first_here (reverse64 k)); auto|].
      intros z Hx E. destruct Hx as [Hx|Hx]; apply in_map_iff in Hx as (sl & <- & Hs); cbn [pr_rev pr fst] in E;
        (apply (HN sl); [auto|rewrite E; auto]).
    - rewrite first_app, (first_app r (map pr L1)). destruct (first_at r (map pr L1)); auto.
      rewrite first_app, (first_app r (l1 ++ l2)). rewrite first_skip by (cbn [pr_rev fst]; auto). auto. }
  assert (NW : narrow (x_max s2) (live p2)).
  { intros a Ha. specialize (HM a Ha). cbn [s2 x_max].
    assert (NE : nwin a (live p2) <= nwin a (stored s2)).
    { rewrite E2, !nwin_app. pose proof (nwin_pos a L1). pose proof (nwin_pos a L2). lia. }
    etransitivity; [apply NE|]. etransitivity; [|apply HM].
    rewrite (nwin_pr a (stored s2) (fl zero_slot :: stored s)).
    - unfold nwin. cbn [filter]. change (inwin a (fl zero_slot)) with ((a <=? reverse64 k) && (reverse64 k <? a + 16)).
      destruct ((a <=? reverse64 k) && (reverse64 k <? a + 16)); cbn [List.length]; lia.
    - rewrite <- !map_pr_rev. exact PM. }
  assert (FIN : exists s3 xl', (if (reverse64 k <? MAX64) && (x_max s <? p_len p1) then make_bucket2 64 s2 b else Ret s2) = Ret s3 /\
    einvb false s3 xl' /\ enodel s3 /\ x_len s3 = x_len s2 /\ x_max s3 = x_max s2 /\ stored s3 = stored s2).
  { destruct ((reverse64 k <? MAX64) && (x_max s <? p_len p1)) eqn:EC.
    - apply andb_true_iff in EC as [_ EC]. apply Z.ltb_lt in EC.
      assert (Hy2 : adj (x_bl s2) y b) by exact Hy.
      destruct (gap_pow s2 xl y b I' Hy2) as (m & MU & M0). destruct Hy2 as (A & B & EAB).
      destruct (make_bucket2_gen 64 s2 xl A y b B p2 m I' (D' ND ND1) NW EAB GN EC MU M0) as (s3 & xl' & E3 & I3 & N3 & C3 & L3 & M3 & S3).
      exists s3, xl'. auto 10.
    - exists s2, xl. auto 10. }
  destruct FIN as (s3 & xl' & E3 & I3 & N3 & L3 & M3 & S3).
  rewrite E3.
  destruct (einv_same s3 xl' (tupd (x_trie s3) b (fun z => set_blen z (b_len z + 1))) (x_lv s3) (x_len s3) I3) as (I4 & C4 & N4).
  { apply same_shape_tupd; intros; reflexivity. }
  { intros m. unfold tupd. rewrite bget_tset. destruct (nid_eqb b m) eqn:E; auto. apply nid_eqb_eq in E. subst; auto. }
  assert (S4 : stored (mkX (tupd (x_trie s3) b (fun z => set_blen z (b_len z + 1))) (x_bl s3) (x_lv s3) (x_len s3) (x_max s3)) = stored s2).
  { rewrite <- S3. unfold stored. cbn [x_trie x_bl]. apply slist_ext. intros m _ _.
    unfold tupd. rewrite bget_tset. destruct (nid_eqb b m) eqn:E; auto. apply nid_eqb_eq in E. subst; auto. }
  eexists _, xl'. split; [reflexivity|]. split; [exact I4|]. split; [apply N4; auto|]. split; [exact M3|]. split; [exact L3|].
  unfold plist. rewrite S4. split; auto.
Qed.

(** * The relation with the specification *)
Record crel (mx : Z) (cs : list Z) (s : estate) (m : smap) : Prop := {
  cr_inv : exists xl, einvb false s xl;
  cr_nd : enodel s;
  cr_max : x_max s = mx;
  cr_view : sm_view m = KSample;
  cr_len : x_len s = sm_created m;
  cr_rev : Permutation (map pr_rev (plist s)) cs;
  cr_at : forall k c bd, 0 <= k < W64 -> (sm_map m (k, c) = Some bd <->
            exists key v, bd = mkBd KSample key v /\ first_at (reverse64 k) (plist s) = Some (reverse64 k, c, false, key, v)) }.

Lemma einv_weaken s xl : einv s xl -> einvb false s xl.
Proof.
  intros [A B C D]. constructor; auto. intros y c H. destruct (D y c H) as (p & E & K). exists p. split; auto. apply (pool_weaken (st := true)); auto.
Qed.
Lemma new_emb_crel max : 1 <= max -> crel max [] (new_emb max) (sm_empty KSample).
Proof.
  intros HM. destruct (new_emb_inv max HM) as (I & N & C).
  assert (E : plist (new_emb max) = []).
  { unfold plist. destruct (stored (new_emb max)) as [|sl l] eqn:ES; auto. exfalso.
    assert (Hs : In sl (stored (new_emb max))) by (rewrite ES; left; auto). clear ES.
    unfold stored, slist in Hs. apply in_flat_map in Hs as (n & Hn & Hs). rewrite <- in_rev in Hn.
    unfold of_bucket in Hs. destruct (nid_eqb n bmax) eqn:Em; [destruct Hs|].
    assert (NM : n <> bmax) by (intros ->; rewrite nid_eqb_refl in Em; discriminate).
    destruct (ei_pred _ _ I n Hn NM) as (u & Hu). destruct (ei_pool _ _ I u n Hu) as (q & HQ & KQ). rewrite HQ in Hs.
    apply (C (pr sl)). exists u, n, q. split; auto. split; auto. apply in_map; auto. }
  split.
  - exists init_bl. apply einv_weaken; auto.
  - auto.
  - reflexivity.
  - reflexivity.
  - reflexivity.
  - rewrite E. constructor.
  - intros k c bd Hk. rewrite E. cbn [sm_empty sm_map]. split; [discriminate|]. intros (key & v & _ & H). discriminate.
Qed.

Lemma first_rev s r x : first_at r (plist s) = Some x -> pr_rev x = r.
Proof. intros H. apply find_some in H as [_ H]. lia. Qed.

(** what a lookup tells about the specification *)
Lemma cload_rel mx cs s m k c : crel mx cs s m -> 0 <= k < W64 ->
  eload s k c = Div \/
  exists xl n p y L1 L2, einvb false s xl /\ @found false s k n p y L1 L2 /\
   ((exists j, eload s k c = Ret (Some (n, j)) /\ item_at s n j = slot_at p j /\ (j < p_n p)%nat /\
     sl_rev (slot_at p j) = reverse64 k /\ sl_conf (slot_at p j) = c /\ sl_del (slot_at p j) = false /\
     (forall i, (i < j)%nat -> sl_rev (slot_at p i) < reverse64 k) /\
     (forall c', c' <> c -> sm_map m (k, c') = None) /\
     sm_map m (k, c) = Some (mkBd KSample (sl_key (slot_at p j)) (sl_val (slot_at p j)))) \/
   (eload s k c = Ret None /\ sm_map m (k, c) = None)).
Proof.
  intros H Hk. destruct (cr_inv _ _ _ _ H) as (xl & I).
  destruct (cload s xl k c I (cr_nd _ _ _ _ H)) as [E|(n & p & y & L1 & L2 & F & M)]; auto.
  right. exists xl, n, p, y, L1, L2. split; auto. split; auto.
  assert (NONE : forall c', (forall key v, first_at (reverse64 k) (plist s) <> Some (reverse64 k, c', false, key, v)) -> sm_map m (k, c') = None).
  { intros c' HN. destruct (sm_map m (k, c')) eqn:EM; auto. exfalso. apply (cr_at _ _ _ _ H) in EM as (key & v & _ & EM); auto. eapply HN; eauto. }
  destruct (first_at (reverse64 k) (plist s)) as [[[[[r c'] d] key] v]|] eqn:EF.
  - destruct M as (j & Hj & EP & Hi & EL). unfold pr in EP. injection EP as E1 E2 E3 E4 E5.
    pose proof EF as EF'. apply first_rev in EF'. cbn [pr_rev fst] in EF'. subst r.
    assert (D : d = false).
    { apply find_some in EF as [EF _]. apply in_map_iff in EF as (sl & Es & Hs). unfold pr in Es. injection Es as _ _ <- _ _.
      unfold stored, slist in Hs. apply in_flat_map in Hs as (q & Hq & Hs). rewrite <- in_rev in Hq.
      unfold of_bucket in Hs. destruct (nid_eqb q bmax) eqn:Em; [destruct Hs|].
      assert (NM : q <> bmax) by (intros ->; rewrite nid_eqb_refl in Em; discriminate).
      destruct (ei_pred _ _ I q Hq NM) as (u & Hu). destruct (ei_pool _ _ I u q Hu) as (w & HQ & KQ). rewrite HQ in Hs.
      apply (cr_nd _ _ _ _ H u q w Hu HQ sl Hs). }
    subst d. destruct (Z.eqb_spec c' c) as [->|NE].
    + left. exists j. split; auto. split; [unfold item_at; destruct F as (_ & _ & _ & -> & _); auto|].
      split; auto. split; auto. split; auto. split; auto. split; auto. split.
      * intros c' Nc. apply NONE. intros key' v' X. congruence.
      * apply (cr_at _ _ _ _ H); auto. exists key, v. split; auto. congruence.
    + right. split; auto. apply NONE. intros key' v' X. congruence.
  - right. split; auto. apply NONE. discriminate.
Qed.

Definition cagrees mx cs (s : estate) (r : res out) (e : out) (s' : estate) (m' : smap) : Prop :=
  (r = Div /\ s' = s) \/ (seen r = Some e /\ crel mx cs s' m').
Lemma cget_agrees mx cs s m k c : crel mx cs s m -> 0 <= k < W64 ->
  cagrees mx cs s (snd (eget s k c)) (sm_get m (k, c)) (fst (eget s k c)) m.
Proof.
  intros H Hk. unfold eget, sm_get.
  destruct (cload_rel mx cs s m k c H Hk) as [->|(xl & n & p & y & L1 & L2 & _ & _ & [(j & -> & HI & _ & _ & _ & _ & _ & _ & ->)|(-> & ->)])]; cbn [fst snd]; [left; auto|right|right].
  - rewrite HI. auto.
  - auto.
Qed.
Lemma cget_item_agrees mx cs s m k c : crel mx cs s m -> 0 <= k < W64 ->
  cagrees mx cs s (snd (eget_item s k c)) (sm_load m (k, c)) (fst (eget_item s k c)) m.
Proof.
  intros H Hk. unfold eget_item, sm_load.
  destruct (cload_rel mx cs s m k c H Hk) as [->|(xl & n & p & y & L1 & L2 & _ & _ & [(j & -> & HI & _ & _ & _ & _ & _ & _ & ->)|(-> & ->)])]; cbn [fst snd]; [left; auto|right|right].
  - rewrite HI, (cr_view _ _ _ _ H). auto.
  - auto.
Qed.

(** positions created by one call *)
Definition fresh_pos (h : hashes) (m : smap) (o : op) : list Z :=
  match writes h o with
  | Some p => match sm_map m p with None => [reverse64 (fst p)] | Some _ => [] end
  | None => []
  end.
Definition blocks_ok (mx : Z) (cs : list Z) : Prop :=
  forall a, Z.of_nat (List.length (filter (fun r => r / 16 =? a) cs)) <= mx.
Lemma block_nwin a l : (16 | a) -> nwin a l = Z.of_nat (List.length (filter (fun r => r / 16 =? a / 16) (map sl_rev l))).
Proof.
  intros [q ->]. unfold nwin. f_equal. rewrite Z.div_mul by lia. induction l as [|x l IH]; cbn [map filter]; auto.
  unfold inwin at 1. assert (E : (q * 16 <=? sl_rev x) && (sl_rev x <? q * 16 + 16) = (sl_rev x / 16 =? q)).
  { apply eq_true_iff_eq. rewrite andb_true_iff, Z.leb_le, Z.ltb_lt, Z.eqb_eq.
    pose proof (Z.div_mod (sl_rev x) 16 ltac:(lia)). pose proof (Z.mod_pos_bound (sl_rev x) 16 ltac:(lia)). lia. }
  rewrite E. destruct (sl_rev x / 16 =? q); cbn [List.length]; auto.
Qed.
Lemma filter_perm {A} (f : A -> bool) l l' : Permutation l l' -> List.length (filter f l) = List.length (filter f l').
Proof.
  intros P. induction P as [|x l1 l2 P IH|x z l1|l1 l2 l3 P1 IH1 P2 IH2]; cbn [filter]; auto.
  - destruct (f x); cbn [List.length]; auto.
  - destruct (f x), (f z); cbn [List.length]; auto.
  - congruence.
Qed.

Lemma cset_agrees h mx cs s m x v : crel mx cs s m -> blocks_ok mx (cs ++ fresh_pos h m (OpSet (KStr x) v)) ->
  cagrees mx (fresh_pos h m (OpSet (KStr x) v) ++ cs) s (snd (eset h s (KStr x) v)) (snd (newest_step h m (OpSet (KStr x) v)))
         (fst (eset h s (KStr x) v)) (fst (newest_step h m (OpSet (KStr x) v))).
Proof.
  intros H HC. destruct (key_to_hash h (KStr x)) as [[k c]|] eqn:EK; [|discriminate].
  destruct (key_range _ _ _ _ EK) as [Hk Hc]. unfold newest_step, fresh_pos in *. cbn [writes] in *. rewrite EK in *.
  cbn [sm_step]. rewrite EK. cbn [evict sm_map fst snd]. rewrite !Z.eqb_refl. cbn [andb negb].
  destruct (cload_rel mx cs s m k c H Hk) as [E|(xl & n & p & y & L1 & L2 & I & F & [(j & E & HI & Hj & Hr & Hcf & DD & Hi & OT & EM)|(E & EM)])].
  - left. unfold eset. rewrite EK, E. auto.
  - right. rewrite EM. unfold eset. rewrite EK, E. unfold eupdate, sm_update. rewrite HI. cbn [evict sm_view]. rewrite (cr_view _ _ _ _ H).
    rewrite set_value_assign. cbn [bd_val bd_kind bd_key app].
    assert (EV : forall k' c', (if (k' =? k) && negb (c' =? c) then None else sm_map m (k', c')) = sm_map m (k', c')).
    { intros k' c'. destruct (Z.eqb_spec k' k) as [->|]; auto. destruct (Z.eqb_spec c' c) as [->|N]; auto.
      cbn [andb negb]. symmetry. auto. }
    destruct (assign KSample (sl_val (slot_at p j)) v) as [[v' ok]|]; cbn [fst snd].
    2:{ split; [reflexivity|]. destruct H. constructor; auto. cbn [evict sm_map fst snd]. intros k' c' bd Hk'.
        rewrite EV. auto. }
    split; [reflexivity|].
    destruct (cupd s xl k n p y L1 L2 j v' I (cr_nd _ _ _ _ H) F Hj Hr Hi) as (I' & N' & M' & L' & R' & F').
    constructor; cbn [sm_view sm_created sm_map]; auto.
    + exists xl; auto.
    + rewrite M'. apply (cr_max _ _ _ _ H).
    + rewrite L'. apply (cr_len _ _ _ _ H).
    + rewrite R'. apply (cr_rev _ _ _ _ H).
    + intros k' c' bd Hk'. rewrite sm_put_eq. cbn [evict sm_map fst snd]. rewrite EV. rewrite F'.
      assert (EP : pr (set_sval v' (slot_at p j)) = (reverse64 k, c, false, sl_key (slot_at p j), v')).
      { unfold pr, set_sval. cbn [sl_rev sl_conf sl_del sl_key sl_val]. rewrite Hr, Hcf, DD. auto. }
      rewrite EP. destruct (pair_eqb_spec (k, c) (k', c')) as [Ep|Np].
      * injection Ep as <- <-. rewrite Z.eqb_refl. split.
        -- intros Eb. injection Eb as <-. eexists _, _. split; [reflexivity|]. auto.
        -- intros (key & w & -> & HX). injection HX as <- <-. auto.
      * destruct (Z.eqb_spec (reverse64 k') (reverse64 k)) as [Er|NE].
        -- apply reverse64_inj in Er; auto. subst k'. rewrite OT by congruence. split; [discriminate|].
           intros (key & w & -> & HX). exfalso. congruence.
        -- apply (cr_at _ _ _ _ H); auto.
  - right. rewrite EM in *. cbn [fst snd app] in *.
    destruct (cset_new h s xl x v k c I (cr_nd _ _ _ _ H) EK E) as (s' & xl' & ES & I' & N' & M' & L' & R' & F').
    { intros a Ha. rewrite (block_nwin a _ Ha), (cr_max _ _ _ _ H). specialize (HC (a / 16)).
      rewrite filter_app, app_length in HC. rewrite <- map_pr_rev. fold (plist s).
      rewrite (filter_perm _ _ _ (cr_rev _ _ _ _ H)). cbn [filter] in HC.
      assert (X : (a <=? reverse64 k) && (reverse64 k <? a + 16) = (reverse64 k / 16 =? a / 16)).
      { destruct Ha as [q ->]. rewrite Z.div_mul by lia. apply eq_true_iff_eq. rewrite andb_true_iff, Z.leb_le, Z.ltb_lt, Z.eqb_eq.
        pose proof (Z.div_mod (reverse64 k) 16 ltac:(lia)). pose proof (Z.mod_pos_bound (reverse64 k) 16 ltac:(lia)). lia. }
      rewrite X. destruct (reverse64 k / 16 =? a / 16); cbn [List.length] in HC; lia. }
    rewrite ES. cbn [fst snd]. split; [reflexivity|].
    constructor; cbn [sm_view sm_created sm_map]; auto.
    + exists xl'; auto.
    + rewrite M'. apply (cr_max _ _ _ _ H).
    + rewrite L', (cr_len _ _ _ _ H). reflexivity.
    + rewrite R'. constructor. apply (cr_rev _ _ _ _ H).
    + intros k' c' bd Hk'. rewrite sm_put_eq. cbn [evict sm_map fst snd]. rewrite F'.
      destruct (pair_eqb_spec (k, c) (k', c')) as [Ep|Np].
      * injection Ep as <- <-. rewrite Z.eqb_refl. split.
        -- intros Eb. injection Eb as <-. eexists _, _. split; [reflexivity|]. auto.
        -- intros (key & w & -> & HX). injection HX as <- <-. auto.
      * destruct (Z.eqb_spec k' k) as [->|Nk].
        -- rewrite Z.eqb_refl. destruct (Z.eqb_spec c' c) as [->|Nc]; [congruence|]. cbn [andb negb]. split; [discriminate|].
           intros (key & w & -> & HX). exfalso. congruence.
        -- cbn [andb]. destruct (Z.eqb_spec (reverse64 k') (reverse64 k)) as [Er|NE]; [exfalso; apply Nk; apply reverse64_inj in Er; auto|].
           apply (cr_at _ _ _ _ H); auto.
Qed.

Lemma cstep_agrees h mx cs s m o : crel mx cs s m -> store_or_read o -> blocks_ok mx (cs ++ fresh_pos h m o) ->
  cagrees mx (fresh_pos h m o ++ cs) s (snd (estep h s o)) (snd (newest_step h m o)) (fst (estep h s o)) (fst (newest_step h m o)).
Proof.
  intros H HO HC. destruct o as [key v|i|key|k c|key|k c|key|key|]; try contradiction; cbn [estep].
  - destruct HO as (x & ->). apply cset_agrees; auto.
  - unfold fresh_pos, newest_step. cbn [writes sm_step fst snd app]. unfold ewith. destruct (key_to_hash h key) as [[k c]|] eqn:EK; [|right; auto].
    apply cget_agrees; auto. apply (proj1 (key_range _ _ _ _ EK)).
  - unfold fresh_pos, newest_step. cbn [writes sm_step fst snd app]. apply cget_agrees; auto using u64_range.
  - unfold fresh_pos, newest_step. cbn [writes sm_step fst snd app]. unfold ewith. destruct (key_to_hash h key) as [[k c]|] eqn:EK; [|right; auto].
    apply cget_item_agrees; auto. apply (proj1 (key_range _ _ _ _ EK)).
  - unfold fresh_pos, newest_step. cbn [writes sm_step fst snd app]. apply cget_item_agrees; auto using u64_range.
  - unfold fresh_pos, newest_step. cbn [writes sm_step fst snd app]. right. cbn [seen]. rewrite (cr_len _ _ _ _ H). auto.
Qed.

Lemma blocks_perm mx l l' : Permutation l l' -> blocks_ok mx l -> blocks_ok mx l'.
Proof. intros P H a. rewrite <- (filter_perm _ _ _ P). apply H. Qed.
Lemma blocks_app mx l l' : blocks_ok mx (l ++ l') -> blocks_ok mx l.
Proof. intros H a. specialize (H a). rewrite filter_app, app_length in H. lia. Qed.
Lemma crun_agrees h mx : forall os cs s m, crel mx cs s m -> Forall store_or_read os -> blocks_ok mx (cs ++ creations h m os) ->
  agree (eouts h s os) (newest_outs h m os).
Proof.
  induction os as [|o os IH]; intros cs s m H HF HB; cbn [eouts newest_outs agree]; auto.
  apply Forall_cons_iff in HF as [HO HF]. cbn [creations] in HB. fold (fresh_pos h m o) in HB. rewrite app_assoc in HB.
  pose proof (cstep_agrees h mx cs s m o H HO (blocks_app _ _ _ HB)) as A.
  destruct (estep h s o) as [s' r]. cbn [fst snd] in A. destruct A as [[-> ->]|[E A]].
  - cbn [stops]. left; auto.
  - assert (ST : stops r = false) by (destruct r; cbn in *; congruence). rewrite ST. right. split; auto.
    apply (IH _ s' (fst (newest_step h m o)) A HF). eapply blocks_perm; [|exact HB].
    apply Permutation_app_tail. apply Permutation_app_comm.
Qed.
