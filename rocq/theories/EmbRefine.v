(** The embedded map implements Spec.v for histories without Delete, Purge and StoreItem. *)
From Verif Require Import Base BaseProofs Util UtilProofs Bucket TrieProofs TrieInv TrieGrow MapModel ItemProofs MapInv MapSplit
  MapInit Spec MapRefine EmbModel EmbPool EmbTrie EmbInv EmbSplit EmbSpec.
From Coq Require Import ZifyBool Sorted.
Local Open Scope Z_scope.
Local Opaque reverse64 level_of base find_bucket.

(** * The empty map *)
Lemma emb_trie_shape max : same_shape init_trie (emb_trie max).
Proof.
  intros n. unfold bget, emb_trie, init_trie. cbn [tget].
  destruct (nid_eqb bmax n); [auto|].
  induction idx16 as [|i l IH]; cbn [map tget]; auto. destruct (nid_eqb (top i) n); auto.
Qed.
Lemma init_pairs x c : adj init_bl x c -> In (x, c) (pairs init_bl).
Proof. intros (a & b & ->). apply pairs_in. Qed.
Lemma emb_ext : ext init_trie init_bl init_bl.
Proof.
  unfold init_bl. cbn [map rev idx16 app].
  repeat first [ apply ext_one
    | apply (ext_cons init_trie _ _ 60 []);
      [split; [vm_compute; reflexivity|split; [match goal with |- (_ | ?y) => exists (y / 2 ^ 60); vm_compute; reflexivity end|split; [lia|left; reflexivity]]]|] ].
Qed.
Lemma emb_pool_top max c y : adj init_bl y c ->
  b_pool (bget (emb_trie max) c) = Some (mkP (repeat zero_slot (Z.to_nat (max * 3 / 2))) 0).
Proof.
  intros H. apply init_pairs in H. cbn in H. each H; injection H as <- <-; reflexivity.
Qed.
Lemma new_emb_pool_empty max : live (mkP (repeat zero_slot (Z.to_nat (max * 3 / 2))) 0) = [].
Proof. reflexivity. Qed.
Lemma new_emb_inv max : 1 <= max -> einv (new_emb max) init_bl /\ enodel (new_emb max) /\ (forall x, ~ cont (new_emb max) x).
Proof.
  intros HM.
  assert (SS := emb_trie_shape max).
  assert (HB : forall n, brev (emb_trie max) n = brev init_trie n) by (intros; symmetry; apply same_shape_brev; auto).
  split; [constructor; cbn [new_emb x_trie x_bl]|split].
  - apply (trie_ok_shape init_trie); auto. apply init_trie_ok.
  - intros n Hn N. rewrite HB. cbn in Hn.
    each Hn; subst n; try congruence; match goal with |- (_ | ?y) => exists (y / 16); vm_compute; reflexivity end.
  - apply (ext_change init_trie); auto using emb_ext.
    + intros n Hn Hn'. contradiction.
    + eapply sorted_nodup. apply (tk_sorted _ _ init_trie_ok).
  - intros y c H. eexists. split; [apply (emb_pool_top max c y H)|].
    assert (1 <= max * 3 / 2) by (apply Z.div_le_lower_bound; lia).
    constructor; try rewrite new_emb_pool_empty.
    + unfold p_cap. cbn [p_len p_slots]. rewrite repeat_length. lia.
    + unfold p_cap. cbn [p_slots]. rewrite repeat_length. lia.
    + constructor.
    + intros sl [].
    + intros sl Hin. cbn [p_n p_len p_slots] in Hin. change (Z.to_nat 0) with 0%nat in Hin. cbn [skipn] in Hin. apply repeat_spec in Hin. auto.
  - intros y c p H HP. cbn [new_emb x_trie x_bl] in *. rewrite (emb_pool_top max c y H) in HP. injection HP as <-. intros sl [].
  - intros x (y & c & p & H & HP & Hin). cbn [new_emb x_trie x_bl] in *.
    rewrite (emb_pool_top max c y H) in HP. injection HP as <-. destruct Hin.
Qed.

(** * Lookup *)
Definition hit (s : estate) (k c : Z) (n : nid) (j : nat) (p : pool) : Prop :=
  exists y, adj (x_bl s) y n /\ b_pool (bget (x_trie s) n) = Some p /\
    pool_ok p (brev (x_trie s) n) (up (x_trie s) y) /\ (j < p_n p)%nat /\
    sl_rev (slot_at p j) = reverse64 k /\ sl_conf (slot_at p j) = c /\
    (sl_del (slot_at p j) = false \/ j = 0%nat).
Lemma eload_spec s xl k c : einv s xl ->
  eload s k c = Div \/
  (exists n j p, eload s k c = Ret (Some (n, j)) /\ hit s k c n j p) \/
  (eload s k c = Ret None /\ exists y n p, adj (x_bl s) y n /\ n = base (x_trie s) (find_bucket (x_trie s) (reverse64 k)) /\
     brev (x_trie s) n <= reverse64 k < up (x_trie s) y /\ b_pool (bget (x_trie s) n) = Some p /\
     pool_ok p (brev (x_trie s) n) (up (x_trie s) y) /\
     forall j, (j < p_n p)%nat -> sl_rev (slot_at p j) = reverse64 k ->
       sl_conf (slot_at p j) <> c \/ (sl_del (slot_at p j) = true /\ (0 < j)%nat)).
Proof.
  intros I. unfold eload. pose proof (reverse64_range k) as R.
  destruct (pool_of (x_trie s) (find_bucket (x_trie s) (reverse64 k))) as [p|] eqn:EP; [|auto]. right.
  destruct (ei_route s xl I _ p R EP) as (y & Hy & Ri & HP & K).
  set (n := base (x_trie s) (find_bucket (x_trie s) (reverse64 k))) in *.
  assert (MISS : (forall j, (j < p_n p)%nat -> sl_rev (slot_at p j) = reverse64 k ->
       sl_conf (slot_at p j) <> c \/ (sl_del (slot_at p j) = true /\ (0 < j)%nat)) ->
     exists y n0 p0, adj (x_bl s) y n0 /\ n0 = n /\ brev (x_trie s) n0 <= reverse64 k < up (x_trie s) y /\
       b_pool (bget (x_trie s) n0) = Some p0 /\
     pool_ok p0 (brev (x_trie s) n0) (up (x_trie s) y) /\
     forall j, (j < p_n p0)%nat -> sl_rev (slot_at p0 j) = reverse64 k ->
       sl_conf (slot_at p0 j) <> c \/ (sl_del (slot_at p0 j) = true /\ (0 < j)%nat)).
  { intros H. exists y, n, p. auto 8. }
  destruct (emb_search p (reverse64 k)) as [i|] eqn:ES.
  - destruct (search_some _ _ _ _ K i ES) as [Hi _].
    destruct (Z.eqb_spec (sl_rev (slot_at p i)) (reverse64 k)) as [E1|N1]; cbn [andb].
    + assert (HV : sl_del (slot_at p i) = false \/ i = 0%nat).
      { destruct (sl_del (slot_at p i)) eqn:ED; auto. right. destruct i as [|i]; auto.
        rewrite (search_hidden _ _ _ _ K (S i) Hi E1 ED ltac:(lia)) in ES. discriminate. }
      destruct (Z.eqb_spec (sl_conf (slot_at p i)) c) as [E2|N2].
      * left. exists n, i, p. split; auto. exists y. auto 8.
      * right. split; auto. apply MISS. intros j Hj Ej. rewrite (slot_inj _ _ _ j i K Hj Hi) by congruence. auto.
    + right. split; auto. apply MISS. intros j Hj Ej. right.
      destruct (sl_del (slot_at p j)) eqn:ED.
      * split; auto. destruct j as [|j]; [|lia].
        rewrite (search_hit _ _ _ _ K 0%nat Hj Ej (or_intror eq_refl)) in ES. injection ES as <-. congruence.
      * rewrite (search_hit _ _ _ _ K j Hj Ej (or_introl ED)) in ES. injection ES as <-. congruence.
  - right. split; auto. apply MISS. intros j Hj Ej. right.
    destruct (sl_del (slot_at p j)) eqn:ED.
    + split; auto. destruct j as [|j]; [|lia].
      rewrite (search_hit _ _ _ _ K 0%nat Hj Ej (or_intror eq_refl)) in ES. discriminate.
    + rewrite (search_hit _ _ _ _ K j Hj Ej (or_introl ED)) in ES. discriminate.
Qed.

(** * Changing one slot *)
Lemma prj_dec (a b : prj) : {a = b} + {a <> b}.
Proof. unfold prj in *. repeat decide equality. Qed.
Lemma upd_item_spec s xl k c n j p f : einv s xl -> hit s k c n j p ->
  (forall sl, sl_rev (f sl) = sl_rev sl) ->
  let p' := upd_slot p j f in
  let s' := upd_item s n j f in
  einv s' xl /\ x_max s' = x_max s /\ x_len s' = x_len s /\ x_bl s' = x_bl s /\
  (forall m, brev (x_trie s') m = brev (x_trie s) m) /\
  b_pool (bget (x_trie s') n) = Some p' /\ (forall m, m <> n -> b_pool (bget (x_trie s') m) = b_pool (bget (x_trie s) m)) /\
  (forall x, cont s' x <-> (x = pr (f (slot_at p j)) \/ (cont s x /\ pr_rev x <> reverse64 k))) /\
  (enodel s -> sl_del (f (slot_at p j)) = false -> enodel s').
Proof.
  intros I (y & Hy & HP & K & Hj & Hr & Hc & Hv) Hf p' s'.
  destruct (upd_slot_ok p _ _ j f K Hj (Hf _)) as (K' & L' & N' & S').
  unfold s', upd_item. rewrite HP. unfold set_bpool, set_xtrie. fold p' in K', L', N', S' |- *.
  set (t' := tupd (x_trie s) n (fun b => set_pool b (Some p'))).
  assert (SS : same_shape (x_trie s) t') by (apply same_shape_tupd; intros; reflexivity).
  assert (GN : b_pool (bget t' n) = Some p').
  { unfold t', tupd. rewrite bget_tset, nid_eqb_refl. reflexivity. }
  assert (GO : forall m, m <> n -> b_pool (bget t' m) = b_pool (bget (x_trie s) m)).
  { intros m Hm. unfold t', tupd. rewrite bget_tset. destruct (nid_eqb n m) eqn:E; auto.
    apply nid_eqb_eq in E. congruence. }
  destruct (einv_pool s xl t' y n p p' I SS Hy HP GN GO K' (x_lv s) (x_len s)) as (I' & C' & D').
  split; [exact I'|]. split; [reflexivity|]. split; [reflexivity|]. split; [reflexivity|].
  split; [intros; symmetry; apply same_shape_brev; auto|]. split; [exact GN|]. split; [exact GO|]. split.
  - intros x. rewrite C'. clear C' D'.
    destruct (upd_nth_split j (f (slot_at p j)) zero_slot (live p)) as (l1 & l2 & E1 & E2 & E3).
    { rewrite (live_length _ _ _ K). auto. }
    rewrite live_nth in E1 by auto. rewrite L', E3. rewrite map_app. cbn [map]. rewrite in_app_iff. cbn [In].
    assert (INL : forall z, In z (map pr (live p)) <-> In z (map pr l1) \/ pr (slot_at p j) = z \/ In z (map pr l2)).
    { intros z. rewrite E1, map_app. cbn [map]. rewrite in_app_iff. cbn [In]. tauto. }
    assert (OTH : forall z, In z (map pr l1) \/ In z (map pr l2) -> cont s z /\ pr_rev z <> reverse64 k).
    { intros z Hz. split; [exists y, n, p; split; auto; split; auto; apply INL; tauto|].
      pose proof (po_sorted _ _ _ K) as SO. rewrite E1, map_app in SO. cbn [map] in SO.
      apply sorted_app in SO as (SO1 & SO2 & SO3). apply StronglySorted_inv in SO2 as [SO2 F].
      destruct Hz as [Hz|Hz]; apply in_map_iff in Hz as (sl & <- & Hs); cbn [pr_rev pr fst]; rewrite <- Hr.
      - assert (sl_rev sl < sl_rev (slot_at p j)); [|lia].
        apply SO3; [apply in_map; auto|left; auto].
      - rewrite Forall_forall in F. assert (sl_rev (slot_at p j) < sl_rev sl); [|lia].
        apply F. apply in_map; auto. }
    split.
    + intros [[Hx|[<-|Hx]]|[Cx Nx]]; [right; apply OTH; auto|left; reflexivity|right; apply OTH; auto|].
      right. split; auto. intros Ex. apply Nx.
      apply (cont_here s xl I (reverse64 k) y n p x Hy); auto.
      rewrite <- Hr. apply (po_rng _ _ _ K). eapply live_in; eauto.
    + intros [->|[Cx Nx]]; [left; right; left; auto|].
      destruct (in_dec prj_dec x (map pr (live p))) as [Hin|Hn]; auto.
      apply INL in Hin as [Hin|[<-|Hin]]; auto.
  - intros ND HD. apply D'; auto. intros sl Hsl. rewrite L' in Hsl.
    destruct (upd_nth_split j (f (slot_at p j)) zero_slot (live p)) as (l1 & l2 & E1 & E2 & E3).
    { rewrite (live_length _ _ _ K). auto. }
    rewrite E3 in Hsl. apply in_app_or in Hsl as [H|[<-|H]]; auto.
    + apply (ND y n p Hy HP). rewrite E1. apply in_or_app; auto.
    + apply (ND y n p Hy HP). rewrite E1. apply in_or_app; right; right; auto.
Qed.

(** * Storing a new key *)
Lemma set_value_zero v : exists ok, set_value KSample GNil v = Some (v, ok).
Proof. destruct v; cbn; eauto. Qed.
Lemma gap_pow {st} s xl y b : einvb st s xl -> adj (x_bl s) y b ->
  exists m, up (x_trie s) y = brev (x_trie s) b + 2 ^ m /\ 0 <= m <= 64.
Proof.
  intros I H. pose proof (ei_adj_x s xl I _ _ H) as [Hy Hb]. pose proof (ei_adj_ne s xl I _ _ H) as Nb.
  destruct H as (A & B & E). pose proof (ei_ext _ _ I) as EXT. rewrite E in EXT.
  destruct (ext_at _ _ _ _ _ _ EXT) as (xa & ds & xb & m & _ & _ & (MU & _ & M0 & _) & _).
  exists m. split; auto. split; auto.
  assert (U : up (x_trie s) y <= W64).
  { unfold up. destruct (nid_eqb y bmax) eqn:Ey; [lia|].
    assert (Ny : y <> bmax) by (intros ->; rewrite nid_eqb_refl in Ey; discriminate).
    destruct (tk_bl _ _ (ei_trie _ _ I) _ Hy) as [Py _]. destruct y as [l' v'].
    destruct (tk_node _ _ (ei_trie _ _ I) l' v' Py Ny) as (_ & HV' & _ & _ & HR' & _). lia. }
  assert (0 <= brev (x_trie s) b).
  { destruct (tk_bl _ _ (ei_trie _ _ I) _ Hb) as [Pb _]. destruct b as [l' v'].
    destruct (tk_node _ _ (ei_trie _ _ I) l' v' Pb Nb) as (_ & HV' & _ & _ & HR' & _). lia. }
  destruct (Z_le_gt_dec m 64); auto. exfalso.
  assert (2 ^ 65 <= 2 ^ m) by (apply Z.pow_le_mono_r; lia). change (2 ^ 65) with (2 * W64) in *. pose proof W64_pos. lia.
Qed.

Lemma eset_new h s xl x v k conf : einv s xl -> enodel s -> 16 <= x_max s -> key_to_hash h (KStr x) = Some (k, conf) ->
  eload s k conf = Ret None -> (forall z, cont s z -> pr_rev z <> reverse64 k) ->
  exists s' xl', eset h s (KStr x) v = (s', Ret (RBool true)) /\ einv s' xl' /\ enodel s' /\
    x_max s' = x_max s /\ x_len s' = x_len s + 1 /\
    (forall z, cont s' z <-> (z = (reverse64 k, conf, false, KStr x, v) \/ cont s z)) /\
    ((forall y b p, adj (x_bl s) y b -> b_pool (bget (x_trie s) b) = Some p ->
        brev (x_trie s) b <= reverse64 k < up (x_trie s) y -> p_len p < x_max s) ->
     x_bl s' = x_bl s /\ xl' = xl /\ same_shape (x_trie s) (x_trie s')).
Proof.
  intros I ND HM HK EL HF. pose proof (reverse64_range k) as R.
  destruct (eload_spec s xl k conf I) as [E|[(n & j & p & E & _)|(_ & y & b & p & Hy & Eb & Ri & HP & K & _)]];
    [congruence|congruence|].
  unfold eset. rewrite HK, EL. cbv zeta. unfold pool_of.
  assert (BB : base (x_trie s) (base (x_trie s) (find_bucket (x_trie s) (reverse64 k))) = b).
  { rewrite <- Eb. apply (base_linked _ xl); [apply (ei_trie _ _ I)|]. apply (ei_adj_x s xl I _ _ Hy). }
  rewrite BB, HP. rewrite <- Eb.
  assert (NP : forall sl, In sl (live p) -> sl_rev sl <> reverse64 k).
  { intros sl Hs E. apply (HF (pr sl)); [|exact E]. exists y, b, p. split; auto. split; auto. apply in_map; auto. }
  destruct (get_with_fn_ok p _ _ (reverse64 k) K (ND _ _ _ Hy HP) Ri NP) as (p1 & i & l1 & l2 & EG & ES & EM & EN & HL1 & HL2 & HU).
  rewrite EG, ES. cbn [zero_slot sl_rev sl_conf sl_val sl_del sl_linked negb andb]. rewrite !Z.eqb_refl.
  destruct (set_value_zero v) as (ok & ->).
  set (fl := fun z : slot => mkS (reverse64 k) conf (sl_del z) (KStr x) v true).
  destruct (HU fl eq_refl) as (K1 & EM1 & ND1). specialize (ND1 (ND _ _ _ Hy HP) eq_refl).
  set (p2 := upd_slot p1 i fl) in *.
  unfold set_bpool, set_xtrie. cbn [x_trie x_bl x_lv x_len x_max].
  set (t' := tupd (x_trie s) b (fun z => set_pool z (Some p2))).
  assert (SS : same_shape (x_trie s) t') by (apply same_shape_tupd; intros; reflexivity).
  assert (GN : b_pool (bget t' b) = Some p2) by (unfold t', tupd; rewrite bget_tset, nid_eqb_refl; reflexivity).
  assert (GO : forall m, m <> b -> b_pool (bget t' m) = b_pool (bget (x_trie s) m)).
  { intros m Hm. unfold t', tupd. rewrite bget_tset. destruct (nid_eqb b m) eqn:E; auto.
    apply nid_eqb_eq in E. congruence. }
  destruct (einv_pool s xl t' y b p p2 I SS Hy HP GN GO K1 (x_lv s) (x_len s + 1)) as (I' & C' & D').
  set (s2 := mkX t' (x_bl s) (x_lv s) (x_len s + 1) (x_max s)) in *.
  assert (CC : forall z, cont s2 z <-> (z = (reverse64 k, conf, false, KStr x, v) \/ cont s z)).
  { intros z. rewrite C', EM1, EM, !in_app_iff. cbn [In].
    assert (PC : In z l1 \/ In z l2 -> cont s z).
    { intros H. exists y, b, p. split; auto. split; auto. rewrite EM. apply in_or_app; auto. }
    change (pr (fl zero_slot)) with (reverse64 k, conf, false, KStr x, v).
    split.
    - intros [[H|[<-|H]]|[H _]]; auto.
    - intros [->|H]; auto. destruct (in_dec prj_dec z l1); auto. destruct (in_dec prj_dec z l2); auto. right. tauto. }
  assert (FIN : exists s3 xl', (if (reverse64 k <? MAX64) && (x_max s <? p_len p1) then make_bucket2 64 s2 b else Ret s2) = Ret s3 /\
    einv s3 xl' /\ enodel s3 /\ (forall z, cont s3 z <-> cont s2 z) /\ x_len s3 = x_len s2 /\ x_max s3 = x_max s2 /\
    (p_len p < x_max s -> x_bl s3 = x_bl s /\ xl' = xl /\ same_shape (x_trie s) (x_trie s3))).
  { destruct ((reverse64 k <? MAX64) && (x_max s <? p_len p1)) eqn:EC.
    - apply andb_true_iff in EC as [_ EC]. apply Z.ltb_lt in EC.
      assert (Hy2 : adj (x_bl s2) y b) by exact Hy.
      destruct (gap_pow s2 xl y b I' Hy2) as (m & MU & M0). destruct Hy2 as (A & B & EAB).
      destruct (make_bucket2_spec 64 s2 xl A y b B p2 m I' (D' ND ND1) HM EAB GN EC MU M0) as (s3 & xl' & E3 & I3 & N3 & C3 & L3 & M3).
      exists s3, xl'. repeat (split; auto). all: intros; lia.
    - exists s2, xl. repeat (split; auto); tauto. }
  destruct FIN as (s3 & xl' & E3 & I3 & N3 & C3 & L3 & M3 & Q3).
  rewrite E3.
  destruct (einv_same s3 xl' (tupd (x_trie s3) b (fun z => set_blen z (b_len z + 1))) (x_lv s3) (x_len s3) I3) as (I4 & C4 & N4).
  { apply same_shape_tupd; intros; reflexivity. }
  { intros m. unfold tupd. rewrite bget_tset. destruct (nid_eqb b m) eqn:E; auto. apply nid_eqb_eq in E. subst; auto. }
  eexists _, xl'. split; [reflexivity|]. split; [exact I4|]. split; [apply N4; auto|]. split; [exact M3|]. split; [exact L3|].
  split; [intros z; rewrite C4, C3; apply CC|].
  intros HS. destruct (Q3 (HS y b p Hy HP Ri)) as (Q4 & Q5 & Q6). cbn [x_bl x_trie]. split; auto. split; auto.
  eapply same_shape_trans; [exact Q6|]. apply same_shape_tupd; intros; reflexivity.
Qed.

(** * The relation with Spec.v *)
Record erel (s : estate) (m : smap) : Prop := {
  er_inv : exists xl, einv s xl;
  er_nd : enodel s;
  er_max : 16 <= x_max s;
  er_view : sm_view m = KSample;
  er_len : x_len s = sm_created m;
  er_at : forall k c bd, 0 <= k < W64 -> (sm_map m (k, c) = Some bd <->
            exists key v, bd = mkBd KSample key v /\ cont s (reverse64 k, c, false, key, v)) }.

Lemma new_emb_rel max : 16 <= max -> erel (new_emb max) (sm_empty KSample).
Proof.
  intros HM. destruct (new_emb_inv max ltac:(lia)) as (I & N & C). constructor; auto.
  - exists init_bl. auto.
  - intros k c bd Hk. cbn [sm_empty sm_map]. split; [discriminate|]. intros (key & v & _ & H). exfalso. apply (C _ H).
Qed.

Lemma hit_at s k c n j p : hit s k c n j p ->
  cont s (reverse64 k, c, sl_del (slot_at p j), sl_key (slot_at p j), sl_val (slot_at p j)) /\
  item_at s n j = slot_at p j.
Proof.
  intros (y & Hy & HP & K & Hj & Hr & Hc & Hv). split.
  - exists y, n, p. split; auto. split; auto. apply in_map_iff. exists (slot_at p j). split.
    + unfold pr. rewrite Hr, Hc. auto.
    + eapply live_in; eauto.
  - unfold item_at. rewrite HP. auto.
Qed.
Lemma hit_nodel s k c n j p : enodel s -> hit s k c n j p -> sl_del (slot_at p j) = false.
Proof.
  intros ND (y & Hy & HP & K & Hj & _). apply (ND _ _ _ Hy HP). eapply live_in; eauto.
Qed.

(** what a lookup tells about the specification *)
Lemma eload_rel s m k c : erel s m -> 0 <= k < W64 ->
  eload s k c = Div \/
  (exists n j p, eload s k c = Ret (Some (n, j)) /\ hit s k c n j p /\ item_at s n j = slot_at p j /\
     sm_map m (k, c) = Some (mkBd KSample (sl_key (slot_at p j)) (sl_val (slot_at p j)))) \/
  (eload s k c = Ret None /\ sm_map m (k, c) = None).
Proof.
  intros H Hk. destruct (er_inv _ _ H) as (xl & I).
  destruct (eload_spec s xl k c I) as [E|[(n & j & p & E & HT)|(E & y & b & p & Hy & Eb & Ri & HP & K & HN)]]; auto.
  - right. left. exists n, j, p. destruct (hit_at _ _ _ _ _ _ HT) as [HC HI]. split; auto. split; auto. split; auto.
    apply (er_at _ _ H); auto. eexists _, _. split; [reflexivity|].
    rewrite (hit_nodel _ _ _ _ _ _ (er_nd _ _ H) HT) in HC. exact HC.
  - right. right. split; auto. destruct (sm_map m (k, c)) as [bd|] eqn:EM; auto. exfalso.
    apply (er_at _ _ H) in EM as (key & v & -> & HC); auto.
    apply (cont_here s xl I (reverse64 k) y b p) in HC; auto.
    apply in_map_iff in HC as (sl & Es & Hs). destruct (in_live _ _ _ _ K Hs) as (j & Hj & <-).
    unfold pr in Es. injection Es as E1 E2 E3 E4 E5. destruct (HN j Hj E1) as [N|[D _]]; congruence.
Qed.

Definition agrees (s : estate) (r : res out) (e : out) (s' : estate) (m' : smap) : Prop :=
  (r = Div /\ s' = s) \/ (seen r = Some e /\ erel s' m').
Lemma eget_agrees s m k c : erel s m -> 0 <= k < W64 ->
  agrees s (snd (eget s k c)) (sm_get m (k, c)) (fst (eget s k c)) m.
Proof.
  intros H Hk. unfold eget, sm_get.
  destruct (eload_rel s m k c H Hk) as [->|[(n & j & p & -> & HT & HI & ->)|(-> & ->)]]; cbn [fst snd]; [left; auto|right|right].
  - rewrite HI. auto.
  - auto.
Qed.
Lemma eget_item_agrees s m k c : erel s m -> 0 <= k < W64 ->
  agrees s (snd (eget_item s k c)) (sm_load m (k, c)) (fst (eget_item s k c)) m.
Proof.
  intros H Hk. unfold eget_item, sm_load.
  destruct (eload_rel s m k c H Hk) as [->|[(n & j & p & -> & HT & HI & ->)|(-> & ->)]]; cbn [fst snd]; [left; auto|right|right].
  - rewrite HI, (er_view _ _ H). auto.
  - auto.
Qed.

Lemma sm_put_eq m p b q : sm_put m p b q = if pair_eqb p q then b else sm_map m q.
Proof. reflexivity. Qed.
Lemma pair_eqb_spec p q : reflect (p = q) (pair_eqb p q).
Proof.
  destruct p as [a b], q as [c d]. unfold pair_eqb. cbn [fst snd].
  destruct (Z.eqb_spec a c), (Z.eqb_spec b d); constructor; congruence.
Qed.

Lemma eset_agrees h s m x v : erel s m ->
  (forall k c c', key_to_hash h (KStr x) = Some (k, c) -> c' <> c -> sm_map m (k, c') = None) ->
  agrees s (snd (eset h s (KStr x) v)) (snd (sm_step h m (OpSet (KStr x) v)))
         (fst (eset h s (KStr x) v)) (fst (sm_step h m (OpSet (KStr x) v))).
Proof.
  intros H HC. destruct (key_to_hash h (KStr x)) as [[k c]|] eqn:EK; [|discriminate].
  destruct (key_range _ _ _ _ EK) as [Hk Hc]. specialize (HC k c).
  cbn [sm_step]. rewrite EK.
  destruct (eload_rel s m k c H Hk) as [E|[(n & j & p & E & HT & HI & EM)|(E & EM)]].
  - left. unfold eset. rewrite EK, E. auto.
  - right. rewrite EM. unfold eset. rewrite EK, E. unfold eupdate, sm_update. rewrite HI, (er_view _ _ H).
    rewrite set_value_assign. cbn [bd_val bd_kind bd_key].
    destruct (assign KSample (sl_val (slot_at p j)) v) as [[v' ok]|]; cbn [fst snd]; [|auto].
    split; [reflexivity|].
    destruct (er_inv _ _ H) as (xl & I).
    destruct (upd_item_spec s xl k c n j p (set_sval v') I HT ltac:(reflexivity)) as (I' & M' & L' & B' & _ & _ & _ & C' & N').
    pose proof (hit_nodel _ _ _ _ _ _ (er_nd _ _ H) HT) as DD.
    constructor; cbn [sm_view sm_created sm_map].
    + exists xl; auto.
    + apply N'; [apply (er_nd _ _ H)|exact DD].
    + rewrite M'. apply (er_max _ _ H).
    + reflexivity.
    + rewrite L'. apply (er_len _ _ H).
    + intros k' c' bd Hk'. rewrite sm_put_eq. destruct (pair_eqb_spec (k, c) (k', c')) as [Ep|Np].
      * injection Ep as <- <-. destruct HT as (y & Hy & HP & K & Hj & Hr & Hcf & Hv).
        assert (EP : pr (set_sval v' (slot_at p j)) = (reverse64 k, c, false, sl_key (slot_at p j), v')).
        { unfold pr, set_sval. cbn [sl_rev sl_conf sl_del sl_key sl_val]. rewrite Hr, Hcf, DD. auto. }
        split.
        -- intros Eb. injection Eb as <-. eexists _, _. split; [reflexivity|]. apply C'. left. auto.
        -- intros (key & w & -> & HX). apply C' in HX as [HX|[_ HX]]; [|exfalso; apply HX; reflexivity].
           rewrite EP in HX. injection HX as -> ->. auto.
      * rewrite (er_at _ _ H k' c' bd Hk'). split; intros (key & w & -> & HX); eexists _, _; (split; [reflexivity|]).
        -- apply C'. right. split; auto. cbn [pr_rev fst]. intros Er. apply reverse64_inj in Er; auto. subst k'.
           assert (EX : sm_map m (k, c') = Some (mkBd KSample key w)) by (apply (er_at _ _ H); eauto).
           rewrite HC in EX; [discriminate|auto|congruence].
        -- apply C' in HX as [HX|[HX _]]; auto. exfalso. destruct HT as (y & Hy & HP & K & Hj & Hr & Hcf & Hv).
           unfold pr, set_sval in HX. cbn [sl_rev sl_conf sl_del sl_key sl_val] in HX.
           injection HX as E1 E2 _ _ _. apply Np. rewrite Hr in E1. apply reverse64_inj in E1; auto. congruence.
  - right. rewrite EM. cbn [fst snd]. destruct (er_inv _ _ H) as (xl & I).
    assert (NC : forall c', sm_map m (k, c') = None).
    { intros c'. destruct (Z.eq_dec c' c) as [->|N]; auto. }
    assert (FR : forall z, cont s z -> pr_rev z <> reverse64 k).
    { intros [[[[r cf] d] ky] vl] HZ Er. cbn [pr_rev fst] in Er. subst r.
      assert (D0 : d = false).
      { destruct HZ as (y & b & p & Hy & HP & Hin). apply in_map_iff in Hin as (sl & Es & Hs).
        pose proof (er_nd _ _ H y b p Hy HP sl Hs) as D. unfold pr in Es. congruence. }
      subst d. assert (EX : sm_map m (k, cf) = Some (mkBd KSample ky vl)) by (apply (er_at _ _ H); eauto).
      rewrite NC in EX. discriminate. }
    destruct (eset_new h s xl x v k c I (er_nd _ _ H) (er_max _ _ H) EK E FR) as (s' & xl' & ES & I' & N' & M' & L' & C' & _).
    rewrite ES. cbn [fst snd]. split; [reflexivity|].
    constructor; cbn [sm_view sm_created sm_map]; auto.
    + exists xl'; auto.
    + rewrite M'. apply (er_max _ _ H).
    + rewrite L', (er_len _ _ H). auto.
    + intros k' c' bd Hk'. rewrite sm_put_eq. destruct (pair_eqb_spec (k, c) (k', c')) as [Ep|Np].
      * injection Ep as <- <-. split.
        -- intros Eb. injection Eb as <-. eexists _, _. split; [reflexivity|]. apply C'. left. auto.
        -- intros (key & w & -> & HX). apply C' in HX as [HX|HX]; [congruence|]. exfalso. apply (FR _ HX). reflexivity.
      * rewrite (er_at _ _ H k' c' bd Hk'). split; intros (key & w & -> & HX); eexists _, _; (split; [reflexivity|]).
        -- apply C'. right. auto.
        -- apply C' in HX as [HX|HX]; auto. exfalso. injection HX as E1 E2 _ _. apply reverse64_inj in E1; auto. congruence.
Qed.

Lemma u64_range z : 0 <= u64 z < W64.
Proof. unfold u64. apply Z.mod_pos_bound. reflexivity. Qed.
Lemma estep_agrees h s m o : erel s m -> store_or_read o ->
  (forall k c c', writes h o = Some (k, c) -> c' <> c -> sm_map m (k, c') = None) ->
  agrees s (snd (estep h s o)) (snd (sm_step h m o)) (fst (estep h s o)) (fst (sm_step h m o)).
Proof.
  intros H HO HC. destruct o as [key v|i|key|k c|key|k c|key|key|]; try contradiction; cbn [estep].
  - destruct HO as (x & ->). apply eset_agrees; auto.
  - cbn [sm_step fst snd]. unfold ewith. destruct (key_to_hash h key) as [[k c]|] eqn:EK; [|right; auto].
    apply eget_agrees; auto. apply (proj1 (key_range _ _ _ _ EK)).
  - cbn [sm_step fst snd]. apply eget_agrees; auto using u64_range.
  - cbn [sm_step fst snd]. unfold ewith. destruct (key_to_hash h key) as [[k c]|] eqn:EK; [|right; auto].
    apply eget_item_agrees; auto. apply (proj1 (key_range _ _ _ _ EK)).
  - cbn [sm_step fst snd]. apply eget_item_agrees; auto using u64_range.
  - cbn [sm_step fst snd]. right. cbn [seen]. rewrite (er_len _ _ H). auto.
Qed.

(** where the bindings of the specification come from *)
Lemma sm_step_writes h m o k c : sm_map (fst (sm_step h m o)) (k, c) <> None ->
  sm_map m (k, c) <> None \/ writes h o = Some (k, c).
Proof.
  intros HN.
  assert (U : forall p b v, sm_map (fst (sm_update m p b v)) (k, c) <> None -> sm_map m p = Some b -> sm_map m (k, c) <> None).
  { intros p b v. unfold sm_update. destruct (assign _ _ _) as [[v' ok]|]; cbn [fst sm_map]; auto.
    rewrite sm_put_eq. destruct (pair_eqb_spec p (k, c)) as [->|]; auto. intros _ ->. discriminate. }
  destruct o as [key v|i|key|k0 c0|key|k0 c0|key|key|]; cbn [sm_step fst writes] in *; auto.
  - destruct (key_to_hash h key) as [p|]; auto. destruct (sm_map m p) as [b|] eqn:EM; [left; eapply U; eauto|].
    destruct key; cbn [fst sm_map] in HN; auto. rewrite sm_put_eq in HN.
    destruct (pair_eqb_spec p (k, c)) as [->|]; auto.
  - destruct (key_to_hash h (i_key i)) as [p|]; auto. destruct (sm_map m p) as [b|] eqn:EM; [left; eapply U; eauto|].
    cbn [fst sm_map] in HN. rewrite sm_put_eq in HN. destruct (pair_eqb_spec p (k, c)) as [->|]; auto.
  - destruct (key_to_hash h key) as [p|]; auto. destruct (sm_map m p) as [b|] eqn:EM; auto.
    cbn [fst sm_map] in HN. rewrite sm_put_eq in HN. destruct (pair_eqb_spec p (k, c)) as [->|]; auto.
  - destruct (key_to_hash h key) as [p|]; auto. destruct (sm_map m p) as [b|] eqn:EM; auto.
    cbn [fst sm_map] in HN. rewrite sm_put_eq in HN. destruct (pair_eqb_spec p (k, c)) as [->|]; auto.
Qed.

(** every state reached by storing and reading is related to the specification's (or the history stopped) *)
Definition stopped (h : hashes) (s : estate) (os : list op) : Prop := existsb stops (eouts h s os) = true.
Lemma erun_agrees h : forall os s m, erel s m -> Forall store_or_read os ->
  (forall o k c c', In o os -> writes h o = Some (k, c) -> c' <> c -> sm_map m (k, c') = None) ->
  no_collision h os ->
  agree (eouts h s os) (sm_outs h m os) /\ (stopped h s os \/ erel (erun h s os) (sm_run h m os)) /\
  exists m', erel (erun h s os) m'.
Proof.
  induction os as [|o os IH]; intros s m H HF HC HN; cbn [eouts erun sm_outs sm_run agree]; [eauto|].
  apply Forall_cons_iff in HF as [HO HF].
  pose proof (estep_agrees h s m o H HO (fun k c c' => HC o k c c' (or_introl eq_refl))) as A.
  unfold stopped. cbn [eouts].
  destruct (estep h s o) as [s' r]. cbn [fst snd] in A. destruct A as [[-> ->]|[E A]].
  - cbn [stops]. split; [left; auto|]. split; [left; reflexivity|eauto].
  - assert (ST : stops r = false) by (destruct r; cbn in *; congruence). rewrite ST.
    destruct (IH s' (fst (sm_step h m o)) A HF) as (A1 & A2 & A3).
    + intros o' k c c' Hin HW Nc. destruct (sm_map (fst (sm_step h m o)) (k, c')) eqn:EM; auto. exfalso.
      destruct (sm_step_writes h m o k c') as [N|W]; [congruence| |].
      * apply N. apply (HC o' k c c'); auto. right; auto.
      * apply Nc. apply (HN o o' k c' c); auto; [left|right]; auto.
    + intros o1 o2 k c c' H1 H2. apply HN; right; auto.
    + split; [right; split; auto|]. split; [cbn [existsb]; rewrite ST; exact A2|exact A3].
Qed.
