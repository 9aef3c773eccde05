(** Delete and Purge after the Sets in the embedded mode refine PurgeSpec.v. *)
From Verif Require Import Base BaseProofs Util UtilProofs Bucket TrieProofs TrieInv TrieGrow MapModel ItemProofs MapInv MapSplit
  MapInit Spec MapRefine EmbModel EmbPool EmbTrie EmbInv EmbSplit EmbSpec EmbRefine EmbDel PurgeSpec.
From Coq Require Import ZifyBool Sorted.
Local Open Scope Z_scope.
Local Open Scope list_scope.
Local Opaque reverse64 level_of base find_bucket.

(** * Lists *)
Lemma find_unique {A} (f : A -> bool) l x : In x l -> f x = true -> (forall y, In y l -> f y = true -> y = x) -> find f l = Some x.
Proof.
  intros I F U. induction l as [|y l IH]; [destruct I|]. cbn [find]. destruct (f y) eqn:E; [f_equal; apply U; cbn; auto|]. apply IH; [|intros z Hz; apply U; cbn; auto]. destruct I as [->|I]; [congruence|auto].
Qed.
Lemma find_filter {A} (f g : A -> bool) l : (forall x, In x l -> f x = true -> g x = true) -> find f (filter g l) = find f l.
Proof.
  induction l as [|y l IH]; intros H; cbn [filter find]; auto. specialize (IH (fun x Hx => H x (or_intror Hx))). destruct (g y) eqn:G; cbn [find].
  - destruct (f y); auto.
  - destruct (f y) eqn:F; auto. rewrite (H y) in G; cbn; auto. discriminate G.
Qed.
Lemma filter_filter {A} (f g : A -> bool) l : filter f (filter g l) = filter g (filter f l).
Proof. induction l as [|y l IH]; cbn [filter]; auto. destruct (f y) eqn:F, (g y) eqn:G; cbn [filter]; rewrite ?F, ?G, ?IH; auto. Qed.
Lemma filter_map_same {A} (f : A -> bool) (h : A -> A) l : (forall x, f (h x) = f x) -> filter f (map h l) = map h (filter f l).
Proof. intros H. induction l as [|y l IH]; cbn [map filter]; auto. rewrite H. destruct (f y); cbn [map]; rewrite IH; auto. Qed.
Lemma filter_all {A} (f : A -> bool) l : (forall x, In x l -> f x = true) -> filter f l = l.
Proof. induction l as [|y l IH]; intros H; cbn [filter]; auto. rewrite (H y) by (cbn; auto). f_equal. apply IH. intros x Hx. apply H. cbn; auto. Qed.
Lemma filter_none {A} (f : A -> bool) l : (forall x, In x l -> f x = false) -> filter f l = [].
Proof. induction l as [|y l IH]; intros H; cbn [filter]; auto. rewrite (H y) by (cbn; auto). apply IH. intros x Hx. apply H. cbn; auto. Qed.
Lemma map_id_in {A} (f : A -> A) l : (forall x, In x l -> f x = x) -> map f l = l.
Proof. induction l as [|y l IH]; intros H; cbn [map]; auto. rewrite (H y) by (cbn; auto). f_equal. apply IH. intros x Hx. apply H. cbn; auto. Qed.

(** * Pools up to what is not used *)
Definition used (p p' : pool) : Prop := p_n p = p_n p' /\ forall i, (i < p_n p)%nat -> slot_at p i = slot_at p' i.
Lemma used_refl p : used p p.
Proof. split; auto. Qed.
Lemma used_search p p' rv : used p p' -> emb_search p rv = emb_search p' rv.
Proof.
  intros [HL HS]. unfold emb_search. rewrite <- HL.
  assert (SK : forall i, (i < p_n p)%nat -> skip_left (p_slots p) i = skip_left (p_slots p') i).
  { intros i Hi. apply skip_left_ext. intros x Hx. apply (HS x). lia. }
  assert (SL : forall i, (i < p_n p)%nat -> slot_at p (skip_left (p_slots p) i) = slot_at p' (skip_left (p_slots p') i)).
  { intros i Hi. rewrite <- SK by auto. apply HS. pose proof (skip_left_le (p_slots p) i). lia. }
  rewrite (sort_search_ext _ (fun i => rv <=? sl_rev (slot_at p' (skip_left (p_slots p') i)))).
  - cbv zeta. set (idx := sort_search _ _ _ _). destruct (Nat.ltb_spec idx (p_n p)); cbn [andb]; auto.
    rewrite (HS idx), (SK idx) by auto. auto.
  - intros x Hx. rewrite SL; auto.
Qed.
Record pools_eq (s s' : estate) : Prop := {
  pe_shape : same_shape (x_trie s) (x_trie s');
  pe_bl : x_bl s = x_bl s';
  pe_pool : forall n, match b_pool (bget (x_trie s) n), b_pool (bget (x_trie s') n) with
            | Some p, Some p' => used p p'
            | None, None => True
            | _, _ => False
            end }.
Lemma eload_used s s' k c : pools_eq s s' -> eload s k c = eload s' k c /\
  forall n i, eload s k c = Ret (Some (n, i)) -> item_at s n i = item_at s' n i.
Proof.
  intros [SS _ HP]. unfold eload, pool_of, item_at. rewrite <- (find_bucket_shape _ _ SS), <- (base_shape _ _ SS).
  set (n := base _ _). pose proof (HP n) as Hn.
  destruct (b_pool (bget (x_trie s) n)) as [p|] eqn:E1; destruct (b_pool (bget (x_trie s') n)) as [p'|] eqn:E2; try contradiction; [|split; [auto|discriminate]].
  rewrite <- (used_search _ _ _ Hn). destruct (emb_search p (reverse64 k)) as [i|] eqn:ES; [|split; [auto|discriminate]].
  assert (Hi : (i < p_n p)%nat).
  { unfold emb_search in ES. cbv zeta in ES. match type of ES with (if ?c then _ else _) = _ => destruct c eqn:EC; [|discriminate] end.
    injection ES as <-. apply andb_true_iff in EC as [EC _]. apply Nat.ltb_lt in EC.
    eapply Nat.le_lt_trans; [apply skip_left_le|exact EC]. }
  rewrite <- (proj2 Hn i Hi). split; auto.
  destruct ((sl_rev (slot_at p i) =? reverse64 k) && (sl_conf (slot_at p i) =? c)); [|discriminate].
  intros n1 i1 E. injection E as <- <-. rewrite E1, E2. apply (proj2 Hn i Hi).
Qed.

(** * Buckets *)
Lemma together_refl bs r : together bs r r = true.
Proof. unfold together. rewrite Z.min_id, Z.max_id. apply negb_true_iff. induction bs as [|b bs IH]; cbn [existsb]; auto. rewrite IH, orb_false_r. destruct (Z.ltb_spec r b); destruct (Z.leb_spec b r); try lia; rewrite ?andb_false_r; auto. Qed.
Lemma together_spec bs r1 r2 : together bs r1 r2 = false <-> separated bs (Z.min r1 r2) (Z.max r1 r2).
Proof.
  unfold together, separated. rewrite negb_false_iff, existsb_exists. split; intros (b & Hb & H); exists b; (split; [auto|]).
  - apply andb_true_iff in H as [H H3]. apply andb_true_iff in H as [H1 H2]. apply negb_true_iff in H1. lia.
  - destruct H as [H1 H2]. apply andb_true_iff. split; [apply andb_true_iff; split; [apply negb_true_iff|]|]; lia.
Qed.
Lemma bound_below s xl y n : einv s xl -> adj (x_bl s) y n -> brev (x_trie s) n < up (x_trie s) y /\ 0 <= brev (x_trie s) n /\ up (x_trie s) y <= W64 /\ brev (x_trie s) n <> 2 ^ 64 - 1.
Proof.
  intros I H. destruct (gap_pow s xl _ _ I H) as (mm & U & Hm). pose proof (Z.pow_pos_nonneg 2 mm). destruct (ei_adj_x s xl I _ _ H) as [Hx Hc]. pose proof (ei_adj_ne s xl I _ _ H) as NB.
  destruct (ei_16 _ _ I n Hc NB) as (z & Hz).
  split; [lia|]. split; [|split].
  - destruct (tk_bl _ _ (ei_trie _ _ I) _ Hc) as [Pc _]. destruct n as [l v]. destruct (tk_node _ _ (ei_trie _ _ I) l v Pc NB) as (_ & HV & _ & _ & HR & _). lia.
  - unfold up. destruct (nid_eqb y bmax) eqn:Ey; [lia|]. assert (Ny : y <> bmax) by (intros ->; rewrite nid_eqb_refl in Ey; discriminate).
    destruct (tk_bl _ _ (ei_trie _ _ I) _ Hx) as [Py _]. destruct y as [l' v']. destruct (tk_node _ _ (ei_trie _ _ I) l' v' Py Ny) as (_ & HV' & _ & _ & HR' & _). lia.
  - rewrite Hz. change (2 ^ 64) with (2 ^ 60 * 16). lia.
Qed.
Lemma together_bucket s xl y n r r' : einv s xl -> adj (x_bl s) y n -> brev (x_trie s) n <= r < up (x_trie s) y -> 0 <= r' < W64 ->
  (together (edump s) r r' = true <-> brev (x_trie s) n <= r' < up (x_trie s) y).
Proof.
  intros I H R R'. destruct (bound_below s xl y n I H) as (B1 & B2 & B3 & B4). split.
  - intros T. destruct (Z_lt_ge_dec r' (brev (x_trie s) n)) as [L|L].
    + exfalso. assert (X : together (edump s) r r' = false); [|congruence]. apply together_spec. exists (brev (x_trie s) n).
      split; [unfold edump; apply in_map; apply adj_in in H; tauto|]. split; auto. lia.
    + split; [lia|]. destruct (Z_lt_ge_dec r' (up (x_trie s) y)) as [L2|L2]; auto. exfalso. assert (X : together (edump s) r r' = false); [|congruence]. apply together_spec.
      destruct (nid_eq_dec y bmax) as [->|Ny]; [unfold up in L2; rewrite nid_eqb_refl in L2; lia|].
      assert (U : up (x_trie s) y = brev (x_trie s) y) by (unfold up; destruct (nid_eqb y bmax) eqn:Ey; auto; apply nid_eqb_eq in Ey; congruence).
      exists (brev (x_trie s) y). split; [unfold edump; apply in_map; apply adj_in in H; tauto|]. split; [|lia].
      destruct (ei_adj_x s xl I _ _ H) as [Hx _]. destruct (ei_16 _ _ I y Hx Ny) as (z & Hz). rewrite Hz. change (2 ^ 64) with (2 ^ 60 * 16). lia.
  - intros T. destruct (together (edump s) r r') eqn:E; auto. exfalso. apply together_spec in E as (b & Hb & Nb & Rb).
    destruct (edump_boundary s xl b I Hb Nb) as (y1 & n1 & Hy1 & <-). destruct (bound_below s xl y1 n1 I Hy1) as (C1 & _).
    destruct (ei_disjoint s xl I y n y1 n1 (brev (x_trie s) n1) H Hy1) as [<- _]; lia.
Qed.

(** * The relation *)
Definition ent_of (sl : slot) : ent := mkE (reverse64 (sl_rev sl), sl_conf sl) (mkBd KSample (sl_key sl) (sl_val sl)) (sl_del sl).
Record prel (bs : list Z) (n : Z) (s s2 : estate) (xl : list nid) (l : list ent) : Prop := {
  pl_eq : pools_eq s s2;
  pl_inv : einv s2 xl;
  pl_bs : edump s2 = bs;
  pl_len : x_len s = n;
  pl_bk : forall y c p r, adj (x_bl s2) y c -> b_pool (bget (x_trie s2) c) = Some p -> brev (x_trie s2) c <= r < up (x_trie s2) y ->
     bucket_of bs l r = map ent_of (live p);
  pl_hash : forall e, In e l -> 0 <= fst (e_hash e) < W64;
  pl_cap : forall y c p, adj (x_bl s2) y c -> b_pool (bget (x_trie s) c) = Some p -> (p_n p <= List.length (p_slots p))%nat }.
Lemma slot_range s xl y n p i : einv s xl -> adj (x_bl s) y n -> b_pool (bget (x_trie s) n) = Some p -> (i < p_n p)%nat ->
  0 <= sl_rev (slot_at p i) < W64 /\ e_pos (ent_of (slot_at p i)) = sl_rev (slot_at p i).
Proof.
  intros I Hy HP Hi. destruct (slot_occ s xl y n p i I Hy HP Hi) as (k & Hk & E & _). rewrite <- E. pose proof (reverse64_range k). split; auto. unfold e_pos, ent_of. cbn [e_hash fst]. rewrite <- E. apply reverse64_involutive. auto.
Qed.
Lemma hash_slot k c sl : 0 <= sl_rev sl < W64 -> 0 <= k < W64 -> pair_eqb (e_hash (ent_of sl)) (k, c) = true -> sl_rev sl = reverse64 k /\ sl_conf sl = c.
Proof.
  intros R Hk H. unfold pair_eqb, ent_of in H. cbn [e_hash fst snd] in H. apply andb_true_iff in H as [A B]. apply Z.eqb_eq in A, B. split; auto. rewrite <- A. symmetry. apply reverse64_involutive. auto.
Qed.
Lemma slot_hash k c sl : 0 <= k < W64 -> sl_rev sl = reverse64 k -> sl_conf sl = c -> e_hash (ent_of sl) = (k, c).
Proof. intros Hk E <-. unfold ent_of. cbn [e_hash]. rewrite E, reverse64_involutive by auto. auto. Qed.
Lemma pair_eqb_refl p : pair_eqb p p = true.
Proof. unfold pair_eqb. rewrite !Z.eqb_refl. auto. Qed.

Section Rel.
Variables (bs : list Z) (len : Z) (s s2 : estate) (xl : list nid) (l : list ent).
Hypothesis R : prel bs len s s2 xl l.
Let I : einv s2 xl := pl_inv _ _ _ _ _ _ R.

Lemma entry_bucket k c : 0 <= k < W64 -> entry l (k, c) = find (fun e => pair_eqb (e_hash e) (k, c)) (bucket_of bs l (reverse64 k)).
Proof.
  intros Hk. unfold entry, bucket_of. symmetry. apply find_filter. intros e _ H. unfold e_pos. assert (E : e_hash e = (k, c)).
  { unfold pair_eqb in H. cbn [fst snd] in H. apply andb_true_iff in H as [A B]. apply Z.eqb_eq in A, B. destruct (e_hash e). cbn [fst snd] in *. congruence. }
  rewrite E. apply together_refl.
Qed.
(** slot j of bucket n, and the list *)
Variables (y n : nid) (p : pool).
Hypothesis Hy : adj (x_bl s2) y n.
Hypothesis HP : b_pool (bget (x_trie s2) n) = Some p.
Lemma bk_ok : pool_ok p (brev (x_trie s2) n) (up (x_trie s2) y).
Proof. destruct (ei_pool _ _ I _ _ Hy) as (q & E & K). rewrite HP in E. injection E as <-. auto. Qed.
Lemma bk_pos j : (j < p_n p)%nat -> e_pos (ent_of (slot_at p j)) = sl_rev (slot_at p j) /\ brev (x_trie s2) n <= sl_rev (slot_at p j) < up (x_trie s2) y /\ 0 <= sl_rev (slot_at p j) < W64.
Proof. intros Hj. destruct (slot_range s2 xl y n p j I Hy HP Hj) as [A B]. split; auto. split; auto. apply (po_rng _ _ _ bk_ok). eapply live_in; eauto. apply bk_ok. Qed.
Lemma bk_at j : (j < p_n p)%nat -> bucket_of bs l (e_pos (ent_of (slot_at p j))) = map ent_of (live p).
Proof. intros Hj. destruct (bk_pos j Hj) as (E & B & _). rewrite E. apply (pl_bk _ _ _ _ _ _ R y n p); auto. Qed.
Lemma bk_same i j : (i < p_n p)%nat -> (j < p_n p)%nat -> same_entry (ent_of (slot_at p i)) (ent_of (slot_at p j)) = Nat.eqb i j.
Proof.
  intros Hi Hj. destruct (Nat.eqb_spec i j) as [->|N]; [apply pair_eqb_refl|]. unfold same_entry. destruct (pair_eqb _ _) eqn:E; auto. exfalso. apply N.
  destruct (bk_pos i Hi) as (_ & _ & A). destruct (bk_pos j Hj) as (_ & _ & B). apply (slot_inj _ _ _ i j bk_ok); auto.
  unfold pair_eqb, ent_of in E. cbn [e_hash fst snd] in E. apply andb_true_iff in E as [E _]. apply Z.eqb_eq in E. apply reverse64_inj in E; auto.
Qed.
Lemma bk_in e : In e (map ent_of (live p)) <-> exists j, (j < p_n p)%nat /\ e = ent_of (slot_at p j).
Proof.
  split.
  - intros H. apply in_map_iff in H as (sl & <- & H). destruct (in_live _ _ _ _ bk_ok H) as (j & Hj & <-). eauto.
  - intros (j & Hj & ->). apply in_map. eapply live_in; eauto. apply bk_ok.
Qed.
Lemma bk_entry k c j : 0 <= k < W64 -> (j < p_n p)%nat -> sl_rev (slot_at p j) = reverse64 k -> sl_conf (slot_at p j) = c -> entry l (k, c) = Some (ent_of (slot_at p j)).
Proof.
  intros Hk Hj Hr Hc. rewrite entry_bucket by auto. destruct (bk_pos j Hj) as (A1 & A2 & A3). rewrite <- Hr, <- A1, (bk_at j Hj). assert (EH := slot_hash k c _ Hk Hr Hc). apply find_unique.
  - apply bk_in. eauto.
  - rewrite EH. apply pair_eqb_refl.
  - intros z Hz E. apply bk_in in Hz as (i & Hi & ->). assert (X := bk_same i j Hi Hj). unfold same_entry in X. rewrite EH, E in X. symmetry in X. apply Nat.eqb_eq in X. subst. auto.
Qed.
Lemma bk_first j : (j < p_n p)%nat -> is_first bs l (ent_of (slot_at p j)) = Nat.eqb 0 j.
Proof.
  intros Hj. unfold is_first. rewrite (bk_at j Hj). pose proof (live_length _ _ _ bk_ok) as LL. pose proof (live_nth p 0 ltac:(lia)) as N0. destruct (live p) as [|x r]; [cbn in LL; lia|]. cbn [nth map] in *. subst x. apply bk_same; auto. lia.
Qed.
Lemma live_last : (0 < p_n p)%nat -> live p = firstn (p_n p - 1) (live p) ++ [slot_at p (p_n p - 1)].
Proof.
  intros H. pose proof (live_length _ _ _ bk_ok) as LL. rewrite <- (live_nth p (p_n p - 1)) by lia. rewrite <- firstn_S_nth by lia. replace (S (p_n p - 1)) with (List.length (live p)) by lia. rewrite firstn_all. auto.
Qed.
Lemma bk_last j : (j < p_n p)%nat -> is_last bs l (ent_of (slot_at p j)) = Nat.eqb (p_n p - 1) j.
Proof.
  intros Hj. unfold is_last. rewrite (bk_at j Hj). rewrite live_last by lia. rewrite map_app, rev_app_distr. cbn [map rev app]. apply bk_same; auto. lia.
Qed.
Lemma bk_visible k c j : 0 <= k < W64 -> (j < p_n p)%nat -> sl_rev (slot_at p j) = reverse64 k -> sl_conf (slot_at p j) = c -> sl_del (slot_at p j) = false \/ j = 0%nat ->
  visible bs l (k, c) = Some (mkBd KSample (sl_key (slot_at p j)) (sl_val (slot_at p j))).
Proof.
  intros Hk Hj Hr Hc V. unfold visible. rewrite (bk_entry k c j); auto. rewrite (bk_first j Hj). cbn [ent_of e_dead e_bd]. destruct V as [->| ->]; cbn [negb orb Nat.eqb]; auto. rewrite orb_true_r. auto.
Qed.
End Rel.

Lemma eload_view bs len s s2 xl l k c : prel bs len s s2 xl l -> 0 <= k < W64 ->
  eload s k c = Div \/
  (exists n j p, eload s k c = Ret (Some (n, j)) /\ hit s2 k c n j p /\ item_at s n j = slot_at p j /\ visible bs l (k, c) = Some (mkBd KSample (sl_key (slot_at p j)) (sl_val (slot_at p j)))) \/
  (eload s k c = Ret None /\ visible bs l (k, c) = None).
Proof.
  intros R Hk. pose proof (pl_inv _ _ _ _ _ _ R) as I. destruct (eload_used s s2 k c (pl_eq _ _ _ _ _ _ R)) as [E1 E2].
  destruct (eload_spec s2 xl k c I) as [E|[(n & j & p & E & HT)|(E & y & n & p & Hy & Eb & Ri & HP & K & HN)]].
  - left. congruence.
  - right. left. exists n, j, p. split; [congruence|]. split; auto. split; [rewrite (E2 n j) by congruence; apply (hit_at _ _ _ _ _ _ HT)|]. destruct HT as (y & Hy & HP & K & Hj & Hr & Hc & Hv). apply (bk_visible bs len s s2 xl l R y n p Hy HP); auto.
  - right. right. split; [congruence|]. unfold visible. destruct (entry l (k, c)) as [e|] eqn:EE; auto.
    rewrite (entry_bucket bs l) in EE by auto. rewrite (pl_bk _ _ _ _ _ _ R y n p _ Hy HP Ri) in EE. pose proof (find_some _ _ EE) as [Hin Hh]. apply (bk_in bs len s s2 xl l R y n p Hy HP) in Hin as (j & Hj & ->).
    destruct (bk_pos bs len s s2 xl l R y n p Hy HP j Hj) as (_ & _ & RG). destruct (hash_slot k c _ RG Hk Hh) as [Hr Hc]. rewrite (bk_first bs len s s2 xl l R y n p Hy HP j Hj). destruct (HN j Hj Hr) as [X|[D J]]; [congruence|]. cbn [ent_of e_dead]. rewrite D. destruct (Nat.eqb_spec 0 j); [lia|auto].
Qed.

(** the pool of s itself *)
Lemma own_pool bs len s s2 xl l y n p : prel bs len s s2 xl l -> adj (x_bl s2) y n -> b_pool (bget (x_trie s2) n) = Some p ->
  exists q, b_pool (bget (x_trie s) n) = Some q /\ p_n q = p_n p /\ (p_n q <= List.length (p_slots q))%nat /\ (forall i, (i < p_n q)%nat -> slot_at q i = slot_at p i).
Proof.
  intros R Hy HP. pose proof (pe_pool _ _ (pl_eq _ _ _ _ _ _ R) n) as H. rewrite HP in H. destruct (b_pool (bget (x_trie s) n)) as [q|] eqn:E; [|contradiction].
  exists q. destruct H as [H1 H2]. split; auto. split; auto. split; auto. apply (pl_cap _ _ _ _ _ _ R y n q Hy E).
Qed.
(** * Another pool for one bucket *)
Lemma prel_put bs len s s2 xl l y n p q L l' : prel bs len s s2 xl l -> adj (x_bl s2) y n -> b_pool (bget (x_trie s2) n) = Some p ->
  p_n q = List.length L -> (forall i, (i < List.length L)%nat -> slot_at q i = nth i L zero_slot) -> (p_n q <= List.length (p_slots q))%nat ->
  StronglySorted Z.lt (map sl_rev L) -> (forall sl, In sl L -> brev (x_trie s2) n <= sl_rev sl < up (x_trie s2) y) ->
  (forall r, brev (x_trie s2) n <= r < up (x_trie s2) y -> bucket_of bs l' r = map ent_of L) ->
  (forall r, 0 <= r < W64 -> ~ (brev (x_trie s2) n <= r < up (x_trie s2) y) -> bucket_of bs l' r = bucket_of bs l r) ->
  (forall e, In e l' -> 0 <= fst (e_hash e) < W64) ->
  exists q', prel bs len (set_bpool s n q) (set_bpool s2 n q') xl l'.
Proof.
  intros R Hy HP QN QS QC SO RG B1 B2 HH. pose proof (pl_inv _ _ _ _ _ _ R) as I.
  destruct (pool_make (st := true) L 1 (Z.of_nat (List.length L)) (brev (x_trie s2) n) (up (x_trie s2) y) eq_refl ltac:(lia) SO RG) as [KQ LQ].
  set (q' := mkP (L ++ repeat zero_slot 1) (Z.of_nat (List.length L))) in *.
  set (t2 := tupd (x_trie s2) n (fun b => set_pool b (Some q'))).
  assert (SS : same_shape (x_trie s2) t2) by (apply same_shape_tupd; intros; reflexivity).
  assert (GN : b_pool (bget t2 n) = Some q') by (unfold t2, tupd; rewrite bget_tset, nid_eqb_refl; reflexivity).
  assert (GO : forall m, m <> n -> b_pool (bget t2 m) = b_pool (bget (x_trie s2) m)).
  { intros z Hz. unfold t2, tupd. rewrite bget_tset. destruct (nid_eqb n z) eqn:E; auto. apply nid_eqb_eq in E. congruence. }
  destruct (einv_pool s2 xl t2 y n p q' I SS Hy HP GN GO KQ (x_lv s2) (x_len s2)) as (I2 & _ & _).
  assert (HB : forall m, brev t2 m = brev (x_trie s2) m) by (intros; symmetry; apply same_shape_brev; auto).
  assert (HU : forall m, up t2 m = up (x_trie s2) m) by (intros; unfold up; rewrite HB; auto).
  exists q'. change (set_bpool s2 n q') with (mkX t2 (x_bl s2) (x_lv s2) (x_len s2) (x_max s2)). destruct (pl_eq _ _ _ _ _ _ R) as [S1 S2 S3].
  assert (SP : forall z, b_pool (bget (x_trie (set_bpool s n q)) z) = if nid_eqb n z then Some q else b_pool (bget (x_trie s) z)).
  { intros z. unfold set_bpool, set_xtrie. cbn [x_trie]. unfold tupd. rewrite bget_tset. destruct (nid_eqb n z); auto. }
  assert (SP2 : forall z, b_pool (bget t2 z) = if nid_eqb n z then Some q' else b_pool (bget (x_trie s2) z)).
  { intros z. unfold t2, tupd. rewrite bget_tset. destruct (nid_eqb n z); auto. }
  constructor; cbn [x_trie x_bl x_len].
  - constructor; cbn [x_trie x_bl].
    + eapply same_shape_trans; [|exact SS]. eapply same_shape_trans; [|exact S1]. unfold set_bpool, set_xtrie. cbn [x_trie]. intros z. symmetry. apply same_shape_tupd. intros; reflexivity.
    + exact S2.
    + intros z. rewrite SP, SP2. destruct (nid_eqb n z); [|apply S3]. split.
      * unfold p_n at 2. unfold q'. cbn [p_len]. lia.
      * intros i Hi. rewrite QN in Hi. rewrite QS by auto. unfold slot_at, q'. cbn [p_slots]. rewrite app_nth1 by auto. auto.
  - exact I2.
  - unfold edump. cbn [x_trie x_bl]. rewrite <- (pl_bs _ _ _ _ _ _ R). unfold edump. apply map_ext. auto.
  - apply (pl_len _ _ _ _ _ _ R).
  - intros y1 c1 p1 r A1 A2 A3. rewrite HB, HU in A3. rewrite SP2 in A2. destruct (nid_eqb n c1) eqn:E.
    + apply nid_eqb_eq in E. subst c1. injection A2 as <-. assert (y1 = y) by (exact (adj_uniq_l _ _ _ _ (ei_nodup s2 xl I) A1 Hy)). subst y1. rewrite LQ. apply B1. auto.
    + rewrite <- (pl_bk _ _ _ _ _ _ R y1 c1 p1 r A1 A2 A3). destruct (bound_below s2 xl y1 c1 I A1) as (C1 & C2 & C3 & _). apply B2; [lia|]. intros X.
      destruct (ei_disjoint s2 xl I y n y1 c1 r Hy A1 X A3) as [X1 X2]. assert (XE : n = c1) by congruence. rewrite XE, nid_eqb_refl in E. discriminate.
  - exact HH.
  - intros y1 c1 p1 A1 A2. rewrite SP in A2. destruct (nid_eqb n c1) eqn:E; [injection A2 as <-; auto|]. apply (pl_cap _ _ _ _ _ _ R y1 c1 p1 A1 A2).
Qed.

Lemma together_sym bs r1 r2 : together bs r1 r2 = together bs r2 r1.
Proof. unfold together. rewrite Z.min_comm, Z.max_comm. auto. Qed.
Lemma pos_range e : 0 <= e_pos e < W64.
Proof. apply reverse64_range. Qed.
Lemma sorted_nodup l : StronglySorted Z.lt l -> NoDup l.
Proof. intros H. induction H as [|x l H IH F]; constructor; auto. intros Hin. rewrite Forall_forall in F. specialize (F x Hin). lia. Qed.
Lemma same_hash a b : pair_eqb a b = true -> a = b.
Proof. destruct a, b. unfold pair_eqb. cbn [fst snd]. intros H. apply andb_true_iff in H as [A B]. apply Z.eqb_eq in A, B. congruence. Qed.

Section Put.
Variables (bs : list Z) (len : Z) (s s2 : estate) (xl : list nid) (l : list ent) (y n : nid) (p : pool).
Hypothesis R : prel bs len s s2 xl l.
Hypothesis Hy : adj (x_bl s2) y n.
Hypothesis HP : b_pool (bget (x_trie s2) n) = Some p.
Let I : einv s2 xl := pl_inv _ _ _ _ _ _ R.
Let K : pool_ok p (brev (x_trie s2) n) (up (x_trie s2) y) := bk_ok bs len s s2 xl l R y n p Hy HP.

Lemma live_rev sl : In sl (live p) -> 0 <= sl_rev sl < W64 /\ e_pos (ent_of sl) = sl_rev sl /\ brev (x_trie s2) n <= sl_rev sl < up (x_trie s2) y.
Proof. intros H. destruct (in_live _ _ _ _ K H) as (j & Hj & <-). destruct (bk_pos bs len s s2 xl l R y n p Hy HP j Hj) as (A & B & C). auto. Qed.
Lemma live_same a b : In a (live p) -> In b (live p) -> e_hash (ent_of a) = e_hash (ent_of b) -> sl_rev a = sl_rev b.
Proof. intros A B E. unfold ent_of in E. cbn [e_hash] in E. injection E as E _. apply reverse64_inj in E; auto; apply live_rev; auto. Qed.
Lemma live_nodup : NoDup (map sl_rev (live p)).
Proof. apply sorted_nodup. apply (po_sorted _ _ _ K). Qed.
(** entries of other buckets do not have the hashes of this one *)
Lemma other_bucket r e sl : 0 <= r < W64 -> ~ (brev (x_trie s2) n <= r < up (x_trie s2) y) -> In e (bucket_of bs l r) -> In sl (live p) -> e_hash e <> e_hash (ent_of sl).
Proof.
  intros Hr NR He Hs E. unfold bucket_of in He. apply filter_In in He as [_ He]. destruct (live_rev sl Hs) as (A & B & C). apply NR.
  assert (EP : e_pos e = sl_rev sl) by (rewrite <- B; unfold e_pos; rewrite E; auto). rewrite EP, together_sym in He. rewrite <- (pl_bs _ _ _ _ _ _ R) in He. apply (together_bucket s2 xl y n (sl_rev sl) r I Hy C Hr). exact He.
Qed.

Lemma prel_change j f g q : (j < p_n p)%nat -> sl_rev (f (slot_at p j)) = sl_rev (slot_at p j) -> ent_of (f (slot_at p j)) = g (ent_of (slot_at p j)) -> (forall e, e_hash (g e) = e_hash e) ->
  p_n q = p_n p -> (p_n q <= List.length (p_slots q))%nat -> (forall i, (i < p_n p)%nat -> slot_at q i = if Nat.eqb j i then f (slot_at p j) else slot_at p i) ->
  exists q', prel bs len (set_bpool s n q) (set_bpool s2 n q') xl (change g (e_hash (ent_of (slot_at p j))) l).
Proof.
  intros Hj Hf Hg Gh QN QC QS. pose proof (live_length _ _ _ K) as LL. set (hh := e_hash (ent_of (slot_at p j))).
  assert (CB : forall r, bucket_of bs (change g hh l) r = change g hh (bucket_of bs l r)).
  { intros r. unfold bucket_of, change. apply filter_map_same. intros e. unfold e_pos. destruct (pair_eqb (e_hash e) hh); [rewrite Gh|]; auto. }
  destruct (upd_nth_split j (f (slot_at p j)) zero_slot (live p) ltac:(lia)) as (l1 & l2 & E1 & E2 & E3). rewrite (live_nth p j Hj) in E1.
  assert (SR : map sl_rev (upd_nth j (f (slot_at p j)) (live p)) = map sl_rev (live p)). { rewrite E3, E1, !map_app. cbn [map]. rewrite Hf. auto. }
  pose proof live_nodup as ND. rewrite E1, map_app in ND. cbn [map] in ND.
  assert (HX : forall sl, In sl l1 \/ In sl l2 -> e_hash (ent_of sl) <> hh).
  { intros sl Hs E. assert (X : sl_rev sl = sl_rev (slot_at p j)). { apply live_same; auto; rewrite E1; apply in_or_app; cbn; tauto. }
    apply NoDup_remove_2 in ND. apply ND. rewrite <- X. apply in_or_app. destruct Hs; [left|right]; apply in_map; auto. }
  assert (PE : forall sl, In sl l1 \/ In sl l2 -> pair_eqb (e_hash (ent_of sl)) hh = false).
  { intros sl Hs. destruct (pair_eqb (e_hash (ent_of sl)) hh) eqn:E; auto. apply same_hash in E. exfalso. exact (HX sl Hs E). }
  apply (prel_put bs len s s2 xl l y n p q (upd_nth j (f (slot_at p j)) (live p))); auto.
  - rewrite upd_nth_length. lia.
  - rewrite upd_nth_length. intros i Hi. rewrite QS by lia. destruct (Nat.eqb_spec j i) as [<-|N].
    + rewrite E3, app_nth2 by lia. rewrite E2, Nat.sub_diag. auto.
    + rewrite nth_upd_nth_other by auto. symmetry. apply live_nth. lia.
  - rewrite SR. apply (po_sorted _ _ _ K).
  - intros sl Hs. rewrite E3 in Hs. assert (exists sl', In sl' (live p) /\ sl_rev sl = sl_rev sl') as (sl' & A & ->).
    { apply in_app_or in Hs as [Hs|[<-|Hs]]; [exists sl|exists (slot_at p j)|exists sl]; (split; [rewrite E1; apply in_or_app; cbn; tauto|auto]). }
    apply (live_rev sl' A).
  - intros r Hr. rewrite CB, (pl_bk _ _ _ _ _ _ R y n p r Hy HP Hr). rewrite E3, E1, !map_app. cbn [map]. unfold change. rewrite !map_app. cbn [map]. f_equal; [|f_equal].
    + apply map_id_in. intros e He. apply in_map_iff in He as (sl & <- & He). rewrite PE; auto.
    + unfold hh. rewrite pair_eqb_refl. auto.
    + apply map_id_in. intros e He. apply in_map_iff in He as (sl & <- & He). rewrite PE; auto.
  - intros r Hr NR. rewrite CB. apply map_id_in. intros e He. destruct (pair_eqb (e_hash e) hh) eqn:E; auto. apply same_hash in E. exfalso.
    apply (other_bucket r e (slot_at p j) Hr NR He); auto. eapply live_in; eauto.
  - intros e He. unfold change in He. apply in_map_iff in He as (e0 & <- & He). destruct (pair_eqb (e_hash e0) hh); [rewrite Gh|]; apply (pl_hash _ _ _ _ _ _ R); auto.
Qed.

Lemma prel_trunc k q G : (k <= p_n p)%nat -> p_n q = k -> (p_n q <= List.length (p_slots q))%nat -> (forall i, (i < k)%nat -> slot_at q i = slot_at p i) ->
  (forall e, In e G <-> In e (map ent_of (skipn k (live p)))) ->
  exists q', prel bs len (set_bpool s n q) (set_bpool s2 n q') xl (without G l).
Proof.
  intros Hk QN QC QS HG. pose proof (live_length _ _ _ K) as LL.
  assert (CB : forall r, bucket_of bs (without G l) r = without G (bucket_of bs l r)) by (intros r; apply filter_filter).
  assert (FL : List.length (firstn k (live p)) = k) by (rewrite firstn_length; lia).
  pose proof (firstn_skipn k (live p)) as FS. pose proof (po_sorted _ _ _ K) as SO. rewrite <- FS, map_app in SO.
  assert (SA : forall a b l1 l2, StronglySorted Z.lt (l1 ++ l2) -> In a l1 -> In b l2 -> a < b).
  { clear. intros a b l1 l2. induction l1 as [|z l1 IH]; intros S A B; [destruct A|]. cbn [app] in S. inversion S as [|? ? S1 S2]; subst. destruct A as [->|A]; auto. rewrite Forall_forall in S2. apply S2. apply in_or_app; auto. }
  assert (IA : forall sl, In sl (firstn k (live p)) -> In sl (live p)) by (intros; rewrite <- FS; apply in_or_app; auto).
  assert (IB : forall sl, In sl (skipn k (live p)) -> In sl (live p)) by (intros; rewrite <- FS; apply in_or_app; auto).
  apply (prel_put bs len s s2 xl l y n p q (firstn k (live p))); auto.
  - lia.
  - intros i Hi. rewrite QS by lia. rewrite nth_firstn_lt by lia. symmetry. apply live_nth. lia.
  - clear -SO. induction (firstn k (live p)) as [|z l1 IH]; cbn [map app] in *; constructor; inversion SO as [|? ? S1 S2]; subst; auto. rewrite Forall_forall in *. intros x Hx. apply S2. apply in_or_app; auto.
  - intros sl Hs. apply (live_rev sl (IA sl Hs)).
  - intros r Hr. rewrite CB, (pl_bk _ _ _ _ _ _ R y n p r Hy HP Hr). rewrite <- FS at 1. rewrite map_app. unfold without. rewrite filter_app. rewrite (filter_all _ (map ent_of (firstn k (live p)))), (filter_none _ (map ent_of (skipn k (live p)))), app_nil_r; auto.
    + intros e He. apply negb_false_iff. apply existsb_exists. exists e. split; [apply HG; auto|]. apply pair_eqb_refl.
    + intros e He. apply negb_true_iff. destruct (existsb (same_entry e) G) eqn:E; auto. apply existsb_exists in E as (e2 & H2 & E). apply HG in H2. exfalso.
      apply in_map_iff in He as (a & <- & Ha). apply in_map_iff in H2 as (b & <- & Hb). apply same_hash in E. pose proof (live_same a b (IA a Ha) (IB b Hb) E) as X.
      pose proof (SA (sl_rev a) (sl_rev b) _ _ SO (in_map sl_rev _ _ Ha) (in_map sl_rev _ _ Hb)). lia.
  - intros r Hr NR. rewrite CB. apply filter_all. intros e He. apply negb_true_iff. destruct (existsb (same_entry e) G) eqn:E; auto. apply existsb_exists in E as (e2 & H2 & E). apply HG in H2. exfalso.
    apply in_map_iff in H2 as (b & <- & Hb). apply same_hash in E. exact (other_bucket r e b Hr NR He (IB b Hb) E).
  - intros e He. unfold without in He. apply filter_In in He as [He _]. apply (pl_hash _ _ _ _ _ _ R); auto.
Qed.
End Put.

(** * One call *)
Definition pagrees (bs : list Z) (len : Z) (xl : list nid) (r : res out) (e : out) (s' : estate) (l' : list ent) : Prop :=
  r = Div \/ (seen r = Some e /\ exists s2', prel bs len s' s2' xl l').
Lemma upd_at p j f i : (j < List.length (p_slots p))%nat -> slot_at (upd_slot p j f) i = if Nat.eqb j i then f (slot_at p j) else slot_at p i.
Proof.
  intros Hj. unfold slot_at at 1. unfold upd_slot. cbn [p_slots]. destruct (Nat.eqb_spec j i) as [<-|N].
  - destruct (upd_nth_split j (f (slot_at p j)) zero_slot (p_slots p) Hj) as (l1 & l2 & E1 & E2 & E3). rewrite E3, app_nth2 by lia. rewrite E2, Nat.sub_diag. auto.
  - rewrite nth_upd_nth_other by auto. auto.
Qed.
(** a changed item *)
Lemma prel_upd bs len s s2 xl l k c n j p f g : prel bs len s s2 xl l -> 0 <= k < W64 -> hit s2 k c n j p ->
  (forall sl, sl_rev (f sl) = sl_rev sl) -> ent_of (f (slot_at p j)) = g (ent_of (slot_at p j)) -> (forall e, e_hash (g e) = e_hash e) ->
  exists q', prel bs len (upd_item s n j f) (set_bpool s2 n q') xl (change g (k, c) l).
Proof.
  intros R Hk (y & Hy & HP & K & Hj & Hr & Hc & Hv) Hf Hg Gh. destruct (own_pool bs len s s2 xl l y n p R Hy HP) as (q & Q1 & Q2 & Q3 & Q4).
  rewrite <- (slot_hash k c _ Hk Hr Hc). unfold upd_item. rewrite Q1.
  assert (QN : p_n (upd_slot q j f) = p_n p) by exact Q2.
  apply (prel_change bs len s s2 xl l y n p R Hy HP j f g); auto.
  - rewrite QN. unfold upd_slot. cbn [p_slots]. rewrite upd_nth_length. lia.
  - intros i Hi. rewrite upd_at by lia. rewrite (Q4 j) by lia. destruct (Nat.eqb_spec j i) as [<-|N]; auto. apply Q4. lia.
Qed.
(** what the list says of an entry that was found *)
Lemma hit_entry bs len s s2 xl l k c n j p : prel bs len s s2 xl l -> 0 <= k < W64 -> hit s2 k c n j p -> entry l (k, c) = Some (ent_of (slot_at p j)) /\ e_hash (ent_of (slot_at p j)) = (k, c) /\
  (forall e, In e l -> e_hash e = (k, c) -> e = ent_of (slot_at p j)).
Proof.
  intros R Hk (y & Hy & HP & K & Hj & Hr & Hc & Hv). split; [apply (bk_entry bs len s s2 xl l R y n p Hy HP); auto|]. split; [apply slot_hash; auto|].
  intros e He E. pose proof (bk_pos bs len s s2 xl l R y n p Hy HP j Hj) as (A & B & _).
  assert (EP : e_pos e = sl_rev (slot_at p j)) by (unfold e_pos; rewrite E, Hr; auto).
  assert (Hin : In e (bucket_of bs l (sl_rev (slot_at p j)))). { unfold bucket_of. apply filter_In. split; auto. rewrite EP. apply together_refl. }
  rewrite (pl_bk _ _ _ _ _ _ R y n p _ Hy HP B) in Hin. apply (bk_in bs len s s2 xl l R y n p Hy HP) in Hin as (i & Hi & ->). f_equal. f_equal.
  pose proof (bk_same bs len s s2 xl l R y n p Hy HP i j Hi Hj) as X. unfold same_entry in X. rewrite E, (slot_hash k c _ Hk Hr Hc), pair_eqb_refl in X. symmetry in X. apply Nat.eqb_eq in X. auto.
Qed.
Lemma change_id g p l : (forall e, In e l -> e_hash e = p -> g e = e) -> change g p l = l.
Proof. intros H. apply map_id_in. intros e He. destruct (pair_eqb (e_hash e) p) eqn:E; auto. apply H; auto. apply same_hash. auto. Qed.

Lemma eupdate_pagrees bs len s s2 xl l k c n j p v : prel bs len s s2 xl l -> 0 <= k < W64 -> hit s2 k c n j p -> item_at s n j = slot_at p j ->
  let b := mkBd KSample (sl_key (slot_at p j)) (sl_val (slot_at p j)) in
  visible bs l (k, c) = Some b ->
  pagrees bs len xl (snd (eupdate s n j v)) (snd (sm_update (the_map bs len l) (k, c) b v)) (fst (eupdate s n j v))
    (match sm_map (fst (sm_update (the_map bs len l) (k, c) b v)) (k, c) with Some b' => change (set_bd b') (k, c) l | None => l end).
Proof.
  intros R Hk HT HI b HV. right. unfold eupdate, sm_update. rewrite HI, set_value_assign. cbn [the_map sm_view].
  cbn [b bd_val bd_kind bd_key]. destruct (assign KSample (sl_val (slot_at p j)) v) as [[v' ok]|]; cbn [fst snd].
  - split; [reflexivity|]. cbn [sm_map]. unfold sm_put. rewrite pair_eqb_refl. destruct (prel_upd bs len s s2 xl l k c n j p (set_sval v') (set_bd (mkBd KSample (sl_key (slot_at p j)) v')) R Hk HT) as (q' & H); auto. eauto.
  - split; [reflexivity|]. cbn [sm_map the_map]. rewrite HV. rewrite change_id; [eauto|]. intros e He E. destruct (hit_entry bs len s s2 xl l k c n j p R Hk HT) as (_ & _ & U). rewrite (U e He E). reflexivity.
Qed.
Lemma edelete_pagrees bs len s s2 xl l k c n j p : prel bs len s s2 xl l -> 0 <= k < W64 -> hit s2 k c n j p ->
  exists q', prel bs len (upd_item s n j set_sdel) (set_bpool s2 n q') xl (change kill (k, c) l).
Proof. intros R Hk HT. apply (prel_upd bs len s s2 xl l k c n j p); auto. Qed.

Lemma rev_nth_last {A} (l : list A) d : l <> [] -> exists l', l = l' ++ [nth (List.length l - 1) l d].
Proof. intros H. destruct (exists_last H) as (l' & x & ->). exists l'. rewrite app_length. cbn [List.length]. replace (List.length l' + 1 - 1)%nat with (List.length l') by lia. rewrite app_nth2, Nat.sub_diag by lia. auto. Qed.
(** the end of a bucket *)
Lemma taken_spec bs l e (L : list slot) : bucket_of bs l (e_pos e) = map ent_of L -> (0 < List.length L)%nat ->
  forall x, In x (taken_off bs l e) <-> In x (map ent_of (skipn (if (1 <? List.length L)%nat && sl_del (nth (List.length L - 2) L zero_slot) then List.length L - 3 else List.length L - 1) L)).
Proof.
  intros E H x. unfold taken_off. rewrite E. clear E. destruct L as [|a L'] using rev_ind; [cbn in H; lia|]. clear IHL'. rewrite map_app, rev_app_distr. cbn [map rev app].
  rewrite app_length. cbn [List.length]. destruct L' as [|d L''] using rev_ind; [|clear IHL''].
  - cbn. tauto.
  - rewrite map_app, rev_app_distr. cbn [map rev app]. rewrite app_length. cbn [List.length].
    replace ((1 <? (List.length L'' + 1 + 1))%nat) with true by (symmetry; apply Nat.ltb_lt; lia).
    replace (List.length L'' + 1 + 1 - 2)%nat with (List.length L'') by lia. rewrite <- app_assoc. rewrite app_nth2 by lia. rewrite Nat.sub_diag. cbn [nth app andb]. cbn [ent_of e_dead].
    destruct (sl_del d).
    + destruct L'' as [|z L3] using rev_ind; [|clear IHL3].
      * cbn [map rev firstn List.length app skipn]. cbn. tauto.
      * rewrite map_app, rev_app_distr. cbn [map rev app firstn]. rewrite app_length. cbn [List.length]. replace (List.length L3 + 1 + 1 + 1 - 3)%nat with (List.length L3) by lia.
        rewrite <- app_assoc. rewrite skipn_app, skipn_all, Nat.sub_diag. cbn [app skipn map In]. tauto.
    + replace (List.length L'' + 1 + 1 - 1)%nat with (List.length (L'' ++ [d])) by (rewrite app_length; cbn; lia). change (d :: [a]) with ([d] ++ [a]). rewrite app_assoc, skipn_app, skipn_all, Nat.sub_diag. cbn [app skipn map In]. tauto.
Qed.

Lemma epurge_pagrees bs len s s2 xl l k c n j p q : prel bs len s s2 xl l -> 0 <= k < W64 -> hit s2 k c n j p -> b_pool (bget (x_trie s) n) = Some q ->
  let last := (p_len q - 1 =? Z.of_nat j) in
  let p1 := upd_slot q j (fun sl => set_slink (negb last) (set_sdel sl)) in
  let p2 := if last then shrink_len (mkP (p_slots p1) (p_len p1 - 1)) else p1 in
  exists q', prel bs len (set_bpool s n p2) (set_bpool s2 n q') xl (purged bs l (ent_of (slot_at p j))).
Proof.
  intros R Hk HT HQ. destruct (hit_entry bs len s s2 xl l k c n j p R Hk HT) as (_ & HH & _). destruct HT as (y & Hy & HP & K & Hj & Hr & Hc & Hv).
  destruct (own_pool bs len s s2 xl l y n p R Hy HP) as (q0 & Q1 & Q2 & Q3 & Q4). rewrite HQ in Q1. injection Q1 as <-. pose proof (live_length _ _ _ K) as LL.
  pose proof (bk_at bs len s s2 xl l R y n p Hy HP j Hj) as BA.
  cbv zeta. unfold purged. rewrite (bk_last bs len s s2 xl l R y n p Hy HP j Hj).
  assert (LP : p_len q = Z.of_nat (p_n p)) by (unfold p_n in Q2 |- *; unfold p_n in Hj; lia).
  destruct (Z.eqb_spec (p_len q - 1) (Z.of_nat j)) as [EJ|NJ].
  - replace (p_n p - 1 =? j)%nat with true by (symmetry; apply Nat.eqb_eq; lia). cbn [negb].
    set (f := fun sl => set_slink false (set_sdel sl)). set (q1 := mkP (p_slots (upd_slot q j f)) (p_len (upd_slot q j f) - 1)).
    assert (N1 : p_n q1 = j) by (unfold p_n, q1; cbn [p_len upd_slot]; lia).
    assert (S1 : forall i, i <> j -> slot_at q1 i = slot_at q i). { intros i Hi. change (slot_at q1 i) with (slot_at (upd_slot q j f) i). rewrite upd_at by lia. destruct (Nat.eqb_spec j i); [lia|auto]. }
    assert (C1 : List.length (p_slots q1) = List.length (p_slots q)) by (unfold q1, upd_slot; cbn [p_slots]; apply upd_nth_length).
    pose proof (taken_spec bs l (ent_of (slot_at p j)) (live p) BA ltac:(lia)) as TK. rewrite LL in TK.
    unfold shrink_len. rewrite N1. destruct j as [|j'].
    + replace (1 <? p_n p)%nat with false in TK by (symmetry; apply Nat.ltb_ge; lia). cbn [andb] in TK. replace (p_n p - 1)%nat with 0%nat in TK by lia.
      apply (prel_trunc bs len s s2 xl l y n p R Hy HP 0 q1); auto; lia.
    + replace (1 <? p_n p)%nat with true in TK by (symmetry; apply Nat.ltb_lt; lia). cbn [andb] in TK. replace (p_n p - 2)%nat with j' in TK by lia. rewrite (live_nth p j') in TK by lia.
      rewrite (S1 j') by lia. rewrite (Q4 j') by lia. destruct (sl_del (slot_at p j')) eqn:D.
      * apply (prel_trunc bs len s s2 xl l y n p R Hy HP (p_n p - 3)); auto; try lia.
        -- unfold p_n at 1. cbn [p_len q1 upd_slot]. lia.
        -- cbn [p_slots]. rewrite upd_nth_length, C1. unfold p_n at 1. cbn [p_len q1 upd_slot]. lia.
        -- intros i Hi. unfold slot_at at 1. cbn [p_slots]. rewrite nth_upd_nth_other by lia. fold (slot_at q1 i). rewrite S1 by lia. apply Q4. lia.
      * apply (prel_trunc bs len s s2 xl l y n p R Hy HP (p_n p - 1)); auto; try lia. intros i Hi. rewrite S1 by lia. apply Q4. lia.
  - replace (p_n p - 1 =? j)%nat with false by (symmetry; apply Nat.eqb_neq; lia). cbn [negb].
    rewrite HH. pose proof (prel_upd bs len s s2 xl l k c n j p (fun sl => set_slink true (set_sdel sl)) kill R Hk) as U. unfold upd_item in U. rewrite HQ in U. apply U; auto.
    exists y. repeat (split; auto).
Qed.

Lemma pstep bs len h s s2 xl l o : prel bs len s s2 xl l ->
  match o with
  | OpSet key _ => exists p, key_to_hash h key = Some p /\ present bs l p = true
  | OpStore i => exists p, key_to_hash h (i_key i) = Some p /\ present bs l p = true
  | _ => True
  end ->
  pagrees bs len xl (snd (estep h s o)) (snd (sm_step h (the_map bs len l) o)) (fst (estep h s o)) (next_entries h bs len l o).
Proof.
  intros R HO.
  assert (UPD : forall k c v, 0 <= k < W64 -> present bs l (k, c) = true -> exists b, visible bs l (k, c) = Some b /\ (eload s k c = Div \/ exists n j,
     eload s k c = Ret (Some (n, j)) /\
     pagrees bs len xl (snd (eupdate s n j v)) (snd (sm_update (the_map bs len l) (k, c) b v)) (fst (eupdate s n j v))
      (match sm_map (fst (sm_update (the_map bs len l) (k, c) b v)) (k, c) with Some b' => change (set_bd b') (k, c) l | None => l end))).
  { intros k c v Hk PR. unfold present in PR. destruct (visible bs l (k, c)) as [b|] eqn:EV; [|discriminate]. exists b. split; auto.
    destruct (eload_view bs len s s2 xl l k c R Hk) as [E|[(n & j & p & E & HT & HI & EV')|(_ & EV')]]; [left; auto| |congruence].
    right. exists n, j. split; auto. rewrite EV in EV'. injection EV' as ->. apply (eupdate_pagrees bs len s s2 xl l k c n j p v R Hk HT HI EV). }
  assert (GET : forall k c, 0 <= k < W64 -> pagrees bs len xl (snd (eget s k c)) (sm_get (the_map bs len l) (k, c)) (fst (eget s k c)) l).
  { intros k c Hk. unfold eget, sm_get. cbn [sm_map the_map]. destruct (eload_view bs len s s2 xl l k c R Hk) as [->|[(n & j & p & -> & HT & HI & ->)|(-> & ->)]]; [left; auto|right; cbn [fst snd seen]; rewrite HI; eauto|right; cbn [fst snd seen]; eauto]. }
  assert (LOAD : forall k c, 0 <= k < W64 -> pagrees bs len xl (snd (eget_item s k c)) (sm_load (the_map bs len l) (k, c)) (fst (eget_item s k c)) l).
  { intros k c Hk. unfold eget_item, sm_load. cbn [sm_map the_map]. destruct (eload_view bs len s s2 xl l k c R Hk) as [->|[(n & j & p & -> & HT & HI & ->)|(-> & ->)]]; [left; auto|right; cbn [fst snd seen]; rewrite HI; eauto|right; cbn [fst snd seen]; eauto]. }
  destruct o as [key v|i|key|k c|key|k c|key|key|]; cbn [estep next_entries] in *.
  - destruct HO as ((k & c) & EK & PR). pose proof (proj1 (key_range _ _ _ _ EK)) as Hk. unfold eset. cbn [sm_step]. rewrite EK. destruct (UPD k c v Hk PR) as (b & EV & [->|(n & j & -> & H)]); [left; auto|]. cbn [sm_map the_map]. rewrite EV. exact H.
  - destruct HO as ((k & c) & EK & PR). pose proof (proj1 (key_range _ _ _ _ EK)) as Hk. unfold estore, item_hash. cbn [sm_step]. rewrite EK. destruct (UPD k c (i_val i) Hk PR) as (b & EV & [->|(n & j & -> & H)]); [left; auto|]. cbn [sm_map the_map]. rewrite EV. exact H.
  - cbn [sm_step snd]. unfold ewith. destruct (key_to_hash h key) as [[k c]|] eqn:EK; [|right; cbn [fst snd seen]; eauto]. apply GET. apply (proj1 (key_range _ _ _ _ EK)).
  - cbn [sm_step snd]. apply GET. apply u64_range.
  - cbn [sm_step snd]. unfold ewith. destruct (key_to_hash h key) as [[k c]|] eqn:EK; [|right; cbn [fst snd seen]; eauto]. apply LOAD. apply (proj1 (key_range _ _ _ _ EK)).
  - cbn [sm_step snd]. apply LOAD. apply u64_range.
  - cbn [sm_step]. unfold ewith. destruct (key_to_hash h key) as [[k c]|] eqn:EK; [|right; cbn [fst snd seen]; eauto]. pose proof (proj1 (key_range _ _ _ _ EK)) as Hk. unfold edelete, present. cbn [sm_map the_map].
    destruct (eload_view bs len s s2 xl l k c R Hk) as [->|[(n & j & p & -> & HT & HI & ->)|(-> & ->)]]; [left; auto|right; cbn [fst snd seen]; split; auto|right; cbn [fst snd seen]; eauto]. destruct (edelete_pagrees bs len s s2 xl l k c n j p R Hk HT) as (q' & H). eauto.
  - cbn [sm_step]. unfold ewith. destruct (key_to_hash h key) as [[k c]|] eqn:EK; [|right; cbn [fst snd seen]; eauto]. pose proof (proj1 (key_range _ _ _ _ EK)) as Hk. unfold epurge, present. cbn [sm_map the_map].
    destruct (eload_view bs len s s2 xl l k c R Hk) as [->|[(n & j & p & -> & HT & HI & ->)|(-> & ->)]]; [left; auto| |right; cbn [fst snd seen]; destruct (entry l (k, c)); eauto].
    destruct (hit_entry bs len s s2 xl l k c n j p R Hk HT) as (-> & _ & _). pose proof HT as (y & Hy & HP & _).
    destruct (own_pool bs len s s2 xl l y n p R Hy HP) as (q & Q1 & _). rewrite Q1. right. cbn [fst snd seen]. split; auto. destruct (epurge_pagrees bs len s s2 xl l k c n j p q R Hk HT Q1) as (q' & H). eauto.
  - right. cbn [fst snd seen sm_step sm_created the_map]. rewrite (pl_len _ _ _ _ _ _ R). eauto.
Qed.
Lemma prun bs len h xl : forall os s s2 l, prel bs len s s2 xl l -> creates_none h bs len l os -> agree (eouts h s os) (purge_outs h bs len l os).
Proof.
  induction os as [|o os IH]; intros s s2 l H HN; cbn [eouts purge_outs agree creates_none] in *; [auto|].
  destruct HN as [HO HN]. pose proof (pstep bs len h s s2 xl l o H HO) as A.
  destruct (estep h s o) as [s' r]. cbn [fst snd] in A. destruct A as [->|[E (s2' & A)]]; [left; auto|right].
  assert (ST : stops r = false) by (destruct r; cbn in *; congruence). rewrite ST. split; eauto.
Qed.

(** * After the Sets *)
Lemma pos_sorted l : (forall i j x y, nth_error l i = Some x -> nth_error l j = Some y -> (i < j)%nat -> e_pos x < e_pos y) -> StronglySorted Z.lt (map e_pos l).
Proof.
  induction l as [|a l IH]; intros H; cbn [map]; constructor.
  - apply IH. intros i j x y Hi Hj L. apply (H (S i) (S j)); auto. lia.
  - apply Forall_forall. intros z Hz. apply in_map_iff in Hz as (e & <- & He). apply In_nth_error in He as (j & Hj). apply (H 0%nat (S j)); auto. lia.
Qed.
Lemma sorted_nth l : StronglySorted Z.lt (map e_pos l) -> forall i j x y, nth_error l i = Some x -> nth_error l j = Some y -> (i < j)%nat -> e_pos x < e_pos y.
Proof.
  induction l as [|a l IH]; intros S i j x y Hi Hj L; [destruct i; discriminate|]. cbn [map] in S. inversion S as [|? ? S1 S2]; subst. destruct j as [|j]; [lia|]. cbn in Hj. destruct i as [|i]; cbn in Hi.
  - injection Hi as <-. rewrite Forall_forall in S2. apply S2. apply in_map. eapply nth_error_In; eauto.
  - apply (IH S1 i j); auto. lia.
Qed.
Lemma filter_sorted f l : StronglySorted Z.lt (map e_pos l) -> StronglySorted Z.lt (map e_pos (filter f l)).
Proof.
  induction l as [|a l IH]; intros S; cbn [filter map]; auto. cbn [map] in S. inversion S as [|? ? S1 S2]; subst. destruct (f a); auto. cbn [map]. constructor; auto.
  rewrite Forall_forall in *. intros z Hz. apply S2. apply in_map_iff in Hz as (e & <- & He). apply filter_In in He as [He _]. apply in_map. auto.
Qed.
Lemma sorted_same : forall l l' : list ent, StronglySorted Z.lt (map e_pos l) -> StronglySorted Z.lt (map e_pos l') -> (forall e, In e l <-> In e l') -> l = l'.
Proof.
  induction l as [|a l IH]; intros [|b l'] S S' H; auto.
  - exfalso. apply (proj2 (H b)). left; auto.
  - exfalso. apply (proj1 (H a)). left; auto.
  - cbn [map] in S, S'. inversion S as [|? ? S1 S2]; subst. inversion S' as [|? ? S1' S2']; subst. rewrite Forall_forall in S2, S2'.
    assert (E : a = b).
    { destruct (proj1 (H a) (or_introl eq_refl)) as [E|E]; [auto|]. destruct (proj2 (H b) (or_introl eq_refl)) as [E'|E']; [auto|]. pose proof (S2 _ (in_map e_pos _ _ E')). pose proof (S2' _ (in_map e_pos _ _ E)). lia. }
    subst b. f_equal. apply IH; auto. intros e. split; intros He.
    + destruct (proj1 (H e) (or_intror He)) as [E|]; auto. subst e. pose proof (S2 _ (in_map e_pos _ _ He)). lia.
    + destruct (proj2 (H e) (or_intror He)) as [E|]; auto. subst e. pose proof (S2' _ (in_map e_pos _ _ He)). lia.
Qed.
Lemma erel_prel s m l : erel s m -> lists m l -> exists xl, prel (edump s) (sm_created m) s s xl l.
Proof.
  intros H [L1 L2 L3]. destruct (er_inv _ _ H) as (xl & I). exists xl. apply pos_sorted in L1.
  assert (CAP : forall y c p, adj (x_bl s) y c -> b_pool (bget (x_trie s) c) = Some p -> pool_ok p (brev (x_trie s) c) (up (x_trie s) y)).
  { intros y c p Hy HP. destruct (ei_pool _ _ I y c Hy) as (q & E & K). rewrite HP in E. injection E as <-. auto. }
  constructor; auto.
  - constructor; auto. { intros n. reflexivity. } intros n. destruct (b_pool (bget (x_trie s) n)); auto. apply used_refl.
  - apply (er_len _ _ H).
  - intros y c p r Hy HP Hr. pose proof (CAP y c p Hy HP) as K.
    assert (LP : forall sl, In sl (live p) -> 0 <= sl_rev sl < W64 /\ e_pos (ent_of sl) = sl_rev sl).
    { intros sl Hs. destruct (in_live _ _ _ _ K Hs) as (j & Hj & <-). apply (slot_range s xl y c p j I Hy HP Hj). }
    apply sorted_same.
    + apply filter_sorted. auto.
    + rewrite map_map. rewrite (map_ext_in _ sl_rev) by (intros sl Hs; apply LP; auto). apply (po_sorted _ _ _ K).
    + intros e. unfold bucket_of. rewrite filter_In. rewrite (together_bucket s xl y c r (e_pos e) I Hy Hr (pos_range e)). split.
      * intros [He Rg]. destruct (L3 e He) as [D Hk]. destruct e as [[k cf] bd dd]. cbn [e_dead e_hash fst] in *. subst dd.
        apply (L2 k cf bd Hk) in He. apply (er_at _ _ H k cf bd Hk) in He as (key & v & -> & HC).
        apply (cont_here s xl I (reverse64 k) y c p) in HC; auto. apply in_map_iff in HC as (sl & E & Hs). apply in_map_iff. exists sl. split; auto.
        unfold pr in E. unfold ent_of. injection E as E1 E2 E3 E4 E5. rewrite E1, E2, E3, E4, E5. rewrite reverse64_involutive by auto. auto.
      * intros He. apply in_map_iff in He as (sl & <- & Hs). destruct (LP sl Hs) as [A B]. rewrite B. split; [|apply (po_rng _ _ _ K); auto].
        unfold ent_of. rewrite (er_nd _ _ H y c p Hy HP sl Hs). pose proof (reverse64_range (sl_rev sl)) as RR. apply (L2 _ _ _ RR). apply (er_at _ _ H _ _ _ RR).
        exists (sl_key sl), (sl_val sl). split; auto. rewrite reverse64_involutive by auto. exists y, c, p. split; auto. split; auto. apply in_map_iff. exists sl. split; auto. unfold pr. rewrite (er_nd _ _ H y c p Hy HP sl Hs). auto.
  - intros e He. apply (L3 e He).
  - intros y c p Hy HP. eapply po_n. apply (CAP y c p Hy HP).
Qed.
