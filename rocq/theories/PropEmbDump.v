(** C82: DumpEntry in the embedded mode. *)
From Verif Require Import Base BaseProofs Util UtilProofs Bucket TrieProofs TrieInv TrieGrow MapModel MapDump ItemProofs MapInv MapSplit
  MapRefine MapMore Spec SpecUtil EmbModel EmbPool EmbTrie EmbInv EmbSplit EmbSpec EmbRefine EmbDel EmbTop EmbList EmbListInv EmbLevel PropEmb PropHang PropEmbRange.
From Coq Require Import ZifyBool Sorted String.
Local Open Scope Z_scope.
Local Open Scope list_scope.
Local Opaque reverse64 level_of base find_bucket.

(** map.go:1104-1125 DumpEntry, maphead.go:102-108 fromMapHead: one line for each element of the item list; there is no test of the
    deleted mark. The conflict of a dummy is 0 (map.go:236, 276, 1161), its key nil. An item in the list is a SampleItem. *)
Definition eline (t : trie) (r : eref) : dline :=
  match r with
  | RD n => mkL None (reverse64 (brev t n)) (brev t n) 0
  | RS n i => let sl := slot_in t n i in mkL (Some (Some (sl_key sl))) (reverse64 (sl_rev sl)) (sl_rev sl) (sl_conf sl)
  end.
Definition edump_entry (s : lstate) : list dline := map (eline (x_trie (fst s))) (snd s).
(** a line of an item, not of a sentinel *)
Definition of_item (d : dline) : bool := match dl_key d with Some _ => true | None => false end.
Definition sentinels (s : lstate) : list Z := map dl_rev (filter (fun d => negb (of_item d)) (edump_entry s)).
Definition items (s : lstate) : list dline := filter of_item (edump_entry s).

Definition sline (sl : slot) : dline := mkL (Some (Some (sl_key sl))) (reverse64 (sl_rev sl)) (sl_rev sl) (sl_conf sl).
Definition flat_lines (t : trie) (bl : list nid) : list dline := map (eline t) (flat t bl).
Lemma flat_lines_cons t b bl : flat_lines t (b :: bl) = flat_lines t bl ++ eline t (RD b) :: map (eline t) (slots b 0 (plen t b)).
Proof. unfold flat_lines. rewrite flat_cons, map_app. reflexivity. Qed.
Lemma slots_sentinel t b i m : filter (fun d => negb (of_item d)) (map (eline t) (slots b i m)) = [].
Proof. unfold slots. revert i. induction m as [|m IH]; intros i; cbn [seq map filter]; auto. cbn. apply IH. Qed.
Lemma slots_items t b i m : filter of_item (map (eline t) (slots b i m)) = map (eline t) (slots b i m).
Proof. unfold slots. revert i. induction m as [|m IH]; intros i; cbn [seq map filter]; auto. cbn. f_equal. apply IH. Qed.
Lemma flat_sentinels t bl : map dl_rev (filter (fun d => negb (of_item d)) (flat_lines t bl)) = rev (map (brev t) bl).
Proof.
  induction bl as [|b bl IH]; auto. rewrite flat_lines_cons, filter_app, map_app, IH. cbn [filter eline of_item dl_key negb map rev].
  rewrite slots_sentinel. reflexivity.
Qed.
Lemma slots_live t b p : b_pool (bget t b) = Some p -> (p_n p <= List.length (p_slots p))%nat ->
  map (eline t) (slots b 0 (p_n p)) = map sline (live p).
Proof.
  intros HP HL. unfold slots. rewrite map_map. unfold live. cbn [eline]. unfold slot_in. rewrite HP.
  assert (G : forall n l, (n <= List.length l)%nat -> forall i, (forall j, (j < n)%nat -> slot_at p (i + j) = nth j l zero_slot) ->
    map (fun x => mkL (Some (Some (sl_key (slot_at p x)))) (reverse64 (sl_rev (slot_at p x))) (sl_rev (slot_at p x)) (sl_conf (slot_at p x))) (seq i n) = map sline (firstn n l)).
  { induction n as [|n IH]; intros l Hl i H; auto. destruct l as [|x l]; [cbn in Hl; lia|]. cbn [seq firstn map].
    pose proof (H 0%nat ltac:(lia)) as H0. rewrite Nat.add_0_r in H0. cbn [nth] in H0. rewrite H0. unfold sline at 1. f_equal.
    apply IH; [cbn in Hl; lia|]. intros j Hj. replace (S i + j)%nat with (i + S j)%nat by lia. rewrite (H (S j)) by lia. reflexivity. }
  apply G; auto.
Qed.
Lemma flat_items s xl : einv s xl -> filter of_item (flat_lines (x_trie s) (x_bl s)) = map sline (slist (x_trie s) (x_bl s)).
Proof.
  intros I. assert (G : forall B A, x_bl s = A ++ B -> filter of_item (flat_lines (x_trie s) B) = map sline (slist (x_trie s) B)).
  { induction B as [|b B IH]; intros A EB; auto. rewrite flat_lines_cons, slist_cons, filter_app, map_app, (IH (A ++ [b])) by (rewrite <- app_assoc; auto).
    f_equal. cbn [filter eline of_item dl_key]. rewrite slots_items. unfold plen, of_bucket. destruct (nid_eqb b bmax) eqn:Eb; auto.
    assert (Nb : b <> bmax) by (intros ->; rewrite nid_eqb_refl in Eb; discriminate).
    destruct (ei_pred s xl I b) as (y & Hy); auto; [rewrite EB; apply in_or_app; right; left; auto|].
    destruct (ei_pool _ _ I y b Hy) as (p & HP & K). rewrite HP. apply slots_live; auto. apply (po_n _ _ _ K). }
  apply (G (x_bl s) []). auto.
Qed.
Lemma rev_eline t e : dl_rev (eline t e) = rv_of t e.
Proof. destruct e; reflexivity. Qed.
Lemma flat_sorted s xl : einv s xl -> off s -> forall B y A, x_bl s = A ++ y :: B ->
  StronglySorted Z.lt (map dl_rev (flat_lines (x_trie s) B)) /\ forall d, In d (flat_lines (x_trie s) B) -> dl_rev d < up (x_trie s) y.
Proof.
  intros I OF. induction B as [|b B IH]; intros y A EB; [split; [constructor|intros sl []]|].
  assert (Hy : adj (x_bl s) y b) by (exists A, B; auto).
  destruct (IH b (A ++ [y])) as [IH1 IH2]; [rewrite <- app_assoc; auto|].
  destruct (ei_pool _ _ I y b Hy) as (p & HP & K).
  pose proof (ei_adj_ne s xl I _ _ Hy) as Nb. apply nid_eqb_neq in Nb.
  unfold up in IH2. rewrite Nb in IH2. rewrite flat_lines_cons. unfold plen. rewrite Nb, HP, (slots_live _ _ _ HP (po_n _ _ _ K)).
  assert (RG : forall sl, In sl (live p) -> brev (x_trie s) b < sl_rev sl).
  { intros sl Hs. pose proof (po_rng _ _ _ K sl Hs) as R. assert (sl_rev sl <> brev (x_trie s) b); [|lia].
    intros E. apply (OF (pr sl)); [exists y, b, p; split; auto; split; auto; apply in_map; auto|].
    change (pr_rev (pr sl)) with (sl_rev sl). rewrite E. apply in_map. apply (adj_in _ _ _ Hy). }
  pose proof (ei_adj_lt s xl I _ _ Hy) as LT.
  assert (UB : brev (x_trie s) b < up (x_trie s) y).
  { unfold up. destruct (nid_eqb y bmax) eqn:E; [|lia]. apply nid_eqb_eq in E. subst y.
    destruct (tk_bmax _ _ (ei_trie _ _ I)) as (_ & EM & _). rewrite EM in LT. change W64 with (MAX64 + 1). lia. }
  split.
  - rewrite map_app. apply sorted_app. split; [exact IH1|]. split.
    + cbn [map]. constructor.
      * rewrite map_map. change (map (fun x => dl_rev (sline x)) (live p)) with (map sl_rev (live p)). apply (po_sorted _ _ _ K).
      * apply Forall_forall. intros r Hr. rewrite map_map in Hr. apply in_map_iff in Hr as (sl & <- & Hs). apply (RG sl Hs).
    + intros u w Hu Hw. apply in_map_iff in Hu as (d & <- & Hd). specialize (IH2 d Hd). cbn [map] in Hw. destruct Hw as [<-|Hw]; [exact IH2|].
      rewrite map_map in Hw. apply in_map_iff in Hw as (sl & <- & Hs). specialize (RG sl Hs). cbn [sline dl_rev]. lia.
  - intros d Hd. apply in_app_or in Hd as [Hd|[<-|Hd]]; [specialize (IH2 d Hd); lia|exact UB|].
    apply in_map_iff in Hd as (sl & <- & Hs). apply (po_rng _ _ _ K sl Hs).
Qed.
Lemma flat_sorted_all s xl : einv s xl -> off s -> StronglySorted Z.lt (map dl_rev (flat_lines (x_trie s) (x_bl s))).
Proof.
  intros I OF. destruct (ei_bl_head s xl I) as (B & EB). destruct (flat_sorted s xl I OF B bmax [] EB) as [S U].
  rewrite EB, flat_lines_cons. unfold plen. rewrite nid_eqb_refl. cbn [slots seq map].
  destruct (tk_bmax _ _ (ei_trie _ _ I)) as (_ & EM & _). rewrite map_app. apply sorted_app. split; [exact S|]. split; [repeat constructor|].
  intros u w Hu [<-|[]]. apply in_map_iff in Hu as (d & <- & Hd). specialize (U d Hd). cbn [eline dl_rev]. fold (brev (x_trie s) bmax). rewrite EM.
  unfold up in U. rewrite nid_eqb_refl in U. change W64 with (MAX64 + 1) in U.
  assert (NE : dl_rev d <> MAX64); [|lia]. intros E.
  apply in_map_iff in Hd as (e & <- & He). rewrite rev_eline in E. apply in_flat in He as (c & Hc & He).
  assert (HC : In c (x_bl s)) by (rewrite EB; right; auto).
  apply in_seg in He as [->|(j & -> & Hj)].
  - cbn [rv_of] in E. pose proof (ei_sorted s xl I) as SS. rewrite EB in SS. apply StronglySorted_inv in SS as [_ F].
    rewrite Forall_forall in F. specialize (F c Hc). cbn beta in F. lia.
  - destruct (fl_plen s xl I c j HC Hj) as (u & p & Hu & HP & Hj').
    destruct (fl_slot s xl I u c p j Hu HP Hj') as (E1 & _ & CN).
    apply (OF _ CN). change (pr_rev (pr (slot_at p j))) with (sl_rev (slot_at p j)). rewrite <- E1, E, <- EM. apply in_map. rewrite EB. left. auto.
Qed.

(** * What is stored was written, and is counted *)
Lemma run_off h max os : Forall store_or_read os -> no_collision h os ->
  erel (erun h (new_emb max) os) (sm_run h (sm_empty KSample) os) ->
  (forall r, In r (positions h os) -> ~ In r (edump (erun h (new_emb max) os))) -> off (erun h (new_emb max) os).
Proof.
  intros HF HN A HB z Hz Hin. set (s := erun h (new_emb max) os) in *.
  destruct z as [[[[r cf] d] ky] vl]. cbn [pr_rev fst] in Hin.
  destruct (er_inv _ _ A) as (xl & I'). pose proof (cont_rev s xl I' _ Hz) as Rr. cbn [pr_rev fst] in Rr.
  assert (D0 : d = false).
  { destruct Hz as (y & b & p & Hy & HPp & Hi). apply in_map_iff in Hi as (sl & Es & Hs).
    pose proof (er_nd _ _ A y b p Hy HPp sl Hs) as D1. unfold pr in Es. congruence. }
  subst d. assert (EX : sm_map (sm_run h (sm_empty KSample) os) (reverse64 r, cf) = Some (mkBd KSample ky vl)).
  { apply (er_at _ _ A); [apply reverse64_range|]. eexists _, _. split; [reflexivity|]. rewrite reverse64_involutive by auto. auto. }
  destruct (run_written h os (sm_empty KSample) (reverse64 r) cf) as (o & Ho & W); [reflexivity|congruence|].
  apply (HB r); auto. apply in_flat_map. exists o. split; auto. rewrite W. left. apply reverse64_involutive. auto.
Qed.
Definition counts (m : smap) (L : list (Z * Z)) : Prop :=
  NoDup L /\ (forall p, In p L <-> sm_map m p <> None) /\ sm_created m = Z.of_nat (List.length L).
Lemma counts_step h m o L : store_or_read o -> counts m L -> exists L', counts (fst (sm_step h m o)) L'.
Proof.
  intros HO (C1 & C2 & C3). destruct o as [key v|i|key|k c|key|k c|key|key|]; try contradiction; try (exists L; split; [exact C1|split; [exact C2|exact C3]]).
  destruct HO as (x & ->). cbn [sm_step]. destruct (key_to_hash h (KStr x)) as [p|]; [|exists L; split; [exact C1|split; [exact C2|exact C3]]].
  destruct (sm_map m p) as [b|] eqn:EM.
  - unfold sm_update. destruct (assign _ _ _) as [[v' ok]|]; cbn [fst]; exists L; (split; [exact C1|]); (split; [|exact C3]); auto.
    intros q. cbn [sm_map]. rewrite C2. destruct p as [k c], q as [k' c']. rewrite sm_put_eq. destruct (pair_eqb_spec (k, c) (k', c')) as [E|E]; [|tauto].
    injection E as <- <-. rewrite EM. split; intros _ X; discriminate.
  - cbn [fst]. exists (p :: L). split; [constructor; auto; rewrite C2; auto|]. split.
    + intros q. cbn [sm_map In]. rewrite C2. destruct p as [k c], q as [k' c']. rewrite sm_put_eq. destruct (pair_eqb_spec (k, c) (k', c')) as [E|E].
      * split; [intros _ X; discriminate|auto].
      * split; [intros [X|X]; [contradiction|exact X]|auto].
    + cbn [sm_created List.length]. lia.
Qed.
Lemma counts_run h os : forall m L, Forall store_or_read os -> counts m L -> exists L', counts (sm_run h m os) L'.
Proof.
  induction os as [|o os IH]; intros m L HF C; cbn [sm_run]; [eauto|]. inversion HF; subst.
  destruct (counts_step h m o L) as (L1 & C1); auto. eapply IH; eauto.
Qed.
Lemma sorted_nodup_rev (l : list dline) : StronglySorted (fun a b => dl_rev a < dl_rev b) l -> NoDup l.
Proof. induction 1 as [|x l S IH F]; constructor; auto. intros H. rewrite Forall_forall in F. specialize (F x H). lia. Qed.
Lemma sorted_filter (f : dline -> bool) l : StronglySorted (fun a b => dl_rev a < dl_rev b) l -> StronglySorted (fun a b => dl_rev a < dl_rev b) (filter f l).
Proof.
  induction 1 as [|x l S IH F]; cbn [filter]; [constructor|]. destruct (f x); auto. constructor; auto.
  apply Forall_forall. intros y Hy. apply filter_In in Hy as [Hy _]. rewrite Forall_forall in F. auto.
Qed.
Lemma sorted_unmap l : StronglySorted Z.lt (map dl_rev l) -> StronglySorted (fun a b => dl_rev a < dl_rev b) l.
Proof.
  induction l as [|x l IH]; intros H; constructor; cbn [map] in H; apply StronglySorted_inv in H as [H F]; auto.
  apply Forall_forall. intros y Hy. rewrite Forall_forall in F. apply F. apply in_map. auto.
Qed.

(** After a history of Sets of string keys and reads, under the conditions of C62: the lines ascend strictly in the reverse column, the
    hash column is its bit reversal, the sentinel lines are those of DumpBucket bottom up, the item lines are those of the finite map, and
    their number is Len(). *)
Theorem C82_lines_partial : forall h max os, 16 <= max -> Forall store_or_read os -> no_collision h os ->
  existsb stops (eouts h (new_emb max) os) = false ->
  (forall r, In r (positions h os) -> ~ In r (edump (erun h (new_emb max) os))) ->
  let s := frun h (new_lemb max) os in let m := sm_run h (sm_empty KSample) os in
  StronglySorted (fun a b => dl_rev a < dl_rev b) (edump_entry s) /\
  Forall (fun d => dl_hash d = reverse64 (dl_rev d)) (edump_entry s) /\
  sentinels s = rev (edump (fst s)) /\
  (forall d, In d (items s) <-> exists k c b, sm_map m (k, c) = Some b /\ d = mkL (Some (Some (bd_key b))) k (reverse64 k) c) /\
  snd (estep h (fst s) OpLen) = Ret (RLen (Z.of_nat (List.length (items s)))).
Proof.
  intros h max os HM HF HN HS HB s m. destruct (hist_flat h max os HM HF HN HS HB) as (E1 & _ & R).
  pose proof (run_off h max os HF HN R HB) as OF. destruct (counts_run h os (sm_empty KSample) [] HF) as (L & C1 & C2 & C3).
  { split; [constructor|]. split; [|reflexivity]. intros p. split; [intros []|intros X; apply X; reflexivity]. }
  fold m in R, C2, C3. unfold s. rewrite E1. clear s E1 HB HS. cbn [fst]. set (s := erun h (new_emb max) os) in *. clearbody s.
  destruct (er_inv _ _ R) as (xl & I).
  assert (DE : edump_entry (s, flat_of s) = flat_lines (x_trie s) (x_bl s)) by reflexivity.
  pose proof (sorted_unmap _ (flat_sorted_all s xl I OF)) as SO. rewrite <- DE in SO.
  assert (IT : items (s, flat_of s) = map sline (slist (x_trie s) (x_bl s))) by (unfold items; rewrite DE; apply (flat_items s xl I)).
  assert (IN : forall d, In d (items (s, flat_of s)) <-> exists k c b, sm_map m (k, c) = Some b /\ d = mkL (Some (Some (bd_key b))) k (reverse64 k) c).
  { intros d. rewrite IT, in_map_iff. split.
    - intros (sl & <- & Hs). pose proof Hs as Hs0. apply (slist_in s xl sl I) in Hs0 as (y & b & p & Hy & HP & Hsl).
      assert (CN : cont s (pr sl)) by (exists y, b, p; split; auto; split; auto; apply in_map; auto).
      pose proof (cont_rev s xl I _ CN) as Rr. change (pr_rev (pr sl)) with (sl_rev sl) in Rr.
      pose proof (er_nd _ _ R y b p Hy HP sl Hsl) as D1. unfold pr in CN. rewrite D1 in CN.
      exists (reverse64 (sl_rev sl)), (sl_conf sl), (mkBd KSample (sl_key sl) (sl_val sl)). split.
      + apply (er_at _ _ R); [apply reverse64_range|]. eexists _, _. split; [reflexivity|]. rewrite reverse64_involutive by auto. exact CN.
      + unfold sline. cbn [bd_key]. rewrite reverse64_involutive by auto. reflexivity.
    - intros (k & c & b & EM & ->). assert (Hk : 0 <= k < W64) by (apply (sm_ranged h os _ new_ranged k c); fold m; congruence).
      apply (er_at _ _ R) in EM as (key & v & -> & y & b' & p & Hy & HP & Hin); auto. apply in_map_iff in Hin as (sl & E & Hsl).
      exists sl. split; [|apply (slist_in s xl sl I); eauto 6].
      unfold pr in E. injection E as E1 E2 E3 E4 E5. unfold sline. rewrite E1, E2, E4, reverse64_involutive by auto. reflexivity. }
  split; [exact SO|]. split; [|split; [|split; [exact IN|]]].
  - apply Forall_forall. intros d Hd. apply in_map_iff in Hd as (e & <- & _). destruct e; reflexivity.
  - unfold sentinels. rewrite DE. apply flat_sentinels.
  - cbn [estep snd]. do 2 f_equal. rewrite (er_len _ _ R), C3. f_equal.
    set (g := fun d => (dl_hash d, dl_conf d)). rewrite <- (map_length g (items (s, flat_of s))).
    assert (ND : NoDup (map g (items (s, flat_of s)))).
    { pose proof (sorted_filter of_item _ SO) as SI. fold (items (s, flat_of s)) in SI.
      assert (HH : forall d, In d (items (s, flat_of s)) -> dl_hash d = reverse64 (dl_rev d)).
      { intros d Hd. apply IN in Hd as (k & c & b & EM & ->). cbn [dl_hash dl_rev]. symmetry. apply reverse64_involutive.
        apply (sm_ranged h os _ new_ranged k c). fold m. congruence. }
      assert (RR : forall d, In d (items (s, flat_of s)) -> 0 <= dl_rev d < W64) by (intros d Hd; apply IN in Hd as (k & c & b & _ & ->); apply reverse64_range).
      revert SI HH RR. clear. generalize (items (s, flat_of s)) as l. induction l as [|d l IH]; intros S HH RR; cbn [map]; [constructor|].
      apply StronglySorted_inv in S as [S F]. constructor; [|apply IH; auto; intros; [apply HH|apply RR]; right; auto].
      intros X. apply in_map_iff in X as (d' & E & Hd'). unfold g in E. injection E as E _.
      rewrite (HH d), (HH d') in E by (cbn; auto). apply reverse64_inj in E; [|apply RR; cbn; auto|apply RR; cbn; auto].
      rewrite Forall_forall in F. specialize (F d' Hd'). lia. }
    assert (SAME : forall p, In p L <-> In p (map g (items (s, flat_of s)))).
    { intros [k c]. rewrite C2, in_map_iff. split.
      - intros N. destruct (sm_map m (k, c)) as [b|] eqn:EM; [|congruence].
        exists (mkL (Some (Some (bd_key b))) k (reverse64 k) c). split; [reflexivity|]. apply IN. eauto.
      - intros (d & E & Hd). apply IN in Hd as (k' & c' & b & EM & ->). unfold g in E. cbn [dl_hash dl_conf] in E. injection E as -> ->. congruence. }
    apply Nat.le_antisymm; (apply NoDup_incl_length; [assumption|]); intros p Hp; apply SAME; auto.
Qed.
Print Assumptions C82_lines_partial.

(** Under the same conditions the first and the last line, which are what First() and Last() return (map.go:1643-1651), are the sentinels at 0
    and 2^64 - 1. *)
Theorem C82_ends_partial : forall h max os, 16 <= max -> Forall store_or_read os -> no_collision h os ->
  existsb stops (eouts h (new_emb max) os) = false ->
  (forall r, In r (positions h os) -> ~ In r (edump (erun h (new_emb max) os))) ->
  exists mid, edump_entry (frun h (new_lemb max) os) = mkL None 0 0 0 :: mid ++ [mkL None (2 ^ 64 - 1) (2 ^ 64 - 1) 0].
Proof.
  intros h max os HM HF HN HS HB. destruct (hist_flat h max os HM HF HN HS HB) as (E1 & _ & _). rewrite E1. clear E1 HB HS.
  destruct (run_el h max os HM HF HN) as [[xl I] V]. set (s := erun h (new_emb max) os) in *. clearbody s.
  change (edump_entry (s, flat_of s)) with (flat_lines (x_trie s) (x_bl s)).
  destruct (tk_bmax _ _ (ei_trie _ _ I)) as (_ & EM & _). pose proof (ei_sorted s xl I) as SS.
  destruct (ei_bl_head s xl I) as (B & EB).
  assert (T0 : In (top 0) B).
  { pose proof (el_top _ _ _ V 0 ltac:(lia)) as T. rewrite EB in T. destruct T as [T|T]; auto. exfalso. discriminate T. }
  assert (BN : brev (x_trie s) (top 0) = 0).
  { destruct (tk_node _ _ (ei_trie _ _ I) 1 0) as (_ & _ & _ & _ & X & _); [|discriminate|exact X].
    exact (tk_top _ _ (ei_trie _ _ I) 0 ltac:(lia)). }
  rewrite EB, flat_lines_cons. unfold plen at 1. rewrite nid_eqb_refl. cbn [slots seq map].
  assert (EL : eline (x_trie s) (RD bmax) = mkL None (2 ^ 64 - 1) (2 ^ 64 - 1) 0).
  { cbn [eline]. rewrite EM. f_equal; vm_compute; reflexivity. }
  rewrite EL. destruct (exists_last (l := B)) as (B' & b0 & E0); [intros ->; destruct T0|].
  assert (B0 : brev (x_trie s) b0 = 0).
  { rewrite E0 in T0. apply in_app_or in T0 as [T0|[->|[]]]; [|exact BN].
    rewrite EB, E0 in SS. change (bmax :: B' ++ [b0]) with ((bmax :: B') ++ [b0]) in SS. apply sorted_app in SS as (_ & _ & SS).
    specialize (SS (top 0) b0 (or_intror T0) (or_introl eq_refl)). cbn beta in SS.
    assert (IB : In b0 xl) by (apply (ext_in _ _ _ (ei_ext _ _ I)); rewrite EB, E0; right; apply in_or_app; right; left; auto).
    destruct (tk_bl _ _ (ei_trie _ _ I) _ IB) as [P _]. destruct b0 as [l v].
    assert (NB : (l, v) <> bmax).
    { intros X. rewrite X in SS. rewrite EM, BN in SS. discriminate SS. }
    destruct (tk_node _ _ (ei_trie _ _ I) l v P NB) as (_ & HV & _ & _ & X & _). lia. }
  rewrite E0. unfold flat_lines. rewrite flat_app, map_app. unfold flat at 1. cbn [rev app flat_map]. rewrite app_nil_r. unfold seg at 1. cbn [map].
  cbn [eline]. rewrite B0. eexists. cbn [app]. f_equal.
Qed.
Print Assumptions C82_ends_partial.

(** Deletes, reads and Sets of keys that Get finds leave the output as it is, in any state: a deleted item keeps its line. *)
Definition adds_none (h : hashes) (s : lstate) (o : op) : Prop :=
  match o with
  | OpSet key _ => exists v, snd (fstep h s (OpGet key)) = Ret (RVal v true)
  | OpDelete _ => True
  | _ => read_only o
  end.
Fixpoint all_add_none (h : hashes) (s : lstate) (os : list op) : Prop :=
  match os with [] => True | o :: os' => adds_none h s o /\ all_add_none h (fst (fstep h s o)) os' end.
Lemma slot_upd_cases p i f j : slot_at (upd_slot p i f) j = slot_at p j \/ slot_at (upd_slot p i f) j = f (slot_at p j).
Proof.
  unfold slot_at, upd_slot. cbn [p_slots]. unfold slot_at. destruct (Nat.eq_dec i j) as [->|N]; [|left; apply nth_upd_nth_other; auto].
  assert (G : forall x l k, nth k (upd_nth k x l) zero_slot = nth k l zero_slot \/ nth k (upd_nth k x l) zero_slot = x).
  { intros x. induction l as [|y l IH]; intros k; [left; destruct k; reflexivity|]. destruct k as [|k]; [right; reflexivity|]. apply IH. }
  apply G.
Qed.
Lemma eline_upd s n i f r : (forall sl, sl_rev (f sl) = sl_rev sl) -> (forall sl, sl_conf (f sl) = sl_conf sl) -> (forall sl, sl_key (f sl) = sl_key sl) ->
  eline (x_trie (upd_item s n i f)) r = eline (x_trie s) r.
Proof.
  intros F1 F2 F3. unfold upd_item. destruct (b_pool (bget (x_trie s) n)) as [p|] eqn:HP; auto.
  unfold set_bpool, set_xtrie. cbn [x_trie]. set (t' := tupd _ _ _).
  assert (BR : forall q, brev t' q = brev (x_trie s) q) by (intros q; symmetry; apply same_shape_brev; apply same_shape_tupd; intros; reflexivity).
  destruct r as [q|q j]; cbn [eline]; [rewrite BR; reflexivity|].
  unfold slot_in, t', tupd. rewrite bget_tset. destruct (nid_eqb n q) eqn:E.
  - apply nid_eqb_eq in E. subst q. rewrite ?nid_eqb_refl. cbn [b_pool set_pool]. rewrite HP.
    assert (X : slot_at (upd_slot p i f) j = slot_at p j \/ slot_at (upd_slot p i f) j = f (slot_at p j)) by (apply slot_upd_cases).
    destruct X as [->| ->]; auto. rewrite F1, F2, F3. reflexivity.
  - reflexivity.
Qed.
Theorem C82_deletes_keep_lines : forall h os s, all_add_none h s os -> edump_entry (frun h s os) = edump_entry s.
Proof.
  intros h os. induction os as [|o os IH]; intros [s l] HF; cbn [frun]; auto. destruct HF as [HO HF'].
  assert (G : edump_entry (fst (fstep h (s, l) o)) = edump_entry (s, l)).
  { clear HF'. destruct o as [key v|i|key|k c|key|k c|key|key|]; try contradiction; unfold adds_none, fstep in *; cbn [fst snd link_step estep] in *.
    - destruct HO as (w & HO). revert HO. unfold ewith, eset, link_set. destruct (key_to_hash h key) as [[k c]|]; [|discriminate].
      unfold eget. destruct (eload s k c) as [[[n j]|]| | |]; cbn [snd]; try discriminate. intros _.
      unfold eupdate. destruct (set_value _ _ _) as [[v' ok]|]; [|reflexivity].
      unfold edump_entry. cbn [fst snd]. apply map_ext. intros r. apply eline_upd; reflexivity.
    - unfold ewith, eget. destruct (key_to_hash h key) as [[k c]|]; [|reflexivity]. destruct (eload s _ _) as [[[n j]|]| | |]; reflexivity.
    - unfold eget. destruct (eload s _ _) as [[[n j]|]| | |]; reflexivity.
    - unfold ewith, eget_item. destruct (key_to_hash h key) as [[k c]|]; [|reflexivity]. destruct (eload s _ _) as [[[n j]|]| | |]; reflexivity.
    - unfold eget_item. destruct (eload s _ _) as [[[n j]|]| | |]; reflexivity.
    - unfold ewith, edelete. destruct (key_to_hash h key) as [[k c]|]; [|reflexivity]. destruct (eload s _ _) as [[[n j]|]| | |]; try reflexivity.
      unfold edump_entry. cbn [fst snd]. apply map_ext. intros r. apply eline_upd; reflexivity.
    - reflexivity. }
  destruct (fstep h (s, l) o) as [s' r]. cbn [fst] in G, HF'. destruct (stops r); [exact G|]. rewrite IH; auto.
Qed.
Print Assumptions C82_deletes_keep_lines.

(** As in the default mode (C65), a deleted item is still listed. *)
Definition deleted_items_are_not_listed : Prop :=
  forall h max os, 16 <= max -> existsb stops (fouts h (new_lemb max) os) = false ->
    let s := frun h (new_lemb max) os in count_all s = 0 -> items s = [].
Theorem C82_deleted_items_refuted : ~ deleted_items_are_not_listed.
Proof.
  intros H. specialize (H (hpos five) 32 [set_ "a" 1; del_ "a"] ltac:(lia) ltac:(vm_compute; reflexivity)). cbv zeta in H.
  assert (X : List.length (items (frun (hpos five) (new_lemb 32) [set_ "a" 1; del_ "a"])) = 1%nat) by (vm_compute; reflexivity).
  rewrite H in X; [discriminate|vm_compute; reflexivity].
Qed.
Print Assumptions C82_deleted_items_refuted.

Definition pairs_20 : list (string * Z) := map (fun i => (str i, Z.of_nat i * 2 ^ 55 + 1)) (seq 0 20).
(** 20 keys in one bucket of 16 *)
Example C82_case :
  let l := pairs_20 in let os := fill l in let s := frun (hpos l) (new_lemb 16) os in
  Forall store_or_read os /\ no_collision (hpos l) os /\
  existsb stops (eouts (hpos l) (new_emb 16) os) = false /\
  (forall r, In r (positions (hpos l) os) -> ~ In r (edump (erun (hpos l) (new_emb 16) os))) /\
  (List.length (items s), List.length (sentinels s), hd_error (sentinels s), last (sentinels s) 0) = (20%nat, 18%nat, Some 0, 2 ^ 64 - 1).
Proof.
  cbv zeta. split; [|split; [|split; [|split]]].
  - apply sor_ok. vm_compute. reflexivity.
  - apply nocol_ok. vm_compute. reflexivity.
  - vm_compute. reflexivity.
  - apply off_ok. vm_compute. reflexivity.
  - vm_compute. reflexivity.
Qed.
Example C82_delete_case :
  let os := [set_ "a" 1; set_ "b" 2; set_ "c" 3] in let os2 := [del_ "b"; get_ "a"; set_ "c" 9] in
  let s := frun (hpos five) (new_lemb 32) os in
  all_add_none (hpos five) s os2 /\ List.length (items (frun (hpos five) s os2)) = 3%nat /\ count_all (frun (hpos five) s os2) = 2.
Proof.
  cbv zeta. split; [|split; vm_compute; reflexivity]. split; [exact Logic.I|]. split; [exact Logic.I|]. split; [|exact Logic.I].
  eexists. vm_compute. reflexivity.
Qed.
