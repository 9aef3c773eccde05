(** C62, continued: Range in the embedded mode after Deletes and calm Sets of new keys (AfterSpec.v). *)
From Verif Require Import Base BaseProofs Util UtilProofs Bucket TrieProofs TrieInv TrieGrow MapModel ItemProofs MapInv MapSplit
  MapRefine MapMore Spec SpecUtil EmbModel EmbPool EmbTrie EmbInv EmbSplit EmbSpec EmbRefine EmbDel EmbTop EmbReuse EmbLinked EmbList EmbListInv PropEmb PurgeSpec EmbPurge
  PropEmbRange PropPurge PropEmbRange2 MixSpec EmbMix EmbAfter AfterSpec EmbCalm PropAfter.
From Coq Require Import ZifyBool Sorted Ascii String PeanoNat.
Local Open Scope Z_scope.
Local Open Scope list_scope.
Local Opaque reverse64 level_of base find_bucket.

(** * The links while a slot is taken *)
Lemma filter_none b i l : (forall e, In e l -> e <> RS b i) -> filter (fun e => negb (eref_eqb (RS b i) e)) l = l.
Proof.
  induction l as [|e l IH]; intros H; auto. cbn [filter]. destruct (eref_eqb_spec (RS b i) e) as [E|E]; [exfalso; apply (H e); [left; auto|auto]|]. cbn [negb]. f_equal. apply IH. intros e' He. apply H. right. auto.
Qed.
Lemma filter_slots b n i : (i < n)%nat -> filter (fun e => negb (eref_eqb (RS b i) e)) (slots b 0 n) = slots b 0 i ++ slots b (S i) (n - S i).
Proof.
  intros H. replace (slots b 0 n) with (slots b 0 i ++ RS b i :: slots b (S i) (n - S i)).
  - rewrite filter_app. cbn [filter]. destruct (eref_eqb_spec (RS b i) (RS b i)) as [_|N]; [|congruence]. cbn [negb].
    rewrite !filter_none; auto; intros e He; apply in_slots in He as (j & -> & Hj); intros X; injection X as X; lia.
  - unfold slots. replace n with (i + S (n - S i))%nat at 2 by lia. rewrite seq_app, map_app. auto.
Qed.
Lemma link_get_any rv b pre post : (forall e, In e pre -> own b e = false) -> (forall e, In e post -> own b e = false) ->
  forall f p q i, 0 <= p_len p -> get_with_fn f p rv = GSlot q i -> (i < p_n q)%nat ->
  link_get f p rv b (pre ++ slots b 0 (p_n p) ++ post) = Some (pre ++ slots b 0 i ++ slots b (S i) (p_n q - S i) ++ post).
Proof.
  intros HP HQ. assert (NO : forall l i, (forall e, In e l -> own b e = false) -> forall e, In e l -> e <> RS b i).
  { intros l i H e He ->. specialize (H _ He). cbn [own] in H. rewrite nid_eqb_refl in H. discriminate. }
  induction f as [|f IH]; intros p q i PL; cbn [get_with_fn link_get]; [discriminate|]. cbv zeta.
  destruct (Z.eqb_spec (p_len p) 0) as [E0|N0].
  - destruct (_ <=? 0); [discriminate|]. intros E _. injection E as <- <-. unfold p_n. rewrite E0. cbn [p_len]. reflexivity.
  - destruct (free_idx p rv (last_active (p_slots p) (p_n p))) as [a|].
    + intros E Hi. injection E as <- <-. change (p_n (upd_slot p a recycle)) with (p_n p) in *. rewrite !filter_app, filter_slots by auto. rewrite !filter_none by (apply NO; auto). rewrite <- app_assoc. auto.
    + assert (PN : (0 < p_n p)%nat) by (unfold p_n; lia).
      destruct (p_cap p =? p_len p).
      * intros E Hi. rewrite chunk_ok by auto. change (p_n p) with (p_n (expand p)). apply IH; auto.
      * destruct (last_active (p_slots p) (p_n p)) as [tl|]; [|discriminate]. destruct (_ <? rv).
        -- destruct (_ <=? _); [discriminate|]. intros E Hi. injection E as <- <-. replace (p_n (mkP (p_slots p) (p_len p + 1))) with (S (p_n p)) by (unfold p_n; cbn [p_len]; lia).
           rewrite Nat.sub_diag. reflexivity.
        -- destruct (find_idx p rv) as [a|].
           ++ intros E Hi. injection E as <- <-. assert (EN : p_n (insert_at p a) = S (p_n p)) by (unfold p_n; cbn [insert_at p_len]; lia). rewrite EN in *.
              unfold relist. rewrite chunk_ok by auto. replace (S (p_n p) - S a)%nat with (p_n p - a)%nat by lia. unfold slots. rewrite map_app, <- app_assoc. auto.
           ++ apply IH; auto.
Qed.
Lemma link_filled s xl y b P Q i rv : einv s xl -> adj (x_bl s) y b -> b_pool (bget (x_trie s) b) = Some P ->
  brev (x_trie s) b <= rv < up (x_trie s) y -> ~ In rv (edump s) -> pool_ok Q (brev (x_trie s) b) (up (x_trie s) y) -> (i < p_n Q)%nat -> sl_rev (slot_at Q i) = rv ->
  exists pre post, flat_of s = pre ++ slots b 0 (p_n P) ++ post /\ (forall e, In e pre -> own b e = false) /\ (forall e, In e post -> own b e = false) /\
  let t' := x_trie (set_bpool s b Q) in link_in t' b rv (RS b i) (pre ++ slots b 0 i ++ slots b (S i) (p_n Q - S i) ++ post) = Some (flat t' (x_bl s)).
Proof.
  intros I H HP R NB K2 Hi SI. pose proof H as (A & B & EB).
  pose proof (fl_low s xl I A y b B EB) as LOW. pose proof (fl_high s xl I A y b B EB) as HIGH.
  pose proof (fl_b s xl I A y b B EB P HP) as PL. unfold flat_of, set_bpool, set_xtrie. cbn [x_trie].
  set (t := x_trie s) in *.
  assert (RB : brev t b < rv). { assert (rv <> brev t b); [|lia]. intros ->. apply NB. apply in_dump. apply (adj_in _ _ _ H). }
  pose proof (below_up s xl y b rv I H (proj2 R) NB) as RY. fold t in RY.
  exists (flat t B ++ [RD b]), (flat t (A ++ [y])). split; [|split; [|split]].
  { rewrite EB, fl_eq. unfold seg. rewrite PL. rewrite <- !app_assoc. auto. }
  { intros e He. apply in_app_or in He as [He|[<-|[]]]; [apply LOW; auto|auto]. }
  { intros e He. apply HIGH; auto. }
  cbv zeta. set (t' := tupd t b (fun z => set_pool z (Some Q))).
  assert (GB : b_pool (bget t' b) = Some Q) by (unfold t', tupd; rewrite bget_tset_eq; reflexivity).
  assert (SS : same_shape t t') by (apply same_shape_tupd; intros; reflexivity).
  assert (HB : forall n, brev t' n = brev t n) by (intros; symmetry; apply same_shape_brev; auto).
  assert (GO : forall n, n <> b -> b_pool (bget t' n) = b_pool (bget t n)).
  { intros n Hn. unfold t', tupd. rewrite bget_tset_ne by auto. auto. }
  assert (RVb : forall j, rv_of t' (RS b j) = sl_rev (slot_at Q j)).
  { intros j. cbn [rv_of]. unfold slot_in. rewrite GB. auto. }
  assert (RVO : forall e, own b e = false -> rv_of t' e = rv_of t e).
  { intros [n|n j] Ho; cbn [rv_of own] in *; auto. unfold slot_in. rewrite GO; auto. intros ->. rewrite nid_eqb_refl in Ho. discriminate. }
  pose proof (ei_nodup s xl I) as NDB. rewrite EB in NDB.
  replace (A ++ y :: b :: B) with ((A ++ [y]) ++ b :: B) in NDB by (rewrite <- app_assoc; auto).
  apply NoDup_remove_2 in NDB.
  assert (FB : flat t' B = flat t B) by (apply flat_ext; intros n Hn; apply GO; intros ->; apply NDB; apply in_or_app; auto).
  assert (FA : flat t' (A ++ [y]) = flat t (A ++ [y])) by (apply flat_ext; intros n Hn; apply GO; intros ->; apply NDB; apply in_or_app; auto).
  replace rv with (rv_of t' (RS b i)) by (rewrite RVb; auto).
  replace ((flat t B ++ [RD b]) ++ slots b 0 i ++ slots b (S i) (p_n Q - S i) ++ flat t (A ++ [y]))
    with ((flat t B ++ RD b :: slots b 0 i) ++ slots b (S i) (p_n Q - S i) ++ flat t (A ++ [y])) by (rewrite <- !app_assoc; auto).
  rewrite link_in_ok.
  - f_equal. rewrite EB, fl_eq. rewrite FB, FA. unfold seg, plen. rewrite GB.
    pose proof (ei_adj_ne s xl I _ _ H) as Nb. apply nid_eqb_neq in Nb. rewrite Nb.
    assert (ES2 : slots b 0 (p_n Q) = slots b 0 i ++ RS b i :: slots b (S i) (p_n Q - S i)).
    { unfold slots. replace (p_n Q) with (i + S (p_n Q - S i))%nat at 1 by lia. rewrite seq_app, map_app. auto. }
    rewrite ES2, <- !app_assoc. cbn [app]. rewrite <- !app_assoc. auto.
  - apply in_or_app. right. left. auto.
  - intros e He. rewrite RVb, SI. apply in_app_or in He as [He|[<-|He]].
    + destruct (LOW e He) as (L1 & L2 & _). rewrite RVO by auto. lia.
    + cbn [rv_of]. rewrite HB. lia.
    + apply in_slots in He as (j & -> & Hj). rewrite RVb. rewrite <- SI. apply (slot_lt _ _ _ _ _ K2). lia.
  - intros e He. rewrite RVb, SI. apply in_app_or in He as [He|He].
    + apply in_slots in He as (j & -> & Hj). rewrite RVb. rewrite <- SI. apply (slot_lt _ _ _ _ _ K2). lia.
    + destruct (HIGH e He) as (L1 & L2 & _). rewrite RVO by auto. lia.
  - intros E. apply app_eq_nil in E as [_ E]. revert E. apply (fl_high_ne s A y).
Qed.
Lemma link_slotted h s s' xl x v w k c : einv s xl -> key_to_hash h (KStr x) = Some (k, c) -> slotted s s' k c x v w -> ~ In (reverse64 k) (edump s) ->
  link_set h s (KStr x) v (flat_of s) = Some (flat_of s').
Proof.
  intros I EK (y & b & P & q & i & ok & z & EL & Hy & Eb & Ri & HP & PL & EG & SV & Hi & LM & M & KQ & SI) NB. set (Q := filled q i (reverse64 k) c (KStr x) w true) in *.
  assert (BB : base (x_trie s) b = b) by (apply (base_linked _ xl); [apply (ei_trie _ _ I)|]; apply (ei_adj_x s xl I _ _ Hy)).
  destruct (link_filled s xl y b P Q i (reverse64 k) I Hy HP Ri NB KQ Hi ltac:(rewrite SI; auto)) as (pre & post & FE & H1 & H2 & LI). cbv zeta in LI.
  unfold link_set. rewrite EK, EL, <- Eb. unfold pool_of. rewrite BB, HP, EG, FE. rewrite (link_get_any (reverse64 k) b pre post H1 H2 4 P q i PL EG Hi).
  rewrite SV. cbv zeta. change (p_n Q) with (p_n q) in LI. unfold Q, filled in LI. rewrite LI. clear LI.
  replace (_ && _) with false by (symmetry; apply andb_false_iff; right; cbn [x_max set_bpool set_xtrie]; apply Z.ltb_ge; exact LM).
  f_equal. destruct M as (_ & MB & _ & _ & MP & MO). unfold flat_of. rewrite MB. apply flat_ext. intros n _. unfold set_bpool, set_xtrie, tupd. cbn [x_trie]. destruct (nid_eq_dec n b) as [->|N].
  - rewrite bget_tset_eq, MP. reflexivity.
  - rewrite bget_tset_ne by auto. symmetry. apply MO. auto.
Qed.

(** * Every call *)
Definition away (bs : list Z) (l : list ent) : Prop := forall e, In e l -> ~ In (e_pos e) bs.
Lemma astep_list bs n h s xl l o : arel bs n s xl l -> match o with OpPurge _ => False | _ => True end ->
  match o with
  | OpSet key _ => exists p, key_to_hash h key = Some p /\ present bs l p = true
  | OpStore i => exists p, key_to_hash h (i_key i) = Some p /\ present bs l p = true
  | _ => True
  end -> stops (snd (estep h s o)) = false -> link_step h s o (flat_of s) = Some (flat_of (fst (estep h s o))).
Proof.
  intros [R _ _] KO HO NS.
  assert (UP : forall k c, 0 <= k < W64 -> present bs l (k, c) = true -> eload s k c = Div \/ exists b j, eload s k c = Ret (Some (b, j))).
  { intros k c Hk PR. destruct (eload_view bs n s s xl l k c R Hk) as [E|[(b & j & p & E & HT & _)|(_ & E)]]; [auto|eauto 10|]. unfold present in PR. rewrite E in PR. discriminate. }
  assert (EU : forall b j v, flat_of (fst (eupdate s b j v)) = flat_of s).
  { intros b j v. unfold eupdate. destruct (set_value _ _ _) as [[v' ok]|]; cbn [fst]; auto. apply upd_item_flat. }
  destruct o as [key v|i|key|k c|key|k c|key|key|]; try contradiction; cbn [link_step]; try (rewrite read_state by exact Logic.I; auto; fail).
  - destruct HO as ((k & c) & EK & PR). pose proof (proj1 (key_range _ _ _ _ EK)) as Hk. cbn [estep] in *. unfold eset, link_set in *. rewrite EK in *.
    destruct (UP k c Hk PR) as [E|(b & j & E)]; rewrite E in *; [discriminate|]. rewrite EU. auto.
  - destruct HO as ((k & c) & EK & PR). pose proof (proj1 (key_range _ _ _ _ EK)) as Hk. cbn [estep] in *. unfold estore, item_hash in *. rewrite EK in *.
    destruct (UP k c Hk PR) as [E|(b & j & E)]; rewrite E in *; [discriminate|]. rewrite EU. auto.
  - cbn [estep] in *. unfold ewith in *. destruct (key_to_hash h key) as [[k c]|]; auto. unfold edelete in *. destruct (eload s k c) as [[[b j]|]| | |]; cbn [fst]; auto. f_equal. symmetry. apply upd_item_flat.
Qed.
Lemma calm_frun max h bs xl : forall ops n s l, arel bs n s xl l -> x_max s = max -> calm_calls h bs max n l ops -> existsb stops (eouts h s ops) = false ->
  (forall key v p, In (OpSet key v) ops -> key_to_hash h key = Some p -> ~ In (reverse64 (fst p)) bs) ->
  frun h (s, flat_of s) ops = (erun h s ops, flat_of (erun h s ops)) /\ fouts h (s, flat_of s) ops = eouts h s ops.
Proof.
  induction ops as [|o ops IH]; intros n s l A MX HC NS OFF; cbn [erun calm_run eouts calm_calls frun fouts] in *; [eauto|]. destruct HC as [H1 H2].
  pose proof (max_run h [o] s) as MX'. cbn [erun] in MX'. unfold fstep. cbn [fst snd].
  destruct (estep h s o) as [s' r] eqn:ES. cbn [existsb] in NS. apply orb_false_iff in NS as [N1 N2]. rewrite N1 in *.
  assert (KEEP : match o with OpPurge _ => False | _ => True end -> match o with
    | OpSet key _ => exists p, key_to_hash h key = Some p /\ present bs l p = true
    | OpStore i => exists p, key_to_hash h (i_key i) = Some p /\ present bs l p = true
    | _ => True end -> arel bs n s' xl (next_entries h bs n l o) /\ link_step h s o (flat_of s) = Some (flat_of s')).
  { intros K0 HO. pose proof (astep bs n h s xl l o A K0 HO) as A'. pose proof (astep_list bs n h s xl l o A K0 HO) as L'. rewrite ES in A', L'. cbn [fst snd] in *. auto. }
  assert (STEP : arel bs (calm_count h bs n l o) s' xl (calm_next h bs n l o) /\ link_step h s o (flat_of s) = Some (flat_of s')).
  { unfold calm_count, calm_next, creates. destruct o as [key v|i|key|k c|key|k c|key|key|]; cbn [calm_call] in H1; auto; try contradiction.
    destruct H1 as (p & EK & HP). rewrite EK. destruct (present bs l p) eqn:EP; cbn [negb].
    - apply KEEP; auto. exists p. auto.
    - destruct HP as [HP|((x & ->) & CA & RO & w & G)]; [discriminate|]. destruct p as [k c].
      pose proof (calm_set h bs n s xl l x v k c A EK EP CA) as CS. rewrite ES in CS. cbn [fst snd] in CS. rewrite MX in CS. destruct (CS RO w G N1) as (_ & _ & SL & A').
      split; [exact A'|]. cbn [link_step]. pose proof A as [R _ _]. apply (link_slotted h s s' xl x v w k c (pl_inv _ _ _ _ _ _ R) EK SL).
      rewrite (pl_bs _ _ _ _ _ _ R). apply (OFF (KStr x) v (k, c)); auto. left. auto. }
  destruct STEP as [A' L']. rewrite L', N1. destruct (IH _ _ _ A' ltac:(congruence) H2 N2) as [F1 F2]; [intros key v p Hin; apply (OFF key v p); right; auto|]. rewrite F1, F2. auto.
Qed.
Lemma ents_arel bs n s xl l : arel bs n s xl l -> ents (x_trie s) (flat_of s) = l.
Proof.
  intros [R _ S]. pose proof (pl_inv _ _ _ _ _ _ R) as I. pose proof (prel_holds _ _ _ _ _ _ R) as HO.
  assert (CR : forall sl, In sl (slist (x_trie s) (x_bl s)) -> cont s (pr sl)).
  { intros sl Hs. apply (slist_in s xl sl I) in Hs as (y & b & p & Hy & HP & Hs). exists y, b, p. split; auto. split; auto. apply in_map; auto. }
  assert (EP : forall sl, In sl (slist (x_trie s) (x_bl s)) -> e_pos (ent_of sl) = sl_rev sl).
  { intros sl Hs. unfold e_pos, ent_of. cbn [e_hash fst]. apply reverse64_involutive. apply (cont_rev s xl I _ (CR sl Hs)). }
  rewrite (ents_slist s xl I). apply sorted_same; auto.
  - destruct (ei_bl_head s xl I) as (B & EB). destruct (slist_sorted s xl I B bmax [] EB) as [SS _]. rewrite map_map. rewrite (map_ext_in _ sl_rev) by (intros sl Hs; apply EP; auto).
    rewrite EB, slist_cons. unfold of_bucket at 1. rewrite nid_eqb_refl, app_nil_r. exact SS.
  - intros e. split.
    + intros He. apply in_map_iff in He as (sl & <- & Hs). pose proof (CR sl Hs) as C. unfold pr in C. unfold ent_of. apply HO; [apply reverse64_range|].
      exists (sl_key sl), (sl_val sl). split; auto. rewrite reverse64_involutive by (apply (cont_rev s xl I _ (CR sl Hs))). exact C.
    + intros He. pose proof (pl_hash _ _ _ _ _ _ R e He) as Hk. destruct e as [[k c] b d]. cbn [e_hash fst] in Hk. apply HO in He as (key & v & -> & y & b' & p & Hy & HP & Hin); auto.
      apply in_map_iff in Hin as (sl & E & Hs). apply in_map_iff. exists sl. split; [|apply (slist_in s xl sl I); eauto 6]. unfold pr in E. injection E as E1 E2 E3 E4 E5. unfold ent_of. rewrite E1, E2, E3, E4, E5, reverse64_involutive; auto.
Qed.

(** Sets and reads, then Deletes, reads, Sets of keys that can be read and calm Sets of keys that cannot (AfterSpec.v), all of which came
    back, no position on a bucket boundary: Range calls f for exactly the entries that are not deleted, in increasing order of bit-reversed
    hash, until f returns false. *)
Theorem C62_range_calm_partial : forall h max os ops l, in_scope h max os ops l ->
  (forall r, In r (positions h os) -> ~ In r (bounds h max os)) ->
  (forall key v p, In (OpSet key v) ops -> key_to_hash h key = Some p -> ~ In (reverse64 (fst p)) (bounds h max os)) ->
  fouts h (new_lemb max) (os ++ ops) = eouts h (new_emb max) (os ++ ops) /\
  StronglySorted Z.lt (map e_pos (entries h max os ops l)) /\
  forall A (f : A -> option gkey -> gval -> A * bool) a,
    frange (frun h (new_lemb max) (os ++ ops)) f a = over f a (entries h max os ops l).
Proof.
  intros h max os ops l HS HB1 HB2. destruct (scope_arel h max os ops l HS) as (xl & n & A & MX). pose proof HS as (HM & HF & HN & HL & HC & NS).
  rewrite eouts_app, existsb_app in NS. apply orb_false_iff in NS as [N1 N2]. rewrite N1 in N2. cbn [app] in N2.
  destruct (hist_flat h max os HM HF HN N1 HB1) as (E1 & E2 & R). destruct (erel_prel _ _ l R HL) as (xl0 & P).
  assert (A0 : arel (bounds h max os) (sm_created (sm_run h (sm_empty KSample) os)) (erun h (new_emb max) os) xl0 l).
  { constructor; auto; [|apply pos_sorted, (ls_sorted _ _ HL)]. apply (linked_run h os (new_emb max) (sm_empty KSample)); auto; [apply new_emb_rel; auto|apply linked_new]. }
  destruct (calm_frun max h (bounds h max os) xl0 ops _ _ _ A0 ltac:(rewrite max_run; auto) HC N2 HB2) as [F1 F2].
  rewrite frun_app, fouts_app, E1, E2, F1, F2 by (rewrite E2; auto). rewrite eouts_app, N1. split; auto. split; [apply (ar_asc _ _ _ _ _ A)|].
  intros B f a. rewrite erun_then in A by auto. unfold frange. cbn [fst snd]. rewrite range_ents, (ents_arel _ _ _ _ _ A). auto.
Qed.
Print Assumptions C62_range_calm_partial.
Lemma sets_off h bs ops : forallb (fun o => match o with OpSet key _ => match key_to_hash h key with Some p => negb (existsb (Z.eqb (reverse64 (fst p))) bs) | None => true end | _ => true end) ops = true ->
  forall key v p, In (OpSet key v) ops -> key_to_hash h key = Some p -> ~ In (reverse64 (fst p)) bs.
Proof.
  intros D key v p Hin EK Hb. rewrite forallb_forall in D. specialize (D _ Hin). cbv beta iota in D. rewrite EK in D. apply negb_true_iff in D.
  assert (X : existsb (Z.eqb (reverse64 (fst p))) bs = true) by (apply existsb_exists; exists (reverse64 (fst p)); split; [exact Hb|apply Z.eqb_refl]). congruence.
Qed.
(** b deleted, x takes its place, b set again, x deleted and set again, z below all; then c deleted *)
Example C62_calm_case : let ops := calm_ops ++ [del_ "c"] in
  in_scope (hpos eight) 32 three ops three_l /\
  (forall r, In r (positions (hpos eight) three) -> ~ In r (bounds (hpos eight) 32 three)) /\
  (forall key v p, In (OpSet key v) ops -> key_to_hash (hpos eight) key = Some p -> ~ In (reverse64 (fst p)) (bounds (hpos eight) 32 three)) /\
  map e_pos (entries (hpos eight) 32 three ops three_l) = [5; 10; 20; 25; 30] /\
  keys_all (frun (hpos eight) (new_lemb 32) (three ++ ops)) = [Some (KStr "z"); Some (KStr "a"); Some (KStr "b"); Some (KStr "x")].
Proof.
  cbv zeta. split; [|split; [|split; [|split; vm_compute; reflexivity]]].
  - apply eight_scope; [|vm_compute; reflexivity]. apply calm_calls_app; [|exact I]. apply calm_ops_scope.
  - apply off_ok. vm_compute. reflexivity.
  - apply sets_off. vm_compute. reflexivity.
Qed.
