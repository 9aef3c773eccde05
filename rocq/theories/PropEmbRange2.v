(** C62, continued: Range in the embedded mode after Deletes and Purges. *)
From Verif Require Import Base BaseProofs Util UtilProofs Bucket TrieProofs TrieInv TrieGrow MapModel ItemProofs MapInv MapSplit
  MapRefine MapMore Spec SpecUtil EmbModel EmbPool EmbTrie EmbInv EmbSplit EmbSpec EmbRefine EmbDel EmbTop EmbList EmbListInv PropEmb PurgeSpec EmbPurge PropEmbRange PropPurge.
From Coq Require Import ZifyBool Sorted String PeanoNat.
Local Open Scope Z_scope.
Local Open Scope list_scope.
Local Opaque reverse64 level_of base find_bucket.

(** * Specification *)
(** What Range shows, beside what Get shows (PurgeSpec.v): [l] is the list of entries in the buckets, [rl] the list of
    entries Range runs over. A Set of a key that can be read changes its value in both, a Delete or Purge of a key that
    can be read marks it; but what a Purge takes off the end of a bucket, it takes off [l] only. *)
Definition next_listed (h : hashes) (bs : list Z) (n : Z) (l rl : list ent) (o : op) : list ent :=
  let updated key := match key_to_hash h key with
                     | Some p => match sm_map (fst (sm_step h (the_map bs n l) o)) p with Some b => change (set_bd b) p rl | None => rl end
                     | None => rl end in
  match o with
  | OpSet key _ => updated key
  | OpStore i => updated (i_key i)
  | OpDelete key | OpPurge key => match key_to_hash h key with Some p => if present bs l p then change kill p rl else rl | None => rl end
  | _ => rl
  end.
Fixpoint listed_run (h : hashes) (bs : list Z) (n : Z) (l rl : list ent) (os : list op) : list ent :=
  match os with [] => rl | o :: os' => listed_run h bs n (next_entries h bs n l o) (next_listed h bs n l rl o) os' end.
(** Range runs f over a list of entries *)
Definition alive (e : ent) : bool := negb (e_dead e).
Definition over {A} (f : A -> option gkey -> gval -> A * bool) (a : A) (rl : list ent) : A :=
  visit (fun a e => f a (Some (bd_key (e_bd e))) (bd_val (e_bd e))) a (filter alive rl).

(** * The entries of a list of elements *)
Definition ent_in (t : trie) (n : nid) (i : nat) : ent := ent_of (slot_in t n i).
Definition ents (t : trie) (L : list eref) : list ent := flat_map (fun e => match e with RD _ => [] | RS n i => [ent_in t n i] end) L.
Lemma ents_app t a b : ents t (a ++ b) = ents t a ++ ents t b.
Proof. apply flat_map_app. Qed.
Lemma range_ents {A} t (f : A -> option gkey -> gval -> A * bool) : forall L a, frange_loop t f a L = over f a (ents t L).
Proof.
  induction L as [|[n|n i] L IH]; intros a; cbn [frange_loop ents flat_map app]; [reflexivity|apply IH|].
  fold (ents t L). unfold over. cbn [filter]. unfold alive at 1. cbn [ent_in ent_of e_dead]. destruct (sl_del (slot_in t n i)) eqn:D; cbn [negb]; [apply IH|].
  cbn [visit]. cbn [ent_in ent_of e_bd bd_key bd_val]. destruct (f a _ _) as [a' go]. destruct go; [apply IH|reflexivity].
Qed.
(** the list with some marked elements missing *)
Inductive thin (t : trie) : list eref -> list eref -> Prop :=
| T_nil : thin t [] []
| T_keep e L l : thin t L l -> thin t (e :: L) (e :: l)
| T_drop n i L l : e_dead (ent_in t n i) = true -> thin t L l -> thin t (RS n i :: L) l.
Lemma thin_refl t L : thin t L L.
Proof. induction L; constructor; auto. Qed.
Lemma thin_over {A} t (f : A -> option gkey -> gval -> A * bool) L l : thin t L l -> forall a, over f a (ents t l) = over f a (ents t L).
Proof.
  intros H a. unfold over. f_equal. induction H as [|e L l H IH|n i L l D H IH]; auto.
  - cbn [ents flat_map]. rewrite !filter_app. fold (ents t L) (ents t l). rewrite IH. auto.
  - cbn [ents flat_map app filter]. unfold alive at 2. rewrite D. cbn [negb]. exact IH.
Qed.
Lemma thin_mono t t' L l : (forall n i, e_dead (ent_in t n i) = true -> e_dead (ent_in t' n i) = true) -> thin t L l -> thin t' L l.
Proof. intros M H. induction H; constructor; auto. Qed.
Lemma eref_eqb_eq a b : eref_eqb a b = true -> a = b.
Proof.
  destruct a as [n|n i], b as [m|m j]; cbn [eref_eqb]; try discriminate; intros H.
  - apply nid_eqb_eq in H. congruence.
  - apply andb_true_iff in H as [H1 H2]. apply nid_eqb_eq in H1. apply Nat.eqb_eq in H2. congruence.
Qed.
Lemma thin_unlink t n i L l : e_dead (ent_in t n i) = true -> thin t L l -> thin t L (unlink n i l).
Proof.
  intros D H. induction H as [|e L l H IH|m j L l D' H IH]; unfold unlink in *; cbn [filter].
  - constructor.
  - destruct (eref_eqb (RS n i) e) eqn:E; cbn [negb]; [|constructor; auto]. apply eref_eqb_eq in E. subst e. constructor; auto.
  - constructor; auto.
Qed.

(** * The invariant *)
Record rrel (s : estate) (L cur : list eref) (rl : list ent) : Prop := {
  rr_ents : ents (x_trie s) L = rl;
  rr_thin : thin (x_trie s) L cur;
  rr_sorted : StronglySorted Z.lt (map e_pos rl);
  rr_in : forall y b p j, adj (x_bl s) y b -> b_pool (bget (x_trie s) b) = Some p -> (j < p_n p)%nat -> In (RS b j) L }.

Lemma change_pos g p l : (forall e, e_hash (g e) = e_hash e) -> map e_pos (change g p l) = map e_pos l.
Proof. intros H. unfold change. rewrite map_map. apply map_ext. intros e. destruct (pair_eqb _ _); auto. unfold e_pos. rewrite H. auto. Qed.
(** one entry of the list changes *)
Lemma ents_change t t' L n j g p : In (RS n j) L -> StronglySorted Z.lt (map e_pos (ents t L)) -> e_hash (ent_in t n j) = p ->
  (forall m i, ent_in t' m i = if eref_eqb (RS n j) (RS m i) then g (ent_in t n j) else ent_in t m i) ->
  ents t' L = change g p (ents t L).
Proof.
  intros Hin S Hp H. assert (U : forall m i, In (RS m i) L -> e_hash (ent_in t m i) = p -> RS m i = RS n j).
  { intros m i Hm Em. destruct (in_split _ _ Hin) as (L1 & L2 & EL). rewrite EL in Hm, S.
    assert (EP : e_pos (ent_in t m i) = e_pos (ent_in t n j)) by (unfold e_pos; congruence).
    assert (NO : forall X, In (RS m i) X -> In (e_pos (ent_in t m i)) (map e_pos (ents t X))) by (intros X HX; apply in_map; unfold ents; apply in_flat_map; exists (RS m i); split; [auto|left; auto]).
    rewrite ents_app, map_app in S. cbn [ents flat_map app map] in S. fold (ents t L2) in S. apply in_app_iff in Hm. destruct Hm as [Hm|[Hm|Hm]]; [|auto|].
    - exfalso. apply sorted_app in S as (_ & _ & S). specialize (S (e_pos (ent_in t m i)) (e_pos (ent_in t n j)) (NO L1 Hm) (or_introl eq_refl)). lia.
    - exfalso. apply sorted_app in S as (_ & S & _). apply StronglySorted_inv in S as [_ S]. rewrite Forall_forall in S. specialize (S _ (NO L2 Hm)). lia. }
  clear Hin S. unfold ents, change. induction L as [|[b|m i] L IH]; cbn [flat_map app map]; auto.
  - apply IH. intros m i Hm. apply U. right. auto.
  - rewrite IH by (intros m' i' Hm; apply U; right; auto). f_equal. rewrite H. destruct (eref_eqb (RS n j) (RS m i)) eqn:E.
    + apply eref_eqb_eq in E. injection E as <- <-. rewrite Hp, pair_eqb_refl. auto.
    + destruct (pair_eqb (e_hash (ent_in t m i)) p) eqn:EP; auto. exfalso. apply same_hash in EP. assert (X := U m i (or_introl eq_refl) EP). injection X as -> ->. cbn [eref_eqb] in E. rewrite nid_eqb_refl, Nat.eqb_refl in E. discriminate.
Qed.
(** a pool with one entry changed takes the place of another *)
Lemma rrel_put s n q q' L cur cur' rl j g p : b_pool (bget (x_trie s) n) = Some q -> (p_n q' <= p_n q)%nat -> rrel s L cur rl -> In (RS n j) L ->
  e_hash (ent_of (slot_at q j)) = p -> (forall e, e_hash (g e) = e_hash e) -> (forall e, e_dead e = true -> e_dead (g e) = true) ->
  (forall i, ent_of (slot_at q' i) = if Nat.eqb j i then g (ent_of (slot_at q j)) else ent_of (slot_at q i)) ->
  (forall t', (forall i, ent_in t' n i = ent_of (slot_at q' i)) -> thin t' L cur -> thin t' L cur') ->
  rrel (set_bpool s n q') L cur' (change g p rl).
Proof.
  intros HQ LN [R1 R2 R3 R4] Hin Hp Gh Gd HE HC. set (t' := x_trie (set_bpool s n q')).
  assert (SP : forall z, b_pool (bget t' z) = if nid_eqb n z then Some q' else b_pool (bget (x_trie s) z)).
  { intros z. unfold t', set_bpool, set_xtrie. cbn [x_trie]. unfold tupd. rewrite bget_tset. destruct (nid_eqb n z); auto. }
  assert (EN : forall m i, ent_in t' m i = if eref_eqb (RS n j) (RS m i) then g (ent_in (x_trie s) n j) else ent_in (x_trie s) m i).
  { intros m i. unfold ent_in, slot_in. rewrite SP, HQ. cbn [eref_eqb]. destruct (nid_eqb n m) eqn:E; cbn [andb]; auto. apply nid_eqb_eq in E. subst m. rewrite HQ. apply HE. }
  assert (EC : ents t' L = change g p rl). { rewrite <- R1. apply (ents_change (x_trie s) t' L n j); auto; [rewrite R1; auto|]. unfold ent_in, slot_in. rewrite HQ. auto. }
  constructor; fold t'.
  - exact EC.
  - apply HC; [intros i; unfold ent_in, slot_in; rewrite SP, nid_eqb_refl; auto|]. apply (thin_mono (x_trie s)); auto. intros m i D. rewrite EN. destruct (eref_eqb (RS n j) (RS m i)) eqn:E; auto. apply eref_eqb_eq in E. injection E as <- <-. auto.
  - rewrite change_pos by auto. auto.
  - intros y b p0 i Hy HP Hi. rewrite SP in HP. change (x_bl (set_bpool s n q')) with (x_bl s) in Hy. destruct (nid_eqb n b) eqn:E; [|eapply R4; eauto]. apply nid_eqb_eq in E. subst b. injection HP as <-. apply (R4 y n q i); auto. lia.
Qed.
(** an item is changed in its place *)
Lemma rrel_upd s L cur rl n j q f g p : b_pool (bget (x_trie s) n) = Some q -> (j < List.length (p_slots q))%nat -> rrel s L cur rl -> In (RS n j) L ->
  e_hash (ent_of (slot_at q j)) = p -> ent_of (f (slot_at q j)) = g (ent_of (slot_at q j)) -> (forall e, e_hash (g e) = e_hash e) -> (forall e, e_dead e = true -> e_dead (g e) = true) ->
  rrel (upd_item s n j f) L cur (change g p rl).
Proof.
  intros HQ HJ R Hin Hp Hf Gh Gd. unfold upd_item. rewrite HQ. apply (rrel_put s n q (upd_slot q j f) L cur cur rl j g p); auto.
  intros i. rewrite upd_at by auto. destruct (Nat.eqb_spec j i) as [<-|]; auto.
Qed.
Lemma read_state h s o : read_only o -> fst (estep h s o) = s.
Proof.
  intros Ho. destruct o as [| |key|k c|key|k c|key|key|]; try contradiction; cbn [estep]; unfold ewith, eget, eget_item;
    try destruct (key_to_hash h key) as [[k c]|]; auto; destruct (eload s _ _) as [[[]|]| | |]; auto.
Qed.

(** * One call *)
Lemma rstep bs len h s s2 xl l L cur rl o : prel bs len s s2 xl l -> rrel s L cur rl ->
  match o with
  | OpSet key _ => exists p, key_to_hash h key = Some p /\ present bs l p = true
  | OpStore i => exists p, key_to_hash h (i_key i) = Some p /\ present bs l p = true
  | _ => True
  end -> stops (snd (estep h s o)) = false ->
  exists cur', link_step h s o cur = Some cur' /\ rrel (fst (estep h s o)) L cur' (next_listed h bs len l rl o).
Proof.
  intros R Q HO HS.
  (* the item that is found *)
  assert (HIT : forall k c n j p, 0 <= k < W64 -> hit s2 k c n j p -> exists q, b_pool (bget (x_trie s) n) = Some q /\ p_n q = p_n p /\ (p_n q <= List.length (p_slots q))%nat /\
     (forall i, (i < p_n q)%nat -> slot_at q i = slot_at p i) /\ (j < p_n q)%nat /\ In (RS n j) L /\ e_hash (ent_of (slot_at q j)) = (k, c) /\ (0 <= p_len p)).
  { intros k c n j p Hk HT. destruct (hit_entry bs len s s2 xl l k c n j p R Hk HT) as (_ & HH & _). destruct HT as (y & Hy & HP & K & Hj & _).
    destruct (own_pool bs len s s2 xl l y n p R Hy HP) as (q & Q1 & Q2 & Q3 & Q4). exists q. split; auto. split; auto. split; auto. split; auto. split; [lia|].
    split; [|split; [rewrite Q4 by lia; auto|unfold p_n in Hj; lia]]. apply (rr_in _ _ _ _ Q y n q j); auto; [|lia]. rewrite (pe_bl _ _ (pl_eq _ _ _ _ _ _ R)). auto. }
  (* an update *)
  assert (UPD : forall k c v, 0 <= k < W64 -> present bs l (k, c) = true -> exists b, visible bs l (k, c) = Some b /\ (eload s k c = Div \/ exists n j, eload s k c = Ret (Some (n, j)) /\
     rrel (fst (eupdate s n j v)) L cur (match sm_map (fst (sm_update (the_map bs len l) (k, c) b v)) (k, c) with Some b' => change (set_bd b') (k, c) rl | None => rl end))).
  { intros k c v Hk PR. unfold present in PR. destruct (visible bs l (k, c)) as [b|] eqn:EV; [|discriminate]. exists b. split; auto.
    destruct (eload_view bs len s s2 xl l k c R Hk) as [E|[(n & j & p & E & HT & HI & EV')|(_ & EV')]]; [left; auto| |congruence].
    right. exists n, j. split; auto. rewrite EV in EV'. injection EV' as ->. destruct (HIT k c n j p Hk HT) as (q & Q1 & Q2 & Q3 & Q4 & Q5 & Q6 & Q7 & _).
    assert (SJ : slot_at q j = slot_at p j) by (apply Q4; auto).
    unfold eupdate, sm_update. rewrite HI, set_value_assign. cbn [the_map sm_view bd_val bd_kind bd_key].
    destruct (assign KSample (sl_val (slot_at p j)) v) as [[v' ok]|]; cbn [fst snd sm_map].
    - unfold sm_put. rewrite pair_eqb_refl. apply (rrel_upd s L cur rl n j q); auto; [lia|]. rewrite SJ. reflexivity.
    - cbn [the_map sm_map]. rewrite EV. rewrite change_id; [auto|]. intros e He Eh. assert (EE : e = ent_of (slot_at q j)).
      { assert (I2 : In (ent_of (slot_at q j)) rl). { rewrite <- (rr_ents _ _ _ _ Q). unfold ents. apply in_flat_map. exists (RS n j). split; auto. left. unfold ent_in, slot_in. rewrite Q1. auto. }
        destruct (in_split _ _ He) as (A1 & A2 & EA). pose proof (rr_sorted _ _ _ _ Q) as S. rewrite EA in S, I2. rewrite map_app in S. cbn [map] in S. assert (EP : e_pos e = e_pos (ent_of (slot_at q j))) by (unfold e_pos; congruence).
        apply in_app_iff in I2. destruct I2 as [I2|[I2|I2]]; auto; exfalso; apply sorted_app in S as (_ & S1 & S2).
        - specialize (S2 _ (e_pos e) (in_map e_pos _ _ I2) (or_introl eq_refl)). lia.
        - apply StronglySorted_inv in S1 as [_ S1]. rewrite Forall_forall in S1. specialize (S1 _ (in_map e_pos _ _ I2)). lia. }
      rewrite EE, SJ. reflexivity. }
  destruct o as [key v|i|key|k c|key|k c|key|key|]; cbn [link_step next_listed];
    try (exists cur; rewrite read_state by exact Logic.I; split; auto; fail).
  - (* Set *) destruct HO as ((k & c) & EK & PR). pose proof (proj1 (key_range _ _ _ _ EK)) as Hk. cbn [estep] in *. unfold eset, link_set in *. rewrite EK in *. destruct (UPD k c v Hk PR) as (b & EV & [E|(n & j & E & H)]); [rewrite E in HS; discriminate|].
    rewrite E in *. exists cur. split; auto. cbn [sm_step]. rewrite EK. cbn [sm_map the_map]. rewrite EV. exact H.
  - (* StoreItem *) destruct HO as ((k & c) & EK & PR). pose proof (proj1 (key_range _ _ _ _ EK)) as Hk. cbn [estep] in *. unfold estore, item_hash in *. rewrite EK in *. destruct (UPD k c (i_val i) Hk PR) as (b & EV & [E|(n & j & E & H)]); [rewrite E in HS; discriminate|].
    rewrite E in *. exists cur. split; auto. cbn [sm_step]. rewrite EK. cbn [sm_map the_map]. rewrite EV. exact H.
  - (* Delete *) exists cur. split; auto. cbn [estep] in *. unfold ewith in *. destruct (key_to_hash h key) as [[k c]|] eqn:EK; [|exact Q]. pose proof (proj1 (key_range _ _ _ _ EK)) as Hk. unfold edelete, present in *.
    destruct (eload_view bs len s s2 xl l k c R Hk) as [E|[(n & j & p & E & HT & HI & EV)|(E & EV)]]; rewrite E in *; [discriminate| |]; rewrite EV; cbn [fst]; [|exact Q].
    destruct (HIT k c n j p Hk HT) as (q & Q1 & Q2 & Q3 & Q4 & Q5 & Q6 & Q7 & _). apply (rrel_upd s L cur rl n j q set_sdel kill); auto. lia.
  - (* Purge *) cbn [estep] in *. unfold ewith in *. destruct (key_to_hash h key) as [[k c]|] eqn:EK; [|exists cur; auto]. pose proof (proj1 (key_range _ _ _ _ EK)) as Hk. unfold epurge, link_purge, present in *. eexists. split; [reflexivity|].
    destruct (eload_view bs len s s2 xl l k c R Hk) as [E|[(n & j & p & E & HT & HI & EV)|(E & EV)]]; rewrite E in *; [discriminate| |]; rewrite EV; [|exact Q].
    destruct (HIT k c n j p Hk HT) as (q & Q1 & Q2 & Q3 & Q4 & Q5 & Q6 & Q7 & Q8). rewrite Q1. cbn [fst].
    set (f := fun sl => set_slink (negb (p_len q - 1 =? Z.of_nat j)) (set_sdel sl)).
    assert (UE : forall i, ent_of (slot_at (upd_slot q j f) i) = if Nat.eqb j i then kill (ent_of (slot_at q j)) else ent_of (slot_at q i)).
    { intros i. rewrite upd_at by lia. destruct (Nat.eqb_spec j i) as [<-|]; auto. }
    destruct (Z.eqb_spec (p_len q - 1) (Z.of_nat j)) as [EJ|NJ].
    + set (q1 := mkP (p_slots (upd_slot q j f)) (p_len (upd_slot q j f) - 1)). assert (N1 : p_n q1 = j) by (unfold p_n, q1; cbn [p_len upd_slot]; lia).
      unfold shrink_len. rewrite N1. destruct j as [|j'].
      * apply (rrel_put s n q q1 L cur (unlink n 0 cur) rl 0 kill (k, c)); auto; [lia|]. intros t' T' TH. apply thin_unlink; auto. rewrite T'. change (slot_at q1 0) with (slot_at (upd_slot q 0 f) 0). rewrite UE. auto.
      * assert (D : sl_del (slot_at q1 j') = sl_del (slot_at q j')). { change (slot_at q1 j') with (slot_at (upd_slot q (S j') f) j'). rewrite upd_at by lia. destruct (Nat.eqb_spec (S j') j'); [lia|auto]. }
        rewrite D. destruct (sl_del (slot_at q j')) eqn:DD.
        -- set (q2 := mkP (upd_nth j' (set_slink false (slot_at q1 j')) (p_slots q1)) (p_len q1 - 2)).
           assert (E2 : forall i, ent_of (slot_at q2 i) = if Nat.eqb (S j') i then kill (ent_of (slot_at q (S j'))) else ent_of (slot_at q i)).
           { intros i. rewrite <- UE. change (slot_at (upd_slot q (S j') f) i) with (slot_at q1 i). change (slot_at q2 i) with (slot_at (upd_slot q1 j' (set_slink false)) i). rewrite upd_at; [destruct (Nat.eqb_spec j' i) as [<-|]; auto|]. unfold q1, upd_slot. cbn [p_slots]. rewrite upd_nth_length. lia. }
           apply (rrel_put s n q q2 L cur (unlink n j' (unlink n (S j') cur)) rl (S j') kill (k, c)); auto; [unfold p_n at 1; cbn [p_len q2 q1 upd_slot]; lia|].
           intros t' T' TH. apply thin_unlink; [|apply thin_unlink; auto]; rewrite T', E2.
           ++ destruct (Nat.eqb_spec (S j') j'); [lia|]. exact DD.
           ++ rewrite Nat.eqb_refl. auto.
        -- apply (rrel_put s n q q1 L cur (unlink n (S j') cur) rl (S j') kill (k, c)); auto; [lia|]. intros t' T' TH. apply thin_unlink; auto. rewrite T'. change (slot_at q1 (S j')) with (slot_at (upd_slot q (S j') f) (S j')). rewrite UE, Nat.eqb_refl. auto.
    + apply (rrel_put s n q (upd_slot q j f) L cur (unlink n j cur) rl j kill (k, c)); auto. intros t' T' TH. apply thin_unlink; auto. rewrite T', UE, Nat.eqb_refl. auto.
Qed.
Lemma rrun bs len h xl L : forall os s s2 l cur rl, prel bs len s s2 xl l -> rrel s L cur rl -> creates_none h bs len l os -> existsb stops (eouts h s os) = false ->
  exists cur', frun h (s, cur) os = (erun h s os, cur') /\ fouts h (s, cur) os = eouts h s os /\ rrel (erun h s os) L cur' (listed_run h bs len l rl os).
Proof.
  induction os as [|o os IH]; intros s s2 l cur rl H Q HN HS; cbn [creates_none frun fouts erun eouts listed_run] in *; [eauto|].
  destruct HN as [HO HN]. pose proof (pstep bs len h s s2 xl l o H HO) as A. pose proof (rstep bs len h s s2 xl l L cur rl o H Q HO) as B.
  unfold fstep. cbn [fst snd]. destruct (estep h s o) as [s' r]. cbn [fst snd existsb] in *. apply orb_false_iff in HS as [S1 S2]. rewrite S1 in *.
  destruct (B eq_refl) as (c1 & E1 & Q1). rewrite E1, S1. destruct A as [->|[_ (s2' & A)]]; [discriminate S1|].
  destruct (IH s' s2' _ c1 _ A Q1 HN S2) as (c2 & F1 & F2 & F3). exists c2. rewrite F1, F2. auto.
Qed.

(** * After the Sets *)
Lemma ents_slist s xl : einv s xl -> ents (x_trie s) (flat_of s) = map ent_of (slist (x_trie s) (x_bl s)).
Proof.
  intros I. unfold flat_of. set (t := x_trie s). assert (G : forall B A0, x_bl s = A0 ++ B -> ents t (flat t B) = map ent_of (slist t B)).
  { induction B as [|b B IH]; intros A0 EB; auto. rewrite flat_cons, slist_cons, ents_app, map_app. rewrite (IH (A0 ++ [b])) by (rewrite <- app_assoc; auto). f_equal.
    unfold seg, of_bucket, plen. cbn [ents flat_map app]. destruct (nid_eqb b bmax) eqn:Eb; auto.
    assert (Nb : b <> bmax) by (intros ->; rewrite nid_eqb_refl in Eb; discriminate).
    destruct (ei_pred s xl I b) as (y & Hy); auto; [rewrite EB; apply in_or_app; right; left; auto|].
    destruct (ei_pool _ _ I y b Hy) as (p & HP & K). fold t in HP. rewrite HP. pose proof (po_n _ _ _ K) as PN.
    unfold slots. rewrite flat_map_concat_map, map_map.
    assert (X : forall m, (m <= List.length (p_slots p))%nat -> List.concat (map (fun x => [ent_in t b x]) (seq 0 m)) = map ent_of (firstn m (p_slots p))).
    { induction m as [|m IHm]; intros Hm; auto. rewrite seq_S, map_app, concat_app, IHm by lia. cbn [plus map List.concat app]. unfold ent_in, slot_in. rewrite HP.
      replace (S m) with (m + 1)%nat by lia. rewrite <- (firstn_skipn m (p_slots p)) at 2. rewrite firstn_app, firstn_length, firstn_firstn. replace (Nat.min (m + 1) m) with m by lia. replace (m + 1 - Nat.min m (List.length (p_slots p)))%nat with 1%nat by lia. rewrite map_app. f_equal.
      unfold slot_at. rewrite <- (firstn_skipn m (p_slots p)) at 1. rewrite app_nth2; rewrite firstn_length; [|lia]. replace (m - Nat.min m (List.length (p_slots p)))%nat with 0%nat by lia.
      destruct (skipn m (p_slots p)) as [|z w] eqn:ES; [|reflexivity]. apply (f_equal (@List.length slot)) in ES. rewrite skipn_length in ES. cbn in ES. lia. }
    apply X. lia. }
  apply (G (x_bl s) []). auto.
Qed.
Lemma start_rrel s m l : erel s m -> lists m l -> rrel s (flat_of s) (flat_of s) l.
Proof.
  intros H [L1 L2 L3]. destruct (er_inv _ _ H) as (xl & I). apply pos_sorted in L1.
  assert (CR : forall sl, In sl (slist (x_trie s) (x_bl s)) -> cont s (pr sl)).
  { intros sl Hs. apply (slist_in s xl sl I) in Hs as (y & b & p & Hy & HP & Hs). exists y, b, p. split; auto. split; auto. apply in_map; auto. }
  assert (EP : forall sl, In sl (slist (x_trie s) (x_bl s)) -> e_pos (ent_of sl) = sl_rev sl).
  { intros sl Hs. unfold e_pos, ent_of. cbn [e_hash fst]. apply reverse64_involutive. apply (cont_rev s xl I _ (CR sl Hs)). }
  assert (E : ents (x_trie s) (flat_of s) = l).
  { rewrite (ents_slist s xl I). apply sorted_same; auto.
    - destruct (ei_bl_head s xl I) as (B & EB). destruct (slist_sorted s xl I B bmax [] EB) as [S _]. rewrite map_map. rewrite (map_ext_in _ sl_rev) by (intros sl Hs; apply EP; auto).
      rewrite EB, slist_cons. unfold of_bucket at 1. rewrite nid_eqb_refl, app_nil_r. exact S.
    - intros e. split.
      + intros He. apply in_map_iff in He as (sl & <- & Hs). pose proof (CR sl Hs) as C. unfold pr in C.
        assert (D : sl_del sl = false) by (apply (slist_in s xl sl I) in Hs as (y & b & p & Hy & HP & Hs); apply (er_nd _ _ H y b p Hy HP sl Hs)). unfold ent_of. rewrite D in *. apply L2; [apply reverse64_range|].
        apply (er_at _ _ H); [apply reverse64_range|]. exists (sl_key sl), (sl_val sl). split; auto. rewrite reverse64_involutive by (apply (cont_rev s xl I _ (CR sl Hs))). exact C.
      + intros He. destruct (L3 e He) as [D Hk]. destruct e as [[k c] b d]. cbn [e_dead e_hash fst] in *. subst d. apply L2 in He; auto. apply (er_at _ _ H) in He as (key & v & -> & y & b' & p & Hy & HP & Hin); auto.
        apply in_map_iff in Hin as (sl & E & Hs). apply in_map_iff. exists sl. split; [|apply (slist_in s xl sl I); eauto 6]. unfold pr in E. injection E as E1 E2 E3 E4 E5. unfold ent_of. rewrite E1, E2, E3, E4, E5, reverse64_involutive; auto. }
  constructor; auto.
  - apply thin_refl.
  - intros y b p j Hy HP Hj. unfold flat_of. apply in_flat. exists b. split; [apply (adj_in _ _ _ Hy)|]. right. apply in_slots. exists j. split; auto. unfold plen. pose proof (ei_adj_ne s xl I _ _ Hy) as Nb. apply nid_eqb_neq in Nb. rewrite Nb, HP. lia.
Qed.

(** After any history of Sets and reads that comes back, with no hash collision and no position on a bucket boundary, and
    then any Deletes, Purges, updates and reads: Range visits exactly the entries that were stored and that no Delete or
    Purge has found since, each with its last value, in increasing order of bit-reversed hash. *)
Theorem C62_range_after_purge_partial : forall h max os os2 l, 16 <= max -> Forall store_or_read os -> no_collision h os ->
  let s := erun h (new_emb max) os in let m := sm_run h (sm_empty KSample) os in
  (forall r, In r (positions h os) -> ~ In r (edump s)) ->
  lists m l -> creates_none h (edump s) (sm_created m) l os2 ->
  existsb stops (eouts h (new_emb max) (os ++ os2)) = false ->
  fouts h (new_lemb max) (os ++ os2) = eouts h (new_emb max) (os ++ os2) /\
  StronglySorted Z.lt (map e_pos (listed_run h (edump s) (sm_created m) l l os2)) /\
  forall A (f : A -> option gkey -> gval -> A * bool) a,
    frange (frun h (new_lemb max) (os ++ os2)) f a = over f a (listed_run h (edump s) (sm_created m) l l os2).
Proof.
  intros h max os os2 l HM HF HN s m HB HL HC HS.
  rewrite eouts_app in HS.
  assert (HS1 : existsb stops (eouts h (new_emb max) os) = false).
  { destruct (existsb stops (eouts h (new_emb max) os)) eqn:E; auto. exfalso. rewrite existsb_app in HS. apply orb_false_iff in HS as [X _]. congruence. }
  rewrite HS1 in HS. rewrite existsb_app, HS1 in HS. cbn [orb] in HS. fold s in HS.
  destruct (hist_flat h max os HM HF HN HS1 HB) as (E1 & E2 & R). fold s m in E1, R.
  destruct (erel_prel s m l R HL) as (xl & P). pose proof (start_rrel s m l R HL) as Q.
  destruct (rrun _ _ h xl (flat_of s) os2 s s l (flat_of s) l P Q HC HS) as (cur & F1 & F2 & F3).
  rewrite frun_app, fouts_app, E1, E2, F1, F2 by (rewrite E2; auto). rewrite eouts_app, HS1. fold s. split; auto. split; [apply (rr_sorted _ _ _ _ F3)|].
  intros A f a. unfold frange. cbn [fst snd]. rewrite range_ents, (thin_over _ f _ _ (rr_thin _ _ _ _ F3)), (rr_ents _ _ _ _ F3). auto.
Qed.
Print Assumptions C62_range_after_purge_partial.

(** * Cases *)
(** Purge b, which marks it, then Purge c, the last of the bucket, which takes b and a off the end: Get no longer finds a, and
    Range still reports it. *)
Example C62_purge_case :
  let os2 := [set_ "a" 7; pur_ "b"; pur_ "c"] in
  let s := erun (hpos five) (new_emb 32) three in
  Forall store_or_read three /\ no_collision (hpos five) three /\
  (forall r, In r (positions (hpos five) three) -> ~ In r (edump s)) /\
  lists (sm_run (hpos five) (sm_empty KSample) three) three_l /\
  creates_none (hpos five) (edump s) 3 three_l os2 /\
  existsb stops (eouts (hpos five) (new_emb 32) (three ++ os2)) = false /\
  keys_all (frun (hpos five) (new_lemb 32) (three ++ os2)) = [Some (KStr "a")] /\
  snd (estep (hpos five) (erun (hpos five) (new_emb 32) (three ++ os2)) (get_ "a")) = Ret (RVal GNil false).
Proof.
  cbv zeta. split; [apply sor_ok; reflexivity|]. split; [apply nocol_ok; vm_compute; reflexivity|]. split; [apply off_ok; vm_compute; reflexivity|].
  split; [exact three_lists|]. split; [split; [exists (reverse64 10, 1); split; vm_compute; reflexivity|]; repeat (split; [exact I|]); exact I|].
  split; [vm_compute; reflexivity|]. split; vm_compute; reflexivity.
Qed.
(** One Purge, a Delete and a Purge of the last key, a Purge of a key that was taken off. *)
Example C62_purge_case2 :
  let s := fun os2 => frun (hpos five) (new_lemb 32) (three ++ os2) in
  keys_all (s []) = [Some (KStr "a"); Some (KStr "b"); Some (KStr "c")] /\
  keys_all (s [pur_ "b"]) = [Some (KStr "a"); Some (KStr "c")] /\
  keys_all (s [del_ "a"; pur_ "c"]) = [Some (KStr "b")] /\
  keys_all (s [del_ "b"; pur_ "c"; pur_ "b"]) = [Some (KStr "a")].
Proof. vm_compute. auto. Qed.
