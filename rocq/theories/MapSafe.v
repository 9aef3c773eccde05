(** The default map after histories that store only holdable positions: the invariant, the keys
    that are used properly, boundaries, counting. *)
From Verif Require Import Base BaseProofs Util UtilProofs Bucket TrieProofs TrieInv TrieGrow MapModel ItemProofs
  MapInv MapSplit MapStep MapInit Spec MapRefine MapAny.
From Coq Require Import ZifyBool Sorted.
Local Open Scope Z_scope.
Local Opaque reverse64 level_of base find_bucket.

(** * What one call does, in every state satisfying the invariant *)
Inductive effect (h : hashes) (s s' : mstate) (o : op) (r : out) : Prop :=
| EffNone : s' = s \/ s' = set_mpool s true -> r <> RBool true ->
    (forall p, writes h o = Some p -> r = RPanic) ->
    (forall k c, is_delete o = true -> touches h o = Some (k, c) -> r = RBool false /\ load s k c = Ret None) ->
    effect h s s' o r
| EffUpd k c l e r' v' ok : writes h o = Some (k, c) -> m_items s = rev l ++ e :: r' -> live e = true ->
    e_rev e = reverse64 k -> e_conf e = c -> assign (m_view s) (e_val e) (written o) = Some (v', ok) ->
    load s k c = Ret (Some (l, e :: r')) ->
    s' = set_items s (rev l ++ set_e_val e v' :: r') -> r = RBool ok ->
    effect h s s' o r
| EffDel k c l e r' : is_delete o = true -> touches h o = Some (k, c) -> m_items s = rev l ++ e :: r' ->
    live e = true -> e_rev e = reverse64 k -> e_conf e = c ->
    s' = set_items s (rev l ++ del_entry (m_view s) e :: r') -> r = RBool true ->
    effect h s s' o r
| EffAdd k c i s0 : writes h o = Some (k, c) -> load s k c = Ret None ->
    e_rev (entry_of i k c) >= 0 ->
    (fresh_item o -> i_rev i = 0 /\ i_conf i = 0 /\ i_del i = false) -> i_val i = written o ->
    (forall i', o = OpStore i' -> i = i') ->
    sinv s0 -> m_items s0 = m_items s -> m_trie s0 = m_trie s -> m_bl s0 = m_bl s -> m_len s0 = m_len s ->
    m_mode s0 = m_mode s ->
    added s0 s' (entry_of i k c) (reverse64 k) -> r = RBool true ->
    effect h s s' o r.

Lemma get_val_same s r : get_val s r = (s, snd (get_val s r)) /\ snd (get_val s r) <> RBool true.
Proof. unfold get_val. destruct r as [[[l [|e r]]|]| | |]; cbn; split; auto; discriminate. Qed.
Lemma get_item_same s r : get_item s r = (s, snd (get_item s r)) /\ snd (get_item s r) <> RBool true.
Proof. unfold get_item. destruct r as [[[l [|e r]]|]| | |]; cbn; split; auto; discriminate. Qed.

Lemma delete_effect h s o key : sinv s -> o = OpDelete key \/ o = OpPurge key ->
  effect h s (fst (delete h s key)) o (snd (delete h s key)).
Proof.
  intros I Ho. assert (Hd : is_delete o = true) by (destruct Ho; subst; auto).
  assert (Ht : touches h o = key_to_hash h key) by (destruct Ho; subst; auto).
  assert (Hw : writes h o = None) by (destruct Ho; subst; auto).
  unfold delete. destruct (key_to_hash h key) as [[k c]|] eqn:K.
  - destruct (load_spec s k c I) as (z & L & _). rewrite L. destruct z as [z|].
    + apply load_hit in L as (l & e & r & -> & Ei & HL & HR & HC). rewrite upd_cur_eq. cbn [fst snd].
      eapply EffDel; eauto.
    + apply EffNone; cbn; auto; try discriminate; [intros p; congruence|].
      intros k' c' _ E. rewrite Ht in E. inversion E; subst. auto.
  - apply EffNone; cbn; auto; try discriminate. intros k c _ E. congruence.
Qed.

Lemma step_effect h s o : sinv s -> safe_op h o -> effect h s (fst (step h s o)) o (snd (step h s o)).
Proof.
  intros I SO.
  assert (RO : forall s' r, (s' = s \/ s' = set_mpool s true) -> r <> RBool true -> writes h o = None -> is_delete o = false ->
    effect h s s' o r).
  { intros s' r E N W D. apply EffNone; auto; try congruence. }
  destruct o as [key v|i|key|k c|key|k c|key|key|]; cbn [step].
  - unfold set. destruct (key_to_hash h key) as [[k c]|] eqn:K.
    2: { apply EffNone; cbn; auto; try discriminate. }
    destruct (key_range _ _ _ _ K) as [Hk _].
    destruct (load_spec s k c I) as (z & L & F). rewrite L.
    destruct z as [z|].
    + pose proof (load_hit _ _ _ _ L) as (l & e & r & -> & Ei & HL & HR & HC).
      rewrite update_eq. destruct (assign _ _ _) as [[v' ok]|] eqn:A.
      * eapply EffUpd; eauto.
      * apply EffNone; cbn; auto; discriminate.
    + set (s1 := if _ && _ then set_mpool s true else s). cbv zeta.
      assert (H1 : s1 = s \/ s1 = set_mpool s true) by (unfold s1; destruct (_ && _); auto).
      assert (I1 : sinv s1) by (destruct H1 as [->| ->]; auto; apply sinv_mpool; auto).
      assert (E1 : m_items s1 = m_items s /\ m_trie s1 = m_trie s /\ m_bl s1 = m_bl s /\ m_len s1 = m_len s /\ m_mode s1 = m_mode s)
        by (destruct H1 as [->| ->]; auto).
      destruct E1 as (E1 & E2 & E3 & E4 & E5).
      destruct key; try (apply EffNone; cbn; auto; discriminate).
      cbn [safe_op writes] in SO. rewrite K in SO. destruct SO as [S1 S2].
      pose proof (storable_rev k Hk S1 S2) as SR.
      destruct (find_bucket_present s (reverse64 k) I ltac:(apply reverse64_range)) as [P1 P2].
      match goal with |- context [set_ ?a ?b ?n ?e] =>
        destruct (set_spec a b n e) as (s' & E & A) end.
      { apply sinv_view; auto. } { cbn [set_view m_trie]. rewrite E2. auto. }
      { cbn [set_view m_trie]. rewrite E2. auto. } { reflexivity. } { exact SR. }
      rewrite E. cbn [fst snd].
      eapply (EffAdd _ _ _ _ _ k c (mkI KSample (KStr s0) v 0 0 false) (set_view s1 KSample)); eauto.
      * cbn. pose proof (reverse64_range k). lia.
      * discriminate.
      * apply sinv_view; auto.
  - unfold store, item_hash. destruct (key_to_hash h (i_key i)) as [[k c]|] eqn:K.
    2: { apply EffNone; cbn; auto; try discriminate. }
    destruct (key_range _ _ _ _ K) as [Hk _].
    destruct (load_spec s k c I) as (z & L & F). rewrite L.
    destruct z as [z|].
    + pose proof (load_hit _ _ _ _ L) as (l & e & r & -> & Ei & HL & HR & HC).
      rewrite update_eq. destruct (assign _ _ _) as [[v' ok]|] eqn:A.
      * eapply EffUpd; eauto.
      * apply EffNone; cbn; auto; discriminate.
    + cbn [safe_op writes] in SO. rewrite K in SO.
      assert (SR : 0 <= e_rev (entry_of i k c) <= MAX64 - 2).
      { cbn [entry_of e_rev]. destruct SO as [(R0 & S1 & S2)|R].
        - rewrite R0. cbn [Z.eqb]. apply storable_rev; auto.
        - destruct (Z.eqb_spec (i_rev i) 0); [lia|]. rewrite MAX64_val. lia. }
      destruct (find_bucket_present s (reverse64 k) I ltac:(apply reverse64_range)) as [P1 P2].
      destruct (set_spec s k _ (entry_of i k c) I P1 P2 eq_refl SR) as (s' & E & A).
      rewrite E. cbn [fst snd].
      eapply (EffAdd _ _ _ _ _ k c i s); eauto; try lia.
      intros i' Ei. inversion Ei; auto.
  - unfold with_key. destruct (key_to_hash h key) as [[k c]|]; [|apply RO; cbn; auto; discriminate].
    destruct (get_val_same s (get s k c)) as [E N]. rewrite E. apply RO; cbn; auto.
  - destruct (get_val_same s (get s (u64 k) (u64 c))) as [E N]. rewrite E. apply RO; cbn; auto.
  - unfold with_key. destruct (key_to_hash h key) as [[k c]|]; [|apply RO; cbn; auto; discriminate].
    destruct (get_item_same s (load s k c)) as [E N]. rewrite E. apply RO; cbn; auto.
  - destruct (get_item_same s (get s (u64 k) (u64 c))) as [E N]. rewrite E. apply RO; cbn; auto.
  - apply delete_effect; auto.
  - apply delete_effect; auto.
  - apply RO; cbn; auto. discriminate.
Qed.

Lemma effect_sinv h s s' o r : sinv s -> effect h s s' o r -> sinv s'.
Proof.
  intros I E. destruct E as [E _ _ _|k c l e r' v' ok _ Ei HL _ _ _ _ -> _|k c l e r' _ _ Ei HL _ _ -> _
                            |k c i s0 _ _ _ _ _ _ _ _ _ _ _ _ A _].
  - destruct E as [->| ->]; auto. apply sinv_mpool; auto.
  - eapply sinv_replace; eauto.
  - eapply sinv_replace; eauto.
  - apply A.
Qed.
Theorem run_sinv h os : forall s, sinv s -> Forall (safe_op h) os -> sinv (run h s os).
Proof.
  induction os as [|o os IH]; intros s I F; cbn [run]; auto. inversion F; subst.
  apply IH; auto. eapply effect_sinv; [exact I|]. apply step_effect; auto.
Qed.

(** * Boundaries never go away *)
Lemma dump_iff s rv : sinv s -> (In rv (dump_bucket s) <-> exists d, In d (m_items s) /\ is_dummy d = true /\ e_rev d = rv).
Proof.
  intros I. split.
  - unfold dump_bucket. rewrite in_map_iff. intros (n & <- & Hn).
    destruct (sv_dummy_in s n I Hn) as (d & Hd & En). exists d. split; auto.
    split; [unfold is_dummy; rewrite En; auto|]. apply (sv_drev _ I); auto.
  - intros (d & Hd & Hdd & <-). destruct (in_dec Z.eq_dec (e_rev d) (dump_bucket s)) as [|N]; auto.
    exfalso. eapply dummy_boundary; eauto.
Qed.
Lemma added_items s0 s' e rk x : added s0 s' e rk -> In x (m_items s0) -> In x (m_items s').
Proof.
  intros (_ & _ & _ & _ & _ & _ & items1 & H1 & H2) Hx.
  assert (In x items1) by (destruct H1 as [->|[-> _]]; auto; apply ins_sorted_in; auto).
  destruct H2 as [->|(n & nr & -> & _)]; auto. apply ins_sorted_in; auto.
Qed.
Lemma in_replace {A} (l r : list A) e e' x : In x (l ++ e :: r) -> x = e \/ In x (l ++ e' :: r).
Proof.
  intros H. apply in_app_or in H as [H|[H|H]]; auto; right; apply in_or_app; auto. right; right; auto.
Qed.
Lemma effect_dump h s s' o r rv : sinv s -> effect h s s' o r -> In rv (dump_bucket s) -> In rv (dump_bucket s').
Proof.
  intros I E. pose proof (effect_sinv _ _ _ _ _ I E) as I'. rewrite !dump_iff by auto.
  intros (d & Hd & Hdd & Hr). exists d. split; [|auto].
  assert (ND : forall e, live e = true -> d <> e).
  { intros e HL ->. unfold live, ignored, is_dummy in *. destruct (e_dummy e); discriminate. }
  destruct E as [E _ _ _|k c l e r' v' ok _ Ei HL _ _ _ _ -> _|k c l e r' _ _ Ei HL _ _ -> _
                |k c i s0 _ _ _ _ _ _ _ E0 _ _ _ _ A _].
  - destruct E as [->| ->]; auto.
  - rewrite Ei in Hd. cbn [set_items m_items]. eapply in_replace in Hd as [Hd|Hd]; [exfalso; eapply ND; eauto|exact Hd].
  - rewrite Ei in Hd. cbn [set_items m_items]. eapply in_replace in Hd as [Hd|Hd]; [exfalso; eapply ND; eauto|exact Hd].
  - eapply added_items; eauto. rewrite E0. auto.
Qed.

(** * A properly used hash pair *)
Definition slot (s : mstate) (k c : Z) : Prop :=
  clear (reverse64 k) (m_items s) /\
  (live_at (reverse64 k) (m_items s) = [] \/ exists e, live_at (reverse64 k) (m_items s) = [e] /\ e_conf e = c).

Lemma slot_found s k c z : slot s k c -> found (m_items s) (reverse64 k) c z ->
  match live_at (reverse64 k) (m_items s) with
  | [] => z = None
  | e :: _ => exists l r, z = Some (l, e :: r) /\ m_items s = rev l ++ e :: r /\ e_rev e = reverse64 k /\
                live e = true /\ e_conf e = c
  end.
Proof.
  intros [C SL] F.
  pose proof (found_slot (m_items s) (reverse64 k) c z
    (fun c' => match live_at (reverse64 k) (m_items s) with e :: _ => if e_conf e =? c' then Some (bd_of e) else None | [] => None end) C) as P.
  destruct SL as [E|(e & E & Ec)]; rewrite E in *.
  - apply P; auto. cbn. auto.
  - assert (SO : slot_ok [e] (fun c' => if e_conf e =? c' then Some (bd_of e) else None)).
    { cbn. rewrite Z.eqb_refl. split; auto. intros c' N. destruct (Z.eqb_spec (e_conf e) c'); [congruence|auto]. }
    specialize (P SO F). rewrite Ec, Z.eqb_refl in P.
    destruct P as (l & e' & r & -> & A & B & D & G & H & K). inversion B; subst e'. exists l, r. auto.
Qed.

Definition slot_val (s : mstate) (k : Z) : option entry := hd_error (live_at (reverse64 k) (m_items s)).
Lemma slot_get s k c r : slot s k c -> (exists z, r = Ret z /\ found (m_items s) (reverse64 k) c z) ->
  get_val s r = (s, match slot_val s k with Some e => RVal (e_val e) true | None => RVal GNil false end).
Proof.
  intros S (z & -> & F). pose proof (slot_found s k c z S F) as P. unfold slot_val.
  destruct (live_at _ _) as [|e q]; cbn [hd_error].
  - subst z. auto.
  - destruct P as (l & r & -> & _). auto.
Qed.
Lemma slot_item s k c r : slot s k c -> (exists z, r = Ret z /\ found (m_items s) (reverse64 k) c z) ->
  get_item s r = (s, RItem (match slot_val s k with Some e => Some (view_key (m_view s) e, e_val e) | None => None end)).
Proof.
  intros S (z & -> & F). pose proof (slot_found s k c z S F) as P. unfold slot_val.
  destruct (live_at _ _) as [|e q]; cbn [hd_error].
  - subst z. auto.
  - destruct P as (l & r & -> & _). auto.
Qed.
Lemma slot_load s k c : sinv s -> slot s k c -> exists z, load s k c = Ret z /\
  match slot_val s k with
  | Some e => exists l r, z = Some (l, e :: r) /\ m_items s = rev l ++ e :: r /\ e_rev e = reverse64 k /\ live e = true /\ e_conf e = c
  | None => z = None
  end.
Proof.
  intros I S. destruct (load_spec s k c I) as (z & L & F). exists z. split; auto.
  pose proof (slot_found s k c z S F) as P. unfold slot_val. destruct (live_at _ _); auto.
Qed.
Lemma slot_val_live s k c e : slot s k c -> slot_val s k = Some e ->
  live_at (reverse64 k) (m_items s) = [e] /\ e_conf e = c.
Proof.
  intros [_ [E|(e' & E & Ec)]]; unfold slot_val; rewrite E; cbn; [discriminate|].
  intros X; inversion X; subst; auto.
Qed.
Lemma slot_val_none s k c : slot s k c -> slot_val s k = None -> live_at (reverse64 k) (m_items s) = [].
Proof. intros [_ [E|(e' & E & Ec)]]; unfold slot_val; rewrite E; cbn; [auto|discriminate]. Qed.

(** calls about another hash leave the position alone *)
Lemma effect_other h s s' o r k : sinv s -> 0 <= k < W64 -> fresh_item o -> effect h s s' o r ->
  (forall k1 c1, touches h o = Some (k1, c1) -> k1 <> k) ->
  live_at (reverse64 k) (m_items s') = live_at (reverse64 k) (m_items s) /\
  (clear (reverse64 k) (m_items s) -> clear (reverse64 k) (m_items s')).
Proof.
  intros I Hk Fr E N.
  assert (WT : forall p, writes h o = Some p -> touches h o = Some p) by (destruct o; cbn; auto; discriminate).
  assert (RG : forall k1 c1, touches h o = Some (k1, c1) -> 0 <= k1 < W64).
  { intros k1 c1 T. destruct o; cbn in T; try (apply key_range in T; tauto); try discriminate;
      inversion T; apply Z.mod_pos_bound; reflexivity. }
  assert (NE : forall k1 c1, touches h o = Some (k1, c1) -> reverse64 k1 <> reverse64 k).
  { intros k1 c1 T E1. apply (N k1 c1 T). apply reverse64_inj; eauto. }
  destruct E as [E _ _ _|k1 c1 l e r' v' ok W Ei HL HR _ _ _ -> _|k1 c1 l e r' _ T Ei HL HR _ -> _
                |k1 c1 i s0 W _ _ Fi _ _ I0 E0 _ _ _ _ A _].
  - destruct E as [->| ->]; auto.
  - cbn [set_items m_items]. rewrite Ei. split.
    + apply live_at_replace_other; auto. rewrite HR; eauto.
    + intros C. eapply clear_replace; eauto.
  - cbn [set_items m_items]. rewrite Ei. split.
    + apply live_at_replace_other; auto. rewrite HR; eauto.
    + intros C. eapply clear_replace; eauto.
  - rewrite <- E0. eapply added_other; eauto; [apply (sv_sorted _ I0)|].
    destruct (Fi Fr) as (F1 & _). cbn. rewrite F1. cbn. eauto.
Qed.

Lemma get_by_hash h s k c : 0 <= k < W64 -> 0 <= c < W64 -> step h s (OpGetByHash k c) = get_val s (get s k c).
Proof. intros H1 H2. cbn [step]. unfold u64. rewrite !Z.mod_small by (rewrite W64_val in *; auto). auto. Qed.

Lemma touches_range h o k1 c1 : touches h o = Some (k1, c1) -> 0 <= k1 < W64 /\ 0 <= c1 < W64.
Proof.
  intros T. assert (P : 0 < W64) by reflexivity.
  destruct o; cbn in T; try (eapply key_range; eauto; fail); try discriminate;
      inversion T; split; apply Z.mod_pos_bound; auto.
Qed.
Lemma writes_touches h o p : writes h o = Some p -> touches h o = Some p.
Proof. destruct o; cbn; auto; discriminate. Qed.

(** ... and calls about the pair itself keep it in order *)
Lemma slot_step h s s' o r k c : sinv s -> 0 <= k < W64 -> 0 <= c < W64 -> fresh_item o -> effect h s s' o r ->
  clean_op h s k c o -> slot s k c -> slot s' k c.
Proof.
  intros I Hk Hc Fr E Cl S. pose proof S as [C SL].
  destruct (touches h o) as [[k1 c1]|] eqn:T.
  2: { destruct (effect_other h s s' o r k I Hk Fr E) as [L C']; [congruence|]. split; auto. rewrite L; auto. }
  destruct (Z.eq_dec k1 k) as [->|N].
  2: { destruct (effect_other h s s' o r k I Hk Fr E) as [L C'].
       { intros k2 c2 T2. congruence. }
       split; auto. rewrite L; auto. }
  destruct E as [E _ _ _|k1 c2 l e r' v' ok W Ei HL HR HC _ _ -> _|k1 c2 l e r' _ T' Ei HL HR HC -> _
                |k1 c2 i s0 W L _ Fi _ _ I0 E0 E1 E2 _ E5 A _].
  - destruct E as [->| ->]; auto.
  - rewrite (writes_touches _ _ _ W) in T. inversion T; subst k1 c2. clear T.
    assert (Hin : In e (live_at (reverse64 k) (m_items s))).
    { apply live_at_in. rewrite Ei. split; [apply in_or_app; right; left; auto|auto]. }
    destruct SL as [E|(x & E & Ex)]; rewrite E in Hin; [destruct Hin|destruct Hin as [->|[]]].
    split; cbn [set_items m_items].
    + rewrite Ei in C. eapply clear_replace; eauto.
    + right. exists (set_e_val e v'). split; auto. rewrite Ei in E.
      rewrite (live_at_replace_same _ _ _ (set_e_val e v') _ E HL HR); auto.
      change (live (set_e_val e v')) with (live e). rewrite HL. auto.
  - rewrite T' in T. inversion T; subst k1 c2. clear T.
    assert (Hin : In e (live_at (reverse64 k) (m_items s))).
    { apply live_at_in. rewrite Ei. split; [apply in_or_app; right; left; auto|auto]. }
    destruct SL as [E|(x & E & Ex)]; rewrite E in Hin; [destruct Hin|destruct Hin as [->|[]]].
    split; cbn [set_items m_items].
    + rewrite Ei in C. eapply clear_replace; eauto.
    + left. rewrite Ei in E.
      rewrite (live_at_replace_same _ _ _ (del_entry (m_view s) e) _ E HL HR); auto.
      assert (DL : live (del_entry (m_view s) e) = false).
      { unfold live, ignored, del_entry. cbn [e_dummy e_del]. destruct (e_dummy e); auto. }
      rewrite DL. auto.
  - rewrite (writes_touches _ _ _ W) in T. inversion T; subst k1 c2. clear T.
    destruct (Cl _ _ W eq_refl) as [-> NB].
    destruct (slot_load s k c I S) as (z & L' & P). rewrite L in L'. inversion L'; subst z.
    destruct (slot_val s k) as [e|] eqn:SV.
    { destruct P as (l & r0 & X & _). discriminate. }
    pose proof (slot_val_none s k c S SV) as L0.
    destruct NB as [NB|(v & Hv)].
    + destruct (Fi Fr) as (F1 & F2 & F3).
      destruct (added_same s0 s' (entry_of i k c) (reverse64 k)) as [L1 C1]; auto.
      * apply (sv_sorted _ I0).
      * cbn. rewrite F1. auto.
      * cbn. unfold live, ignored. cbn. rewrite F3. auto.
      * rewrite E0. intros d. apply dummy_boundary; auto.
      * rewrite E0. auto.
      * split; auto. right. eexists. split; [exact L1|]. cbn. rewrite F2. auto.
    + exfalso. rewrite get_by_hash in Hv by auto.
      rewrite (slot_get s k c) in Hv; auto; [|apply get_spec; auto]. rewrite SV in Hv. cbn in Hv. discriminate.
Qed.

Lemma new_map_slot view max mode pool k c : slot (new_map view max mode pool) k c.
Proof. split; [apply clear_no_live|left]; reflexivity. Qed.

Theorem run_slot h k c : 0 <= k < W64 -> 0 <= c < W64 -> forall os s, sinv s -> slot s k c ->
  Forall (safe_op h) os -> Forall fresh_item os -> clean h s k c os ->
  sinv (run h s os) /\ slot (run h s os) k c.
Proof.
  intros Hk Hc os. induction os as [|o os IH]; intros s I S F1 F2 Cl; cbn [run]; auto.
  inversion F1; inversion F2; subst. destruct Cl as [C1 C2].
  pose proof (step_effect h s o I ltac:(auto)) as E.
  apply IH; auto.
  - eapply effect_sinv; eauto.
  - eapply slot_step; eauto.
Qed.

(** * Counting *)
Definition nlive (l : list entry) : Z := Z.of_nat (List.length (filter live l)).
Lemma nlive_ins e l : nlive (ins_sorted e l) = nlive l + (if live e then 1 else 0).
Proof.
  unfold nlive. induction l as [|x l IH]; cbn [ins_sorted filter].
  - destruct (live e); cbn; lia.
  - destruct (e_rev e <? e_rev x); cbn [filter].
    + destruct (live e), (live x); cbn [List.length]; lia.
    + destruct (live x); cbn [List.length]; destruct (live e); lia.
Qed.
Lemma nlive_replace l e e' r : nlive (l ++ e' :: r) = nlive (l ++ e :: r) - (if live e then 1 else 0) + (if live e' then 1 else 0).
Proof.
  unfold nlive. rewrite !filter_app, !app_length. cbn [filter].
  destruct (live e), (live e'); cbn [List.length]; lia.
Qed.
Lemma effect_count h s s' o r : sinv s -> fresh_item o -> effect h s s' o r ->
  m_len s' - nlive (m_items s') = m_len s - nlive (m_items s) +
    match is_delete o, r with true, RBool true => 1 | _, _ => 0 end.
Proof.
  intros I Fr E.
  destruct E as [E N _ _|k1 c2 l e r' v' ok W Ei HL HR HC _ _ -> ->|k1 c2 l e r' D T' Ei HL HR HC -> ->
                |k1 c2 i s0 W L _ Fi _ _ I0 E0 E1 E2 E4 E5 A ->].
  - assert (Z0 : match is_delete o, r with true, RBool true => 1 | _, _ => 0 end = 0).
    { destruct (is_delete o); auto. destruct r as [[|]| | | |]; auto. congruence. }
    rewrite Z0. destruct E as [->| ->]; cbn [set_mpool m_len m_items]; lia.
  - cbn [set_items m_len m_items]. rewrite Ei, (nlive_replace _ e (set_e_val e v')).
    change (live (set_e_val e v')) with (live e). 
    destruct o; try discriminate; cbn [is_delete]; lia.
  - cbn [set_items m_len m_items]. rewrite Ei, (nlive_replace _ e (del_entry (m_view s) e)), D, HL.
    assert (DL : live (del_entry (m_view s) e) = false).
    { unfold live, ignored, del_entry. cbn [e_dummy e_del]. destruct (e_dummy e); auto. }
    rewrite DL. lia.
  - destruct (Fi Fr) as (F1 & F2 & F3).
    assert (LV : live (entry_of i k1 c2) = true) by (cbn; unfold live, ignored; cbn; rewrite F3; auto).
    destruct A as (_ & -> & _ & _ & _ & _ & items1 & H1 & H2).
    assert (N1 : nlive items1 = nlive (m_items s) + 1).
    { destruct H1 as [->|[_ X]]; [rewrite nlive_ins, LV, E0; auto|].
      exfalso. apply X. cbn. rewrite F1. auto. }
    assert (N2 : nlive (m_items s') = nlive items1).
    { destruct H2 as [->|(n & nr & -> & _)]; auto. rewrite nlive_ins. cbn. lia. }
    rewrite N2, N1, E4. destruct o; try discriminate; cbn [is_delete]; lia.
Qed.
Theorem run_count h os : forall s, sinv s -> Forall (safe_op h) os -> Forall fresh_item os ->
  m_len (run h s os) - nlive (m_items (run h s os)) = m_len s - nlive (m_items s) + deletes os (outs h s os).
Proof.
  induction os as [|o os IH]; intros s I F1 F2; cbn [run outs deletes]; [lia|].
  inversion F1; inversion F2; subst.
  pose proof (step_effect h s o I ltac:(auto)) as E.
  rewrite IH; auto; [|eapply effect_sinv; eauto].
  rewrite (effect_count h s _ o _ I ltac:(auto) E). lia.
Qed.
