(** C65: what DumpEntry shows. *)
From Verif Require Import ConcSpec ConcProofs Base BaseProofs Util UtilProofs Bucket TrieProofs TrieInv TrieGrow MapModel MapDump ItemProofs
  MapInv MapSplit MapStep MapInit Spec MapRefine MapAny MapSafe MapMore Checks PropMap.
From Coq Require Import Sorted.
Local Open Scope Z_scope.
Local Opaque reverse64 level_of base find_bucket.

Definition is_item (d : dline) : bool := match dl_key d with Some _ => true | None => false end.
(** the columns of a line that identify an element *)
Definition cols (d : dline) : bool * Z * Z := (is_item d, dl_rev d, dl_conf d).

Definition place (e : entry) : bool * Z * Z := (negb (is_dummy e), e_rev e, e_conf e).
Lemma cols_place s : map cols (dump_entry s) = map place (m_items s).
Proof.
  unfold dump_entry. rewrite map_map. apply map_ext. intros e. unfold cols, place, dump_line, is_item, is_dummy.
  cbn. destruct (e_dummy e); reflexivity.
Qed.
Lemma ins_sorted_sub e l : subseq l (ins_sorted e l).
Proof.
  induction l as [|x l IH]; cbn [ins_sorted]; [constructor; constructor|].
  destruct (e_rev e <? e_rev x); constructor; auto. apply subseq_refl.
Qed.
Lemma added_sub s0 s' e rk : added s0 s' e rk -> subseq (m_items s0) (m_items s').
Proof.
  intros (_ & _ & _ & _ & _ & _ & items1 & H1 & H2).
  assert (S1 : subseq (m_items s0) items1).
  { destruct H1 as [->|[-> _]]; [apply ins_sorted_sub|apply subseq_refl]. }
  destruct H2 as [->|(n & nr & -> & _)]; auto. eapply subseq_trans; [apply ins_sorted_sub|exact S1].
Qed.
Lemma effect_place h s s' o r : effect h s s' o r -> subseq (map place (m_items s)) (map place (m_items s')).
Proof.
  intros E.
  destruct E as [E _ _ _|k c l e r' v' ok _ Ei HL _ _ _ _ -> _|k c l e r' _ _ Ei HL _ _ -> _
                |k c i s0 _ _ _ _ _ _ _ E0 _ _ _ _ A _].
  - destruct E as [->| ->]; apply subseq_refl.
  - cbn [set_items m_items]. rewrite Ei, !map_app. cbn [map]. apply subseq_refl.
  - cbn [set_items m_items]. rewrite Ei, !map_app. cbn [map]. apply subseq_refl.
  - rewrite <- E0. apply subseq_map. eapply added_sub; eauto.
Qed.
Lemma run_place h os : forall s, sinv s -> Forall (safe_op h) os ->
  subseq (map place (m_items s)) (map place (m_items (run h s os))).
Proof.
  induction os as [|o os IH]; intros s I F; cbn [run]; [apply subseq_refl|]. inversion F; subst.
  pose proof (step_effect h s o I ltac:(auto)) as E.
  eapply subseq_trans; [apply IH; auto; eapply effect_sinv; eauto|eapply effect_place; exact E].
Qed.

(** the number of items in the list is the number of items ever added *)
Definition nitem (l : list entry) : Z := Z.of_nat (List.length (filter (fun e => negb (is_dummy e)) l)).
Lemma nitem_ins e l : nitem (ins_sorted e l) = nitem l + (if is_dummy e then 0 else 1).
Proof.
  unfold nitem. induction l as [|x l IH]; cbn [ins_sorted filter].
  - destruct (is_dummy e); cbn; lia.
  - destruct (e_rev e <? e_rev x); cbn [filter].
    + destruct (is_dummy e), (is_dummy x); cbn [negb List.length]; lia.
    + destruct (is_dummy x); cbn [negb List.length]; destruct (is_dummy e); lia.
Qed.
Lemma effect_nitem h s s' o r : fresh_item o -> effect h s s' o r ->
  m_len s' - nitem (m_items s') = m_len s - nitem (m_items s).
Proof.
  intros Fr E.
  destruct E as [E N _ _|k1 c2 l e r' v' ok W Ei HL HR HC _ _ -> ->|k1 c2 l e r' D T' Ei HL HR HC -> ->
                |k1 c2 i s0 W L _ Fi _ _ I0 E0 E1 E2 E4 E5 A ->].
  - destruct E as [->| ->]; cbn [set_mpool m_len m_items]; lia.
  - cbn [set_items m_len m_items]. rewrite Ei. unfold nitem. rewrite !filter_app. cbn [filter].
    change (is_dummy (set_e_val e v')) with (is_dummy e). rewrite !app_length. destruct (is_dummy e); cbn; lia.
  - cbn [set_items m_len m_items]. rewrite Ei. unfold nitem. rewrite !filter_app. cbn [filter].
    change (is_dummy (del_entry (m_view s) e)) with (is_dummy e). rewrite !app_length. destruct (is_dummy e); cbn; lia.
  - destruct (Fi Fr) as (F1 & F2 & F3).
    destruct A as (_ & -> & _ & _ & _ & _ & items1 & H1 & H2).
    assert (N1 : nitem items1 = nitem (m_items s) + 1).
    { destruct H1 as [->|[_ X]]; [rewrite nitem_ins, E0; cbn; auto|].
      exfalso. apply X. cbn. rewrite F1. auto. }
    assert (N2 : nitem (m_items s') = nitem items1).
    { destruct H2 as [->|(n & nr & -> & _)]; auto. rewrite nitem_ins. cbn. lia. }
    rewrite N2, N1, E4. lia.
Qed.
Lemma run_nitem h os : forall s, sinv s -> Forall (safe_op h) os -> Forall fresh_item os ->
  m_len (run h s os) - nitem (m_items (run h s os)) = m_len s - nitem (m_items s).
Proof.
  induction os as [|o os IH]; intros s I F1 F2; cbn [run]; [lia|]. inversion F1; inversion F2; subst.
  pose proof (step_effect h s o I ltac:(auto)) as E.
  rewrite IH; auto; [|eapply effect_sinv; eauto]. apply (effect_nitem h s _ o _ ltac:(auto) E).
Qed.

Lemma dummies_filter l : dummies l = List.concat (map (fun e => match e_dummy e with Some n => [n] | None => [] end) l).
Proof. induction l as [|e l IH]; cbn; auto. unfold dummies in *. cbn. rewrite IH. destruct (e_dummy e); reflexivity. Qed.
Lemma sentinel_revs s : sinv s ->
  map dl_rev (filter (fun d => negb (is_item d)) (dump_entry s)) = rev (dump_bucket s).
Proof.
  intros I. unfold dump_bucket. rewrite <- map_rev, <- (sv_dum _ I). unfold dump_entry.
  pose proof (sv_drev _ I) as DR. revert DR. generalize (m_items s) as L.
  induction L as [|e L IH]; intros DR; [reflexivity|].
  assert (IH' := IH (fun e n H1 H2 => DR e n (or_intror H1) H2)). clear IH.
  rewrite dummies_filter in *. cbn [map filter List.concat]. unfold is_item, dump_line at 1. cbn [dl_key].
  destruct (e_dummy e) as [n|] eqn:En; cbn [negb map app]; [|exact IH'].
  change (dl_rev (dump_line e)) with (e_rev e). rewrite (DR e n (or_introl eq_refl) En). f_equal. exact IH'.
Qed.

(** Any history: the lines come in increasing order of the reverse column, the hash column is its
    bit reversal, and the first and the last line are sentinels, at 0 and at 2^64 - 1. *)
Theorem C65_lines_in_order : forall h view max mode pool os, Forall item_u64 os ->
  let D := dump_entry (run h (new_map view max mode pool) os) in
  StronglySorted (fun a b => dl_rev a <= dl_rev b) D /\
  Forall (fun d => dl_hash d = reverse64 (dl_rev d)) D /\
  exists mid, D = mkL None 0 0 0 :: mid ++ [mkL None (2 ^ 64 - 1) (2 ^ 64 - 1) 0].
Proof.
  intros h view max mode pool os F D.
  destruct (run_any h os (new_map view max mode pool) F (new_map_inv0 _ _ _ _ _)) as [(S & (mid & E) & _) _].
  fold D in S. split; [|split].
  - unfold D, dump_entry. apply sorted_map. exact S.
  - apply Forall_forall. intros d Hd. unfold D, dump_entry in Hd. apply in_map_iff in Hd as (e & <- & _). reflexivity.
  - exists (map dump_line mid). unfold D, dump_entry. rewrite E. cbn [map]. rewrite map_app. cbn [map].
    f_equal; vm_compute; reflexivity.
Qed.
Print Assumptions C65_lines_in_order.

(** The item lines number exactly Len(), which is what Range visits plus one for every Delete that
    returned true: Delete takes no line away. The sentinel lines are the lines of DumpBucket,
    bottom up. *)
Theorem C65_lines_counted : forall h view max mode pool os,
  let s := run h (new_map view max mode pool) os in
  Forall (safe_op h) os -> Forall fresh_item os ->
  let n := Z.of_nat (List.length (filter is_item (dump_entry s))) in
  snd (step h s OpLen) = RLen n /\
  n = range_count s + deletes os (outs h (new_map view max mode pool) os) /\
  map dl_rev (filter (fun d => negb (is_item d)) (dump_entry s)) = rev (dump_bucket s).
Proof.
  intros h view max mode pool os s F1 F2 n.
  pose proof (run_nitem h os _ (new_map_sinv view max mode pool) F1 F2) as C. fold s in C.
  rewrite new_map_len in C. change (nitem (m_items (new_map view max mode pool))) with 0 in C.
  assert (E : n = nitem (m_items s)).
  { unfold n, nitem. f_equal. unfold dump_entry. generalize (m_items s) as L.
    induction L as [|e L IH]; [reflexivity|]. cbn [map filter].
    unfold is_item at 1, dump_line at 1, is_dummy at 1. cbn [dl_key].
    destruct (e_dummy e); cbn [negb List.length]; [exact IH|f_equal; exact IH]. }
  assert (L : snd (step h s OpLen) = RLen n). { cbn [step snd]. f_equal. lia. }
  split; [exact L|]. split.
  - unfold s in L. rewrite C11_len_law in L by auto. fold s in L. congruence.
  - apply sentinel_revs. unfold s. apply run_sinv; auto. apply new_map_sinv.
Qed.
Print Assumptions C65_lines_counted.

(** No line ever goes away or moves past another one, whatever is stored, deleted or purged
    afterwards. *)
Theorem C65_lines_stay : forall h view max mode pool os os2,
  Forall (safe_op h) os -> Forall (safe_op h) os2 ->
  let s := run h (new_map view max mode pool) os in
  subseq (map cols (dump_entry s)) (map cols (dump_entry (run h s os2))).
Proof.
  intros h view max mode pool os os2 F1 F2 s. rewrite !cols_place. apply run_place; auto.
  apply run_sinv; auto. apply new_map_sinv.
Qed.
Print Assumptions C65_lines_stay.

(** So Delete does not free: the natural claim that a map from which everything was deleted shows no
    items is false. *)
Definition deleted_items_are_not_listed : Prop :=
  forall h view max mode pool os, Forall (safe_op h) os -> Forall fresh_item os ->
    let s := run h (new_map view max mode pool) os in
    range_count s = 0 -> filter is_item (dump_entry s) = [].
Theorem C65_deleted_items_refuted : ~ deleted_items_are_not_listed.
Proof.
  intros H. specialize (H hx KEntry 32 CombineSearch4 false [st 21 1; OpDelete (KU64 21)]). cbv zeta in H.
  assert (X : List.length (filter is_item (dump_entry (run hx (new_map KEntry 32 CombineSearch4 false) [st 21 1; OpDelete (KU64 21)]))) = 0%nat).
  { rewrite H; [reflexivity|safe_tac|fresh_tac|vm_compute; reflexivity]. }
  vm_compute in X. discriminate X.
Qed.
Print Assumptions C65_deleted_items_refuted.

Example C65_case :
  Forall item_u64 os7 /\ Forall (safe_op hx) os7 /\ Forall fresh_item os7 /\
  let s := run hx (new_map KEntry 1 CombineSearch2 false) os7 in
  List.length (filter is_item (dump_entry s)) = 7%nat /\ range_count s = 6 /\
  (3 < List.length (filter (fun d => negb (is_item d)) (dump_entry s)))%nat.
Proof.
  split; [unfold os7; repeat (apply Forall_cons; [vm_compute; first [exact I|split; [discriminate|reflexivity]]|]); apply Forall_nil|].
  split; [safe_tac|]. split; [fresh_tac|]. cbv zeta. split; [vm_compute; reflexivity|]. split; [vm_compute; reflexivity|].
  vm_compute. lia.
Qed.
