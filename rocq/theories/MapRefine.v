(** The default map implements Spec.v for covered histories. *)
From Verif Require Import Base BaseProofs Util UtilProofs Bucket TrieProofs TrieInv TrieGrow MapModel ItemProofs
  MapInv MapSplit MapStep MapInit Spec.
From Coq Require Import ZifyBool Sorted.
Local Open Scope Z_scope.
Local Opaque reverse64 level_of base find_bucket.

Lemma set_value_assign view old v : set_value view old v = assign view old v.
Proof.
  destruct view; cbn; auto. destruct v as [|ty p]; auto. destruct old as [|ty' p']; cbn; auto.
  rewrite Z.eqb_sym. auto.
Qed.

(** * The content of the item list *)
Definition bd_of (e : entry) : binding := mkBd (e_kind e) (e_key e) (e_val e).
Definition slot_ok (L : list entry) (f : Z -> option binding) : Prop :=
  match L with
  | [] => forall c, f c = None
  | [e] => f (e_conf e) = Some (bd_of e) /\ forall c, c <> e_conf e -> f c = None
  | _ => False
  end.
Record holds (s : mstate) (m : smap) : Prop := {
  hd_inv : sinv s;
  hd_view : m_view s = sm_view m;
  hd_len : m_len s = sm_created m;
  hd_at : forall k, 0 <= k < W64 ->
    clear (reverse64 k) (m_items s) /\ slot_ok (live_at (reverse64 k) (m_items s)) (fun c => sm_map m (k, c)) }.

Lemma at_rv_live rv e : at_rv rv e = true <-> live e = true /\ e_rev e = rv.
Proof. unfold at_rv. rewrite andb_true_iff, Z.eqb_eq. tauto. Qed.
Lemma live_at_in rv e l : In e (live_at rv l) <-> In e l /\ live e = true /\ e_rev e = rv.
Proof. unfold live_at. rewrite filter_In, at_rv_live. tauto. Qed.

(** the answer of a lookup *)
Lemma found_slot items rv c z (f : Z -> option binding) :
  clear rv items -> slot_ok (live_at rv items) f -> found items rv c z ->
  match f c with
  | Some b => exists l e r, z = Some (l, e :: r) /\ items = rev l ++ e :: r /\ live_at rv items = [e] /\
                e_conf e = c /\ e_rev e = rv /\ live e = true /\ bd_of e = b
  | None => z = None
  end.
Proof.
  intros C SL (F1 & F2 & F3).
  destruct z as [[l [|e r]]|].
  - exfalso. apply (F2 l); auto.
  - destruct (F1 l e r eq_refl) as (Ei & HL & HR & HC).
    assert (Hin : In e (live_at rv items)).
    { apply live_at_in. split; auto. rewrite Ei. apply in_or_app; right; left; auto. }
    destruct (live_at rv items) as [|x [|y q]] eqn:EL; [destruct Hin| |destruct SL].
    destruct Hin as [->|[]]. destruct SL as [S1 S2]. rewrite HC in S1. rewrite S1.
    exists l, e, r. repeat split; auto.
  - specialize (F3 eq_refl C). unfold slot_ok in SL.
    destruct (live_at rv items) as [|x [|y q]]; [rewrite SL; auto| |destruct SL].
    destruct SL as [S1 S2]. rewrite S2; auto.
Qed.

(** * How the content changes *)
Lemma live_at_app rv l1 l2 : live_at rv (l1 ++ l2) = live_at rv l1 ++ live_at rv l2.
Proof. apply filter_app. Qed.

Lemma clear_replace rv l e e' r : clear rv (l ++ e :: r) ->
  (live e' = true -> live e = true) -> e_dummy e' = e_dummy e -> e_rev e' = e_rev e ->
  clear rv (l ++ e' :: r).
Proof.
  intros (A & B & E & HB & HA) HL Hd Hr.
  apply app_eq_split in E as [(x & -> & E)|(x & -> & ->)].
  - destruct x as [|y x]; cbn in E.
    + exists l, (e' :: r). split; auto. split; [|intros d Hdi; apply HA; rewrite app_nil_r; auto].
      intros z [<-|Hz] Lz.
      * rewrite Hr. apply HB; auto. rewrite <- E. left; auto.
      * apply HB; auto. rewrite <- E. right; auto.
    + injection E as -> ->. exists (l ++ e' :: x), B. rewrite <- app_assoc. split; auto. split; auto.
      intros d Hdi Hdd. apply in_app_or in Hdi as [Hdi|[<-|Hdi]].
      * apply HA; auto. apply in_or_app; auto.
      * rewrite Hr. apply HA; [apply in_or_app; right; left; auto|]. unfold is_dummy in *. rewrite Hd in Hdd. auto.
      * apply HA; auto. apply in_or_app; right; right; auto.
  - exists A, (x ++ e' :: r). rewrite <- app_assoc. split; auto. split; auto.
    intros z Hz Lz. apply in_app_or in Hz as [Hz|[<-|Hz]].
    * apply HB; auto. apply in_or_app; auto.
    * rewrite Hr. apply HB; auto. apply in_or_app; right; left; auto.
    * apply HB; auto. apply in_or_app; right; right; auto.
Qed.
Lemma live_at_replace_other rv l e e' r : e_rev e <> rv -> e_rev e' = e_rev e ->
  live_at rv (l ++ e' :: r) = live_at rv (l ++ e :: r).
Proof.
  intros H1 H2. rewrite !live_at_app. f_equal. cbn [live_at filter]. unfold at_rv.
  rewrite H2. destruct (Z.eqb_spec (e_rev e) rv); [congruence|]. rewrite !andb_false_r. auto.
Qed.
Lemma live_at_replace_same rv l e e' r : live_at rv (l ++ e :: r) = [e] -> live e = true -> e_rev e = rv ->
  e_rev e' = e_rev e -> live_at rv (l ++ e' :: r) = if live e' then [e'] else [].
Proof.
  intros H HL HR HR'. rewrite live_at_app in *. cbn [live_at filter] in *.
  assert (Ha : at_rv rv e = true) by (apply at_rv_live; auto). rewrite Ha in H.
  destruct (filter (at_rv rv) l) as [|x q] eqn:E1.
  - unfold live_at in *. rewrite E1 in *. cbn in *. injection H as H. rewrite H.
    unfold at_rv. rewrite HR', HR, Z.eqb_refl, andb_true_r. auto.
  - unfold live_at in H. rewrite E1 in H. cbn in H. injection H as H1 H2. destruct q; discriminate.
Qed.
Lemma live_dummy n rv : live (dummy_of n rv) = false.
Proof. reflexivity. Qed.

Lemma new_dummy_content items items' rv : rsorted items -> new_dummy items items' ->
  live_at rv items' = live_at rv items /\ (clear rv items -> clear rv items').
Proof.
  intros S (n & nr & -> & H). split.
  - apply live_at_ins_other. unfold at_rv. rewrite live_dummy. auto.
  - intros C. apply clear_ins_dummy; auto.
Qed.

(** an accepted insertion at rk leaves other positions alone *)
Lemma added_other s s' e rk rv : rsorted (m_items s) -> added s s' e rk -> e_rev e <> rv ->
  live_at rv (m_items s') = live_at rv (m_items s) /\ (clear rv (m_items s) -> clear rv (m_items s')).
Proof.
  intros S (_ & _ & _ & _ & _ & _ & items1 & H1 & H2) Hne.
  assert (H : rsorted items1 /\ live_at rv items1 = live_at rv (m_items s) /\ (clear rv (m_items s) -> clear rv items1)).
  { destruct H1 as [->|[-> _]]; [|auto]. split; [apply ins_sorted_sorted; auto|]. split.
    - apply live_at_ins_other. unfold at_rv. destruct (Z.eqb_spec (e_rev e) rv); [congruence|]. apply andb_false_r.
    - intros C. apply clear_ins_other; auto. }
  destruct H as (S1 & L1 & C1). destruct H2 as [->|H2]; auto.
  destruct (new_dummy_content _ _ rv S1 H2) as [L2 C2]. rewrite L2. auto.
Qed.
(** ... and at rk it makes the new item the one found, if rk is no boundary and was free *)
Lemma added_same s s' e rk : rsorted (m_items s) -> added s s' e rk -> e_rev e = rk -> live e = true ->
  (forall d, In d (m_items s) -> is_dummy d = true -> e_rev d <> rk) -> live_at rk (m_items s) = [] ->
  live_at rk (m_items s') = [e] /\ clear rk (m_items s').
Proof.
  intros S (_ & _ & _ & _ & _ & _ & items1 & H1 & H2) He HL Hd H0.
  destruct H1 as [->|[_ Hne]]; [|congruence].
  assert (S1 : rsorted (ins_sorted e (m_items s))) by (apply ins_sorted_sorted; auto).
  assert (L1 : live_at rk (ins_sorted e (m_items s)) = [e]).
  { apply live_at_ins_empty; auto. apply at_rv_live; auto. }
  assert (C1 : clear rk (ins_sorted e (m_items s))).
  { apply clear_no_dummy. intros d Hin Hdd. apply ins_sorted_in in Hin as [->|Hin]; auto.
    exfalso. unfold live, ignored, is_dummy in *. destruct (e_dummy e); discriminate. }
  destruct H2 as [->|H2]; auto.
  destruct (new_dummy_content _ _ rk S1 H2) as [L2 C2]. rewrite L2. auto.
Qed.

(** boundaries and dummies *)
Lemma dummy_boundary s rv : sinv s -> ~ In rv (dump_bucket s) ->
  forall d, In d (m_items s) -> is_dummy d = true -> e_rev d <> rv.
Proof.
  intros I Hn d Hd Hdd E. unfold is_dummy in Hdd. destruct (e_dummy d) as [n|] eqn:En; [|discriminate].
  apply Hn. unfold dump_bucket. apply in_map_iff. exists n. split.
  - rewrite <- (sv_drev _ I d n Hd En). auto.
  - eapply sv_dummy_bl; eauto.
Qed.

(** * The step *)
Lemma key_range h key k c : key_to_hash h key = Some (k, c) -> 0 <= k < W64 /\ 0 <= c < W64.
Proof.
  assert (P : 0 < W64) by reflexivity.
  destruct key; cbn [key_to_hash]; intros H; inversion H; subst; unfold u64; auto using Z.mod_pos_bound;
    split; auto using Z.mod_pos_bound; lia.
Qed.
Lemma storable_rev k : 0 <= k < W64 -> k <> 2 ^ 63 - 1 -> k <> 2 ^ 64 - 1 -> 0 <= reverse64 k <= MAX64 - 2.
Proof.
  intros Hk H1 H2. pose proof (reverse64_range k) as R. rewrite W64_val in R. rewrite MAX64_val.
  destruct (Z.eq_dec (reverse64 k) 18446744073709551615) as [E|N1].
  { exfalso. apply H2. rewrite <- (reverse64_involutive k Hk), E. vm_compute. reflexivity. }
  destruct (Z.eq_dec (reverse64 k) 18446744073709551614) as [E|N2].
  { exfalso. apply H1. rewrite <- (reverse64_involutive k Hk), E. vm_compute. reflexivity. }
  lia.
Qed.

Lemma upd_cur_eq l e r f : upd_cur (l, e :: r) f = rev l ++ f e :: r.
Proof. unfold upd_cur. cbn [snd fst]. apply rev_append_rev. Qed.
Lemma update_eq s l e r v : update s (l, e :: r) v =
  match assign (m_view s) (e_val e) v with
  | None => (s, RPanic)
  | Some (v', ok) => (set_items s (rev l ++ set_e_val e v' :: r), RBool ok)
  end.
Proof.
  unfold update. cbn [snd]. rewrite set_value_assign. destruct (assign _ _ _) as [[v' ok]|]; auto.
  rewrite upd_cur_eq. auto.
Qed.

(** replacing the single live entry at position (k, c) *)
Lemma holds_replace s m k c l e e' r b' : holds s m -> 0 <= k < W64 ->
  m_items s = rev l ++ e :: r -> live_at (reverse64 k) (m_items s) = [e] ->
  e_conf e = c -> e_rev e = reverse64 k -> live e = true ->
  e_dummy e' = e_dummy e -> e_rev e' = e_rev e -> e_conf e' = e_conf e ->
  (if live e' then b' = Some (bd_of e') else b' = None) ->
  holds (set_items s (rev l ++ e' :: r)) (mkSM (sm_put m (k, c) b') (sm_view m) (sm_created m)).
Proof.
  intros H Hk Ei HL Hc Hr Hlv Hd Hr' Hc' Hb.
  constructor; cbn [set_items m_view m_len m_items sm_view sm_created sm_map].
  - eapply sinv_replace; eauto. apply (hd_inv _ _ H).
  - apply (hd_view _ _ H).
  - apply (hd_len _ _ H).
  - intros k' Hk'. destruct (hd_at _ _ H k' Hk') as [C SL]. split.
    + rewrite Ei in C. eapply clear_replace; eauto.
    + destruct (Z.eq_dec k' k) as [->|N].
      * rewrite Ei in HL. rewrite (live_at_replace_same _ _ _ _ _ HL Hlv Hr Hr').
        rewrite Ei, HL in SL. cbn [slot_ok] in SL. destruct SL as [S1 S2].
        destruct (live e'); subst b'; cbn [slot_ok]; unfold sm_put, pair_eqb; cbn [fst snd];
          rewrite Z.eqb_refl; cbn [andb].
        -- rewrite Hc', Hc, Z.eqb_refl. split; auto. intros c' Nc. destruct (Z.eqb_spec c c'); [congruence|].
           apply S2. congruence.
        -- intros c'. destruct (Z.eqb_spec c c'); auto. apply S2. congruence.
      * rewrite (live_at_replace_other _ _ e).
        -- rewrite <- Ei. unfold sm_put, pair_eqb. cbn [fst snd].
           destruct (Z.eqb_spec k k'); [congruence|]. cbn [andb]. auto.
        -- rewrite Hr. intros E. apply reverse64_inj in E; auto.
        -- auto.
Qed.

(** linking a new entry at a free position *)
Lemma holds_added s0 s' m view' k c e : holds s0 m -> 0 <= k < W64 ->
  added (set_view s0 view') s' e (reverse64 k) ->
  e_rev e = reverse64 k -> live e = true -> e_conf e = c ->
  ~ In (reverse64 k) (dump_bucket s0) -> (forall c', sm_map m (k, c') = None) ->
  holds s' (mkSM (sm_put m (k, c) (Some (bd_of e))) view' (sm_created m + 1)).
Proof.
  intros H Hk A Hr Hlv Hc Hb Hn.
  pose proof (hd_inv _ _ H) as I. pose proof (sv_sorted _ I) as S.
  assert (A' := A). destruct A' as (I' & L' & V' & _ & _ & _ & _).
  assert (H0 : live_at (reverse64 k) (m_items s0) = []).
  { destruct (hd_at _ _ H k Hk) as [_ SL]. destruct (live_at _ _) as [|x [|y q]]; auto.
    - cbn in SL. destruct SL as [S1 _]. rewrite Hn in S1. discriminate.
    - destruct SL. }
  constructor; cbn [sm_view sm_created sm_map]; auto.
  - rewrite L'. cbn. rewrite (hd_len _ _ H). auto.
  - intros k' Hk'. destruct (hd_at _ _ H k' Hk') as [C SL].
    destruct (Z.eq_dec k' k) as [->|N].
    + destruct (added_same (set_view s0 view') s' e (reverse64 k)) as [L1 C1]; auto.
      { cbn. intros d. apply dummy_boundary; auto. }
      split; auto. rewrite L1. cbn [slot_ok]. unfold sm_put, pair_eqb. cbn [fst snd].
      rewrite Z.eqb_refl, Hc, Z.eqb_refl. cbn [andb]. split; auto.
      intros c' Nc. destruct (Z.eqb_spec c c'); [congruence|]. auto.
    + destruct (added_other (set_view s0 view') s' e (reverse64 k) (reverse64 k')) as [L1 C1]; auto.
      { rewrite Hr. intros E. apply reverse64_inj in E; auto. }
      split; auto. rewrite L1. unfold sm_put, pair_eqb. cbn [fst snd set_view m_items].
      destruct (Z.eqb_spec k k'); [congruence|]. cbn [andb]. auto.
Qed.

Lemma holds_same_items s s' m : holds s m -> sinv s' -> m_items s' = m_items s ->
  m_view s' = m_view s -> m_len s' = m_len s -> holds s' m.
Proof.
  intros H I E1 E2 E3. constructor; auto; rewrite ?E1, ?E2, ?E3; apply H.
Qed.

(** the two ways of looking up *)
Lemma lookup_slot s m k c z : holds s m -> 0 <= k < W64 -> found (m_items s) (reverse64 k) c z ->
  match sm_map m (k, c) with
  | Some b => exists l e r, z = Some (l, e :: r) /\ m_items s = rev l ++ e :: r /\
                live_at (reverse64 k) (m_items s) = [e] /\
                e_conf e = c /\ e_rev e = reverse64 k /\ live e = true /\ bd_of e = b
  | None => z = None
  end.
Proof.
  intros H Hk F. destruct (hd_at _ _ H k Hk) as [C SL].
  apply (found_slot (m_items s) (reverse64 k) c z (fun c => sm_map m (k, c))); auto.
Qed.
Lemma get_val_ok s m k c r : holds s m -> 0 <= k < W64 ->
  (exists z, r = Ret z /\ found (m_items s) (reverse64 k) c z) -> get_val s r = (s, sm_get m (k, c)).
Proof.
  intros H Hk (z & -> & F). pose proof (lookup_slot s m k c z H Hk F) as L. unfold sm_get, get_val.
  destruct (sm_map m (k, c)) as [b|].
  - destruct L as (l & e & r & -> & _ & _ & _ & _ & _ & <-). auto.
  - subst z. auto.
Qed.
Lemma get_item_ok s m k c r : holds s m -> 0 <= k < W64 ->
  (exists z, r = Ret z /\ found (m_items s) (reverse64 k) c z) -> get_item s r = (s, sm_load m (k, c)).
Proof.
  intros H Hk (z & -> & F). pose proof (lookup_slot s m k c z H Hk F) as L. unfold sm_load, get_item.
  destruct (sm_map m (k, c)) as [b|].
  - destruct L as (l & e & r & -> & _ & _ & _ & _ & _ & <-).
    rewrite <- (hd_view _ _ H). reflexivity.
  - subst z. auto.
Qed.

Lemma holds_update s m k c l e r v b : holds s m -> 0 <= k < W64 ->
  m_items s = rev l ++ e :: r -> live_at (reverse64 k) (m_items s) = [e] ->
  e_conf e = c -> e_rev e = reverse64 k -> live e = true -> bd_of e = b ->
  holds (fst (update s (l, e :: r) v)) (fst (sm_update m (k, c) b v)) /\
  snd (update s (l, e :: r) v) = snd (sm_update m (k, c) b v).
Proof.
  intros H Hk Ei HL Hc Hr Hlv Hb. rewrite update_eq. unfold sm_update. subst b. cbn [bd_of bd_val bd_kind bd_key].
  rewrite <- (hd_view _ _ H) at 1 2. destruct (assign _ _ _) as [[v' ok]|]; cbn [fst snd]; auto.
  split; auto. eapply holds_replace; eauto.
  assert (E : live (set_e_val e v') = true) by exact Hlv. rewrite E. auto.
Qed.

Lemma new_entry_live kind key v k c : live (entry_of (mkI kind key v 0 0 false) k c) = true.
Proof. reflexivity. Qed.

Lemma step_ok h s m o : holds s m -> covered h (dump_bucket s) m o ->
  holds (fst (step h s o)) (fst (sm_step h m o)) /\ snd (step h s o) = snd (sm_step h m o).
Proof.
  intros H Cov. pose proof (hd_inv _ _ H) as I.
  assert (G : forall k c, 0 <= k < W64 -> get_val s (get s k c) = (s, sm_get m (k, c))).
  { intros k c Hk. apply get_val_ok; auto. apply get_spec; auto. }
  assert (U : forall x, 0 <= u64 x < W64) by (intros; apply Z.mod_pos_bound; reflexivity).
  destruct o as [key v|i|key|k c|key|k c|key|key|]; cbn [step sm_step].
  - (* Set *)
    unfold set. destruct (key_to_hash h key) as [[k c]|] eqn:K; [|auto].
    destruct (key_range _ _ _ _ K) as [Hk _].
    destruct (load_spec s k c I) as (z & -> & F).
    pose proof (lookup_slot s m k c z H Hk F) as L.
    destruct (sm_map m (k, c)) as [b|] eqn:EM.
    + destruct L as (l & e & r & -> & A1 & A2 & A3 & A4 & A5 & A6). apply holds_update; auto.
    + subst z. set (s1 := if _ && _ then set_mpool s true else s).
      assert (H1 : holds s1 m).
      { unfold s1. destruct (_ && _); auto. eapply holds_same_items; eauto. apply sinv_mpool; auto. }
      destruct key; try (cbn [fst snd]; auto; fail).
      cbv zeta.
      destruct Cov as [_ Cov]. cbn [writes] in Cov. rewrite K in Cov.
      destruct Cov as [Cov|(C1 & C2 & C3 & C4)]; [congruence|].
      set (e := entry_of _ _ _).
      assert (Er : e_rev e = reverse64 k) by reflexivity.
      pose proof (storable_rev k Hk C3 C4) as SR.
      destruct (find_bucket_present s (reverse64 k) I ltac:(apply reverse64_range)) as [P1 P2].
      assert (Et : m_trie s1 = m_trie s) by (unfold s1; destruct (_ && _); auto).
      destruct (set_spec (set_view s1 KSample) k (find_bucket (m_trie s) (reverse64 k)) e) as (s' & -> & A).
      { apply sinv_view. apply (hd_inv _ _ H1). }
      { cbn [set_view m_trie]. rewrite Et. auto. }
      { cbn [set_view m_trie]. rewrite Et. auto. }
      { auto. } { rewrite Er; auto. }
      cbn [fst snd]. split; auto.
      assert (EB : dump_bucket s1 = dump_bucket s) by (unfold s1; destruct (_ && _); auto).
      assert (Ec : e_conf e = c) by reflexivity.
      change (mkBd KSample (KStr s0) v) with (bd_of e).
      eapply holds_added; eauto. rewrite EB; auto.
  - (* StoreItem *)
    unfold store, item_hash. destruct (key_to_hash h (i_key i)) as [[k c]|] eqn:K; [|auto].
    destruct (key_range _ _ _ _ K) as [Hk _].
    destruct (load_spec s k c I) as (z & -> & F).
    pose proof (lookup_slot s m k c z H Hk F) as L.
    destruct (sm_map m (k, c)) as [b|] eqn:EM.
    + destruct L as (l & e & r & -> & A1 & A2 & A3 & A4 & A5 & A6). apply holds_update; auto.
    + subst z. destruct Cov as [Fr Cov]. cbn [fresh_item] in Fr. destruct Fr as (F1 & F2 & F3).
      cbn [writes] in Cov. rewrite K in Cov.
      destruct Cov as [Cov|(C1 & C2 & C3 & C4)]; [congruence|].
      destruct i as [kd key v ir ic idl]; cbn [i_kind i_key i_val i_rev i_conf i_del] in *. subst.
      set (e := entry_of _ _ _).
      assert (Er : e_rev e = reverse64 k) by reflexivity.
      pose proof (storable_rev k Hk C3 C4) as SR.
      destruct (find_bucket_present s (reverse64 k) I ltac:(apply reverse64_range)) as [P1 P2].
      destruct (set_spec s k (find_bucket (m_trie s) (reverse64 k)) e) as (s' & -> & A); auto.
      cbn [fst snd]. split; auto.
      assert (Ec : e_conf e = c) by reflexivity.
      change (mkBd kd key v) with (bd_of e).
      rewrite <- (hd_view _ _ H). eapply holds_added; eauto.
  - unfold with_key. destruct (key_to_hash h key) as [[k c]|] eqn:K; [|auto].
    destruct (key_range _ _ _ _ K) as [Hk _]. rewrite G; auto.
  - rewrite G; auto.
  - unfold with_key. destruct (key_to_hash h key) as [[k c]|] eqn:K; [|auto].
    destruct (key_range _ _ _ _ K) as [Hk _].
    rewrite (get_item_ok s m k c); auto. apply load_spec; auto.
  - rewrite (get_item_ok s m (u64 k) (u64 c)); auto. apply get_spec; auto.
  - unfold delete. destruct (key_to_hash h key) as [[k c]|] eqn:K; [|auto].
    destruct (key_range _ _ _ _ K) as [Hk _].
    destruct (load_spec s k c I) as (z & -> & F).
    pose proof (lookup_slot s m k c z H Hk F) as L.
    destruct (sm_map m (k, c)) as [b|] eqn:EM.
    + destruct L as (l & e & r & -> & A1 & A2 & A3 & A4 & A5 & A6). rewrite upd_cur_eq. cbn [fst snd]. split; auto.
      eapply holds_replace; eauto.
      assert (E : live (del_entry (m_view s) e) = false).
      { unfold live, ignored, del_entry. cbn [e_dummy e_del]. destruct (e_dummy e); auto. }
      rewrite E. auto.
    + subst z. auto.
  - unfold delete. destruct (key_to_hash h key) as [[k c]|] eqn:K; [|auto].
    destruct (key_range _ _ _ _ K) as [Hk _].
    destruct (load_spec s k c I) as (z & -> & F).
    pose proof (lookup_slot s m k c z H Hk F) as L.
    destruct (sm_map m (k, c)) as [b|] eqn:EM.
    + destruct L as (l & e & r & -> & A1 & A2 & A3 & A4 & A5 & A6). rewrite upd_cur_eq. cbn [fst snd]. split; auto.
      eapply holds_replace; eauto.
      assert (E : live (del_entry (m_view s) e) = false).
      { unfold live, ignored, del_entry. cbn [e_dummy e_del]. destruct (e_dummy e); auto. }
      rewrite E. auto.
    + subst z. auto.
  - cbn [fst snd]. rewrite (hd_len _ _ H). auto.
Qed.

(** * Histories *)
Theorem run_ok h os : forall s m, holds s m -> all_covered h s m os ->
  holds (run h s os) (sm_run h m os) /\ outs h s os = sm_outs h m os.
Proof.
  induction os as [|o os IH]; intros s m H C; cbn [run sm_run outs sm_outs]; auto.
  destruct C as [C1 C2]. destruct (step_ok h s m o H C1) as [H1 E].
  destruct (IH _ _ H1 C2) as [H2 E2]. rewrite E, E2. auto.
Qed.
Theorem new_map_holds view max mode pool : holds (new_map view max mode pool) (sm_empty view).
Proof.
  constructor; auto; [apply new_map_sinv|]. intros k Hk.
  assert (E : live_at (reverse64 k) (m_items (new_map view max mode pool)) = []).
  { reflexivity. }
  split; [apply clear_no_live; auto|]. rewrite E. cbn. auto.
Qed.
