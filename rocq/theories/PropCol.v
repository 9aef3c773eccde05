(** The embedded mode without the no-collision hypothesis: C46 in general, and C20 for every bucket size. *)
From Verif Require Import Base BaseProofs Util UtilProofs Bucket TrieProofs TrieInv TrieGrow MapModel ItemProofs MapInv MapSplit
  MapInit Spec MapRefine EmbModel EmbPool EmbTrie EmbInv EmbSplit EmbSpec EmbRefine EmbTop EmbCol PropEmb.
From Coq Require Import ZifyBool Sorted Permutation Ascii String.
Local Open Scope Z_scope.
Local Open Scope list_scope.
Local Opaque reverse64 level_of base find_bucket.

(** * C46: at each 64-bit hash, the pair stored last can be read and no other *)
Theorem C46_newest_pair_wins : forall h max os, 1 <= max ->
  Forall store_or_read os -> roomy h max os ->
  agree (eouts h (new_emb max) os) (newest_outs h (sm_empty KSample) os).
Proof.
  intros h max os HM HF HR. apply (crun_agrees h max os [] (new_emb max) (sm_empty KSample)); auto using new_emb_crel.
Qed.
Print Assumptions C46_newest_pair_wins.

(** the same in words about two keys: once y is stored, x with the same 64-bit hash and another conflict hash is not found *)
Lemma newest_outs_app h os : forall m os', newest_outs h m (os ++ os') = newest_outs h m os ++ newest_outs h (newest_run h m os) os'.
Proof. induction os as [|o os IH]; intros m os'; cbn [app newest_outs newest_run]; auto. rewrite IH. auto. Qed.
Lemma newest_outs_length h os : forall m, List.length (newest_outs h m os) = List.length os.
Proof. induction os as [|o os IH]; intros m; cbn [newest_outs List.length]; auto. Qed.
Lemma agree_last rs r es e : List.length rs = List.length es -> existsb stops rs = false -> agree (rs ++ [r]) (es ++ [e]) ->
  r = Div \/ seen r = Some e.
Proof.
  revert es. induction rs as [|x rs IH]; intros [|y es] HL HS H; cbn [List.length app existsb agree] in *; try discriminate.
  - destruct H as [[-> _]|[E _]]; auto.
  - apply orb_false_iff in HS as [S1 S2]. destruct H as [[-> _]|[_ H]]; [discriminate|]. apply (IH es); auto.
Qed.
Lemma eouts_length h : forall os s, existsb stops (eouts h s os) = false -> List.length (eouts h s os) = List.length os.
Proof.
  induction os as [|o os IH]; intros s H; cbn [eouts List.length] in *; auto.
  destruct (estep h s o) as [s' r]. cbn [existsb] in H. apply orb_false_iff in H as [H1 H2]. rewrite H1 in *. cbn [List.length]. auto.
Qed.
Theorem C46_older_key_unreadable : forall h max os x y v k c c', 1 <= max ->
  key_to_hash h x = Some (k, c) -> key_to_hash h (KStr y) = Some (k, c') -> c <> c' ->
  let os' := os ++ [OpSet (KStr y) v] in
  Forall store_or_read os' -> roomy h max os' -> existsb stops (eouts h (new_emb max) os') = false ->
  let r := snd (estep h (erun h (new_emb max) os') (OpGet x)) in
  r = Div \/ r = Ret (RVal GNil false).
Proof.
  intros h max os x y v k c c' HM HX HY NC os' HF HR HS r.
  assert (A : agree (eouts h (new_emb max) (os' ++ [OpGet x])) (newest_outs h (sm_empty KSample) (os' ++ [OpGet x]))).
  { apply C46_newest_pair_wins; auto.
    - apply Forall_app. split; auto. constructor; [exact Logic.I|constructor].
    - intros a. specialize (HR a). assert (E : forall l m, creations h m (l ++ [OpGet x]) = creations h m l).
      { induction l as [|o l IH]; intros m; cbn [app creations writes]; auto. rewrite IH. auto. }
      rewrite E. auto. }
  rewrite eouts_app, HS in A. rewrite newest_outs_app in A. 
  assert (ER : eouts h (erun h (new_emb max) os') [OpGet x] = [r]).
  { cbn [eouts]. unfold r. destruct (estep h (erun h (new_emb max) os') (OpGet x)) as [s' r']. cbn [snd]. destruct (stops r'); auto. }
  rewrite ER in A. cbn [newest_outs] in A.
  apply agree_last in A; auto; [|rewrite eouts_length, newest_outs_length; auto].
  destruct A as [A|A]; auto. right.
  assert (E : snd (newest_step h (newest_run h (sm_empty KSample) os') (OpGet x)) = RVal GNil false).
  { assert (RA : forall l m l', newest_run h m (l ++ l') = newest_run h (newest_run h m l) l') by (induction l; cbn; auto).
    unfold os'. rewrite RA. cbn [newest_run]. set (m := newest_run h (sm_empty KSample) os). clearbody m. clear -HX HY NC.
    unfold newest_step at 1. cbn [writes]. cbn [sm_step snd]. rewrite HX. unfold sm_get.
    assert (G : sm_map (fst (newest_step h m (OpSet (KStr y) v))) (k, c) = None); [|rewrite G; auto].
    unfold newest_step. cbn [writes]. rewrite HY. cbn [sm_step]. rewrite HY. cbn [evict sm_map fst snd]. rewrite !Z.eqb_refl. cbn [andb negb].
    assert (N1 : (c =? c') = false) by lia. 
    assert (N2 : pair_eqb (k, c') (k, c) = false) by (unfold pair_eqb; cbn [fst snd]; rewrite (proj2 (Z.eqb_neq c' c)); auto using andb_false_r).
    destruct (sm_map m (k, c')) as [b|].
    - unfold sm_update. destruct (assign _ _ _) as [[v' ok]|]; cbn [fst sm_map]; [rewrite sm_put_eq, N2|]; cbn [evict sm_map fst snd];
      rewrite Z.eqb_refl, N1; auto.
    - cbn [fst sm_map]. rewrite sm_put_eq, N2. cbn [evict sm_map fst snd]. rewrite Z.eqb_refl, N1. auto. }
  rewrite E in A. unfold seen in A. destruct r; congruence.
Qed.
Print Assumptions C46_older_key_unreadable.

(** * Deciding the hypotheses *)
Definition roomy_b (h : hashes) (max : Z) (os : list op) : bool :=
  let cs := map (fun r => r / 16) (creations h (sm_empty KSample) os) in
  (0 <=? max) && forallb (fun a => Z.of_nat (List.length (filter (Z.eqb a) cs)) <=? max) cs.
Lemma roomy_ok h max os : roomy_b h max os = true -> roomy h max os.
Proof.
  unfold roomy_b, roomy. set (l := creations h (sm_empty KSample) os). clearbody l. intros H a. apply andb_true_iff in H as [H0 H].
  rewrite forallb_forall in H.
  assert (E : forall l, List.length (filter (fun r => r / 16 =? a) l) = List.length (filter (Z.eqb a) (map (fun r => r / 16) l))).
  { induction l0 as [|x q IH]; cbn [filter map]; auto. rewrite (Z.eqb_sym a). destruct (x / 16 =? a); cbn [List.length]; auto. }
  rewrite E. destruct (in_dec Z.eq_dec a (map (fun r => r / 16) l)) as [I|N].
  - specialize (H a I). lia.
  - assert (G : filter (Z.eqb a) (map (fun r => r / 16) l) = []).
    { revert N. generalize (map (fun r => r / 16) l) as q. induction q as [|x q IH]; cbn [filter]; intros N; auto.
      destruct (Z.eqb_spec a x) as [->|]; [exfalso; apply N; left; auto|]. apply IH. intros I; apply N; right; auto. }
    rewrite G. cbn [List.length]. lia.
Qed.

(** forty keys, each stored twice under different conflict hashes (40 collisions), with splits *)
Definition twins (l : list (string * Z)) : list (string * Z) := l ++ map (fun p => (append (fst p) "x", snd p)) l.
Example C46_case :
  let l := twins (spread 20) in
  let os := fill l ++ [get_ (str 7); get_ (append (str 7) "x"); set_ (str 7) 5; get_ (str 7); get_ (append (str 7) "x"); OpLen] in
  Forall store_or_read os /\ roomy (hpos l) 16 os /\
  List.length (edump (erun (hpos l) (new_emb 16) os)) = 20%nat /\
  skipn 40 (eouts (hpos l) (new_emb 16) os) =
    [Ret (RVal GNil false); Ret (RVal (GV 1 ((7 * 0x9e3779b97f4a7c15) mod 2 ^ 60 mod 97)) true); Ret (RBool true);
     Ret (RVal (GV 1 5) true); Ret (RVal GNil false); Ret (RLen 41)].
Proof.
  cbv zeta. split; [|split; [|split]].
  - apply sor_ok. vm_compute. reflexivity.
  - apply roomy_ok. vm_compute. reflexivity.
  - vm_compute. reflexivity.
  - vm_compute. reflexivity.
Qed.

(** * C20 for every bucket size *)
Definition meq (m m' : smap) : Prop :=
  sm_view m = sm_view m' /\ sm_created m = sm_created m' /\ forall p, sm_map m p = sm_map m' p.
Lemma meq_put m m' p b v n : meq m m' -> meq (mkSM (sm_put m p b) v n) (mkSM (sm_put m' p b) v n).
Proof. intros (A & B & C). split; auto. split; auto. intros q. cbn [sm_map]. unfold sm_put. rewrite C. auto. Qed.
Lemma meq_step h m m' o : meq m m' -> snd (sm_step h m o) = snd (sm_step h m' o) /\ meq (fst (sm_step h m o)) (fst (sm_step h m' o)).
Proof.
  intros H. pose proof H as (A & B & C).
  assert (U : forall p b v, snd (sm_update m p b v) = snd (sm_update m' p b v) /\ meq (fst (sm_update m p b v)) (fst (sm_update m' p b v))).
  { intros p b v. unfold sm_update. rewrite A. destruct (assign _ _ _) as [[v' ok]|]; cbn [fst snd]; auto. rewrite B. split; auto. apply meq_put; auto. }
  destruct o as [key v|i|key|k0 c0|key|k0 c0|key|key|]; cbn [sm_step fst snd]; unfold sm_get, sm_load; try (split; [|exact H]).
  - destruct (key_to_hash h key) as [p|]; auto. rewrite C. destruct (sm_map m' p); auto.
    destruct key; cbn [fst snd]; auto; rewrite ?B; split; auto; apply meq_put; auto.
  - destruct (key_to_hash h (i_key i)) as [p|]; auto. rewrite C. destruct (sm_map m' p); auto.
    cbn [fst snd]; rewrite ?B, ?A; split; auto; apply meq_put; auto.
  - destruct (key_to_hash h key); auto. rewrite C. auto.
  - rewrite C; auto.
  - destruct (key_to_hash h key); auto. rewrite C, A. auto.
  - rewrite C, A; auto.
  - destruct (key_to_hash h key) as [p|]; auto. rewrite C. destruct (sm_map m' p); cbn [fst snd]; auto.
    rewrite ?B, ?A; split; auto; apply meq_put; auto.
  - destruct (key_to_hash h key) as [p|]; auto. rewrite C. destruct (sm_map m' p); cbn [fst snd]; auto.
    rewrite ?B, ?A; split; auto; apply meq_put; auto.
  - rewrite B; auto.
Qed.
(** no pair of m collides with a pair that os writes *)
Definition apart (h : hashes) (m : smap) (os : list op) : Prop :=
  forall o k c c', In o os -> writes h o = Some (k, c) -> c' <> c -> sm_map m (k, c') = None.
Lemma meq_evict h m m' o os : meq m m' -> apart h m' (o :: os) ->
  snd (newest_step h m o) = snd (sm_step h m' o) /\ meq (fst (newest_step h m o)) (fst (sm_step h m' o)).
Proof.
  intros (A & B & C) HA. unfold newest_step. destruct (writes h o) as [[k c]|] eqn:EW.
  - apply meq_step. split; auto. split; auto. intros [k' c']. cbn [evict sm_map fst snd].
    destruct (Z.eqb_spec k' k) as [->|]; cbn [andb]; auto. destruct (Z.eqb_spec c' c) as [->|N]; cbn [negb]; auto.
    symmetry. apply (HA o k c c'); auto. left; auto.
  - apply meq_step. repeat (split; auto).
Qed.
Lemma apart_step h m o os : apart h m (o :: os) -> no_collision h (o :: os) -> apart h (fst (sm_step h m o)) os.
Proof.
  intros HA HN o' k c c' Hin HW Nc. destruct (sm_map (fst (sm_step h m o)) (k, c')) eqn:EM; auto. exfalso.
  destruct (sm_step_writes h m o k c') as [N|W]; [congruence| |].
  - apply N. apply (HA o' k c c'); auto. right; auto.
  - apply Nc. apply (HN o o' k c' c); auto; [left|right]; auto.
Qed.
Lemma newest_no_collision h : forall os m m', meq m m' -> apart h m' os -> no_collision h os ->
  newest_outs h m os = sm_outs h m' os.
Proof.
  induction os as [|o os IH]; intros m m' E HA HN; cbn [newest_outs sm_outs]; auto.
  destruct (meq_evict h m m' o os E HA) as [E1 E2]. rewrite E1. f_equal. apply IH; auto.
  - apply apart_step; auto.
  - intros o1 o2 k c c' H1 H2. apply HN; right; auto.
Qed.
Lemma store_grows h m o p : store_or_read o -> sm_map (fst (sm_step h m o)) p = None -> sm_map m p = None.
Proof.
  intros HO H. destruct o as [key v|i|key|k0 c0|key|k0 c0|key|key|]; try contradiction; cbn [sm_step fst] in H; auto.
  destruct (key_to_hash h key) as [q|]; auto. destruct (sm_map m q) as [b|] eqn:EM.
  - unfold sm_update in H. destruct (assign _ _ _) as [[v' ok]|]; cbn [fst sm_map] in H; auto.
    rewrite sm_put_eq in H. destruct (pair_eqb_spec q p); auto. discriminate.
  - destruct HO as (x & ->). cbn [fst sm_map] in H. rewrite sm_put_eq in H. destruct (pair_eqb_spec q p); [discriminate|auto].
Qed.
Lemma creations_distinct h : forall os m m', meq m m' -> apart h m' os -> no_collision h os -> Forall store_or_read os ->
  NoDup (creations h m os) /\ forall r, In r (creations h m os) -> In r (positions h os) /\
    exists k, r = reverse64 k /\ 0 <= k < W64 /\ forall c, sm_map m' (k, c) = None.
Proof.
  induction os as [|o os IH]; intros m m' E HA HN HF; cbn [creations positions flat_map]; [split; [constructor|intros r []]|].
  apply Forall_cons_iff in HF as [HO HF]. destruct (meq_evict h m m' o os E HA) as [E1 E2].
  destruct (IH _ _ E2) as [D1 D2]; auto.
  { apply apart_step; auto. }
  { intros o1 o2 k c c' H1 H2. apply HN; right; auto. }
  assert (OLD : forall r, In r (creations h (fst (newest_step h m o)) os) ->
    In r (match writes h o with Some (k, _) => [reverse64 k] | None => [] end ++ positions h os) /\
    exists k, r = reverse64 k /\ 0 <= k < W64 /\ forall c, sm_map m' (k, c) = None).
  { intros r Hr. destruct (D2 r Hr) as (P & k & Ek & Hk & Hc). split; [apply in_or_app; auto|].
    exists k. split; auto. split; auto. intros c. apply (store_grows h m' o); auto. }
  destruct (writes h o) as [[k c]|] eqn:EW; [|cbn [app]; auto].
  destruct E as (_ & _ & EM). cbn [fst]. rewrite EM. destruct (sm_map m' (k, c)) eqn:EK; cbn [app] in *; auto.
  assert (Hk : 0 <= k < W64).
  { destruct o; cbn [writes] in EW; try discriminate; apply key_range in EW; tauto. }
  split.
  - constructor; auto. intros Hr. destruct (D2 _ Hr) as (_ & k' & Ek & Hk' & Hc). apply reverse64_inj in Ek; auto. subst k'.
    specialize (Hc c). destruct o as [key v|i|key|k0 c0|key|k0 c0|key|key|]; try contradiction; cbn [writes] in EW; try discriminate.
    destruct HO as (x & ->). cbn [sm_step fst] in Hc. rewrite EW, EK in Hc. cbn [fst sm_map] in Hc.
    rewrite sm_put_eq in Hc. destruct (pair_eqb_spec (k, c) (k, c)); congruence.
  - intros r [<-|Hr]; [|auto]. split; [left; auto|]. exists k. split; auto. split; auto.
    intros c'. destruct (Z.eq_dec c' c) as [->|N]; auto. apply (HA o k c c'); auto. left; auto.
Qed.
Lemma block_count (a : Z) (l l' : list Z) : NoDup l -> (forall r, In r l -> In r l') ->
  (List.length (filter (fun r => (r / 16 =? a)%Z) l) <= List.length (nodup Z.eq_dec (filter (fun r => (r / 16 =? a)%Z) l')))%nat.
Proof.
  intros ND H. apply NoDup_incl_length; [apply NoDup_filter; auto|]. intros r Hr. apply nodup_In. apply filter_In in Hr as [H1 H2].
  apply filter_In. auto.
Qed.
Theorem C20_every_bucket_size : forall h max os, 1 <= max ->
  Forall store_or_read os -> no_collision h os -> (forall a, crowd16 h os a <= max) ->
  agree (eouts h (new_emb max) os) (sm_outs h (sm_empty KSample) os).
Proof.
  intros h max os HM HF HN HC.
  assert (HA : apart h (sm_empty KSample) os) by (intros o k c c' _ _ _; reflexivity).
  assert (HE : meq (sm_empty KSample) (sm_empty KSample)) by (repeat (split; auto)).
  rewrite <- (newest_no_collision h os _ _ HE HA HN). apply C46_newest_pair_wins; auto.
  intros a. etransitivity; [|apply (HC a)]. unfold crowd16. apply inj_le. apply block_count;
  apply (creations_distinct h os _ _ HE HA HN HF).
Qed.
Print Assumptions C20_every_bucket_size.
(** with 16 or more per bucket the last hypothesis always holds: C20_embedded_map_is_a_map is an instance *)
Lemma crowd16_le h os a : crowd16 h os a <= 16.
Proof.
  unfold crowd16. set (l := nodup Z.eq_dec (filter (fun r => r / 16 =? a) (positions h os))).
  assert (N : NoDup l) by apply NoDup_nodup.
  assert (H : incl l (map (fun i => 16 * a + Z.of_nat i) (seq 0 16))).
  { intros r Hr. apply nodup_In in Hr. apply filter_In in Hr as [_ Hr]. apply Z.eqb_eq in Hr.
    apply in_map_iff. exists (Z.to_nat (r mod 16)). pose proof (Z.div_mod r 16 ltac:(lia)). pose proof (Z.mod_pos_bound r 16 ltac:(lia)).
    split; [rewrite Z2Nat.id; lia|]. apply in_seq. lia. }
  apply NoDup_incl_length in H; auto. rewrite map_length, seq_length in H. lia.
Qed.
(** bucket size 4, forty keys *)
Definition crowd16_b (h : hashes) (max : Z) (os : list op) : bool :=
  let cs := map (fun r => r / 16) (nodup Z.eq_dec (positions h os)) in
  (0 <=? max) && forallb (fun a => Z.of_nat (List.length (filter (Z.eqb a) cs)) <=? max) cs.
Lemma filter_nodup {A} (dec : forall x y : A, {x = y} + {x <> y}) (f : A -> bool) l : nodup dec (filter f l) = filter f (nodup dec l).
Proof.
  induction l as [|x l IH]; cbn [filter nodup]; auto. destruct (f x) eqn:E.
  - cbn [nodup]. destruct (in_dec dec x (filter f l)) as [I|N]; destruct (in_dec dec x l) as [I'|N']; cbn [filter]; rewrite ?E, ?IH; auto.
    + apply filter_In in I as [I _]. contradiction.
    + exfalso. apply N. apply filter_In. auto.
  - destruct (in_dec dec x l); cbn [filter]; rewrite ?E; auto.
Qed.
Lemma crowd16_ok h max os : crowd16_b h max os = true -> forall a, crowd16 h os a <= max.
Proof.
  unfold crowd16_b, crowd16. intros H a. rewrite filter_nodup. revert H. set (l := nodup Z.eq_dec (positions h os)). clearbody l. intros H.
  apply andb_true_iff in H as [H0 H]. rewrite forallb_forall in H.
  assert (E : forall l, List.length (filter (fun r => r / 16 =? a) l) = List.length (filter (Z.eqb a) (map (fun r => r / 16) l))).
  { induction l0 as [|x q IH]; cbn [filter map]; auto. rewrite (Z.eqb_sym a). destruct (x / 16 =? a); cbn [List.length]; auto. }
  rewrite E. destruct (in_dec Z.eq_dec a (map (fun r => r / 16) l)) as [I|N].
  - specialize (H a I). lia.
  - assert (G : filter (Z.eqb a) (map (fun r => r / 16) l) = []).
    { revert N. generalize (map (fun r => r / 16) l) as q. induction q as [|x q IH]; cbn [filter]; intros N; auto.
      destruct (Z.eqb_spec a x) as [->|]; [exfalso; apply N; left; auto|]. apply IH. intros I; apply N; right; auto. }
    rewrite G. cbn [List.length]. lia.
Qed.
Example C20_small_case :
  let l := spread 40 in let os := fill l ++ [get_ (str 7); set_ (str 7) 5; get_ (str 7); OpLen] in
  Forall store_or_read os /\ no_collision (hpos l) os /\ (forall a, crowd16 (hpos l) os a <= 4) /\
  skipn 42 (eouts (hpos l) (new_emb 4) os) = [Ret (RVal (GV 1 5) true); Ret (RLen 40)].
Proof.
  cbv zeta. split; [|split; [|split]].
  - apply sor_ok. vm_compute. reflexivity.
  - apply nocol_ok. vm_compute. reflexivity.
  - apply crowd16_ok. vm_compute. reflexivity.
  - vm_compute. reflexivity.
Qed.

(** The bound on the blocks of 16 positions is needed at every bucket size: with 16 per bucket, sixteen pairs at two positions
    of one block and one more next to them are too many, and the last one stored is lost. *)
Definition newest_pair_wins_unbounded : Prop := forall h max os, 16 <= max ->
  Forall store_or_read os -> agree (eouts h (new_emb max) os) (newest_outs h (sm_empty KSample) os).
Fixpoint bs_ (n : nat) : string := match n with O => EmptyString | S n => String "b"%char (bs_ n) end.
Definition packed : list (string * Z) :=
  map (fun i => (bs_ i, 0)) (seq 1 15) ++ ("c"%string, 1) :: map (fun i => (str i, 2 ^ (Z.of_nat i) + 1)) (rev (seq 3 57)).
Theorem C46_packed_block_refuted : ~ newest_pair_wins_unbounded.
Proof.
  intros H. specialize (H (hpos packed) 16 (fill packed ++ [get_ (str 3)]) ltac:(lia)).
  assert (A : agree_b (eouts (hpos packed) (new_emb 16) (fill packed ++ [get_ (str 3)]))
                      (newest_outs (hpos packed) (sm_empty KSample) (fill packed ++ [get_ (str 3)])) = true).
  { apply agree_b_complete. apply H. apply sor_ok. vm_compute. reflexivity. }
  vm_compute in A. discriminate.
Qed.
Print Assumptions C46_packed_block_refuted.
