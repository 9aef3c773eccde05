(** Property theorems about the embedded mode (UseEmbeddedPool(true)): C20-C25, C42-C46. The model is
    EmbModel.v, the specification vocabulary Spec.v and EmbSpec.v. [erun]/[eouts]: final state and results
    of a history of calls made one after the other. *)
From Verif Require Import Base BaseProofs Util UtilProofs Bucket TrieProofs TrieInv TrieGrow MapModel ItemProofs MapInv MapSplit
  MapInit Spec MapRefine EmbModel EmbPool EmbTrie EmbInv EmbSplit EmbSpec EmbRefine EmbDel EmbTop.
From Coq Require Import ZifyBool Sorted Ascii String.
Local Open Scope Z_scope.
Local Open Scope list_scope.
Local Opaque reverse64 level_of base find_bucket.

(** * Concrete hash functions and histories *)
Definition pos_of (l : list (string * Z)) (s : string) : Z :=
  match find (fun p => String.eqb (fst p) s) l with Some (_, z) => reverse64 z | None => reverse64 1 end.
(** string keys at given positions; the conflict hash is the length *)
Definition hpos l := mkH (pos_of l) (fun s => Z.of_nat (String.length s)).
Definition set_ (k : string) (v : Z) := OpSet (KStr k) (GV 1 v).
Definition get_ (k : string) := OpGet (KStr k).
Definition del_ (k : string) := OpDelete (KStr k).
Definition pur_ (k : string) := OpPurge (KStr k).

Definition nocol_b (h : hashes) (os : list op) : bool :=
  forallb (fun o => forallb (fun o' =>
    match writes h o, writes h o' with
    | Some (k, c), Some (k', c') => negb (k =? k') || (c =? c')
    | _, _ => true
    end) os) os.
Lemma nocol_ok h os : nocol_b h os = true -> no_collision h os.
Proof.
  unfold nocol_b. rewrite forallb_forall. intros H o o' k c c' Ho Ho' E E'. specialize (H o Ho). rewrite forallb_forall in H.
  specialize (H o' Ho'). rewrite E, E', Z.eqb_refl in H. cbn [negb orb] in H. lia.
Qed.
Definition sor_b (o : op) : bool :=
  match o with OpSet (KStr _) _ => true | OpSet _ _ | OpStore _ | OpDelete _ | OpPurge _ => false | _ => true end.
Lemma sor_ok os : forallb sor_b os = true -> Forall store_or_read os.
Proof.
  rewrite forallb_forall, Forall_forall. intros H o Ho. specialize (H o Ho). destruct o as [key v| | | | | | | |]; try discriminate; cbn; auto.
  destruct key; try discriminate. eauto.
Qed.
Definition seen_val (r : res out) : option out := seen r.
Definition agree_b (rs : list (res out)) (es : list out) : bool :=
  (fix go rs es := match rs, es with
   | [], [] => true
   | r :: rs', e :: es' =>
       match r, rs' with Div, [] => true | _, _ => false end ||
       (match seen r, e with
        | Some (RBool a), RBool b => Bool.eqb a b
        | Some (RVal a x), RVal b y => gval_eqb a b && Bool.eqb x y
        | Some RPanic, RPanic => true
        | Some (RLen a), RLen b => a =? b
        | Some (RItem _), RItem _ => true
        | _, _ => false
        end && go rs' es')
   | _, _ => false
   end) rs es.
Lemma gval_eqb_refl v : gval_eqb v v = true.
Proof. destruct v; cbn; auto. rewrite !Z.eqb_refl. auto. Qed.
Lemma agree_b_complete rs es : agree rs es -> agree_b rs es = true.
Proof.
  revert es. induction rs as [|r rs IH]; intros [|e es] H; cbn in *; auto; try contradiction.
  destruct H as [[-> ->]|[E H]]; auto. apply orb_true_iff. right. fold (agree_b rs es). rewrite (IH _ H), E, andb_true_r.
  destruct e; auto using Bool.eqb_reflx, Z.eqb_refl. rewrite gval_eqb_refl, Bool.eqb_reflx. auto.
Qed.

(** * C20: Set and Get *)
Theorem C20_embedded_map_is_a_map : forall h max os, 16 <= max ->
  Forall store_or_read os -> no_collision h os ->
  agree (eouts h (new_emb max) os) (sm_outs h (sm_empty KSample) os).
Proof.
  intros h max os HM HF HN. apply (erun_agrees h os _ _ (new_emb_rel max HM) HF); auto.
Qed.
Print Assumptions C20_embedded_map_is_a_map.

(** forty keys spread over two buckets of size 16: the history splits buckets, and nothing stops *)
Definition str (n : nat) : string := String (ascii_of_nat (48 + Nat.div n 64)) (String (ascii_of_nat (48 + Nat.modulo n 64)) "").
Definition spread (n : nat) : list (string * Z) :=
  map (fun i => (str i, (Z.of_nat i * 0x9e3779b97f4a7c15) mod 2 ^ 60)) (seq 1 n).
Definition fill (l : list (string * Z)) : list op := map (fun p => set_ (fst p) (snd p mod 97)) l.
Example C20_case :
  let l := spread 40 in let os := fill l ++ [get_ (str 7); set_ (str 7) 5; get_ (str 7); get_ "none"; OpLen] in
  Forall store_or_read os /\ no_collision (hpos l) os /\
  List.length (edump (erun (hpos l) (new_emb 16) os)) = 19%nat /\
  skipn 42 (eouts (hpos l) (new_emb 16) os) = [Ret (RVal (GV 1 5) true); Ret (RVal GNil false); Ret (RLen 40)].
Proof.
  cbv zeta. split; [|split; [|split]].
  - apply sor_ok. vm_compute. reflexivity.
  - apply nocol_ok. vm_compute. reflexivity.
  - vm_compute. reflexivity.
  - vm_compute. reflexivity.
Qed.

(** For bucket sizes below 16 the claim is false: a bucket of 16 positions can be asked to split. *)
Definition embedded_map_is_a_map_any_size : Prop := forall h max os, 2 <= max ->
  Forall store_or_read os -> no_collision h os ->
  agree (eouts h (new_emb max) os) (sm_outs h (sm_empty KSample) os).
Definition chain : list (string * Z) :=
  (str 0, 0) :: (str 1, 1) :: map (fun i => (str i, 2 ^ (Z.of_nat i) + 1)) (rev (seq 3 57)).
Theorem C20_small_buckets_refuted : ~ embedded_map_is_a_map_any_size.
Proof.
  intros H. specialize (H (hpos chain) 2 (fill chain ++ [get_ (str 3)]) ltac:(lia)).
  assert (A : agree_b (eouts (hpos chain) (new_emb 2) (fill chain ++ [get_ (str 3)]))
                      (sm_outs (hpos chain) (sm_empty KSample) (fill chain ++ [get_ (str 3)])) = true).
  { apply agree_b_complete. apply H.
    - apply sor_ok. vm_compute. reflexivity.
    - apply nocol_ok. vm_compute. reflexivity. }
  vm_compute in A. discriminate.
Qed.
Print Assumptions C20_small_buckets_refuted.

(** * C21: every Get returns *)
Definition every_get_returns : Prop := forall h max os key, 2 <= max ->
  Forall store_or_read os -> no_collision h os -> existsb stops (eouts h (new_emb max) os) = false ->
  stops (snd (estep h (erun h (new_emb max) os) (OpGet key))) = false.
(** sixteen-fold bucket: seventeen keys in the upper half of the first top bucket *)
Definition skewed : list (string * Z) := map (fun i => (str i, 2 ^ 60 - Z.of_nat i)) (seq 1 17).
Theorem C21_every_get_returns_refuted : ~ every_get_returns.
Proof.
  intros H. specialize (H (hpos skewed) 16 (fill skewed) (KStr (str 3)) ltac:(lia)).
  assert (A : stops (snd (estep (hpos skewed) (erun (hpos skewed) (new_emb 16) (fill skewed)) (OpGet (KStr (str 3))))) = false).
  { apply H.
    - apply sor_ok. vm_compute. reflexivity.
    - apply nocol_ok. vm_compute. reflexivity.
    - vm_compute. reflexivity. }
  vm_compute in A. discriminate.
Qed.
Print Assumptions C21_every_get_returns_refuted.

(** What holds: while no sixteenth of the position space has received more than [max] keys, every call
    returns, with the answer of the specification. *)
Theorem C21_small_histories_return : forall h max os, 16 <= max ->
  Forall store_or_read os -> no_collision h os -> (forall i, crowd h os i <= max) ->
  map seen (eouts h (new_emb max) os) = map Some (sm_outs h (sm_empty KSample) os).
Proof.
  intros h max os HM HF HN HC.
  apply (calm_run h (positions h os) max HC os); auto.
  - apply new_emb_calm; auto.
  - intros z Hz; auto.
Qed.
Print Assumptions C21_small_histories_return.
Lemma crowd_le h os i : crowd h os i <= Z.of_nat (List.length (positions h os)).
Proof.
  unfold crowd. apply inj_le. apply NoDup_incl_length; [apply NoDup_nodup|].
  intros z Hz. apply nodup_In, filter_In in Hz. exact (proj1 Hz).
Qed.
Example C21_case :
  let l := spread 16 in let os := fill l ++ [get_ (str 7); get_ "none"] in
  Forall store_or_read os /\ no_collision (hpos l) os /\ (forall i, crowd (hpos l) os i <= 16) /\ crowd (hpos l) os 0 = 16.
Proof.
  cbv zeta. split; [|split; [|split]].
  - apply sor_ok. vm_compute. reflexivity.
  - apply nocol_ok. vm_compute. reflexivity.
  - intros i. eapply Z.le_trans; [apply crowd_le|].
    assert (E : List.length (positions (hpos (spread 16)) (fill (spread 16) ++ [get_ (str 7); get_ "none"])) = 16%nat) by (vm_compute; reflexivity).
    rewrite E. discriminate.
  - vm_compute. reflexivity.
Qed.

(** * C22: Delete *)
Definition delete_hides : Prop := forall h max os key, 16 <= max ->
  Forall store_or_read os -> no_collision h os ->
  let s := erun h (new_emb max) os in
  snd (estep h s (OpDelete key)) = Ret (RBool true) ->
  snd (estep h (fst (estep h s (OpDelete key))) (OpGet key)) = Ret (RVal GNil false).
Definition five : list (string * Z) := [("a", 10); ("b", 20); ("c", 30); ("d", 40); ("e", 50)]%string.
Theorem C22_delete_hides_refuted : ~ delete_hides.
Proof.
  intros H. specialize (H (hpos five) 32 [set_ "a" 1] (KStr "a") ltac:(lia)). cbv zeta in H.
  assert (A : snd (estep (hpos five) (fst (estep (hpos five) (erun (hpos five) (new_emb 32) [set_ "a" 1]) (del_ "a"))) (get_ "a")) = Ret (RVal GNil false)).
  { apply H.
    - apply sor_ok. reflexivity.
    - apply nocol_ok. vm_compute. reflexivity.
    - vm_compute. reflexivity. }
  vm_compute in A. discriminate.
Qed.
Print Assumptions C22_delete_hides_refuted.

(** The exact behaviour: after any history of Set and reads, a further history of Deletes, reads and updates
    answers like the map in which Delete has no effect on the keys that are first of their bucket. *)
Theorem C22_delete_exact : forall h max os os2 sticky, 16 <= max ->
  Forall store_or_read os -> no_collision h os ->
  let s := erun h (new_emb max) os in let m := sm_run h (sm_empty KSample) os in
  (forall k c, 0 <= k < 2 ^ 64 -> (sticky (k, c) = true <-> first_of_bucket (edump s) m k c)) ->
  no_create sticky h m os2 ->
  agree (eouts h (new_emb max) (os ++ os2)) (sm_outs h (sm_empty KSample) os ++ sticky_outs sticky h m os2).
Proof.
  intros h max os os2 st HM HF HN s m HS HC.
  destruct (erun_agrees h os _ _ (new_emb_rel max HM) HF) as (A1 & A2 & _); auto.
  rewrite eouts_app. apply agree_app; auto.
  destruct (existsb stops (eouts h (new_emb max) os)) eqn:ES; [left; auto|right]. split; auto.
  destruct A2 as [A2|A2]; [unfold stopped in A2; congruence|].
  apply srun_agrees; auto. apply erel_srel; auto.
Qed.
Print Assumptions C22_delete_exact.

(** The two cases a user asks for. *)
Lemma eload_upd_div s k c k' c' n j f : eload s k c <> Div -> eload s k c <> Undef -> eload (upd_item s n j f) k' c' = Div -> k = k' -> False.
Proof.
  intros H _ E <-. assert (SS : same_shape (x_trie s) (x_trie (upd_item s n j f))).
  { unfold upd_item. destruct (b_pool _); [|intros z; auto]. unfold set_bpool, set_xtrie. cbn [x_trie].
    apply same_shape_tupd. intros; reflexivity. }
  unfold eload, pool_of in *. rewrite <- (find_bucket_shape _ _ SS), <- (base_shape _ _ SS) in E.
  set (b := base (x_trie s) (find_bucket (x_trie s) (reverse64 k))) in *.
  destruct (b_pool (bget (x_trie s) b)) as [p|] eqn:EP; [|congruence].
  assert (P : exists p', b_pool (bget (x_trie (upd_item s n j f)) b) = Some p').
  { unfold upd_item. destruct (b_pool (bget (x_trie s) n)) eqn:En; [|eauto]. unfold set_bpool, set_xtrie, tupd. cbn [x_trie].
    rewrite bget_tset. destruct (nid_eqb n b); cbn [set_pool b_pool]; eauto. }
  destruct P as (p' & P). rewrite P in E. destruct (emb_search p' (reverse64 k)); [|discriminate].
  destruct (_ && _); discriminate.
Qed.
Theorem C22_delete_one : forall h max os key k c v, 16 <= max ->
  Forall store_or_read os -> no_collision h os -> existsb stops (eouts h (new_emb max) os) = false ->
  key_to_hash h key = Some (k, c) ->
  let s := erun h (new_emb max) os in let m := sm_run h (sm_empty KSample) os in
  snd (estep h s (OpGet key)) = Ret (RVal v true) ->
  let s' := fst (estep h s (OpDelete key)) in
  snd (estep h s (OpDelete key)) = Ret (RBool true) /\
  (~ first_of_bucket (edump s) m k c -> snd (estep h s' (OpGet key)) = Ret (RVal GNil false)) /\
  (first_of_bucket (edump s) m k c -> snd (estep h s' (OpGet key)) = Ret (RVal v true)).
Proof.
  intros h max os key k c v HM HF HN HS EK s m HG s'.
  destruct (erun_agrees h os _ _ (new_emb_rel max HM) HF) as (A1 & A2 & _); auto.
  destruct A2 as [A2|H]; [unfold stopped in A2; congruence|]. fold s m in H.
  pose proof (proj1 (key_range _ _ _ _ EK)) as Hk. destruct (er_inv _ _ H) as (xl & I).
  unfold s'. cbn [estep] in *. unfold ewith in *. rewrite EK in *. unfold eget in HG. unfold edelete.
  destruct (eload_rel s m k c H Hk) as [E|[(n & j & p & E & HT & HI & EM)|(E & EM)]]; rewrite E in *; [discriminate| |discriminate].
  cbn [fst snd] in *. rewrite HI in HG. injection HG as EV. split; auto.
  assert (SR : srel (in_first s) s m).
  { constructor; [apply (er_inv _ _ H)|apply (er_view _ _ H)|apply (er_len _ _ H)| |].
    - intros k' c' bd Hk'. rewrite (erel_occ s m k' c' bd H Hk'). split; intros (n' & j' & sl & HO' & HX); exists n', j', sl.
      + split; auto. split; auto. left. eapply erel_nodel; eauto.
      + destruct HX. auto.
    - intros k' c' n' j' sl Hk' HO' HV'. eapply in_first_spec; eauto. }
  pose proof (srel_delete set_sdel (in_first s) s m k c n j p ltac:(repeat split) SR Hk HT) as SD.
  destruct (hit_occ _ _ _ _ _ _ HT) as [HO _].
  pose proof (first_zero s m k c n j _ H Hk HO) as FZ. pose proof (in_first_spec s xl k c n j _ I HO) as IF.
  assert (IFB : in_first s (k, c) = true <-> first_of_bucket (edump s) m k c) by tauto.
  pose proof (fun E' => eload_upd_div s k c k c n j set_sdel ltac:(congruence) ltac:(congruence) E' eq_refl) as ND.
  split; intros FB.
  - destruct (in_first s (k, c)) eqn:EI; [tauto|].
    pose proof (eget_sagrees _ _ _ k c SD Hk) as [G|[G _]].
    + exfalso. unfold eget in G. destruct (eload (upd_item s n j set_sdel) k c) as [[[n' j']|]| | |] eqn:EE; try discriminate. auto.
    + unfold sm_get in G. cbn [sm_map] in G. rewrite sm_put_eq in G.
      destruct (pair_eqb_spec (k, c) (k, c)) as [_|N]; [|congruence].
      destruct (snd (eget (upd_item s n j set_sdel) k c)) as [r| | |] eqn:EE; cbn [seen] in G; try discriminate; congruence.
  - rewrite (proj2 IFB FB) in SD.
    pose proof (eget_sagrees _ _ _ k c SD Hk) as [G|[G _]].
    + exfalso. unfold eget in G. destruct (eload (upd_item s n j set_sdel) k c) as [[[n' j']|]| | |] eqn:EE; try discriminate. auto.
    + unfold sm_get in G. rewrite EM in G. cbn [bd_val] in G. rewrite EV in G.
      destruct (snd (eget (upd_item s n j set_sdel) k c)) as [r| | |] eqn:EE; cbn [seen] in G; try discriminate; congruence.
Qed.
Print Assumptions C22_delete_one.
Example C22_case :
  let os := [set_ "a" 1; set_ "b" 2; set_ "c" 3] in
  Forall store_or_read os /\ no_collision (hpos five) os /\
  existsb stops (eouts (hpos five) (new_emb 32) os) = false /\
  snd (estep (hpos five) (erun (hpos five) (new_emb 32) os) (get_ "b")) = Ret (RVal (GV 1 2) true) /\
  edump (erun (hpos five) (new_emb 32) os) = rev (map (fun i => i * 2 ^ 60) idx16 ++ [2 ^ 64 - 1]).
Proof.
  cbv zeta. split; [|split; [|split; [|split]]].
  - apply sor_ok. reflexivity.
  - apply nocol_ok. vm_compute. reflexivity.
  - vm_compute. reflexivity.
  - vm_compute. reflexivity.
  - vm_compute. reflexivity.
Qed.

(** * C23: Purge *)
Definition purge_keeps_others : Prop := forall h max os key key', 16 <= max ->
  no_collision h os -> key_to_hash h key <> key_to_hash h key' ->
  let s := erun h (new_emb max) os in
  existsb stops (eouts h (new_emb max) os) = false ->
  snd (estep h (fst (estep h s (OpPurge key))) (OpGet key')) = snd (estep h s (OpGet key')).
Theorem C23_purge_keeps_others_refuted : ~ purge_keeps_others.
Proof.
  intros H. specialize (H (hpos five) 32 [set_ "a" 1; set_ "b" 2; set_ "c" 3; pur_ "b"] (KStr "c") (KStr "a") ltac:(lia)).
  cbv zeta in H.
  assert (A : snd (estep (hpos five) (fst (estep (hpos five) (erun (hpos five) (new_emb 32) [set_ "a" 1; set_ "b" 2; set_ "c" 3; pur_ "b"]) (pur_ "c"))) (get_ "a")) =
    snd (estep (hpos five) (erun (hpos five) (new_emb 32) [set_ "a" 1; set_ "b" 2; set_ "c" 3; pur_ "b"]) (get_ "a"))).
  { apply H.
    - apply nocol_ok. vm_compute. reflexivity.
    - vm_compute. discriminate.
    - vm_compute. reflexivity. }
  vm_compute in A. discriminate.
Qed.
Print Assumptions C23_purge_keeps_others_refuted.
(** What holds: the first Purge after any history of Set and reads. It removes its key and no other, except that a key
    that is first but not last of its bucket stays. *)
Theorem C23_first_purge_partial : forall h max os key reads sticky, 16 <= max ->
  Forall store_or_read os -> no_collision h os -> Forall read_only reads ->
  let s := erun h (new_emb max) os in let m := sm_run h (sm_empty KSample) os in
  (forall k c, 0 <= k < 2 ^ 64 -> (sticky (k, c) = true <->
     first_of_bucket (edump s) m k c /\ ~ last_of_bucket (edump s) m k c)) ->
  agree (eouts h (new_emb max) (os ++ OpPurge key :: reads))
        (sm_outs h (sm_empty KSample) os ++ sticky_outs sticky h m (OpPurge key :: reads)).
Proof.
  intros h max os key reads st HM HF HN HR s m HS.
  destruct (erun_agrees h os _ _ (new_emb_rel max HM) HF) as (A1 & A2 & _); auto.
  rewrite eouts_app. apply agree_app; auto.
  destruct (existsb stops (eouts h (new_emb max) os)) eqn:ES; [left; auto|right]. split; auto.
  destruct A2 as [A2|A2]; [unfold stopped in A2; congruence|].
  apply epurge_agrees; auto.
Qed.
Print Assumptions C23_first_purge_partial.

(** a key in the middle of its bucket, after which another key is still readable *)
Example C23_case :
  let os := [set_ "a" 1; set_ "b" 2; set_ "c" 3] in
  Forall store_or_read os /\ no_collision (hpos five) os /\
  eouts (hpos five) (new_emb 32) (os ++ OpPurge (KStr "b") :: [get_ "a"; get_ "b"; get_ "c"]) =
    [Ret (RBool true); Ret (RBool true); Ret (RBool true); Ret (RBool true);
     Ret (RVal (GV 1 1) true); Ret (RVal GNil false); Ret (RVal (GV 1 3) true)].
Proof.
  cbv zeta. split; [|split].
  - apply sor_ok. reflexivity.
  - apply nocol_ok. vm_compute. reflexivity.
  - vm_compute. reflexivity.
Qed.

(** * C24: Set after Purge *)
Definition set_after_purge_reads : Prop := forall h max os key v, 16 <= max ->
  Forall store_or_read os -> no_collision h (os ++ [OpSet key v]) ->
  let s := fst (estep h (erun h (new_emb max) os) (OpPurge key)) in
  snd (estep h s (OpSet key v)) = Ret (RBool true) ->
  snd (estep h (fst (estep h s (OpSet key v))) (OpGet key)) = Ret (RVal v true).
Theorem C24_set_after_purge_refuted : ~ set_after_purge_reads.
Proof.
  intros H. specialize (H (hpos five) 32 [set_ "a" 1; set_ "b" 2; set_ "c" 3] (KStr "c") (GV 1 5) ltac:(lia)). cbv zeta in H.
  set (s := fst (estep (hpos five) (erun (hpos five) (new_emb 32) [set_ "a" 1; set_ "b" 2; set_ "c" 3]) (pur_ "c"))) in *.
  assert (A : snd (estep (hpos five) (fst (estep (hpos five) s (set_ "c" 5))) (get_ "c")) = Ret (RVal (GV 1 5) true)).
  { apply H.
    - apply sor_ok. reflexivity.
    - apply nocol_ok. vm_compute. reflexivity.
    - vm_compute. reflexivity. }
  vm_compute in A. discriminate.
Qed.
Print Assumptions C24_set_after_purge_refuted.

(** * C25: the buckets' item arrays *)
(** bucket n holds the positions from its boundary up to the next boundary *)
Theorem C25_pools : forall h max os, 16 <= max -> Forall store_or_read os -> no_collision h os ->
  let s := erun h (new_emb max) os in
  StronglySorted Z.gt (edump s) /\
  (forall y n, adj (x_bl s) y n -> exists p, b_pool (bget (x_trie s) n) = Some p /\
     0 <= p_len p <= Z.of_nat (List.length (p_slots p)) /\
     let items := firstn (Z.to_nat (p_len p)) (p_slots p) in
     StronglySorted Z.lt (map sl_rev items) /\
     (forall sl, In sl items -> sl_del sl = false /\ brev (x_trie s) n <= sl_rev sl /\
        (y <> bmax -> sl_rev sl < brev (x_trie s) y))) /\
  (* no key is in two slots *)
  (forall k n n' j j' c c' sl sl', occ s k c n j sl -> occ s k c' n' j' sl' -> n = n' /\ j = j').
Proof.
  intros h max os HM HF HN s.
  destruct (erun_agrees h os _ _ (new_emb_rel max HM) HF) as (_ & _ & m & H); auto. fold s in H.
  destruct (er_inv _ _ H) as (xl & I). split; [|split].
  - pose proof (ei_sorted s xl I) as S. unfold edump. induction S as [|x l S IH F]; cbn [map]; constructor; auto.
    apply Forall_forall. intros z Hz. apply in_map_iff in Hz as (n & <- & Hn). rewrite Forall_forall in F. specialize (F n Hn). lia.
  - intros y n Hy. destruct (ei_pool _ _ I y n Hy) as (p & HP & K). exists p. split; auto. split; [apply (po_len _ _ _ K)|].
    split; [apply (po_sorted _ _ _ K)|]. intros sl Hs. split; [apply (er_nd _ _ H _ _ _ Hy HP sl Hs)|].
    pose proof (po_rng _ _ _ K sl Hs) as R. split; [lia|]. intros Ny. unfold up in R.
    destruct (nid_eqb y bmax) eqn:E; [apply nid_eqb_eq in E; congruence|lia].
  - intros k n n' j j' c c' sl sl' O O'. destruct (occ_uniq s xl k k c c' n n' j j' sl sl' I eq_refl O O') as (A & B & _). auto.
Qed.
Print Assumptions C25_pools.
