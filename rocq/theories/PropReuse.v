(** Embedded mode: Set of a key after its Purge (C24) and after its Delete (C45), exactly. *)
From Verif Require Import Base BaseProofs Util UtilProofs Bucket TrieInv MapModel Spec MapRefine EmbModel EmbSpec EmbPool EmbInv EmbRefine EmbDel EmbReuse EmbLinked EmbFull PropEmb.
From Coq Require Import ZifyBool Sorted Ascii String.
Local Open Scope Z_scope.
Local Open Scope list_scope.
Local Opaque reverse64.

(** [reuse m q x old v shown] (EmbReuse.v), spelled out: the slot still holds the old value, v is assigned over it as SetValue
    does (nil changes nothing, a value of another type panics), the key is found afterwards iff [shown]. *)
Theorem reuse_meaning : forall m q x old v shown,
  reuse m q x old v shown =
    match assign KSample old v with
    | Some (v', _) => (mkSM (sm_put m q (if shown then Some (mkBd KSample (KStr x) v') else None)) (sm_view m) (sm_created m + 1), RBool true)
    | None => (mkSM (sm_put m q (if shown then Some (mkBd KSample (KStr x) old) else None)) (sm_view m) (sm_created m), RPanic)
    end.
Proof. intros. unfold reuse. destruct (assign KSample old v) as [[v' ok]|]; [reflexivity|]. rewrite Z.add_0_r. reflexivity. Qed.

Section Law.
Variables (h : hashes) (max : Z) (os : list op) (x : string) (v : gval) (k c : Z) (b : binding) (reads : list op).
Hypothesis HM : 16 <= max.
Hypothesis HF : Forall store_or_read os.
Hypothesis HN : no_collision h os.
Hypothesis NS : existsb stops (eouts h (new_emb max) os) = false.
Let s := erun h (new_emb max) os.
Let m := sm_run h (sm_empty KSample) os.
Hypothesis EK : key_to_hash h (KStr x) = Some (k, c).
Hypothesis EM : sm_map m (k, c) = Some b.
Hypothesis RO : Forall read_only reads.

Lemma law_rel : erel s m.
Proof.
  destruct (erun_agrees h os _ _ (new_emb_rel max HM) HF (fun _ _ _ _ _ _ _ => eq_refl) HN) as (_ & [S|H] & _); [unfold stopped in S; congruence|exact H].
Qed.
Lemma law_linked : elinked s.
Proof. apply (linked_run h os (new_emb max) (sm_empty KSample)); auto using linked_new, new_emb_rel. Qed.
Lemma law_hit : eload s k c = Div \/ exists n j p, eload s k c = Ret (Some (n, j)) /\ hit s k c n j p /\ bd_val b = sl_val (slot_at p j) /\ bd_kind b = KSample /\
  (first_of_bucket (edump s) m k c <-> j = 0%nat) /\ (last_of_bucket (edump s) m k c <-> p_len p - 1 = Z.of_nat j).
Proof.
  pose proof law_rel as R. pose proof (proj1 (key_range _ _ _ _ EK)) as Hk.
  destruct (eload_rel s m k c R Hk) as [E|[(n & j & p & E & HT & HI & EX)|(E & EX)]]; [auto|right|congruence].
  exists n, j, p. rewrite EM in EX. injection EX as ->. destruct (hit_occ _ _ _ _ _ _ HT) as [HO _].
  split; auto. split; auto. split; auto. split; auto. split; [eapply first_zero; eauto|eapply last_end; eauto].
Qed.

(** what a Delete or Purge that only marks the first slot leaves *)
Lemma law_first f s1 n p : (forall sl, f sl = rewrite_slot true (sl_key sl) (sl_val sl) (sl_linked (f sl)) sl) ->
  hit s k c n 0 p -> s1 = upd_item s n 0 f ->
  agree (eouts h s1 (OpSet (KStr x) v :: reads)) (snd (sm_update m (k, c) b v) :: sm_outs h (fst (sm_update m (k, c) b v)) reads).
Proof.
  intros Hf HT ->. pose proof law_rel as R. pose proof (proj1 (key_range _ _ _ _ EK)) as Hk. destruct (er_inv _ _ R) as (xl & I).
  destruct (hit_occ _ _ _ _ _ _ HT) as [HO _].
  assert (MF : marks f) by (intros z; rewrite (Hf z); cbn; auto).
  pose proof (srel_delete f (in_first s) s m k c n 0 p MF (in_first_srel s m R) Hk HT) as SD.
  assert (F0 : in_first s (k, c) = true) by (apply (in_first_spec s xl k c n 0%nat _ I HO); auto). rewrite F0 in SD.
  assert (CN : creates_nothing h m (OpSet (KStr x) v)) by (exists (k, c); rewrite EM; split; [auto|discriminate]).
  pose proof (estep_sagrees (in_first s) h _ m (OpSet (KStr x) v) SD CN) as A. cbn [sticky_step sm_step] in A. rewrite EK, EM in A.
  apply agree_cons. destruct A as [A|[A1 A2]]; [left; exact A|right]. split; auto. apply (srel_reads (in_first s)); auto.
Qed.

(** Purge(k), then Set(k, v), then any reads: if k is the first of its bucket and not the last, the Purge had no effect; if it is
    the last and not the first, the Set answers true (or panics) and the key stays absent; otherwise the key is stored, with v assigned over the old value. *)
Theorem C24_purge_set : 
  let first := first_of_bucket (edump s) m k c in let last := last_of_bucket (edump s) m k c in
  let got := eouts h s (OpPurge (KStr x) :: OpSet (KStr x) v :: reads) in
  let want := fun e : smap * out => RBool true :: snd e :: sm_outs h (fst e) reads in
  (first /\ ~ last -> agree got (want (sm_update m (k, c) b v))) /\
  (last /\ ~ first -> agree got (want (reuse m (k, c) x (bd_val b) v false))) /\
  ((first <-> last) -> agree got (want (reuse m (k, c) x (bd_val b) v true))).
Proof.
  cbv zeta. pose proof law_rel as R. pose proof (proj1 (key_range _ _ _ _ EK)) as Hk.
  destruct law_hit as [ED|(n & j & p & EL & HT & EV & EKD & FI & LA)].
  { assert (X : forall es, agree (eouts h s (OpPurge (KStr x) :: OpSet (KStr x) v :: reads)) (RBool true :: es)).
    { intros es. apply agree_cons. left. cbn [estep]. unfold ewith. rewrite EK. unfold epurge. rewrite ED. auto. }
    split; [|split]; intros _; apply X. }
  pose proof (ru_pool s k c n j p HT) as HP. destruct (ru_ok s m k c n j p R HT) as (lo & hi & K & ND & Hj & Hr & Hc & HL).
  pose proof (po_len _ _ _ K) as PL.
  rewrite FI, LA, EV.
  set (P1 := fun lk => upd_slot p j (fun sl => set_slink lk (set_sdel sl))).
  assert (ST : estep h s (OpPurge (KStr x)) =
    (set_bpool s n (if p_len p - 1 =? Z.of_nat j then shrink_len (mkP (p_slots (P1 false)) (p_len p - 1)) else P1 true), Ret (RBool true))).
  { cbn [estep]. unfold ewith. rewrite EK. unfold epurge. rewrite EL, HP. cbv zeta. unfold P1. destruct (p_len p - 1 =? Z.of_nat j); reflexivity. }
  assert (GO : forall es, agree (eouts h (fst (estep h s (OpPurge (KStr x)))) (OpSet (KStr x) v :: reads)) es ->
     agree (eouts h s (OpPurge (KStr x) :: OpSet (KStr x) v :: reads)) (RBool true :: es)).
  { intros es A. apply agree_cons. right. rewrite ST in A |- *. cbn [fst snd seen] in *. auto. }
  assert (LST : p_len p - 1 = Z.of_nat j -> let e := reuse m (k, c) x (sl_val (slot_at p j)) v (Nat.eqb j 0) in
     agree (eouts h s (OpPurge (KStr x) :: OpSet (KStr x) v :: reads)) (RBool true :: snd e :: sm_outs h (fst e) reads)).
  { intros EJ e. apply GO. rewrite ST. cbn [fst]. destruct (Z.eqb_spec (p_len p - 1) (Z.of_nat j)); [|contradiction].
    destruct (ru_purged_last h s m x v k c n j p reads R EK EL HT RO EJ) as [SH A]. unfold P1, upd_slot. cbn [p_slots]. rewrite SH. exact A. }
  split; [|split].
  - intros [-> NL]. apply GO. rewrite ST. cbn [fst]. destruct (Z.eqb_spec (p_len p - 1) (Z.of_nat 0)); [contradiction|].
    apply (law_first (fun sl => set_slink true (set_sdel sl)) _ n p); auto. unfold upd_item. rewrite HP. reflexivity.
  - intros [EJ NJ]. specialize (LST EJ). destruct (Nat.eqb_spec j 0); [contradiction|]. exact LST.
  - intros E. destruct (Z.eq_dec (p_len p - 1) (Z.of_nat j)) as [EJ|NL].
    + specialize (LST EJ). assert (J0 : j = 0%nat) by (apply E; exact EJ). assert (BJ : Nat.eqb j 0 = true) by (rewrite J0; auto). rewrite BJ in LST. exact LST.
    + apply GO. rewrite ST. cbn [fst]. destruct (Z.eqb_spec (p_len p - 1) (Z.of_nat j)); [contradiction|].
      assert (J0 : j <> 0%nat) by (intros X; apply NL; apply E; exact X).
      apply (ru_middle h s m x v k c n j p reads R EK EL HT RO _ (fun sl => set_slink true (set_sdel sl))); auto.
      * apply moved_set.
      * lia.
      * unfold p_n in *. lia.
Qed.

(** fewer than N keys are stored in the bucket of k *)
Definition fewer_in_bucket (bs : list Z) (m : smap) (k N : Z) : Prop := forall l, NoDup l ->
  (forall r, In r l -> exists k' c', 0 <= k' < 2 ^ 64 /\ r = reverse64 k' /\ sm_map m (k', c') <> None /\
     ~ separated bs (Z.min r (reverse64 k)) (Z.max r (reverse64 k))) -> Z.of_nat (List.length l) < N.
Lemma law_fewer n j p : hit s k c n j p -> fewer_in_bucket (edump s) m k max -> p_len p < x_max s.
Proof.
  intros HT FW. pose proof law_rel as R. destruct (er_inv _ _ R) as (xl & I). destruct HT as (y & Hy & HP & K & Hj & Hr & Hc & Hv).
  assert (XM : x_max s = max) by (unfold s; rewrite max_run; reflexivity). rewrite XM.
  pose proof (po_len _ _ _ K) as PL. pose proof (live_length _ _ _ K) as LL.
  assert (X : Z.of_nat (List.length (map sl_rev (live p))) < max).
  2:{ rewrite map_length, LL in X. unfold p_n in X. lia. }
  assert (HO : occ s k c n j (slot_at p j)) by (exists y, p; auto 8).
  apply FW.
  - pose proof (po_sorted _ _ _ K) as SO. revert SO. generalize (map sl_rev (live p)). intros l SO. induction SO as [|a l S IH A]; constructor; auto.
    intros Hin. rewrite Forall_forall in A. specialize (A a Hin). lia.
  - intros r Hin. apply in_map_iff in Hin as (sl & <- & Hs). destruct (in_live _ _ _ _ K Hs) as (i & Hi & <-).
    destruct (slot_occ s xl y n p i I Hy HP Hi) as (k0 & Hk0 & E0 & O0). exists k0, (sl_conf (slot_at p i)).
    split; [exact Hk0|]. split; auto. split; [apply (occ_some s m _ _ _ _ _ R Hk0 O0)|]. rewrite <- E0.
    destruct (Z.lt_trichotomy (reverse64 k0) (reverse64 k)) as [LT|[E|GT]].
    + rewrite Z.min_l, Z.max_r by lia. destruct (place_order s xl k c n j _ k0 _ n i _ I HO O0 LT) as [(_ & _ & NSP)|(NE & _)]; [exact NSP|congruence].
    + rewrite E, Z.min_id, Z.max_id. intros (bb & _ & _ & B). lia.
    + rewrite Z.min_r, Z.max_l by lia. destruct (place_order s xl k0 _ n i _ k c n j _ I O0 HO GT) as [(_ & _ & NSP)|(NE & _)]; [exact NSP|congruence].
Qed.

(** of every sixteen neighbouring positions (from a multiple of sixteen on) one is not taken *)
Definition no_full_block (m : smap) : Prop := forall a, exists r, 16 * a <= r < 16 * a + 16 /\
  forall k' c', 0 <= k' < 2 ^ 64 -> reverse64 k' = r -> sm_map m (k', c') = None.
Lemma law_narrow n j p : hit s k c n j p -> 16 < max \/ no_full_block m -> narrow (x_max s - 1) (live p).
Proof.
  intros HT [GT|NF]; pose proof law_rel as R; destruct (er_inv _ _ R) as (xl & I); destruct HT as (y & Hy & HP & K & _);
  (assert (XM : x_max s = max) by (unfold s; rewrite max_run; reflexivity)); rewrite XM.
  - apply (narrow_strict _ _ _ _ K). lia.
  - intros a [q Ha]. destruct (NF q) as (r & Hr & NO). unfold nwin.
    assert (LE : (List.length (r :: map sl_rev (filter (inwin a) (live p))) <= List.length (map (fun i => (a + Z.of_nat i)%Z) (seq 0 16)))%nat).
    { apply NoDup_incl_length.
      - constructor.
        + intros Hin. apply in_map_iff in Hin as (sl & E & Hs). apply filter_In in Hs as [Hs _]. destruct (in_live _ _ _ _ K Hs) as (i & Hi & Ei).
          destruct (slot_occ s xl y n p i I Hy HP Hi) as (k0 & Hk0 & E0 & O0). rewrite Ei, E in E0.
          apply (occ_some s m _ _ _ _ _ R Hk0 O0). apply NO; auto.
        + pose proof (po_sorted _ _ _ K) as SO. revert SO. generalize (live p). intros l SO. induction l as [|z l IH]; cbn [filter map] in *; [constructor|].
          apply StronglySorted_inv in SO as [SO F]. destruct (inwin a z); auto. cbn [map]. constructor; auto. intros Hin. apply in_map_iff in Hin as (w & E & Hw).
          apply filter_In in Hw as [Hw _]. rewrite Forall_forall in F. specialize (F (sl_rev w) (in_map _ _ _ Hw)). lia.
      - intros z [<-|Hz].
        + apply in_map_iff. exists (Z.to_nat (r - a)). split; [lia|]. apply in_seq. lia.
        + apply in_map_iff in Hz as (sl & <- & Hs). apply filter_In in Hs as [_ Hw]. unfold inwin in Hw. apply in_map_iff. exists (Z.to_nat (sl_rev sl - a)). split; [lia|]. apply in_seq. lia. }
    cbn [List.length] in LE. rewrite !map_length, seq_length in LE. lia.
Qed.

(** Delete(k), then Set(k, v), then any reads: the first of its bucket was not removed, the Set is an update; strictly between first and
    last, v is assigned over the old value; the last but not first is stored anew. (With MaxPerBucket 16 the last case needs one of two
    more conditions, see C45_full_block_refuted.) *)
Theorem C45_delete_set :
  let first := first_of_bucket (edump s) m k c in let last := last_of_bucket (edump s) m k c in
  let got := eouts h s (OpDelete (KStr x) :: OpSet (KStr x) v :: reads) in
  let want := fun e : smap * out => RBool true :: snd e :: sm_outs h (fst e) reads in
  (first -> agree got (want (sm_update m (k, c) b v))) /\
  (~ first /\ ~ last -> agree got (want (reuse m (k, c) x (bd_val b) v true))) /\
  (last /\ ~ first -> 16 < max \/ no_full_block m \/ fewer_in_bucket (edump s) m k max ->
     agree got (want (mkSM (sm_put m (k, c) (Some (mkBd KSample (KStr x) v))) (sm_view m) (sm_created m + 1), RBool true))).
Proof.
  cbv zeta. pose proof law_rel as R. pose proof (proj1 (key_range _ _ _ _ EK)) as Hk.
  destruct law_hit as [ED|(n & j & p & EL & HT & EV & EKD & FI & LA)].
  { assert (X : forall es, agree (eouts h s (OpDelete (KStr x) :: OpSet (KStr x) v :: reads)) (RBool true :: es)).
    { intros es. apply agree_cons. left. cbn [estep]. unfold ewith. rewrite EK. unfold edelete. rewrite ED. auto. }
    split; [|split]; intros; apply X. }
  pose proof (ru_pool s k c n j p HT) as HP. destruct (ru_ok s m k c n j p R HT) as (lo & hi & K & ND & Hj & Hr & Hc & HL).
  pose proof (po_len _ _ _ K) as PL.
  rewrite FI, LA, EV.
  assert (ST : estep h s (OpDelete (KStr x)) = (upd_item s n j set_sdel, Ret (RBool true))).
  { cbn [estep]. unfold ewith. rewrite EK. unfold edelete. rewrite EL. reflexivity. }
  assert (GO : forall es, agree (eouts h (upd_item s n j set_sdel) (OpSet (KStr x) v :: reads)) es ->
     agree (eouts h s (OpDelete (KStr x) :: OpSet (KStr x) v :: reads)) (RBool true :: es)).
  { intros es A. apply agree_cons. right. rewrite ST. cbn [fst snd seen]. auto. }
  split; [|split].
  - intros ->. apply GO. apply (law_first set_sdel _ n p); auto.
  - intros [J0 NL]. apply GO. unfold upd_item. rewrite HP.
    apply (ru_middle h s m x v k c n j p reads R EK EL HT RO _ set_sdel); auto.
    + apply moved_set.
    + unfold set_sdel, rewrite_slot. rewrite (law_linked n p HP j Hj HL). reflexivity.
    + lia.
    + unfold p_n in *. lia.
  - intros [EJ J0] FW. apply GO. cbn [fst snd]. rewrite (er_view _ _ R).
    destruct FW as [FW|[FW|FW]]; [| |apply (ru_deleted_last h s m x v k c n j p reads); auto; [lia|eapply law_fewer; eauto]];
    (apply (ru_deleted_last_any h s m x v k c n j p reads); auto; [lia|eapply law_narrow; eauto]).
Qed.
End Law.

(** a bucket holds fewer than N keys when fewer than N positions were written at all *)
Lemma stored_written h os : forall m q b, sm_map (sm_run h m os) q = Some b -> sm_map m q <> None \/ In (reverse64 (fst q)) (positions h os).
Proof.
  induction os as [|o os IH]; intros m q b E; cbn [sm_run] in E; [left; congruence|].
  apply IH in E. cbn [positions flat_map]. destruct E as [E|E]; [|right; apply in_or_app; auto].
  assert (P : forall p b0, key_to_hash h (match o with OpSet k _ => k | OpStore i => i_key i | _ => KStr "" end) = Some p ->
     writes h o = Some p -> (if pair_eqb p q then b0 else sm_map m q) <> None -> sm_map m q <> None \/ In (reverse64 (fst q)) (match writes h o with Some (k, _) => [reverse64 k] | None => [] end ++ flat_map (fun o => match writes h o with Some (k, _) => [reverse64 k] | None => [] end) os)).
  { intros p b0 _ W X. rewrite W. destruct (pair_eqb_spec p q) as [EQ|EQ]; [|auto]. subst q. destruct p. right. left. auto. }
  destruct o; cbn [sm_step fst] in E; auto.
  - destruct (key_to_hash h key) as [p|] eqn:EK; auto. unfold sm_update in E.
    destruct (sm_map m p); [destruct (assign _ _ _) as [[? ?]|]; cbn in E; auto; eapply P; eauto|destruct key; cbn in E; auto; eapply P; eauto].
  - destruct (key_to_hash h (i_key i)) as [p|] eqn:EK; auto. unfold sm_update in E.
    destruct (sm_map m p); [destruct (assign _ _ _) as [[? ?]|]; cbn in E; auto; eapply P; eauto|cbn in E; auto; eapply P; eauto].
  - destruct (key_to_hash h key) as [p|] eqn:EK; auto. destruct (sm_map m p); cbn in E; auto. unfold sm_put in E. destruct (pair_eqb p q); [congruence|auto].
  - destruct (key_to_hash h key) as [p|] eqn:EK; auto. destruct (sm_map m p); cbn in E; auto. unfold sm_put in E. destruct (pair_eqb p q); [congruence|auto].
Qed.
Lemma few_written h os bs k N : Z.of_nat (List.length (positions h os)) < N -> fewer_in_bucket bs (sm_run h (sm_empty KSample) os) k N.
Proof.
  intros L l ND A. apply Z.le_lt_trans with (2 := L). apply inj_le. apply NoDup_incl_length; auto.
  intros r Hr. destruct (A r Hr) as (k' & c' & _ & -> & X & _). destruct (sm_map (sm_run h (sm_empty KSample) os) (k', c')) as [b|] eqn:E; [|congruence].
  destruct (stored_written h os _ _ _ E) as [C|C]; [cbn in C; congruence|exact C].
Qed.

(** the hypotheses are met, and the three cases of each law occur: the first, a middle and the last key of one bucket *)
Example C24_case : let os := [set_ "a" 1; set_ "b" 2; set_ "c" 3] in let s := erun (hpos five) (new_emb 32) os in
  let after := fun x => eouts (hpos five) s [pur_ x; set_ x 9; get_ x] in
  Forall store_or_read os /\ no_collision (hpos five) os /\ existsb stops (eouts (hpos five) (new_emb 32) os) = false /\
  sm_map (sm_run (hpos five) (sm_empty KSample) os) (pos_of five "c", 1) = Some (mkBd KSample (KStr "c") (GV 1 3)) /\
  map (fun x => key_to_hash (hpos five) (KStr x)) ["a"; "b"; "c"]%string = map (fun x => Some (pos_of five x, 1)) ["a"; "b"; "c"]%string /\
  map after ["a"; "b"; "c"]%string =
    [[Ret (RBool true); Ret (RBool true); Ret (RVal (GV 1 9) true)];
     [Ret (RBool true); Ret (RBool true); Ret (RVal (GV 1 9) true)];
     [Ret (RBool true); Ret (RBool true); Ret (RVal GNil false)]] /\
  eouts (hpos five) s [pur_ "a"; get_ "a"] = [Ret (RBool true); Ret (RVal (GV 1 1) true)] /\
  eouts (hpos five) s [pur_ "b"; OpSet (KStr "b") GNil; get_ "b"] = [Ret (RBool true); Ret (RBool true); Ret (RVal (GV 1 2) true)].
Proof.
  cbv zeta. split; [apply sor_ok; reflexivity|]. split; [apply nocol_ok; vm_compute; reflexivity|].
  repeat apply conj; vm_compute; reflexivity.
Qed.
Example C45_case : let os := [set_ "a" 1; set_ "b" 2; set_ "c" 3] in let s := erun (hpos five) (new_emb 32) os in
  let after := fun x => eouts (hpos five) s [del_ x; OpSet (KStr x) GNil; get_ x] in
  Forall store_or_read os /\ no_collision (hpos five) os /\
  fewer_in_bucket (edump s) (sm_run (hpos five) (sm_empty KSample) os) (pos_of five "c") 32 /\
  map after ["a"; "b"; "c"]%string =
    [[Ret (RBool true); Ret (RBool false); Ret (RVal (GV 1 1) true)];
     [Ret (RBool true); Ret (RBool true); Ret (RVal (GV 1 2) true)];
     [Ret (RBool true); Ret (RBool true); Ret (RVal GNil true)]].
Proof.
  cbv zeta. split; [apply sor_ok; reflexivity|]. split; [apply nocol_ok; vm_compute; reflexivity|].
  split; [apply few_written; vm_compute; reflexivity|]. vm_compute; reflexivity.
Qed.

(** With MaxPerBucket 16 a Delete and a Set of one key can take other keys away: sixteen keys at the sixteen positions of a bucket. *)
Definition delete_set_spares_others : Prop := forall h max os x y v, 16 <= max ->
  Forall store_or_read os -> no_collision h os -> existsb stops (eouts h (new_emb max) os) = false -> x <> y ->
  let s := erun h (new_emb max) os in
  skipn 2 (eouts h s [OpDelete (KStr x); OpSet (KStr x) v; OpGet (KStr y)]) = eouts h s [OpGet (KStr y)].
Definition block : list (string * Z) :=
  map (fun i => (str i, Z.of_nat i)) (seq 0 16) ++ map (fun i => (str (100 - i), 2 ^ Z.of_nat (60 - i))) (seq 1 56).
Lemma spares_no h max os x y v a b : ~ (max < 16) -> Forall store_or_read os -> no_collision h os -> existsb stops (eouts h (new_emb max) os) = false -> x <> y ->
  skipn 2 (eouts h (erun h (new_emb max) os) [OpDelete (KStr x); OpSet (KStr x) v; OpGet (KStr y)]) = a -> eouts h (erun h (new_emb max) os) [OpGet (KStr y)] = b -> a <> b ->
  ~ delete_set_spares_others.
Proof. intros L S1 S2 S3 S4 E1 E2 N H. apply N. rewrite <- E1, <- E2. apply H; auto. lia. Qed.
Theorem C45_full_block_refuted : ~ delete_set_spares_others.
Proof.
  refine (spares_no (hpos block) 16 (fill block) (str 15) (str 9) (GV 1 9) [Ret (RVal GNil false)] [Ret (RVal (GV 1 9) true)] _ _ _ _ _ _ _ _).
  - discriminate.
  - apply sor_ok. vm_compute. reflexivity.
  - apply nocol_ok. vm_compute. reflexivity.
  - vm_compute. reflexivity.
  - vm_compute. discriminate.
  - vm_compute. reflexivity.
  - vm_compute. reflexivity.
  - discriminate.
Qed.
(** ... and a full bucket of a map with MaxPerBucket 17, where the law applies: the last key, deleted and set again, splits the bucket. *)
Example C45_case_full : let l := map (fun i => (str i, Z.of_nat i * 2 ^ 55)) (seq 1 17) in let os := fill l in let s := erun (hpos l) (new_emb 17) os in
  Forall store_or_read os /\ no_collision (hpos l) os /\ existsb stops (eouts (hpos l) (new_emb 17) os) = false /\
  List.length (edump s) = 17%nat /\ List.length (edump (erun (hpos l) s [del_ (str 17); set_ (str 17) 9])) = 18%nat /\
  eouts (hpos l) s [del_ (str 17); get_ (str 17); set_ (str 17) 9; get_ (str 17); get_ (str 16); OpLen] =
    [Ret (RBool true); Ret (RVal GNil false); Ret (RBool true); Ret (RVal (GV 1 9) true); Ret (RVal (GV 1 11) true); Ret (RLen 18)].
Proof.
  cbv zeta. split; [apply sor_ok; vm_compute; reflexivity|]. split; [apply nocol_ok; vm_compute; reflexivity|].
  repeat apply conj; vm_compute; reflexivity.
Qed.
Print Assumptions C24_purge_set.
Print Assumptions C45_delete_set.
Print Assumptions C45_full_block_refuted.
