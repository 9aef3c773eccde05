(** SearchKey (C60) and the small arithmetic helpers (C61). *)
From Verif Require Import Base BaseProofs Util Bucket UtilProofs MapModel ItemProofs Spec TrieInv MapInv MapAny MapMore MapRefine EmbModel EmbSpec EmbPool EmbInv EmbRefine Checks PropMap PropEmb.
From Coq Require Import PeanoNat ZifyBool Ascii String.
Local Open Scope Z_scope.
Local Open Scope list_scope.
Local Opaque reverse64.

(** * SearchKey *)

(** map.go:1374-1393 SearchKey / searchKey on the default map, called without options (searchArg is not exported): the shared
    option is true (C35), so this is searchBybucket from the bucket that searchBucket4Key4 (map.go:1426-1435) picks. Same search
    as [get], no look at the conflict code. *)
Definition search_key (s : mstate) (k : Z) : res (option zip) :=
  let rv := reverse64 k in
  let b := find_bucket (m_trie s) rv in
  let p := prev_as_b (m_bl s) b in
  let b' := if negb (m_mode s =? CombineSearch)
               && negb (near (brev (m_trie s) p) (brev (m_trie s) b) rv =? brev (m_trie s) b)
            then p else b in
  search s b' rv.
(** What the caller sees: the item's KeyInHmap (maphead.go:28-30), ConflictInHamp (maphead.go:44-46), Key() and Value(). *)
Inductive sk_out := SKNil | SKPanic | SKItem (hash conf : Z) (key : option gkey) (v : gval).
Definition sk_result (s : mstate) (r : res (option zip)) : sk_out :=
  match r with
  | Ret (Some (_, e :: _)) => SKItem (key_in_hmap (e_rev e)) (e_conf e) (view_key (m_view s) e) (e_val e)
  | Ret _ => SKNil
  | _ => SKPanic
  end.
Definition api_search_key (s : mstate) (k : Z) : sk_out := sk_result s (search_key s (u64 k)).

(** The answer expected of a finite map m: the binding whose key has the 64-bit hash k, if there is one. *)
Definition sk_expected (m : smap) (k : Z) (r : sk_out) : Prop :=
  match r with
  | SKItem hash conf key v => hash = k /\ exists b, sm_map m (k, conf) = Some b /\ key = bd_view (sm_view m) b /\ v = bd_val b
  | SKNil => forall conf, sm_map m (k, conf) = None
  | SKPanic => False
  end.
Lemma u64_small k : 0 <= k < 2 ^ 64 -> u64 k = k.
Proof. intros H. unfold u64. apply Z.mod_small. exact H. Qed.
Lemma key_in_hmap_rev k : 0 <= k < 2 ^ 64 -> key_in_hmap (reverse64 k) = k.
Proof. intros H. unfold key_in_hmap. apply reverse64_involutive. exact H. Qed.
Lemma search_key_spec s k : sinv s -> exists z, search_key s k = Ret z /\
  match z with
  | Some (l, e :: r) => m_items s = rev l ++ e :: r /\ ItemProofs.live e = true /\ e_rev e = reverse64 k
  | Some _ => False
  | None => clear (reverse64 k) (m_items s) -> live_at (reverse64 k) (m_items s) = []
  end.
Proof.
  intros I. unfold search_key. pose proof (reverse64_range k) as R. generalize dependent (reverse64 k). intros rv R.
  destruct (find_bucket_present s rv I R) as [Hp _]. cbv zeta.
  match goal with |- context [search s (if ?c then ?a else ?d) rv] => set (b := if c then a else d) end.
  assert (Hb : present (m_trie s) b). { unfold b. destruct (_ && _); auto. apply prev_as_b_present; auto. }
  clearbody b. apply search_spec; auto.
Qed.
(** Every covered history (as in C07), every configuration: SearchKey finds exactly the key with that hash, and does not panic. *)
Theorem C60_search_key : forall h view max mode pool os k, all_covered h (new_map view max mode pool) (sm_empty view) os -> 0 <= k < 2 ^ 64 ->
  sk_expected (sm_run h (sm_empty view) os) k (api_search_key (run h (new_map view max mode pool) os) k).
Proof.
  intros h view max mode pool os k A Hk. destruct (run_ok h os _ _ (new_map_holds view max mode pool) A) as [H _].
  set (s := run h (new_map view max mode pool) os) in *. set (m := sm_run h (sm_empty view) os) in *.
  unfold api_search_key. rewrite u64_small by exact Hk. destruct (search_key_spec s k (hd_inv _ _ H)) as (z & -> & Z).
  destruct (hd_at _ _ H k Hk) as [C SL]. destruct z as [[l [|e r]]|]; [destruct Z| |]; cbn [sk_result sk_expected].
  - destruct Z as (Ei & HL & HR). rewrite HR, key_in_hmap_rev by exact Hk. split; [reflexivity|].
    assert (Hin : In e (live_at (reverse64 k) (m_items s))). { apply live_at_in. split; auto. rewrite Ei. apply in_or_app. right. left. auto. }
    unfold slot_ok in SL. destruct (live_at (reverse64 k) (m_items s)) as [|x [|y q]]; [destruct Hin| |destruct SL]. destruct Hin as [->|[]]. destruct SL as [S1 _].
    exists (bd_of e). split; [exact S1|]. rewrite <- (hd_view _ _ H). split; [|reflexivity].
    unfold view_key, bd_view, bd_of. cbn. destruct (m_view s), (e_kind e); try reflexivity; unfold ItemProofs.live, ignored in HL; destruct (e_dummy e), (e_del e); try discriminate HL; reflexivity.
  - rewrite (Z C) in SL. exact SL.
Qed.
Print Assumptions C60_search_key.

(** Any history whatever: an item that SearchKey returns has that hash and is in the map, not deleted; and GetByHash(k, c) finds v
    iff SearchKey(k) returns an item with conflict code c and value v. *)
Theorem C60_search_any_history : forall h view max mode pool os k, 0 <= k < 2 ^ 64 ->
  let s := run h (new_map view max mode pool) os in
  (forall hash c key v, api_search_key s k = SKItem hash c key v -> hash = k /\ exists e, In e (m_items s) /\ ignored e = false /\ e_conf e = c /\ e_val e = v) /\
  (forall c v, 0 <= c < 2 ^ 64 -> snd (step h s (OpGetByHash k c)) = RVal v true <-> exists key, api_search_key s k = SKItem k c key v).
Proof.
  intros h view max mode pool os k Hk s. unfold api_search_key. rewrite u64_small by auto.
  assert (SZ : forall z, search_key s k = Ret (Some z) -> exists l e r, z = (l, e :: r) /\ m_items s = rev l ++ e :: r /\ ItemProofs.live e = true /\ e_rev e = reverse64 k) by (intros z; apply search_zip).
  split.
  - intros hash c key v. destruct (search_key s k) as [[z|]| | |] eqn:E; cbn [sk_result]; try discriminate. destruct (SZ z eq_refl) as (l & e & r & -> & Ei & HL & HR).
    intros H. injection H as <- <- _ <-. split; [rewrite HR; apply key_in_hmap_rev; auto|]. exists e. split; [rewrite Ei; apply in_or_app; right; left; auto|]. split; [|auto].
    unfold ItemProofs.live in HL. destruct (ignored e); [discriminate HL|reflexivity].
  - intros c v Hc. cbn [step]. rewrite !u64_small by auto. change (MapModel.get s k c) with (rbind (search_key s k) (fun z => Ret (check_pair (reverse64 k) c z))).
    destruct (search_key s k) as [[z|]| | |] eqn:E; cbn [rbind get_val sk_result]; try (split; [discriminate|intros (key & X); discriminate X]).
    destruct (SZ z eq_refl) as (l & e & r & -> & Ei & HL & HR). cbn [check_pair]. rewrite HR, Z.eqb_refl. cbn [andb]. rewrite key_in_hmap_rev by auto.
    destruct (Z.eqb_spec (e_conf e) c) as [EC|NC]; cbn [get_val snd].
    + rewrite EC. split; [intros H; injection H as <-; eauto|intros (key & H); injection H; intros; subst; auto].
    + split; [discriminate|intros (key & H); injection H; intros; contradiction].
Qed.
Print Assumptions C60_search_any_history.
Definition os60 : list op := [st 21 1; st 22 2; st 53 3; st 85 4; OpGet (KInt 85); st 117 5; OpDelete (KInt 22); OpGet (KU64 22); st 22 6; st 21 7; OpDelete (KInt 53)].
Example C60_case : all_covered hx (new_map KEntry 1 CombineSearch2 false) (sm_empty KEntry) os60 /\
  map (api_search_key (run hx (new_map KEntry 1 CombineSearch2 false) os60)) [22; 85; 53; 23] =
    [SKItem 22 0 (Some (KU64 22)) (GV 1 6); SKItem 85 0 (Some (KU64 85)) (GV 1 4); SKNil; SKNil].
Proof. split; [unfold os60; cov_tac|]. vm_compute. reflexivity. Qed.

(** map_embedded.go:54-59 searchKeyFromEmbeddedPool: bsearchBybucket (map_embedded.go:21-52) on the bucket of the position. *)
Definition esearch_key (s : estate) (k : Z) : res (option slot) :=
  let rv := reverse64 k in
  match pool_of (x_trie s) (find_bucket (x_trie s) rv) with
  | None => Div
  | Some p => match emb_search p rv with None => Ret None | Some i => Ret (Some (slot_at p i)) end
  end.
(** what the caller sees; [None]: the call never returns *)
Definition api_esearch_key (s : estate) (k : Z) : option sk_out :=
  match esearch_key s (u64 k) with
  | Ret (Some sl) => Some (SKItem (key_in_hmap (sl_rev sl)) (sl_conf sl) (Some (sl_key sl)) (sl_val sl))
  | Ret None => Some SKNil
  | Pan => Some SKPanic
  | Div | Undef => None
  end.
(** Histories of Sets and reads without equal hashes (as in C20) in which every call returned: SearchKey, if it returns, finds
    exactly the key with that hash. *)
Theorem C60_embedded_search_key : forall h max os k r, 16 <= max -> Forall store_or_read os -> no_collision h os ->
  existsb stops (eouts h (new_emb max) os) = false -> 0 <= k < 2 ^ 64 ->
  api_esearch_key (erun h (new_emb max) os) k = Some r -> sk_expected (sm_run h (sm_empty KSample) os) k r.
Proof.
  intros h max os k r HM HF HN NS Hk R.
  destruct (erun_agrees h os _ _ (new_emb_rel max HM) HF (fun _ _ _ _ _ _ _ => eq_refl) HN) as (_ & [S|H] & _); [unfold stopped in S; congruence|].
  set (s := erun h (new_emb max) os) in *. set (m := sm_run h (sm_empty KSample) os) in *.
  unfold api_esearch_key, esearch_key in R. rewrite u64_small in R by auto. pose proof (reverse64_range k) as RR.
  destruct (pool_of (x_trie s) (find_bucket (x_trie s) (reverse64 k))) as [p|] eqn:EP; [|discriminate R].
  destruct (er_inv _ _ H) as (xl & I). destruct (ei_route s xl I _ p RR EP) as (y & Hy & Ri & HP & K).
  assert (LD : forall c, eload s k c = match emb_search p (reverse64 k) with
             | None => Ret None
             | Some i => if (sl_rev (slot_at p i) =? reverse64 k) && (sl_conf (slot_at p i) =? c) then Ret (Some (base (x_trie s) (find_bucket (x_trie s) (reverse64 k)), i)) else Ret None
             end) by (intros c; unfold eload; rewrite EP; reflexivity).
  destruct (emb_search p (reverse64 k)) as [i|] eqn:ES.
  - destruct (search_some _ _ _ _ K i ES) as [Hi _].
    assert (ER : sl_rev (slot_at p i) = reverse64 k).
    { unfold emb_search in ES. destruct (andb _ _) eqn:C in ES; [|discriminate ES]. injection ES as ES. apply andb_true_iff in C as [C1 C2].
      assert (ND : sl_del (nth (sort_search (p_n p) 0 (p_n p) (fun i0 : nat => reverse64 k <=? sl_rev (slot_at p (skip_left (p_slots p) i0)))) (p_slots p) zero_slot) = false).
      { apply (er_nd _ _ H _ _ _ Hy HP). eapply live_in; [exact K|]. apply Nat.ltb_lt. exact C1. }
      rewrite (skip_left_self _ _ ND) in ES. rewrite <- ES. apply Z.eqb_eq. exact C2. }
    injection R as <-. cbn [sk_expected]. rewrite ER, key_in_hmap_rev by auto. split; [reflexivity|].
    specialize (LD (sl_conf (slot_at p i))). rewrite ER, !Z.eqb_refl in LD. cbn [andb] in LD.
    destruct (eload_rel s m k (sl_conf (slot_at p i)) H Hk) as [X|[(n & j & q & X & HT & HI & SM)|(X & _)]]; [congruence| |congruence].
    rewrite LD in X. injection X as <- <-. unfold item_at in HI. rewrite HP in HI. rewrite <- HI in SM.
    eexists. split; [exact SM|]. rewrite (er_view _ _ H). auto.
  - injection R as <-. cbn [sk_expected]. intros c. specialize (LD c).
    destruct (eload_rel s m k c H Hk) as [X|[(n & j & q & X & _)|(_ & X)]]; [congruence|congruence|exact X].
Qed.
Print Assumptions C60_embedded_search_key.
Example C60_embedded_case :
  let os := [set_ "a" 1; set_ "c" 3; set_ "b" 2; set_ "d" 4; set_ "b" 5; get_ "a"] in
  Forall store_or_read os /\ no_collision (hpos five) os /\ existsb stops (eouts (hpos five) (new_emb 32) os) = false /\
  option_map fst (key_to_hash (hpos five) (KStr "b")) = Some (reverse64 20) /\
  api_esearch_key (erun (hpos five) (new_emb 32) os) (reverse64 20) = Some (SKItem (reverse64 20) 1 (Some (KStr "b")) (GV 1 5)).
Proof.
  cbv zeta. split; [apply sor_ok; vm_compute; reflexivity|]. split; [apply nocol_ok; vm_compute; reflexivity|]. split; [vm_compute; reflexivity|]. split; vm_compute; reflexivity.
Qed.

(** Embedded mode, with Deletes: that SearchKey returns no key whose Delete has returned true is false (the first of a bucket, see C22). *)
Theorem C60_embedded_after_delete_refuted : ~ (forall h max os key k c, 16 <= max -> no_collision h os -> existsb stops (eouts h (new_emb max) (os ++ [OpDelete key])) = false ->
  key_to_hash h key = Some (k, c) -> snd (estep h (erun h (new_emb max) os) (OpDelete key)) = Ret (RBool true) ->
  api_esearch_key (erun h (new_emb max) (os ++ [OpDelete key])) k = Some SKNil).
Proof.
  intros H. specialize (H (hpos five) 32 [set_ "a" 1; set_ "b" 2; set_ "c" 3] (KStr "a") (reverse64 10) 1 ltac:(lia)).
  assert (X : api_esearch_key (erun (hpos five) (new_emb 32) ([set_ "a" 1; set_ "b" 2; set_ "c" 3] ++ [del_ "a"])) (reverse64 10) = Some SKNil).
  { apply H; [apply nocol_ok; vm_compute; reflexivity|vm_compute; reflexivity|reflexivity|vm_compute; reflexivity]. }
  vm_compute in X. discriminate X.
Qed.
Print Assumptions C60_embedded_after_delete_refuted.

(** * C61: sizes and codes *)
(** util.go:91-102 maxInts: the greatest of its arguments, 0 without arguments *)
Theorem C61_max_ints : forall l, (l = [] -> max_ints l = 0) /\ (l <> [] -> In (max_ints l) l /\ forall y, In y l -> y <= max_ints l).
Proof. intros l. split; [intros ->; reflexivity|apply max_ints_spec]. Qed.
Print Assumptions C61_max_ints.
(** calcCap: more room than asked for, and at most twice as much *)
Theorem C61_calc_cap : forall n, 0 < n < 2 ^ 61 -> n < calc_cap n <= 2 * n.
Proof.
  intros n H. unfold calc_cap. destruct (Z.ltb_spec 1024 n).
  - pose proof (Z.div_mod n 4 ltac:(lia)). pose proof (Z.mod_pos_bound n 4 ltac:(lia)). lia.
  - assert (H60 : n < 2 ^ 60) by (assert (1024 < 2 ^ 60) by reflexivity; lia). assert (H59 : n < 2 ^ 59) by (assert (1024 < 2 ^ 59) by reflexivity; lia).
    destruct (first_zero_shift_spec 60 0 n ltac:(lia) ltac:(intros; lia) H60 ltac:(lia) H59) as (k & E & Hk & Hj).
    rewrite E, int_pow_spec. split; auto. destruct k as [|k]; [simpl in Hk; lia|]. specialize (Hj k ltac:(lia)). rewrite Nat2Z.inj_succ, Z.pow_succ_r by lia. lia.
Qed.
Print Assumptions C61_calc_cap.
(** the error numbers are different and fit in 16 bits *)
Theorem C61_error_codes : NoDup err_codes /\ Forall (fun x => 0 < x < 2 ^ 16) err_codes.
Proof.
  split; [|repeat constructor].
  assert (ND : forall l, (fix nd (l : list Z) := match l with [] => true | x :: l' => negb (existsb (Z.eqb x) l') && nd l' end) l = true -> NoDup l).
  { induction l as [|x l IH]; intros X; [constructor|]. apply andb_true_iff in X as [X1 X2]. constructor; [|auto]. intros I. apply negb_true_iff in X1.
    rewrite <- not_true_iff_false in X1. apply X1. apply existsb_exists. exists x. split; auto. apply Z.eqb_refl. }
  apply ND. vm_compute. reflexivity.
Qed.
Print Assumptions C61_error_codes.
Example C61_case : max_ints [3; 9; 4] = 9 /\ max_ints [-5; -7] = -5 /\ map calc_cap [1; 100; 1024; 2000] = [2; 128; 2048; 2500].
Proof. vm_compute. auto. Qed.
