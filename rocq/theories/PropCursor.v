(** C75: Next and Prev of the items of the default map. *)
From Verif Require Import Base BaseProofs Util UtilProofs Bucket MapModel Spec ItemProofs MapInv MapSplit MapStep MapInit MapRefine MapAny MapMore Checks PropMap.
From Coq Require Import Sorted.
Local Open Scope Z_scope.
Local Open Scope list_scope.

(** * Model *)
(** An item in the hand of the caller is a place in the item list: the elements before it, the nearest first, and the item
    with those after it. The list package's own end markers are not elements: DirectNext of the last element is [None]. *)
(** sample_hmap_entry.go:72-74, item.go:63-65 Next *)
Definition item_next (z : zip) : option zip := match z with (l, e :: x :: r) => Some (e :: l, x :: r) | _ => None end.
(** sample_hmap_entry.go:75-77, item.go:66-68 Prev *)
Definition item_prev (z : zip) : option zip := match z with (x :: l, r) => Some (l, x :: r) | _ => None end.
(** map.go:1643-1646 First *)
Definition item_first (s : mstate) : zip := ([], m_items s).
(** the items of n calls of Next (or Prev), one after another *)
Fixpoint walk (go : zip -> option zip) (n : nat) (z : zip) : list entry :=
  match n with
  | O => []
  | S n' => match go z with
            | Some (l, e :: r) => e :: walk go n' (l, e :: r)
            | _ => []
            end
  end.
(** what the caller sees of items that are not ignored (maphead.go:32-34): Key() and Value() *)
Definition seen (s : mstate) (l : list entry) : list (option gkey * gval) := map (fun e => (view_key (m_view s) e, e_val e)) (filter (fun e => negb (ignored e)) l).

(** * Specification *)
Definition at_pos (p : Z * Z) : Z := reverse64 (fst p).
Definition show (m : smap) (x : (Z * Z) * binding) : option gkey * gval := (bd_view (sm_view m) (snd x), bd_val (snd x)).

(** * Proof *)
Lemma walk_next n : forall l e r, (List.length r <= n)%nat -> walk item_next n (l, e :: r) = r.
Proof.
  induction n as [|n IH]; intros l e [|x r] L; cbn [List.length] in L; try lia; cbn [walk item_next]; auto. f_equal. apply IH. lia.
Qed.
Lemma walk_prev n : forall l r, (List.length l <= n)%nat -> walk item_prev n (l, r) = l.
Proof.
  induction n as [|n IH]; intros [|x l] r L; cbn [List.length] in L; try lia; cbn [walk item_prev]; auto. f_equal. apply IH. lia.
Qed.
Lemma filter_all {A} (f : A -> bool) l : (forall x, In x l -> f x = true) -> filter f l = l.
Proof. induction l as [|x l IH]; intros H; cbn [filter]; auto. rewrite (H x (or_introl eq_refl)). f_equal. apply IH. intros y Y. apply H. right. auto. Qed.
Lemma filter_none {A} (f : A -> bool) l : (forall x, In x l -> f x = false) -> filter f l = [].
Proof. induction l as [|x l IH]; intros H; cbn [filter]; auto. rewrite (H x (or_introl eq_refl)). apply IH. intros y Y. apply H. right. auto. Qed.
Lemma sorted_around {A} (R : A -> A -> Prop) a x b : StronglySorted R (a ++ x :: b) -> (forall y, In y a -> R y x) /\ (forall y, In y b -> R x y).
Proof.
  induction a as [|y a IH]; intros S; cbn [app] in S; apply StronglySorted_inv in S; destruct S as [S F]; rewrite Forall_forall in F.
  - split; [intros ? []|auto].
  - destruct (IH S) as [I1 I2]. split; [|auto]. intros z [<-|Z]; auto. apply F. apply in_or_app. right. left. auto.
Qed.

Lemma cov_u64 h os : forall s m, all_covered h s m os -> Forall item_u64 os.
Proof.
  induction os as [|o os IH]; intros s m C; constructor; cbn [all_covered] in C.
  - destruct C as [[F _] _]. destruct o; cbn in *; auto. lia.
  - destruct C as [_ C]. eapply IH. exact C.
Qed.

Lemma around_filter {A} (f : A -> Z) a x b : StronglySorted (fun u v => f u < f v) (a ++ x :: b) ->
  filter (fun y => f x <? f y) (a ++ x :: b) = b /\ filter (fun y => f y <? f x) (a ++ x :: b) = a.
Proof.
  intros S. destruct (sorted_around _ _ _ _ S) as [S1 S2]. rewrite !filter_app. cbn [filter]. rewrite Z.ltb_irrefl. split.
  - rewrite filter_none, filter_all; auto; intros y Y; [specialize (S2 y Y)|specialize (S1 y Y)]; lia.
  - rewrite filter_all, filter_none; [apply app_nil_r| |]; intros y Y; [specialize (S2 y Y)|specialize (S1 y Y)]; lia.
Qed.
Lemma rev_filter {A} (f : A -> bool) l : filter f l = rev (filter f (rev l)).
Proof. induction l as [|x l IH]; cbn [rev filter]; auto. rewrite filter_app, rev_app_distr, <- IH. cbn [filter]. destruct (f x); reflexivity. Qed.
Lemma cursor_ok s m : holds s m -> ranged_map m -> (forall e r, m_items s = e :: r -> live e = false) ->
  exists P : list ((Z * Z) * binding),
    StronglySorted (fun a b => at_pos (fst a) < at_pos (fst b)) P /\ (forall p b, In (p, b) P <-> sm_map m p = Some b) /\
    forall n, (List.length (m_items s) <= n)%nat ->
      seen s (walk item_next n (item_first s)) = map (show m) P /\
      forall p b, 0 <= fst p < W64 -> sm_map m p = Some b ->
        exists z, load s (fst p) (snd p) = Ret (Some z) /\
          seen s (walk item_next n z) = map (show m) (filter (fun x => at_pos p <? at_pos (fst x)) P) /\
          seen s (walk item_prev n z) = rev (map (show m) (filter (fun x => at_pos (fst x) <? at_pos p) P)).
Proof.
  intros H R FD. destruct (holds_bindings s m H R) as [P1 P2]. exists (map binding_of (filter live (m_items s))). split; [exact P1|]. split; [exact P2|].
  assert (SB : forall l, seen s l = map (show m) (map binding_of (filter live l))).
  { intros l. unfold seen. rewrite map_map. rewrite (hd_view _ _ H). reflexivity. }
  intros n N. split.
  - unfold item_first. destruct (m_items s) as [|e r] eqn:E.
    + destruct n; reflexivity.
    + cbn [List.length] in N. rewrite walk_next by lia. rewrite SB. cbn [filter]. rewrite (FD e r eq_refl). reflexivity.
  - intros [k c] b Hk B. cbn [fst snd] in *.
    destruct (load_spec s k c (hd_inv _ _ H)) as (z & L & F). destruct (hd_at _ _ H k Hk) as [CL SL].
    pose proof (found_slot _ _ _ _ _ CL SL F) as FS. cbv beta in FS. rewrite B in FS. destruct FS as (l & e & r & -> & Ei & LA & HC & HR & HL & HB).
    exists (l, e :: r). split; auto. rewrite Ei in N. rewrite app_length, rev_length in N. cbn [List.length] in N. rewrite walk_next by lia. rewrite walk_prev by lia. rewrite !SB.
    assert (BE : binding_of e = ((k, c), bd_of e)). { unfold binding_of. rewrite HR, HC, reverse64_involutive by exact Hk. reflexivity. }
    rewrite Ei, filter_app, map_app in P1. cbn [filter] in P1. rewrite HL in P1. cbn [map] in P1. rewrite Ei, filter_app, map_app. cbn [filter]. rewrite HL. cbn [map].
    rewrite BE in P1. rewrite BE. destruct (around_filter (fun x => at_pos (fst x)) _ _ _ P1) as [F1 F2]. cbn [fst] in F1, F2. rewrite F1, F2. split; auto.
    rewrite <- !map_rev. f_equal. f_equal. apply rev_filter.
Qed.

(** After every covered history, from the item of a stored key: all calls of Next see exactly the stored keys of larger
    position, in ascending order, between sentinels and deleted items; all calls of Prev exactly those of smaller position, in
    descending order. From First, Next sees every stored key. *)
Theorem C75_next_prev : forall h view max mode pool os,
  all_covered h (new_map view max mode pool) (sm_empty view) os ->
  let s := run h (new_map view max mode pool) os in
  let m := sm_run h (sm_empty view) os in
  exists P : list ((Z * Z) * binding),
    StronglySorted (fun a b => at_pos (fst a) < at_pos (fst b)) P /\ (forall p b, In (p, b) P <-> sm_map m p = Some b) /\
    forall n, (List.length (m_items s) <= n)%nat ->
      seen s (walk item_next n (item_first s)) = map (show m) P /\
      forall key p b, key_to_hash h key = Some p -> sm_map m p = Some b ->
        exists z, load s (fst p) (snd p) = Ret (Some z) /\
          seen s (walk item_next n z) = map (show m) (filter (fun x => at_pos p <? at_pos (fst x)) P) /\
          seen s (walk item_prev n z) = rev (map (show m) (filter (fun x => at_pos (fst x) <? at_pos p) P)).
Proof.
  intros h view max mode pool os A s m.
  destruct (run_ok h os _ _ (new_map_holds view max mode pool) A) as [H _]. fold s m in H.
  assert (R : ranged_map m) by (apply sm_ranged; intros k c X; exfalso; apply X; reflexivity).
  assert (FD : forall e r, m_items s = e :: r -> live e = false).
  { destruct (run_any h os (new_map view max mode pool) (cov_u64 h os _ _ A) (new_map_inv0 _ _ _ _ _)) as [(_ & (mid & X) & _) _]. fold s in X. intros e r E. rewrite X in E. injection E as <- _. reflexivity. }
  clearbody s. destruct (cursor_ok s m H R FD) as (P & A1 & A2 & A3). exists P. split; auto. split; auto. intros n N. destruct (A3 n N) as [A4 A5]. split; auto.
  intros key p b K. apply A5. destruct p as [k c]. apply (key_range h key k c K).
Qed.
Print Assumptions C75_next_prev.

(** Next and Prev undo each other. *)
Theorem C75_there_and_back : forall z z',
  (item_next z = Some z' -> item_prev z' = Some z) /\ (snd z <> [] -> item_prev z = Some z' -> item_next z' = Some z).
Proof.
  intros [l r] [l' r']. split.
  - unfold item_next. destruct r as [|e [|x r]]; try discriminate. intros E. injection E as <- <-. reflexivity.
  - cbn [snd]. intros N. unfold item_prev. destruct l as [|x l]; [discriminate|]. intros E. injection E as <- <-. destruct r as [|e r]; [congruence|]. reflexivity.
Qed.
Print Assumptions C75_there_and_back.

(** The natural claim: Next of a present key's item is an item that is present. *)
Definition next_is_present : Prop := forall h view max mode pool os k c z z', all_covered h (new_map view max mode pool) (sm_empty view) os ->
  let s := run h (new_map view max mode pool) os in
  load s k c = Ret (Some z) -> item_next z = Some z' -> exists e l r, z' = (l, e :: r) /\ ignored e = false.
Theorem C75_next_is_present_refuted : ~ next_is_present.
Proof.
  intros H. specialize (H hx KEntry 32 CombineSearch4 false [st 21 7] 21 0).
  destruct (load (run hx (new_map KEntry 32 CombineSearch4 false) [st 21 7]) 21 0) as [[z|]| | |] eqn:L; try (vm_compute in L; discriminate L).
  destruct (item_next z) as [z'|] eqn:N.
  - specialize (H z z' ltac:(cov_tac) L N). destruct H as (e & l & r & E & IG). vm_compute in L. injection L as <-. vm_compute in N. injection N as <-. injection E as _ <- _. vm_compute in IG. discriminate IG.
  - vm_compute in L. injection L as <-. vm_compute in N. discriminate N.
Qed.
Print Assumptions C75_next_is_present_refuted.

(** From the item of 21 in a map of four keys, one of them deleted. *)
Example C75_case :
  let os := [st 21 1; st 19 2; st 23 3; OpDelete (KU64 23); OpSet (KStr "ab") (GV 1 7)] in
  let s := run hx (new_map KEntry 1 CombineSearch2 false) os in
  all_covered hx (new_map KEntry 1 CombineSearch2 false) (sm_empty KEntry) os /\
  match load s 21 0 with Ret (Some z) => map snd (seen s (walk item_prev 100 z)) = [GV 1 7] /\ map snd (seen s (walk item_next 100 z)) = [GV 1 2] /\ (2 < List.length (walk item_next 100 z))%nat | _ => False end.
Proof. cbv zeta. split; [cov_tac|]. vm_compute. split; [reflexivity|split; [reflexivity|repeat constructor]]. Qed.
