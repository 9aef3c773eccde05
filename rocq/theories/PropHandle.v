(** C78: items of the default map that the caller keeps (LoadItem, LoadItemByHash) and calls later. *)
From Verif Require Import Base BaseProofs Util UtilProofs Bucket TrieProofs TrieInv TrieGrow MapModel ItemProofs
  MapInv MapSplit MapStep MapInit Spec MapRefine MapAny MapSafe MapMore Checks PropMap PropCursor PropReent.
From Coq Require Import ZifyBool Sorted.
Local Open Scope Z_scope.
Local Open Scope list_scope.
Local Opaque reverse64 level_of base find_bucket.

(** * Model *)
(** A kept item: the Go type through which it was handed out (ItemFn at that moment, map.go:447-533) and the element of the item
    list it points to, by its number; calls move it as they move the current item of Range (PropReent.step_at). Only for maps
    without an item pool, whose items stay where they are. *)
Notation handle := (ikind * nat)%type.
(** calls of the map, and of kept item number j: Value(), Key(), IsDeleted(), SetValue(v), Delete()
    (sample_hmap_entry.go:47-65, 83-85; item.go:50-61, 80-83; maphead.go:40-42) *)
Inductive hop :=
| HCall (o : op)
| HLoad (key : gkey)             (* LoadItem, and the item is kept *)
| HLoadByHash (k c : Z)          (* LoadItemByHash *)
| HStore (it : item)             (* StoreItem, and the caller keeps its item; of an item that is not linked into the map because its
                                    key is present (map.go:711-714) nothing is kept, no call of the map comes upon it *)
| HValue (j : nat) | HKey (j : nat) | HIsDeleted (j : nat) | HSetValue (j : nat) (v : gval) | HDelete (j : nat).
Inductive hout := HOut (o : out) | HVal (v : gval) | HName (k : option gkey) | HBool (b : bool) | HNone.

(** what the search found, as a kept item *)
Definition keep (s : mstate) (r : res (option zip)) : list handle :=
  match r with Ret (Some (l, _ :: _)) => [(m_view s, List.length l)] | _ => [] end.
Definition hstate := (mstate * list handle)%type.
Definition set_nth (s : mstate) (i : nat) (e : entry) : mstate := set_items s (upd_nth i e (m_items s)).
(** the place at which StoreItem links the caller's item (map.go:708-717, 329-435), which is read with its own type *)
Definition linked (h : hashes) (s : mstate) (it : item) : list handle :=
  match item_hash h it with
  | Some (k, c) =>
      match load s k c with
      | Ret None =>
          let n := find_bucket (m_trie s) (reverse64 k) in
          match head_z s n with
          | Some zd => match add_item s n zd (t_start (reverse64 k) zd) (entry_of it k c) with
                       | Some z => [(i_kind it, over_head (unzip z) (m_items (fst (set_ s k n (entry_of it k c)))) (List.length (fst z)))]
                       | None => []
                       end
          | None => []
          end
      | _ => []
      end
  | None => []
  end.
Definition hstep (h : hashes) (x : hstate) (o : hop) : hstate * hout :=
  let '(s, hs) := x in
  match o with
  | HCall o => ((fst (step h s o), map (fun q => (fst q, step_at h s o (snd q))) hs), HOut (snd (step h s o)))
  | HLoad key => ((s, hs ++ match key_to_hash h key with Some (k, c) => keep s (load s k c) | None => [] end), HOut (snd (step h s (OpLoad key))))
  | HLoadByHash k c => ((s, hs ++ keep s (get s (u64 k) (u64 c))), HOut (snd (step h s (OpLoadByHash k c))))
  | HStore it => ((fst (step h s (OpStore it)), map (fun q => (fst q, step_at h s (OpStore it) (snd q))) hs ++ linked h s it), HOut (snd (step h s (OpStore it))))
  | HValue j | HKey j | HIsDeleted j | HSetValue j _ | HDelete j =>
      match nth_error hs j with
      | None => (x, HNone)
      | Some (view, i) =>
          match nth_error (m_items s) i with
          | None => (x, HNone)
          | Some e =>
              match o with
              | HValue _ => (x, HVal (e_val e))
              | HKey _ => (x, HName (view_key view e))
              | HIsDeleted _ => (x, HBool (e_del e))
              | HSetValue _ v => match set_value view (e_val e) v with
                                 | None => (x, HOut RPanic)
                                 | Some (v', ok) => ((set_nth s i (set_e_val e v'), hs), HBool ok)
                                 end
              | _ => ((set_nth s i (del_entry view e), hs), HBool true)
              end
          end
      end
  end.
Fixpoint hrun (h : hashes) (x : hstate) (os : list hop) : hstate :=
  match os with [] => x | o :: os' => hrun h (fst (hstep h x o)) os' end.
Fixpoint houts (h : hashes) (x : hstate) (os : list hop) : list hout :=
  match os with [] => [] | o :: os' => snd (hstep h x o) :: houts h (fst (hstep h x o)) os' end.

(** * Specification *)
(** A map from keys to objects. A key that appears gets a new object; the object stays as long as the key stays; when the key
    goes, the object remains, by itself, with the value it had. What a call answers and does to the map is Spec.v. *)
Record obj := mkOb { ob_bd : binding; ob_gone : bool }.
Record omap := mkOM { om_at : Z * Z -> option nat; om_obs : list obj; om_view : ikind; om_created : Z }.
Definition flat (m : omap) : smap :=
  mkSM (fun p => match om_at m p with Some i => option_map ob_bd (nth_error (om_obs m) i) | None => None end) (om_view m) (om_created m).
(** what Delete leaves of an item: entryHMap.Delete clears the key *)
Definition erased (view : ikind) (b : binding) : binding :=
  mkBd (bd_kind b) (match view with KSample => bd_key b | KEntry => match bd_kind b with KSample => KStr "" | KEntry => KNil end end) (bd_val b).
Definition om_set (m : omap) (i : nat) (o : obj) : list obj := upd_nth i o (om_obs m).
Definition bind (f : Z * Z -> option nat) (p : Z * Z) (x : option nat) : Z * Z -> option nat := fun q => if pair_eqb p q then x else f q.
Definition om_step (h : hashes) (m : omap) (o : op) : omap :=
  let m' := fst (sm_step h (flat m) o) in
  let '(at_, obs) :=
    match touches h o with
    | None => (om_at m, om_obs m)
    | Some p =>
        match om_at m p, sm_map m' p with
        | Some i, Some b => (om_at m, om_set m i (mkOb b false))
        | Some i, None => (bind (om_at m) p None,
                           match nth_error (om_obs m) i with Some x => om_set m i (mkOb (erased (om_view m) (ob_bd x)) true) | None => om_obs m end)
        | None, Some b => (bind (om_at m) p (Some (List.length (om_obs m))), om_obs m ++ [mkOb b false])
        | None, None => (om_at m, om_obs m)
        end
    end in
  mkOM at_ obs (sm_view m') (sm_created m').
(** a kept item is an object, seen through a type *)
Definition ostate := (omap * list handle)%type.
Definition okeep (m : omap) (p : Z * Z) : list handle := match om_at m p with Some i => [(om_view m, i)] | None => [] end.
(** the object a StoreItem makes *)
Definition onew (h : hashes) (m : omap) (it : item) : list handle :=
  match key_to_hash h (i_key it) with
  | Some p => match om_at m p with None => [(i_kind it, List.length (om_obs m))] | Some _ => [] end
  | None => []
  end.
Definition ostep (h : hashes) (x : ostate) (o : hop) : ostate * hout :=
  let '(m, hs) := x in
  match o with
  | HCall o => ((om_step h m o, hs), HOut (snd (sm_step h (flat m) o)))
  | HLoad key => ((m, hs ++ match key_to_hash h key with Some p => okeep m p | None => [] end), HOut (snd (sm_step h (flat m) (OpLoad key))))
  | HLoadByHash k c => ((m, hs ++ okeep m (u64 k, u64 c)), HOut (snd (sm_step h (flat m) (OpLoadByHash k c))))
  | HStore it => ((om_step h m (OpStore it), hs ++ onew h m it), HOut (snd (sm_step h (flat m) (OpStore it))))
  | HValue j | HKey j | HIsDeleted j | HSetValue j _ | HDelete j =>
      match nth_error hs j with
      | None => (x, HNone)
      | Some (view, i) =>
          match nth_error (om_obs m) i with
          | None => (x, HNone)
          | Some b =>
              match o with
              | HValue _ => (x, HVal (bd_val (ob_bd b)))
              | HKey _ => (x, HName (bd_view view (ob_bd b)))
              | HIsDeleted _ => (x, HBool (ob_gone b))
              | HSetValue _ v => match assign view (bd_val (ob_bd b)) v with
                                 | None => (x, HOut RPanic)
                                 | Some (v', ok) => ((mkOM (om_at m) (om_set m i (mkOb (mkBd (bd_kind (ob_bd b)) (bd_key (ob_bd b)) v') (ob_gone b))) (om_view m) (om_created m), hs), HBool ok)
                                 end
              | _ => ((mkOM (fun p => match om_at m p with Some i' => if (i' =? i)%nat then None else Some i' | None => None end)
                            (om_set m i (mkOb (erased view (ob_bd b)) true)) (om_view m) (om_created m), hs), HBool true)
              end
          end
      end
  end.
Fixpoint orun (h : hashes) (x : ostate) (os : list hop) : ostate :=
  match os with [] => x | o :: os' => orun h (fst (ostep h x o)) os' end.
Fixpoint oouts (h : hashes) (x : ostate) (os : list hop) : list hout :=
  match os with [] => [] | o :: os' => snd (ostep h x o) :: oouts h (fst (ostep h x o)) os' end.
Definition om_empty (view : ikind) : omap := mkOM (fun _ => None) [] view 0.
(** every call of the map is covered (Spec.covered) when it is made *)
Definition map_call (o : hop) : option op := match o with HCall c => Some c | HStore it => Some (OpStore it) | _ => None end.
Fixpoint hcovered (h : hashes) (x : hstate) (y : ostate) (os : list hop) : Prop :=
  match os with
  | [] => True
  | o :: os' => match map_call o with Some c => covered h (dump_bucket (fst x)) (flat (fst y)) c | None => True end /\
                hcovered h (fst (hstep h x o)) (fst (ostep h y o)) os'
  end.

(** * Proof *)
Lemma holds_ext s m m' : holds s m -> (forall p, sm_map m p = sm_map m' p) -> sm_view m = sm_view m' -> sm_created m = sm_created m' -> holds s m'.
Proof.
  intros H E V C. constructor.
  - apply (hd_inv _ _ H).
  - rewrite <- V. apply (hd_view _ _ H).
  - rewrite <- C. apply (hd_len _ _ H).
  - intros k Hk. destruct (hd_at _ _ H k Hk) as [A B]. split; auto. unfold slot_ok in *. destruct (live_at (reverse64 k) (m_items s)) as [|e [|]]; auto.
    + intros c. rewrite <- E. auto.
    + destruct B as [B1 B2]. split; [rewrite <- E; auto|]. intros c N. rewrite <- E. auto.
Qed.
Lemma covered_ext h bs m m' o : (forall p, sm_map m p = sm_map m' p) -> covered h bs m o -> covered h bs m' o.
Proof.
  intros E [A B]. split; auto. destruct (writes h o) as [[k c]|]; auto. destruct B as [B|(B1 & B2 & B3)]; [left; rewrite <- E; auto|].
  right. split; auto. split; auto. intros c'. rewrite <- E. auto.
Qed.
Lemma upd_nth_length {A} i (x : A) : forall l, List.length (upd_nth i x l) = List.length l.
Proof. induction i as [|i IH]; intros [|y l]; cbn [upd_nth List.length]; auto. Qed.
Lemma upd_nth_get {A} (x : A) : forall l i j, (i < List.length l)%nat -> nth_error (upd_nth i x l) j = if (j =? i)%nat then Some x else nth_error l j.
Proof.
  induction l as [|y l IH]; intros i j L; cbn [List.length] in L; [lia|].
  destruct i as [|i], j as [|j]; cbn [upd_nth nth_error Nat.eqb]; auto. apply IH. lia.
Qed.
Lemma upd_nth_split {A} (x e : A) L R : upd_nth (List.length L) x (L ++ e :: R) = L ++ x :: R.
Proof. induction L as [|y L IH]; cbn [List.length app upd_nth]; auto. rewrite IH. reflexivity. Qed.

(** the specification's map moves as in Spec.v *)
Lemma sm_other h m o q : touches h o <> Some q -> sm_map (fst (sm_step h m o)) q = sm_map m q.
Proof.
  intros N. assert (P : forall p b vw cr, Some p <> Some q -> sm_map (mkSM (sm_put m p b) vw cr) q = sm_map m q).
  { intros p b vw cr D. cbn [sm_map]. unfold sm_put. destruct (pair_eqb p q) eqn:E; auto. apply pair_ok in E. congruence. }
  destruct o as [key v|i|key|k c|key|k c|key|key|]; cbn [sm_step touches] in *; auto.
  - destruct (key_to_hash h key) as [p|]; auto. destruct (sm_map m p) as [b|]; [|destruct key; cbn [fst]; auto].
    unfold sm_update. destruct (assign _ _ _) as [[v' ok]|]; cbn [fst]; auto.
  - destruct (key_to_hash h (i_key i)) as [p|]; auto. destruct (sm_map m p) as [b|]; cbn [fst]; auto.
    unfold sm_update. destruct (assign _ _ _) as [[v' ok]|]; cbn [fst]; auto.
  - destruct (key_to_hash h key) as [p|]; auto. destruct (sm_map m p) as [b|]; cbn [fst]; auto.
  - destruct (key_to_hash h key) as [p|]; auto. destruct (sm_map m p) as [b|]; cbn [fst]; auto.
Qed.
Lemma removes_gone h m o p : removes h p o (snd (sm_step h m o)) = true -> touches h o = Some p /\ sm_map (fst (sm_step h m o)) p = None.
Proof.
  unfold removes. intros R. apply andb_prop in R as [R1 R3]. apply andb_prop in R1 as [R1 R2].
  destruct (touches h o) as [q|] eqn:T; [|discriminate]. apply pair_ok in R2. subst q. split; auto.
  destruct o as [key v|i|key|k c|key|k c|key|key|]; cbn [is_delete] in R1; try discriminate; cbn [touches] in T; cbn [sm_step] in *; rewrite T in *;
    (destruct (sm_map m p) as [b|] eqn:M; cbn [fst snd sm_map] in *; [unfold sm_put; rewrite (proj2 (pair_ok p p) eq_refl); reflexivity|discriminate]).
Qed.
(** the objects of keys are in the heap, one for each key *)
Definition om_ok (m : omap) : Prop :=
  (forall p i, om_at m p = Some i -> exists o, nth_error (om_obs m) i = Some o /\ ob_gone o = false) /\
  (forall p q i, om_at m p = Some i -> om_at m q = Some i -> p = q).
Lemma flat_some m p i o : om_at m p = Some i -> nth_error (om_obs m) i = Some o -> sm_map (flat m) p = Some (ob_bd o).
Proof. intros A N. cbn [flat sm_map]. rewrite A, N. reflexivity. Qed.
Lemma flat_none m p : om_ok m -> sm_map (flat m) p = None <-> om_at m p = None.
Proof. intros [K _]. cbn [flat sm_map]. destruct (om_at m p) as [i|] eqn:A; [|tauto]. destruct (K p i A) as (o & N & _). rewrite N. split; discriminate. Qed.
Lemma nth_lt {A} (l : list A) i o : nth_error l i = Some o -> (i < List.length l)%nat.
Proof. intros N. apply nth_error_Some. congruence. Qed.
Lemma pair_refl p : pair_eqb p p = true.
Proof. apply pair_ok. auto. Qed.
Lemma flat_step h m o : om_ok m -> om_ok (om_step h m o) /\ (forall p, sm_map (flat (om_step h m o)) p = sm_map (fst (sm_step h (flat m) o)) p).
Proof.
  intros K. pose proof K as [K1 K2]. unfold om_step. cbv zeta. destruct (touches h o) as [p|] eqn:T.
  2: { split; [exact K|]. intros q. rewrite (sm_other h (flat m) o q) by congruence. reflexivity. }
  assert (OT : forall q, p <> q -> sm_map (fst (sm_step h (flat m) o)) q = sm_map (flat m) q) by (intros q N; apply sm_other; congruence).
  destruct (om_at m p) as [i|] eqn:A.
  - destruct (K1 p i A) as (x & N & G). pose proof (nth_lt _ _ _ N) as L. destruct (sm_map (fst (sm_step h (flat m) o)) p) as [b|] eqn:B.
    + split.
      * split; cbn [om_at om_obs]; auto. intros q j Q. unfold om_set. rewrite (upd_nth_get _ _ _ _ L). destruct (Nat.eqb_spec j i) as [->|]; eauto.
      * intros q. cbn [flat sm_map om_at om_obs]. unfold om_set. destruct (pair_eqb p q) eqn:E.
        { apply pair_ok in E. subst q. rewrite A, (upd_nth_get _ _ _ _ L), Nat.eqb_refl. rewrite B. reflexivity. }
        assert (NE : p <> q) by (intros ->; rewrite pair_refl in E; discriminate). rewrite (OT q NE). cbn [flat sm_map]. destruct (om_at m q) as [j|] eqn:Q; auto.
        rewrite (upd_nth_get _ _ _ _ L). destruct (Nat.eqb_spec j i) as [->|]; auto. exfalso. apply NE. eapply K2; eauto.
    + rewrite N. split.
      * split; cbn [om_at om_obs]; unfold bind.
        { intros q j Q. destruct (pair_eqb p q) eqn:E; [discriminate|]. unfold om_set. rewrite (upd_nth_get _ _ _ _ L). destruct (Nat.eqb_spec j i) as [->|]; eauto.
          rewrite (K2 p q i A Q), pair_refl in E. discriminate. }
        { intros q r j. destruct (pair_eqb p q); [discriminate|]. destruct (pair_eqb p r); [discriminate|]. eauto. }
      * intros q. cbn [flat sm_map om_at om_obs]. unfold om_set, bind. destruct (pair_eqb p q) eqn:E.
        { apply pair_ok in E. subst q. rewrite B. reflexivity. }
        assert (NE : p <> q) by (intros ->; rewrite pair_refl in E; discriminate). rewrite (OT q NE). cbn [flat sm_map]. destruct (om_at m q) as [j|] eqn:Q; auto.
        rewrite (upd_nth_get _ _ _ _ L). destruct (Nat.eqb_spec j i) as [->|]; auto. exfalso. apply NE. eapply K2; eauto.
  - destruct (sm_map (fst (sm_step h (flat m) o)) p) as [b|] eqn:B.
    + split.
      * split; cbn [om_at om_obs]; unfold bind.
        { intros q j. destruct (pair_eqb p q) eqn:E.
          - intros Q. injection Q as <-. rewrite nth_error_app2 by lia. rewrite Nat.sub_diag. cbn [nth_error]. eauto.
          - intros Q. destruct (K1 q j Q) as (x & N & G). rewrite nth_error_app1 by (eapply nth_lt; eauto). eauto. }
        { intros q r j. destruct (pair_eqb p q) eqn:E, (pair_eqb p r) eqn:F; intros Q1 Q2.
          - apply pair_ok in E. apply pair_ok in F. congruence.
          - injection Q1 as <-. destruct (K1 r _ Q2) as (x & N & _). apply nth_lt in N. lia.
          - injection Q2 as <-. destruct (K1 q _ Q1) as (x & N & _). apply nth_lt in N. lia.
          - eauto. }
      * intros q. cbn [flat sm_map om_at om_obs]. unfold bind. destruct (pair_eqb p q) eqn:E.
        { apply pair_ok in E. subst q. rewrite nth_error_app2 by lia. rewrite Nat.sub_diag, B. reflexivity. }
        assert (NE : p <> q) by (intros ->; rewrite pair_refl in E; discriminate). rewrite (OT q NE). cbn [flat sm_map]. destruct (om_at m q) as [j|] eqn:Q; auto.
        destruct (K1 q j Q) as (x & N & G). rewrite nth_error_app1 by (eapply nth_lt; eauto). reflexivity.
    + split; [exact K|]. intros q. cbn [flat sm_map om_at om_obs]. destruct (pair_eqb p q) eqn:E.
      { apply pair_ok in E. subst q. rewrite A, B. reflexivity. }
      assert (NE : p <> q) by (intros ->; rewrite pair_refl in E; discriminate). rewrite (OT q NE). reflexivity.
Qed.

(** two elements stay two *)
Lemma up_inj p i j : up p i = up p j -> i = j.
Proof. unfold up. destruct (Nat.leb_spec p i), (Nat.leb_spec p j); lia. Qed.
Lemma over_inj old l i j : over_head old l i = over_head old l j -> i = j.
Proof. unfold over_head. destruct (new_head old l); auto. apply up_inj. Qed.
Lemma set_inj s k n e i j : set_at s k n e i = set_at s k n e j -> i = j.
Proof.
  unfold set_at. destruct (head_z s n) as [zd|]; auto. destruct (add_item _ _ _ _ _) as [z|]; intros E.
  - apply over_inj in E. eapply up_inj; eauto.
  - eapply over_inj; eauto.
Qed.
Lemma step_inj h s o i j : step_at h s o i = step_at h s o j -> i = j.
Proof.
  destruct o as [key v|it|key|k c|key|k c|key|key|]; cbn [step_at]; auto.
  - destruct key; auto. destruct (key_to_hash h _) as [[k c]|]; auto. destruct (load s k c) as [[|]| | |]; auto. cbv zeta. apply set_inj.
  - destruct (item_hash h it) as [[k c]|]; auto. destruct (load s k c) as [[|]| | |]; auto. apply set_inj.
Qed.

(** an object and the element that is its item *)
Record is_obj (s : mstate) (m : omap) (i : nat) (o : obj) (j : nat) : Prop := {
  io_ex : exists A e B, m_items s = A ++ e :: B /\ List.length A = j /\ e_dummy e = None /\ e_del e = ob_gone o /\ bd_of e = ob_bd o /\
    off A (e_rev e) /\ (forall p, om_at m p = Some i <-> live e = true /\ p = code e) }.
Record hrel (x : hstate) (y : ostate) : Prop := {
  hr_holds : holds (fst x) (flat (fst y));
  hr_ok : om_ok (fst y);
  hr_range : ranged_map (flat (fst y));
  hr_pos : exists pos : nat -> nat,
    (forall i j, (i < List.length (om_obs (fst y)))%nat -> (j < List.length (om_obs (fst y)))%nat -> pos i = pos j -> i = j) /\
    (forall i o, nth_error (om_obs (fst y)) i = Some o -> is_obj (fst x) (fst y) i o (pos i)) /\
    snd x = map (fun q => (fst q, pos (snd q))) (snd y) /\ Forall (fun q => (snd q < List.length (om_obs (fst y)))%nat) (snd y) }.
Lemma live_item e : e_dummy e = None -> live e = negb (e_del e).
Proof. intros D. unfold live, ignored. rewrite D. reflexivity. Qed.
Lemma split_same {A} (L R L' R' : list A) e e' : L ++ e :: R = L' ++ e' :: R' -> List.length L = List.length L' -> L = L' /\ e = e' /\ R = R'.
Proof.
  revert L'. induction L as [|x L IH]; intros [|x' L'] E N; cbn [app List.length] in *; try lia.
  - injection E as -> ->. auto.
  - injection E as -> E. destruct (IH L' E ltac:(lia)) as (-> & -> & ->). auto.
Qed.
(** one present item has a code *)
Lemma live_same s m A e B A' e' B' : holds s m -> m_items s = A ++ e :: B -> m_items s = A' ++ e' :: B' -> live e = true -> live e' = true -> code e = code e' ->
  List.length A = List.length A'.
Proof.
  intros H E1 E2 L1 L2 C. assert (RE : e_rev e = e_rev e').
  { unfold code in C. pose proof (rev_in s e (hd_inv _ _ H) ltac:(rewrite E1; apply in_or_app; right; left; auto)) as R1.
    pose proof (rev_in s e' (hd_inv _ _ H) ltac:(rewrite E2; apply in_or_app; right; left; auto)) as R2. injection C as C _. congruence. }
  destruct (one_live s m A e B H E1 L1) as [O1 O2]. destruct (split_swap e' e' e A' B' A B ltac:(congruence)) as [(-> & -> & ->)|([X|X] & _)]; auto.
  - exfalso. apply (O1 e' X L2). congruence.
  - exfalso. apply (O2 e' X L2). congruence.
Qed.

(** ** a call of the map *)
Lemma obs_other h m o i : (forall p, touches h o = Some p -> om_at m p <> Some i) -> (i < List.length (om_obs m))%nat -> om_ok m ->
  nth_error (om_obs (om_step h m o)) i = nth_error (om_obs m) i /\ forall q, om_at (om_step h m o) q = Some i <-> om_at m q = Some i.
Proof.
  intros N L [K1 K2]. unfold om_step. cbv zeta. destruct (touches h o) as [p|]; [|cbn [om_obs om_at]; tauto]. specialize (N p eq_refl).
  destruct (om_at m p) as [i'|] eqn:A.
  - assert (NI : i' <> i) by congruence. destruct (K1 p i' A) as (x & NX & _). pose proof (nth_lt _ _ _ NX) as LX.
    destruct (sm_map _ p) as [b|]; cbn [om_obs om_at].
    + unfold om_set. rewrite (upd_nth_get _ _ _ _ LX). destruct (Nat.eqb_spec i i'); [congruence|]. tauto.
    + rewrite NX. unfold om_set. rewrite (upd_nth_get _ _ _ _ LX). destruct (Nat.eqb_spec i i'); [congruence|]. split; auto.
      intros q. unfold bind. destruct (pair_eqb p q) eqn:E; [|tauto]. apply pair_ok in E. subst q. rewrite A. split; [discriminate|]. intros Y. congruence.
  - destruct (sm_map _ p) as [b|]; cbn [om_obs om_at]; [|tauto]. rewrite nth_error_app1 by exact L. split; auto.
    intros q. unfold bind. destruct (pair_eqb p q) eqn:E; [|tauto]. apply pair_ok in E. subst q. rewrite A. split; [|discriminate]. intros Y. injection Y as Y. lia.
Qed.
Lemma om_keeps h m o : sm_view (flat (om_step h m o)) = sm_view (fst (sm_step h (flat m) o)) /\ sm_created (flat (om_step h m o)) = sm_created (fst (sm_step h (flat m) o)).
Proof. unfold om_step. cbv zeta. destruct (touches h o) as [p|]; auto. destruct (om_at m p), (sm_map _ p); auto. Qed.
Lemma bd_erased view e : bd_of (del_entry view e) = erased view (bd_of e).
Proof. destruct view; reflexivity. Qed.
Lemma obj_step h s m o i ob j : holds s (flat m) -> om_ok m -> covered h (dump_bucket s) (flat m) o ->
  nth_error (om_obs m) i = Some ob -> is_obj s m i ob j ->
  exists ob', nth_error (om_obs (om_step h m o)) i = Some ob' /\ is_obj (fst (step h s o)) (om_step h m o) i ob' (step_at h s o j).
Proof.
  intros H K Cov N [(A & e & B & E & LA & D & DL & BD & OF & AT)]. pose proof (nth_lt _ _ _ N) as L.
  destruct (step_ok h s (flat m) o H Cov) as [H1 SO]. destruct (flat_step h m o K) as [K' FL].
  assert (H' : holds (fst (step h s o)) (flat (om_step h m o))).
  { eapply holds_ext; [exact H1| |symmetry; apply om_keeps|symmetry; apply om_keeps]. intros p. symmetry. apply FL. }
  destruct (step_cursor h s (flat m) o A e B H Cov E OF) as (A' & e' & B' & Q1 & Q2 & Q3 & Q4 & Q5 & Q6 & Q7). rewrite SO in Q6. rewrite LA in Q2.
  assert (CE : code e' = code e) by (unfold code; rewrite Q3, Q4; reflexivity).
  assert (D' : e_dummy e' = None) by (destruct Q7 as [->|(_ & [->|(v & ->)])]; auto).
  assert (IN' : In e' (m_items (fst (step h s o)))) by (rewrite Q1; apply in_or_app; right; left; auto).
  rewrite <- Q3 in Q5.
  assert (FIN : forall ob', e_del e' = ob_gone ob' -> bd_of e' = ob_bd ob' -> (forall p, om_at (om_step h m o) p = Some i <-> live e' = true /\ p = code e') ->
    is_obj (fst (step h s o)) (om_step h m o) i ob' (step_at h s o j)).
  { intros ob' X1 X2 X3. constructor. exists A', e', B'. auto 10. }
  destruct (live e) eqn:LE.
  - assert (AE : om_at m (code e) = Some i) by (apply AT; auto).
    destruct (touches h o) as [p|] eqn:T; [destruct (pair_eqb p (code e)) eqn:PE|].
    + apply pair_ok in PE. subst p. destruct (sm_map (fst (sm_step h (flat m) o)) (code e)) as [b|] eqn:SB.
      * assert (LE' : live e' = true). { rewrite Q6. cbn [andb]. destruct (removes h (code e) o _) eqn:R; auto. apply removes_gone in R as [_ R]. congruence. }
        pose proof (code_bound _ _ e' H' IN' LE') as CB. rewrite CE, FL, SB in CB.
        exists (mkOb b false). assert (OS : om_obs (om_step h m o) = om_set m i (mkOb b false) /\ om_at (om_step h m o) = om_at m).
        { unfold om_step. cbv zeta. rewrite T, AE, SB. auto. }
        destruct OS as [OS1 OS2]. rewrite OS1. unfold om_set. rewrite (upd_nth_get _ _ _ _ L), Nat.eqb_refl. split; auto. apply FIN; cbn [ob_gone ob_bd].
        { rewrite live_item in LE' by exact D'. destruct (e_del e'); auto. }
        { congruence. }
        { intros q. rewrite OS2, AT, LE', CE. tauto. }
      * assert (LE' : live e' = false). { destruct (live e') eqn:X; auto. pose proof (code_bound _ _ e' H' IN' X) as CB. rewrite CE, FL, SB in CB. discriminate. }
        assert (ED : e' = del_entry (m_view s) e).
        { destruct Q7 as [->|(_ & [->|(v & ->)])]; auto; exfalso; [congruence|]. unfold live, ignored in *. cbn [set_e_val e_dummy e_del] in LE'. congruence. }
        exists (mkOb (erased (om_view m) (ob_bd ob)) true).
        assert (OS : om_obs (om_step h m o) = om_set m i (mkOb (erased (om_view m) (ob_bd ob)) true) /\ om_at (om_step h m o) = bind (om_at m) (code e) None).
        { unfold om_step. cbv zeta. rewrite T, AE, SB, N. auto. }
        destruct OS as [OS1 OS2]. rewrite OS1. unfold om_set. rewrite (upd_nth_get _ _ _ _ L), Nat.eqb_refl. split; auto. apply FIN; cbn [ob_gone ob_bd].
        { rewrite ED. reflexivity. }
        { rewrite ED, bd_erased, BD. f_equal. apply (hd_view _ _ H). }
        { intros q. rewrite OS2, LE'. unfold bind. destruct (pair_eqb (code e) q) eqn:X; [split; [discriminate|intros [? _]; discriminate]|].
          split; [|intros [? _]; discriminate]. intros Y. apply AT in Y as [_ ->]. rewrite pair_refl in X. discriminate. }
    + assert (NT : touches h o <> Some (code e)) by (rewrite T; intros X; injection X as ->; rewrite pair_refl in PE; discriminate).
      destruct (obs_other h m o i) as [OO1 OO2]; auto.
      { intros q TQ Y. apply AT in Y as [_ ->]. auto. }
      assert (LE' : live e' = true). { rewrite Q6. cbn [andb]. destruct (removes h (code e) o _) eqn:R; auto. apply removes_gone in R as [R _]. congruence. }
      exists ob. rewrite OO1. split; auto. apply FIN.
      { rewrite live_item in LE' by exact D'. rewrite live_item in LE by exact D. destruct (e_del e'), (e_del e); cbn [negb] in *; congruence. }
      { pose proof (code_bound _ _ e' H' IN' LE') as CB. rewrite CE, FL, (sm_other h (flat m) o (code e) NT) in CB.
        pose proof (code_bound _ _ e H ltac:(rewrite E; apply in_or_app; right; left; auto) LE) as CB0. congruence. }
      { intros q. rewrite OO2, AT, LE', CE. tauto. }
    + assert (NT : touches h o <> Some (code e)) by congruence.
      destruct (obs_other h m o i) as [OO1 OO2]; auto.
      { intros q TQ Y. congruence. }
      assert (LE' : live e' = true). { rewrite Q6. cbn [andb]. destruct (removes h (code e) o _) eqn:R; auto. apply removes_gone in R as [R _]. congruence. }
      exists ob. rewrite OO1. split; auto. apply FIN.
      { rewrite live_item in LE' by exact D'. rewrite live_item in LE by exact D. destruct (e_del e'), (e_del e); cbn [negb] in *; congruence. }
      { pose proof (code_bound _ _ e' H' IN' LE') as CB. rewrite CE, FL, (sm_other h (flat m) o (code e) NT) in CB.
        pose proof (code_bound _ _ e H ltac:(rewrite E; apply in_or_app; right; left; auto) LE) as CB0. congruence. }
      { intros q. rewrite OO2, AT, LE', CE. tauto. }
  - assert (EE : e' = e) by (destruct Q7 as [?|[? _]]; [auto|congruence]). subst e'.
    assert (NA : forall q, om_at m q <> Some i) by (intros q Y; apply AT in Y as [? _]; congruence).
    destruct (obs_other h m o i) as [OO1 OO2]; auto. exists ob. rewrite OO1. split; auto. apply FIN; auto. intros q. rewrite OO2, AT. rewrite LE. tauto.
Qed.
Lemma om_len h m o : om_ok m -> List.length (om_obs (om_step h m o)) = List.length (om_obs m) \/
  exists p b, touches h o = Some p /\ om_at m p = None /\ sm_map (fst (sm_step h (flat m) o)) p = Some b /\
    om_obs (om_step h m o) = om_obs m ++ [mkOb b false] /\ om_at (om_step h m o) = bind (om_at m) p (Some (List.length (om_obs m))).
Proof.
  intros [K1 K2]. unfold om_step. cbv zeta. destruct (touches h o) as [p|]; auto. destruct (om_at m p) as [i|] eqn:A.
  - destruct (K1 p i A) as (x & N & _). destruct (sm_map _ p) as [b|]; cbn [om_obs]; [|rewrite N]; unfold om_set; rewrite upd_nth_length; auto.
  - destruct (sm_map _ p) as [b|] eqn:B; auto. right. exists p, b. auto.
Qed.
Lemma flat_ranged h m o : om_ok m -> ranged_map (flat m) -> ranged_map (flat (om_step h m o)).
Proof.
  intros K R k c N. destruct (flat_step h m o K) as [_ FL]. rewrite FL in N. exact (sm_ranged h [o] (flat m) R k c N).
Qed.
Lemma hcall_rel h s hs m ohs o : hrel (s, hs) (m, ohs) -> covered h (dump_bucket s) (flat m) o ->
  hrel (fst (hstep h (s, hs) (HCall o))) (fst (ostep h (m, ohs) (HCall o))) /\ snd (hstep h (s, hs) (HCall o)) = snd (ostep h (m, ohs) (HCall o)).
Proof.
  intros [H K RG (pos & PI & PO & PH & PF)] Cov. cbn [fst snd hstep ostep] in *.
  destruct (step_ok h s (flat m) o H Cov) as [H1 SO]. split; [|rewrite SO; reflexivity].
  destruct (flat_step h m o K) as [K' FL].
  assert (H' : holds (fst (step h s o)) (flat (om_step h m o))).
  { eapply holds_ext; [exact H1| |symmetry; apply om_keeps|symmetry; apply om_keeps]. intros p. symmetry. apply FL. }
  assert (R' : ranged_map (flat (om_step h m o))) by (apply flat_ranged; auto).
  constructor; cbn [fst snd]; auto.
  assert (OLD : forall i ob, (i < List.length (om_obs m))%nat -> nth_error (om_obs (om_step h m o)) i = Some ob ->
    is_obj (fst (step h s o)) (om_step h m o) i ob (step_at h s o (pos i))).
  { intros i ob L N. destruct (nth_error (om_obs m) i) as [ob0|] eqn:N0; [|apply nth_error_None in N0; lia].
    destruct (obj_step h s m o i ob0 (pos i) H K Cov N0 (PO i ob0 N0)) as (ob' & X1 & X2). congruence. }
  destruct (om_len h m o K) as [LN|(p & b & T & A & SB & OS & AT)].
  - exists (fun i => step_at h s o (pos i)). split; [|split; [|split]].
    + rewrite LN. intros i j Li Lj X. apply step_inj in X. auto.
    + intros i ob N. apply OLD; auto. rewrite <- LN. eapply nth_lt; eauto.
    + rewrite PH, map_map. apply map_ext. intros [v i]. reflexivity.
    + rewrite LN. exact PF.
  - set (n := List.length (om_obs m)) in *.
    assert (NB : sm_map (flat (om_step h m o)) p <> None) by (rewrite FL, SB; discriminate).
    destruct (bound_code _ _ p H' R' NB) as (y & IY & LY & CY & _).
    apply in_split in IY as (A1 & B1 & EY).
    assert (BY : bd_of y = b). { pose proof (code_bound _ _ y H' ltac:(rewrite EY; apply in_or_app; right; left; auto) LY) as CB. rewrite CY, FL, SB in CB. congruence. }
    assert (DY : e_dummy y = None). { unfold live, ignored in LY. destruct (e_dummy y); auto. discriminate. }
    assert (NEW : is_obj (fst (step h s o)) (om_step h m o) n (mkOb b false) (List.length A1)).
    { constructor. exists A1, y, B1. split; auto. split; auto. split; auto. cbn [ob_gone ob_bd]. split; [rewrite live_item in LY by exact DY; destruct (e_del y); auto|].
      split; auto. split; [intros x X1 X2; apply (proj1 (one_live _ _ A1 y B1 H' EY LY) x X1 X2)|].
      intros q. rewrite AT. unfold bind. rewrite LY, CY. destruct (pair_eqb p q) eqn:X.
      - apply pair_ok in X. subst q. tauto.
      - split; [|intros [_ ->]; rewrite pair_refl in X; discriminate]. intros Y. destruct K as [K1 _]. destruct (K1 q _ Y) as (z & Z & _). apply nth_lt in Z. unfold n in Z. lia. }
    assert (DIF : forall i, (i < n)%nat -> step_at h s o (pos i) <> List.length A1).
    { intros i Li X. destruct (nth_error (om_obs (om_step h m o)) i) as [ob|] eqn:N.
      2: { rewrite OS in N. apply nth_error_None in N. rewrite app_length in N. unfold n in Li. lia. }
      destruct (OLD i ob Li N) as [(A2 & e2 & B2 & E2 & L2 & D2 & _ & _ & _ & AT2)].
      destruct (split_same A2 B2 A1 B1 e2 y ltac:(congruence) ltac:(congruence)) as (-> & -> & ->).
      assert (Y : om_at (om_step h m o) p = Some i) by (apply AT2; auto). rewrite AT in Y. unfold bind in Y. rewrite pair_refl in Y. injection Y as Y. lia. }
    exists (fun i => if (i <? n)%nat then step_at h s o (pos i) else List.length A1). split; [|split; [|split]].
    + rewrite OS, app_length. cbn [List.length]. fold n. intros i j Li Lj. destruct (Nat.ltb_spec i n), (Nat.ltb_spec j n); intros X.
      * apply step_inj in X. apply PI; auto.
      * destruct (DIF i); auto.
      * destruct (DIF j); auto.
      * lia.
    + intros i ob N. destruct (Nat.ltb_spec i n); [apply OLD; auto|]. assert (i = n). { rewrite OS in N. apply nth_lt in N. rewrite app_length in N. cbn [List.length] in N. fold n in N. lia. }
      subst i. rewrite OS in N. unfold n in N at 1. rewrite nth_error_app2 in N by lia. rewrite Nat.sub_diag in N. cbn [nth_error] in N. injection N as <-. exact NEW.
    + rewrite PH, map_map. apply map_ext_in. intros [v i] IV. cbn [fst snd]. rewrite Forall_forall in PF. specialize (PF _ IV). cbn [snd] in PF. fold n in PF. destruct (Nat.ltb_spec i n); auto. lia.
    + rewrite OS, app_length. eapply Forall_impl; [|exact PF]. intros [v i]; cbn [snd List.length]. lia.
Qed.

(** ** an item is kept *)
Lemma om_step_new h m it k c : key_to_hash h (i_key it) = Some (k, c) -> om_at m (k, c) = None -> sm_map (flat m) (k, c) = None ->
  om_at (om_step h m (OpStore it)) (k, c) = Some (List.length (om_obs m)) /\ List.length (om_obs (om_step h m (OpStore it))) = S (List.length (om_obs m)).
Proof.
  intros KH A EM. unfold om_step. cbv zeta. cbn [touches]. rewrite KH, A. cbn [sm_step]. rewrite KH, EM. cbn [fst sm_map]. unfold sm_put. rewrite pair_refl. cbn [om_at om_obs].
  unfold bind. rewrite pair_refl, app_length. cbn [List.length]. split; auto. lia.
Qed.
Lemma keep_rel s m k c z (pos : nat -> nat) : holds s (flat m) -> om_ok m -> 0 <= k < W64 -> found (m_items s) (reverse64 k) c z ->
  (forall i o, nth_error (om_obs m) i = Some o -> is_obj s m i o (pos i)) ->
  keep s (Ret z) = map (fun q => (fst q, pos (snd q))) (okeep m (k, c)) /\ Forall (fun q => (snd q < List.length (om_obs m))%nat) (okeep m (k, c)).
Proof.
  intros H K Hk F PO. pose proof (lookup_slot s (flat m) k c z H Hk F) as LS. unfold okeep. destruct (om_at m (k, c)) as [i|] eqn:A.
  - destruct K as [K1 K2]. destruct (K1 _ _ A) as (o & N & _). rewrite (flat_some m (k, c) i o A N) in LS.
    destruct LS as (l & e & r & -> & E & _ & C & R & L & _). destruct (PO i o N) as [(A1 & e1 & B1 & E1 & L1 & _ & _ & _ & _ & AT)].
    apply AT in A as [LE1 CE1]. cbn [keep map fst snd]. split; [|constructor; auto; cbn [snd]; eapply nth_lt; eauto].
    assert (CE : code e = (k, c)) by (unfold code; rewrite R, C, reverse64_involutive by exact Hk; reflexivity).
    pose proof (live_same s (flat m) (rev l) e r A1 e1 B1 H E E1 L LE1 ltac:(congruence)) as LL. rewrite rev_length in LL. rewrite (hd_view _ _ H). cbn [flat sm_view]. congruence.
  - destruct (sm_map (flat m) (k, c)) as [b|] eqn:S.
    + exfalso. assert (X : sm_map (flat m) (k, c) = None) by (apply flat_none; auto). congruence.
    + subst z. cbn [keep map]. auto.
Qed.
Lemma step_load h s m o : holds s (flat m) -> is_delete o = false -> writes h o = None -> fresh_item o -> snd (step h s o) = snd (sm_step h (flat m) o).
Proof. intros H _ W F. apply step_ok; auto. split; auto. rewrite W. exact I. Qed.
Lemma hload_rel h s hs m ohs key : hrel (s, hs) (m, ohs) ->
  hrel (fst (hstep h (s, hs) (HLoad key))) (fst (ostep h (m, ohs) (HLoad key))) /\ snd (hstep h (s, hs) (HLoad key)) = snd (ostep h (m, ohs) (HLoad key)).
Proof.
  intros [H K RG (pos & PI & PO & PH & PF)]. cbn [fst snd hstep ostep] in *. split; [|f_equal; apply step_load; cbn; auto].
  constructor; cbn [fst snd]; auto. exists pos. split; auto. split; auto. rewrite map_app.
  destruct (key_to_hash h key) as [[k c]|] eqn:KH; [|cbn [map]; rewrite !app_nil_r; auto].
  destruct (key_range _ _ _ _ KH) as [Hk _]. destruct (load_spec s k c (hd_inv _ _ H)) as (z & -> & F).
  destruct (keep_rel s m k c z pos H K Hk F PO) as [E1 E2]. split; [rewrite E1, PH; reflexivity|]. apply Forall_app; auto.
Qed.
Lemma hloadh_rel h s hs m ohs k c : hrel (s, hs) (m, ohs) ->
  hrel (fst (hstep h (s, hs) (HLoadByHash k c))) (fst (ostep h (m, ohs) (HLoadByHash k c))) /\ snd (hstep h (s, hs) (HLoadByHash k c)) = snd (ostep h (m, ohs) (HLoadByHash k c)).
Proof.
  intros [H K RG (pos & PI & PO & PH & PF)]. cbn [fst snd hstep ostep] in *. split; [|f_equal; apply step_load; cbn; auto].
  constructor; cbn [fst snd]; auto. exists pos. split; auto. split; auto. rewrite map_app.
  assert (Hk : 0 <= u64 k < W64) by (apply Z.mod_pos_bound; reflexivity).
  destruct (get_spec s (u64 k) (u64 c) (hd_inv _ _ H)) as (z & -> & F).
  destruct (keep_rel s m (u64 k) (u64 c) z pos H K Hk F PO) as [E1 E2]. split; [rewrite E1, PH; reflexivity|]. apply Forall_app; auto.
Qed.

(** ** a kept item is changed *)
Lemma alone_at s m A e B : holds s m -> m_items s = A ++ e :: B -> live e = true -> live_at (e_rev e) (m_items s) = [e].
Proof.
  intros H E Le. assert (He : In e (m_items s)) by (rewrite E; apply in_or_app; right; left; auto).
  destruct (hd_at _ _ H (reverse64 (e_rev e)) (reverse64_range _)) as [_ SL]. rewrite (rev_in s e (hd_inv _ _ H) He) in SL.
  assert (Y : In e (live_at (e_rev e) (m_items s))) by (apply live_at_in; auto).
  destruct (live_at (e_rev e) (m_items s)) as [|u [|w q]]; [destruct Y|destruct Y as [->|[]]; auto|destruct SL].
Qed.
Lemma holds_dead s m A e e' B : holds s m -> m_items s = A ++ e :: B -> live e = false -> live e' = false -> e_dummy e' = e_dummy e -> e_rev e' = e_rev e ->
  holds (set_items s (A ++ e' :: B)) m.
Proof.
  intros H E L L' D R. constructor.
  - rewrite <- (rev_involutive A). apply (sinv_replace s (rev A) e e' B); auto; [apply (hd_inv _ _ H)|]. rewrite rev_involutive. exact E.
  - apply (hd_view _ _ H).
  - apply (hd_len _ _ H).
  - intros k Hk. destruct (hd_at _ _ H k Hk) as [C SL]. cbn [set_items m_items]. split.
    + rewrite E in C. apply (clear_replace (reverse64 k) A e e' B C); auto. congruence.
    + assert (X : forall x, live x = false -> at_rv (reverse64 k) x = false) by (intros x Lx; unfold at_rv; rewrite Lx; reflexivity).
      rewrite E in SL. rewrite !live_at_app in *. cbn [live_at filter] in *. rewrite (X e L) in SL. rewrite (X e' L'). exact SL.
Qed.
Definition cut (f : Z * Z -> option nat) (i : nat) : Z * Z -> option nat := fun p => match f p with Some i' => if (i' =? i)%nat then None else Some i' | None => None end.
Lemma upd_rel s hs m ohs (pos : nat -> nat) i ob e e' ob' at_ :
  hrel (s, hs) (m, ohs) ->
  (forall i j, (i < List.length (om_obs m))%nat -> (j < List.length (om_obs m))%nat -> pos i = pos j -> i = j) ->
  (forall i o, nth_error (om_obs m) i = Some o -> is_obj s m i o (pos i)) ->
  hs = map (fun q => (fst q, pos (snd q))) ohs ->
  nth_error (om_obs m) i = Some ob -> nth_error (m_items s) (pos i) = Some e ->
  e_dummy e' = e_dummy e -> e_rev e' = e_rev e -> e_conf e' = e_conf e -> e_del e' = ob_gone ob' -> bd_of e' = ob_bd ob' ->
  (live e' = true -> live e = true) -> (forall p, at_ p = if live e' then om_at m p else cut (om_at m) i p) ->
  hrel (set_nth s (pos i) e', hs) (mkOM at_ (om_set m i ob') (om_view m) (om_created m), ohs).
Proof.
  intros [H K RG (pos0 & _ & _ & _ & PF)] PI PO PH N NE D R C DL BD LL AT'. cbn [fst snd] in *. pose proof (nth_lt _ _ _ N) as L.
  destruct (PO i ob N) as [(A & e0 & B & E & LA & D0 & DL0 & BD0 & OF & AT)].
  assert (e0 = e). { rewrite E, <- LA in NE. rewrite nth_error_app2 in NE by lia. rewrite Nat.sub_diag in NE. cbn [nth_error] in NE. congruence. } subst e0.
  assert (SN : set_nth s (pos i) e' = set_items s (A ++ e' :: B)). { unfold set_nth. rewrite E, <- LA, upd_nth_split. reflexivity. }
  set (m2 := mkOM at_ (om_set m i ob') (om_view m) (om_created m)).
  assert (CE : code e' = code e) by (unfold code; congruence).
  assert (OB2 : forall j, nth_error (om_set m i ob') j = if (j =? i)%nat then Some ob' else nth_error (om_obs m) j) by (intros j; apply upd_nth_get; auto).
  assert (AT2 : forall p j, at_ p = Some j -> om_at m p = Some j).
  { intros p j. rewrite AT'. unfold cut. destruct (live e'); auto. destruct (om_at m p) as [i'|]; auto. destruct (i' =? i)%nat; auto. discriminate. }
  assert (OK2 : om_ok m2).
  { destruct K as [K1 K2]. split; cbn [om_at om_obs m2].
    - intros p j Q. rewrite OB2. destruct (Nat.eqb_spec j i) as [->|]; eauto. exists ob'. split; auto. rewrite <- DL.
      assert (LE' : live e' = true). { rewrite AT' in Q. unfold cut in Q. destruct (live e'); auto. destruct (om_at m p) as [i'|]; [|discriminate]. destruct (Nat.eqb_spec i' i); [discriminate|congruence]. }
      rewrite live_item in LE' by congruence. destruct (e_del e'); auto.
    - intros p q j P Q. eapply K2; eauto. }
  assert (FL : forall p, sm_map (flat m2) p = if live e && pair_eqb (code e) p then (if live e' then Some (ob_bd ob') else None) else sm_map (flat m) p).
  { intros p. cbn [flat sm_map om_at om_obs m2]. destruct (live e) eqn:LE; cbn [andb].
    - assert (AE : om_at m (code e) = Some i) by (apply AT; auto).
      destruct (pair_eqb (code e) p) eqn:PE.
      + apply pair_ok in PE. subst p. rewrite AT'. unfold cut. rewrite AE, Nat.eqb_refl. destruct (live e'); auto. rewrite OB2, Nat.eqb_refl. reflexivity.
      + assert (NI : om_at m p <> Some i). { intros Y. apply AT in Y as [_ ->]. rewrite pair_refl in PE. discriminate. }
        rewrite AT'. unfold cut. destruct (om_at m p) as [i'|]; [|destruct (live e'); auto]. destruct (Nat.eqb_spec i' i) as [->|NI']; [congruence|].
        destruct (live e'); rewrite OB2; destruct (Nat.eqb_spec i' i); congruence.
    - assert (NI : om_at m p <> Some i). { intros Y. apply AT in Y as [? _]. discriminate. }
      rewrite AT'. unfold cut. destruct (om_at m p) as [i'|]; [|destruct (live e'); auto]. destruct (Nat.eqb_spec i' i) as [->|NI']; [congruence|].
      destruct (live e'); rewrite OB2; destruct (Nat.eqb_spec i' i); congruence. }
  assert (H2 : holds (set_items s (A ++ e' :: B)) (flat m2)).
  { destruct (live e) eqn:LE.
    - assert (IE : In e (m_items s)) by (rewrite E; apply in_or_app; right; left; auto).
      pose proof (rev_in s e (hd_inv _ _ H) IE) as RI.
      pose proof (holds_replace s (flat m) (fst (code e)) (snd (code e)) (rev A) e e' B (if live e' then Some (ob_bd ob') else None) H) as HR. cbn [code fst snd] in HR.
      rewrite RI, rev_involutive in HR. specialize (HR (reverse64_range _) E (alone_at s _ A e B H E LE) eq_refl eq_refl LE D R C).
      eapply holds_ext; [apply HR| |reflexivity|reflexivity].
      + destruct (live e'); congruence.
      + intros p. rewrite FL. cbn [andb sm_map]. unfold sm_put. change (reverse64 (e_rev e), e_conf e) with (code e). reflexivity.
    - eapply holds_ext; [apply (holds_dead s (flat m) A e e' B H E LE); auto| |reflexivity|reflexivity].
      + destruct (live e'); auto. assert (X : false = true) by auto. discriminate.
      + intros p. rewrite FL. reflexivity. }
  constructor; cbn [fst snd]; auto.
  - rewrite SN. exact H2.
  - intros k c Q. rewrite FL in Q. destruct (live e && pair_eqb (code e) (k, c)) eqn:X; [|apply (RG k c Q)]. apply andb_prop in X as [_ X]. apply pair_ok in X.
    unfold code in X. injection X as <- _. apply reverse64_range.
  - exists pos. split; [cbn [om_obs m2]; unfold om_set; rewrite upd_nth_length; auto|]. split; [|split; [exact PH|cbn [om_obs m2]; unfold om_set; rewrite upd_nth_length; auto]].
    cbn [om_obs om_at m2]. intros j o Q. rewrite OB2 in Q. constructor. cbn [om_at m2]. rewrite SN. cbn [set_items m_items]. destruct (Nat.eqb_spec j i) as [->|NJ].
    + injection Q as <-. exists A, e', B. split; auto. split; auto. split; [congruence|]. split; auto. split; auto. split; [rewrite R; auto|].
      intros p. rewrite AT', CE. unfold cut. destruct (live e').
      * rewrite AT. rewrite LL by auto. tauto.
      * split; [|intros [? _]; discriminate]. destruct (om_at m p) as [i'|]; [|discriminate]. destruct (Nat.eqb_spec i' i); [discriminate|congruence].
    + destruct (PO j o Q) as [(A2 & e2 & B2 & E2 & LA2 & D2 & DL2 & BD2 & OF2 & ATJ)].
      destruct (split_swap e e' e2 A B A2 B2 ltac:(congruence)) as [(-> & -> & ->)|(_ & A3 & B3 & S1 & S2 & S3)].
      { exfalso. apply NJ. apply PI; auto; [eapply nth_lt; eauto|congruence]. }
      exists A3, e2, B3. split; auto. split; [congruence|]. split; auto. split; auto. split; auto. split.
      * intros x X1 X2. destruct (S3 x X1) as [Y|[-> Y]]; [apply OF2; auto|]. rewrite R. apply OF2; auto.
      * intros p. rewrite AT', <- ATJ. unfold cut. destruct (live e'); [tauto|]. destruct (om_at m p) as [i'|]; [|tauto]. destruct (Nat.eqb_spec i' i) as [->|]; [|tauto].
        split; [discriminate|]. intros Y. congruence.
Qed.
Lemma hitem_rel h s hs m ohs o : hrel (s, hs) (m, ohs) -> match o with HValue _ | HKey _ | HIsDeleted _ | HSetValue _ _ | HDelete _ => True | _ => False end ->
  hrel (fst (hstep h (s, hs) o)) (fst (ostep h (m, ohs) o)) /\ snd (hstep h (s, hs) o) = snd (ostep h (m, ohs) o).
Proof.
  intros HR OO. pose proof HR as [H K RG (pos & PI & PO & PH & PF)]. cbn [fst snd] in *.
  assert (G : forall j, match nth_error hs j with
                        | None => nth_error ohs j = None
                        | Some (v, q) => exists i ob e, nth_error ohs j = Some (v, i) /\ q = pos i /\ nth_error (om_obs m) i = Some ob /\ nth_error (m_items s) (pos i) = Some e /\
                            e_dummy e = None /\ e_del e = ob_gone ob /\ bd_of e = ob_bd ob /\ (forall p, om_at m p = Some i <-> live e = true /\ p = code e)
                        end).
  { intros j. rewrite PH, nth_error_map. destruct (nth_error ohs j) as [[v i]|] eqn:NJ; [|reflexivity]. cbn [option_map fst snd].
    rewrite Forall_forall in PF. pose proof (PF _ (nth_error_In _ _ NJ)) as L. cbn [snd] in L.
    destruct (nth_error (om_obs m) i) as [ob|] eqn:N; [|apply nth_error_None in N; lia].
    destruct (PO i ob N) as [(A & e & B & E & LA & D & DL & BD & _ & AT)]. exists i, ob, e. split; auto. split; auto. split; auto. split; auto.
    rewrite E, <- LA. rewrite nth_error_app2 by lia. rewrite Nat.sub_diag. reflexivity. }
  assert (VK : forall v e ob, bd_of e = ob_bd ob -> view_key v e = bd_view v (ob_bd ob)) by (intros v e ob <-; reflexivity).
  assert (VV : forall e ob, bd_of e = ob_bd ob -> e_val e = bd_val (ob_bd ob)) by (intros e ob <-; reflexivity).
  destruct o as [| | | |j|j|j|j v|j]; try destruct OO; cbn [hstep ostep]; specialize (G j);
    (destruct (nth_error hs j) as [[w q]|]; [destruct G as (i & ob & e & -> & -> & N & NE & D & DL & BD & AT); rewrite N, NE|rewrite G; auto]).
  - cbn [fst snd]. split; auto. f_equal. auto.
  - cbn [fst snd]. split; auto. f_equal. auto.
  - cbn [fst snd]. split; auto. f_equal. auto.
  - rewrite set_value_assign, (VV e ob BD). destruct (assign w (bd_val (ob_bd ob)) v) as [[v' ok]|]; cbn [fst snd]; auto. split; auto.
    eapply (upd_rel s hs m ohs pos i ob e (set_e_val e v')); eauto; cbn [set_e_val e_dummy e_rev e_conf e_del ob_gone ob_bd]; auto.
    + rewrite <- BD. reflexivity.
    + intros p. change (live (set_e_val e v')) with (live e). destruct (live e) eqn:LE; auto. unfold cut. destruct (om_at m p) as [i'|] eqn:A; auto.
      destruct (Nat.eqb_spec i' i) as [->|]; auto. apply AT in A as [? _]. congruence.
  - cbn [fst snd]. split; auto. assert (LD : live (del_entry w e) = false). { rewrite live_item by (cbn [del_entry e_dummy]; auto). reflexivity. }
    eapply (upd_rel s hs m ohs pos i ob e (del_entry w e)); eauto; cbn [del_entry e_dummy e_rev e_conf e_del ob_gone ob_bd]; auto.
    + rewrite <- BD. apply bd_erased.
    + intros X. fold (del_entry w e) in X. unfold live, ignored in X. cbn [del_entry e_dummy e_del] in X. rewrite D in X. discriminate.
    + intros p. fold (del_entry w e). rewrite LD. reflexivity.
Qed.
(** ** the caller keeps the item it stores *)
Lemma set_put s k n y : sinv s -> present (m_trie s) n -> (brev (m_trie s) n <= reverse64 k)%Z ->
  e_dummy y = None -> (0 <= e_rev y <= MAX64 - 2)%Z -> e_rev y = reverse64 k ->
  exists zd z A B, head_z s n = Some zd /\ add_item s n zd (t_start (reverse64 k) zd) y = Some z /\
    m_items (fst (set_ s k n y)) = A ++ y :: B /\ List.length A = over_head (unzip z) (m_items (fst (set_ s k n y))) (List.length (fst z)).
Proof.
  intros I Hp Hn Hd Hr Ey.
  destruct (head_z_some s n I Hp) as (l & d & r & HZ & Ei & Hdd & Hdr).
  pose proof (reverse64_range k) as Hrk. rewrite W64_val in Hrk.
  pose proof (add_at s n l d r (reverse64 k) y I Ei ltac:(congruence) ltac:(lia) ltac:(rewrite MAX64_val; lia) ltac:(lia)) as HB.
  pose proof (add_item_spec s n l d r (reverse64 k) y I Ei ltac:(congruence) ltac:(lia) ltac:(rewrite MAX64_val; lia) Hd Hr) as HA.
  unfold set_. rewrite HZ.
  destruct (add_item s n (l, d :: r) (t_start (reverse64 k) (l, d :: r)) y) as [z|] eqn:AD; [|congruence].
  destruct HA as [HU HE]. destruct (HB z eq_refl) as (R & Z1 & Z2 & Z3).
  assert (UE : unzip z = rev (fst z) ++ y :: R). { destruct z as [zl zr]. rewrite unzip_eq. cbn [fst snd] in *. rewrite Z1. reflexivity. }
  assert (T : forall items1 er A1 B1, sinv (set_items s items1) -> (0 <= er <= MAX64 - 2)%Z -> items1 = A1 ++ y :: B1 ->
    let s1 := set_len (set_items s items1) (m_len s + 1)%Z in
    let s2 := if (0 <? lvl (m_trie s1) n)%Z then set_trie s1 (tupd (m_trie s1) n (fun b => set_blen b (b_len b + 1)%Z)) else s1 in
    let s3 := fst (if (m_max s2 <? b_len (bget (m_trie s2) n))%Z then make_bucket s2 er else (s2, false)) in
    exists A' B', m_items s3 = A' ++ y :: B' /\ List.length A' = over_head items1 (m_items s3) (List.length A1)).
  { intros items1 er A1 B1 I1 Her E1 s1 s2 s3.
    assert (I2 : sinv s2 /\ m_items s2 = items1).
    { unfold s2. destruct (0 <? _)%Z; [split; [|reflexivity]|split; [apply sinv_len; auto|reflexivity]].
      apply sinv_shape; [apply sinv_len; auto|]. apply same_shape_tupd. intros; reflexivity. }
    clearbody s2. destruct I2 as [I2 E2]. destruct (dummy_put items1 (m_items s3) y A1 B1) as (A' & B' & D1 & D2 & _); eauto.
    - pose proof (sv_sorted _ I2) as Q. rewrite E2 in Q. exact Q.
    - unfold s3. destruct (_ <? _)%Z; [|left; auto]. destruct (make_bucket_spec s2 er I2 Her) as (s' & -> & _ & _ & HX). cbn [fst]. rewrite E2 in HX. exact HX. }
  destruct (T (unzip z) (match fst z with p :: _ => e_rev p | [] => 0%Z end) (rev (fst z)) R) as (A' & B' & Q1 & Q2); auto.
  { rewrite HU. apply sinv_ins_item; auto. }
  exists (l, d :: r), z, A', B'. split; auto. split; auto. split; [exact Q1|]. rewrite Q2, rev_length. reflexivity.
Qed.
Lemma hstore_rel h s hs m ohs it : hrel (s, hs) (m, ohs) -> covered h (dump_bucket s) (flat m) (OpStore it) ->
  hrel (fst (hstep h (s, hs) (HStore it))) (fst (ostep h (m, ohs) (HStore it))) /\ snd (hstep h (s, hs) (HStore it)) = snd (ostep h (m, ohs) (HStore it)).
Proof.
  intros R Cov. destruct (hcall_rel h s hs m ohs (OpStore it) R Cov) as [R1 E1]. cbn [hstep ostep fst snd] in *. split; [|exact E1].
  pose proof R as [H K RG _]. cbn [fst snd] in *. pose proof R1 as [H1 K1 RG1 (pos & PI & PO & PH & PF)]. cbn [fst snd] in *.
  constructor; cbn [fst snd]; auto. exists pos. split; auto. split; auto.
  unfold linked, onew, item_hash. destruct (key_to_hash h (i_key it)) as [[k c]|] eqn:KH; [|rewrite !app_nil_r; auto].
  destruct (key_range _ _ _ _ KH) as [Hk _]. destruct (load_spec s k c (hd_inv _ _ H)) as (z & L & F).
  pose proof (lookup_slot s (flat m) k c z H Hk F) as LS. rewrite L. destruct (om_at m (k, c)) as [i|] eqn:A.
  { destruct K as [K1' _]. destruct (K1' _ _ A) as (o & N & _). rewrite (flat_some m (k, c) i o A N) in LS. destruct LS as (? & ? & ? & -> & _). rewrite !app_nil_r. auto. }
  assert (EM : sm_map (flat m) (k, c) = None) by (apply flat_none; auto). rewrite EM in LS. subst z.
  destruct Cov as [Fr Cov]. cbn [fresh_item] in Fr. destruct Fr as (F1 & F2 & F3). cbn [writes] in Cov. rewrite KH in Cov.
  destruct Cov as [Cov|(C1 & C2 & C3 & C4)]; [congruence|].
  pose proof (storable_rev k Hk C3 C4) as SR. destruct (find_bucket_present s (reverse64 k) (hd_inv _ _ H) ltac:(apply reverse64_range)) as [P1 P2].
  assert (Er : e_rev (entry_of it k c) = reverse64 k) by (cbn [entry_of e_rev]; rewrite F1; reflexivity).
  destruct (set_put s k (find_bucket (m_trie s) (reverse64 k)) (entry_of it k c)) as (zd & z & A' & B' & Q1 & Q2 & Q3 & Q4); auto.
  { apply (hd_inv _ _ H). } { rewrite Er. exact SR. }
  cbv zeta. rewrite Q1, Q2, <- Q4.
  assert (ST : m_items (fst (step h s (OpStore it))) = A' ++ entry_of it k c :: B').
  { cbn [step]. unfold store, item_hash. rewrite KH, L. destruct (set_ _ _ _ _) as [s3 q]. exact Q3. }
  assert (AT : om_at (om_step h m (OpStore it)) (k, c) = Some (List.length (om_obs m)) /\ List.length (om_obs (om_step h m (OpStore it))) = S (List.length (om_obs m))).
  { destruct (om_step_new h m it k c KH A EM) as [X1 X2]. auto. }
  destruct AT as [AT LN]. rewrite map_app. cbn [map fst snd]. split.
  - rewrite PH. f_equal. f_equal. f_equal. destruct K1 as [K1 _]. destruct (K1 _ _ AT) as (o & N & _).
    destruct (PO _ o N) as [(A1 & e1 & B1 & Z1 & L1 & _ & _ & _ & _ & AT1)]. apply AT1 in AT as [LE1 CE1]. rewrite <- L1.
    apply (live_same _ _ A' (entry_of it k c) B' A1 e1 B1 H1 ST Z1); auto.
    + unfold live, ignored. cbn [entry_of e_dummy e_del]. rewrite F3. reflexivity.
    + rewrite <- CE1. unfold code. rewrite Er, reverse64_involutive by exact Hk. cbn [entry_of e_conf]. rewrite F2. reflexivity.
  - apply Forall_app. split; [exact PF|]. constructor; auto. cbn [snd]. lia.
Qed.
Lemma hstep_rel h x y o : hrel x y -> match map_call o with Some c => covered h (dump_bucket (fst x)) (flat (fst y)) c | None => True end ->
  hrel (fst (hstep h x o)) (fst (ostep h y o)) /\ snd (hstep h x o) = snd (ostep h y o).
Proof.
  destruct x as [s hs], y as [m ohs]. intros R C. destruct o as [o|key|k c|it|j|j|j|j v|j]; try (apply hitem_rel; auto; fail).
  - apply hcall_rel; auto.
  - apply hload_rel; auto.
  - apply hloadh_rel; auto.
  - apply hstore_rel; auto.
Qed.
Lemma hrun_rel h os : forall x y, hrel x y -> hcovered h x y os -> hrel (hrun h x os) (orun h y os) /\ houts h x os = oouts h y os.
Proof.
  induction os as [|o os IH]; intros x y R C; cbn [hcovered hrun orun houts oouts] in *; auto. destruct C as [C1 C2].
  destruct (hstep_rel h x y o R C1) as [R1 E1]. destruct (IH _ _ R1 C2) as [R2 E2]. split; auto. congruence.
Qed.
Lemma new_rel view max mode : hrel (new_map view max mode false, []) (om_empty view, []).
Proof.
  constructor; cbn [fst snd].
  - apply (holds_ext _ (sm_empty view)); auto. apply new_map_holds.
  - split; cbn; discriminate.
  - intros k c N. cbn in N. congruence.
  - exists (fun i => i). split; [auto|]. split; [intros i o N; cbn in N; destruct i; discriminate|]. split; auto.
Qed.

(** * C78 *)
(** After any covered history every answer, of the map and of the items the caller kept, is the specification's. *)
Theorem C78_kept_items : forall h view max mode os, mode <> CombineSearch4 ->
  hcovered h (new_map view max mode false, []) (om_empty view, []) os ->
  houts h (new_map view max mode false, []) os = oouts h (om_empty view, []) os.
Proof. intros h view max mode os _ C. apply (hrun_rel h os _ _ (new_rel view max mode) C). Qed.
Print Assumptions C78_kept_items.

(** ** the item of a key is the key's item until the key goes *)
Definition stays_obj (p : Z * Z) (i : nat) (m : omap) : Prop := om_at m p = Some i \/ exists o, nth_error (om_obs m) i = Some o /\ ob_gone o = true.
Lemma hrun_app h os1 os2 : forall x, hrun h x (os1 ++ os2) = hrun h (hrun h x os1) os2.
Proof. induction os1 as [|o os1 IH]; intros x; cbn [app hrun]; auto. Qed.
Lemma orun_app h os1 os2 : forall x, orun h x (os1 ++ os2) = orun h (orun h x os1) os2.
Proof. induction os1 as [|o os1 IH]; intros x; cbn [app orun]; auto. Qed.
Lemma hcovered_app h os1 os2 : forall x y, hcovered h x y (os1 ++ os2) -> hcovered h x y os1 /\ hcovered h (hrun h x os1) (orun h y os1) os2.
Proof. induction os1 as [|o os1 IH]; intros x y; cbn [app hcovered hrun orun]; auto. intros [C1 C2]. destruct (IH _ _ C2) as [C3 C4]. auto. Qed.
Lemma gone_step h m o i x : om_ok m -> nth_error (om_obs m) i = Some x -> ob_gone x = true -> nth_error (om_obs (om_step h m o)) i = Some x.
Proof.
  intros K N G. destruct (obs_other h m o i) as [E _]; auto; [|eapply nth_lt; eauto|congruence].
  intros p _ A. destruct K as [K1 _]. destruct (K1 p i A) as (y & Y & Z). congruence.
Qed.
Lemma stays_call h m o p i : om_ok m -> stays_obj p i m -> stays_obj p i (om_step h m o).
Proof.
  intros K [A|(x & N & G)]; [|right; exists x; split; auto; apply gone_step; auto].
  pose proof K as [K1 K2]. destruct (K1 p i A) as (x & N & G). pose proof (nth_lt _ _ _ N) as L.
  destruct (touches h o) as [q|] eqn:T; [destruct (pair_eqb q p) eqn:E|].
  - apply pair_ok in E. subst q. unfold stays_obj, om_step. cbv zeta. rewrite T, A. destruct (sm_map _ p) as [b|]; cbn [om_at om_obs]; auto.
    right. rewrite N. unfold om_set. rewrite (upd_nth_get _ _ _ _ L), Nat.eqb_refl. eexists. split; [reflexivity|reflexivity].
  - left. apply (obs_other h m o i); auto. intros r Tr Ar. assert (r = p) by (eapply K2; eauto). assert (r = q) by congruence. subst. rewrite pair_refl in E. discriminate.
  - left. apply (obs_other h m o i); auto. intros r Tr. congruence.
Qed.
Lemma stays_step h x y o p i : hrel x y -> stays_obj p i (fst y) -> stays_obj p i (fst (fst (ostep h y o))).
Proof.
  destruct y as [m hs]. intros HR. pose proof (hr_ok _ _ HR) as K. cbn [fst] in *. clear HR. intros S0.
  assert (U : forall j ob ob', nth_error (om_obs m) j = Some ob -> (ob_gone ob = true -> ob_gone ob' = true) -> forall f, (om_at m p = Some i -> f p = Some i \/ (i = j /\ ob_gone ob' = true)) ->
    stays_obj p i (mkOM f (om_set m j ob') (om_view m) (om_created m))).
  { intros j ob ob' N G f F. pose proof (nth_lt _ _ _ N) as L. unfold stays_obj, om_set. cbn [om_at om_obs]. rewrite (upd_nth_get _ _ _ _ L). destruct S0 as [A|(z & Z1 & Z2)].
    - destruct (F A) as [|[-> X]]; auto. right. rewrite Nat.eqb_refl. eauto.
    - right. destruct (Nat.eqb_spec i j) as [->|]; eauto. exists ob'. split; auto. apply G. congruence. }
  destruct o as [o|key|k c|it|j|j|j|j v|j]; cbn [ostep fst]; try exact S0; try (destruct (nth_error hs j) as [[w q]|]; [|exact S0]; destruct (nth_error (om_obs m) q) as [ob|] eqn:N; [|exact S0]; try exact S0).
  - apply stays_call; auto.
  - apply stays_call; auto.
  - destruct (assign _ _ _) as [[v' ok]|]; cbn [fst]; [|exact S0]. eapply U; eauto.
  - cbn [fst]. eapply U; eauto. intros A. rewrite A. destruct (Nat.eqb_spec i q); auto.
Qed.
Lemma stays_run h p i os : forall x y, hrel x y -> hcovered h x y os -> stays_obj p i (fst y) -> stays_obj p i (fst (orun h y os)).
Proof.
  induction os as [|o os IH]; intros x y R C S0; cbn [hcovered orun] in *; auto. destruct C as [C1 C2].
  destruct (hstep_rel h x y o R C1) as [R1 _]. eapply IH; eauto. eapply stays_step; eauto.
Qed.
Lemma gone_obj_step h x y o i : hrel x y -> (exists b, nth_error (om_obs (fst y)) i = Some b /\ ob_gone b = true) ->
  exists b, nth_error (om_obs (fst (fst (ostep h y o)))) i = Some b /\ ob_gone b = true.
Proof.
  destruct y as [m hs]. intros HR. pose proof (hr_ok _ _ HR) as K. cbn [fst] in *. clear HR. intros (z & Z1 & Z2).
  assert (U : forall j ob ob', nth_error (om_obs m) j = Some ob -> (ob_gone ob = true -> ob_gone ob' = true) -> exists b, nth_error (om_set m j ob') i = Some b /\ ob_gone b = true).
  { intros j ob ob' N G. pose proof (nth_lt _ _ _ N) as L. unfold om_set. rewrite (upd_nth_get _ _ _ _ L). destruct (Nat.eqb_spec i j) as [->|]; eauto.
    exists ob'. split; auto. apply G. congruence. }
  destruct o as [o|key|k c|it|j|j|j|j v|j]; cbn [ostep fst]; eauto; try (destruct (nth_error hs j) as [[w q]|]; [|eauto]; destruct (nth_error (om_obs m) q) as [ob|] eqn:N; eauto).
  - exists z. split; auto. apply gone_step; auto.
  - exists z. split; auto. apply gone_step; auto.
  - destruct (assign _ _ _) as [[v' ok]|]; cbn [fst om_obs]; eauto.
  - cbn [fst om_obs]. eapply U; eauto.
Qed.
Lemma gone_obj_run h i os : forall x y, hrel x y -> hcovered h x y os -> (exists b, nth_error (om_obs (fst y)) i = Some b /\ ob_gone b = true) ->
  exists b, nth_error (om_obs (fst (orun h y os))) i = Some b /\ ob_gone b = true.
Proof.
  induction os as [|o os IH]; intros x y R C G; cbn [hcovered orun] in *; auto. destruct C as [C1 C2].
  destruct (hstep_rel h x y o R C1) as [R1 _]. eapply IH; eauto. eapply gone_obj_step; eauto.
Qed.
(** the caller's items keep their numbers *)
Lemma kept_step h y o : exists more, snd (fst (ostep h y o)) = snd y ++ more.
Proof.
  destruct y as [m hs]. destruct o as [o|key|k c|it|j|j|j|j v|j]; cbn [ostep fst snd]; try (exists []; rewrite app_nil_r; reflexivity); eauto;
    (destruct (nth_error hs j) as [[w q]|]; [destruct (nth_error (om_obs m) q) as [ob|]|]; try destruct (assign _ _ _) as [[v' ok]|]; cbn [fst snd]; exists []; rewrite app_nil_r; reflexivity).
Qed.
Lemma kept_run h os : forall y j q, nth_error (snd y) j = Some q -> nth_error (snd (orun h y os)) j = Some q.
Proof.
  induction os as [|o os IH]; intros y j q N; cbn [orun]; auto. apply IH. destruct (kept_step h y o) as [more ->]. rewrite nth_error_app1; auto. eapply nth_lt; eauto.
Qed.
Lemma rel_len x y : hrel x y -> List.length (snd x) = List.length (snd y).
Proof. intros [_ _ _ (pos & _ & _ & -> & _)]. apply map_length. Qed.
Lemma fresh_get h bs m key : covered h bs m (OpGet key).
Proof. split; exact I. Qed.
Lemma hget h x y key : hrel x y -> snd (hstep h x (HCall (OpGet key))) = HOut (match key_to_hash h key with Some p => sm_get (flat (fst y)) p | None => RPanic end).
Proof. intros R. destruct (hstep_rel h x y (HCall (OpGet key)) R) as [_ ->]; [apply fresh_get|]. destruct y as [m hs]. reflexivity. Qed.

(** [o] gives the caller the item of [key]: LoadItem answered with an item, or StoreItem of the caller's item under an absent key. *)
Definition obtains (h : hashes) (x : hstate) (key : gkey) (o : hop) : Prop :=
  (o = HLoad key /\ exists r, snd (hstep h x o) = HOut (RItem (Some r))) \/
  (exists it, o = HStore it /\ i_key it = key /\ snd (hstep h x (HCall (OpLoad key))) = HOut (RItem None)).
(** The state after [before], [o] that gives the item of [key], and [after]; the kept item has number [j]. *)
Definition obtained (h : hashes) (view : ikind) (max : Z) (mode : Z) (before : list hop) (key : gkey) (o : hop) (after : list hop) (x : hstate) (j : nat) : Prop :=
  let x0 := hrun h (new_map view max mode false, []) before in
  hcovered h (new_map view max mode false, []) (om_empty view, []) (before ++ o :: after) /\
  obtains h x0 key o /\ j = List.length (snd x0) /\ x = hrun h x0 (o :: after).
Lemma obtains_obj h x y key o : hrel x y -> match map_call o with Some c => covered h (dump_bucket (fst x)) (flat (fst y)) c | None => True end -> obtains h x key o ->
  exists p i w, key_to_hash h key = Some p /\ snd (fst (ostep h y o)) = snd y ++ [(w, i)] /\ om_at (fst (fst (ostep h y o))) p = Some i.
Proof.
  intros R C OB. pose proof (hr_ok _ _ R) as K. destruct OB as [(-> & r & F)|(it & -> & E & F)].
  - destruct (hstep_rel h x y (HLoad key) R I) as [_ E1]. rewrite E1 in F. clear E1 R. destruct y as [m hs]. cbn [ostep fst snd sm_step] in *.
    destruct (key_to_hash h key) as [p|] eqn:KH; cbn [snd] in F; [|exfalso; congruence]. unfold sm_load in F. destruct (sm_map (flat m) p) as [bd|] eqn:M; [|exfalso; congruence].
    unfold okeep. destruct (om_at m p) as [i|] eqn:A; [exists p, i, (om_view m); auto|]. exfalso. assert (X : sm_map (flat m) p = None) by (apply flat_none; auto). congruence.
  - destruct (hstep_rel h x y (HCall (OpLoad key)) R) as [_ E1]; [split; exact I|]. rewrite E1 in F. clear E1 R. destruct y as [m hs]. cbn [ostep fst snd sm_step] in *. subst key.
    destruct (key_to_hash h (i_key it)) as [p|] eqn:KH; cbn [snd] in F; [|exfalso; congruence]. unfold sm_load in F. destruct (sm_map (flat m) p) as [bd|] eqn:M; [exfalso; congruence|].
    assert (A : om_at m p = None) by (apply flat_none; auto). destruct p as [k c]. destruct (om_step_new h m it k c KH A M) as [X _].
    exists (k, c), (List.length (om_obs m)), (i_kind it). unfold onew. rewrite KH, A. auto.
Qed.
Lemma obtained_obj h view max mode before key o after x j : obtained h view max mode before key o after x j ->
  exists y p i b w, hrel x y /\ key_to_hash h key = Some p /\ nth_error (snd y) j = Some (w, i) /\ stays_obj p i (fst y) /\ nth_error (om_obs (fst y)) i = Some b.
Proof.
  unfold obtained. cbv zeta. intros (C & F & -> & ->). apply hcovered_app in C as [C1 C2]. destruct (hrun_rel h before _ _ (new_rel view max mode) C1) as [R0 _].
  set (x0 := hrun h (new_map view max mode false, []) before) in *. set (y0 := orun h (om_empty view, []) before) in *. cbn [hcovered] in C2. destruct C2 as [C0 C2].
  destruct (obtains_obj h x0 y0 key o R0 C0 F) as (p & i & w & KH & NH & A). destruct (hstep_rel h x0 y0 o R0 C0) as [R1 _]. cbn [hrun].
  destruct (hrun_rel h after _ _ R1 C2) as [R2 _]. pose proof (stays_run h p i after _ _ R1 C2 (or_introl A)) as ST.
  assert (NJ : nth_error (snd (orun h (fst (ostep h y0 o)) after)) (List.length (snd x0)) = Some (w, i)).
  { apply kept_run. rewrite NH, (rel_len _ _ R0). rewrite nth_error_app2 by lia. rewrite Nat.sub_diag. reflexivity. }
  assert (B : exists b, nth_error (om_obs (fst (orun h (fst (ostep h y0 o)) after))) i = Some b).
  { destruct ST as [X|(b & X & _)]; eauto. destruct (hr_ok _ _ R2) as [K1 _]. destruct (K1 p i X) as (b & Y & _). eauto. }
  destruct B as [b B]. exists (orun h (fst (ostep h y0 o)) after), p, i, b, w. auto.
Qed.

(** The item given for [key], while it does not report itself deleted, reads the value Get(key) answers; a value assigned through it
    is the value Get(key) then answers; after Delete() through it Get(key) finds nothing; no other key is affected. *)
Theorem C78_live : forall h view max mode before key o1 after x j, mode <> CombineSearch4 ->
  obtained h view max mode before key o1 after x j -> snd (hstep h x (HIsDeleted j)) = HBool false ->
  (exists v, snd (hstep h x (HValue j)) = HVal v /\ snd (hstep h x (HCall (OpGet key))) = HOut (RVal v true)) /\
  (forall w, snd (hstep h x (HSetValue j w)) = HBool true -> snd (hstep h (fst (hstep h x (HSetValue j w))) (HCall (OpGet key))) = HOut (RVal w true)) /\
  snd (hstep h (fst (hstep h x (HDelete j))) (HCall (OpGet key))) = HOut (RVal GNil false) /\
  forall key' p p' o, key_to_hash h key = Some p -> key_to_hash h key' = Some p' -> p' <> p -> o = HDelete j \/ (exists w, o = HSetValue j w) ->
    snd (hstep h (fst (hstep h x o)) (HCall (OpGet key'))) = snd (hstep h x (HCall (OpGet key'))).
Proof.
  intros h view max mode before key o1 after x j _ L D. destruct (obtained_obj _ _ _ _ _ _ _ _ _ _ L) as (y & p & i & b & vw & R & KH & NH & ST & NB). clear L.
  destruct (hstep_rel h x y (HIsDeleted j) R I) as [_ E0]. rewrite E0 in D. destruct (hstep_rel h x y (HValue j) R I) as [_ E1]. rewrite E1.
  destruct (hstep_rel h x y (HDelete j) R I) as [R2 _]. rewrite (hget h _ _ key R2), (hget h _ _ key R), KH.
  assert (SV : forall w, hrel (fst (hstep h x (HSetValue j w))) (fst (ostep h y (HSetValue j w))) /\ snd (hstep h x (HSetValue j w)) = snd (ostep h y (HSetValue j w))) by (intros w; apply hstep_rel; [auto|exact I]).
  assert (G1 : (exists v, snd (ostep h y (HValue j)) = HVal v /\ HOut (sm_get (flat (fst y)) p) = HOut (RVal v true)) /\
     HOut (sm_get (flat (fst (fst (ostep h y (HDelete j))))) p) = HOut (RVal GNil false) /\
     (forall w, snd (ostep h y (HSetValue j w)) = HBool true -> HOut (sm_get (flat (fst (fst (ostep h y (HSetValue j w))))) p) = HOut (RVal w true)) /\
     forall p' o, p' <> p -> o = HDelete j \/ (exists w, o = HSetValue j w) -> sm_get (flat (fst (fst (ostep h y o)))) p' = sm_get (flat (fst y)) p').
  2: { destruct G1 as (A & B & C & E). split; [exact A|]. split; [|split; [exact B|]].
       - intros w W. destruct (SV w) as [R3 E3]. rewrite E3 in W. rewrite (hget h _ _ key R3), KH. auto.
       - intros key' q p' o Kq Kp' N O'. assert (q = p) by congruence. subst q.
         assert (Ro : hrel (fst (hstep h x o)) (fst (ostep h y o))) by (destruct O' as [->|[w ->]]; auto; apply SV).
         rewrite (hget h _ _ key' Ro), (hget h _ _ key' R), Kp'. rewrite (E p' o N O'). reflexivity. }
  pose proof (hr_ok _ _ R) as K. clear R R2 SV E0 E1. destruct y as [m hs]. cbn [fst snd ostep] in *. rewrite NH, NB in *. cbn [fst snd] in *.
  assert (A : om_at m p = Some i) by (destruct ST as [A|(b' & B1 & B2)]; [auto|exfalso; congruence]). pose proof (nth_lt _ _ _ NB) as L.
  assert (NI : forall p', p' <> p -> om_at m p' <> Some i) by (intros p' N X; apply N; destruct K as [_ K2]; eapply K2; eauto).
  split; [|split; [|split]].
  - eexists. split; [reflexivity|]. unfold sm_get. rewrite (flat_some m p i b A NB). reflexivity.
  - unfold sm_get. cbn [flat sm_map om_at]. rewrite A, Nat.eqb_refl. reflexivity.
  - intros w W. destruct (assign vw (bd_val (ob_bd b)) w) as [[v' ok]|] eqn:AS; cbn [fst snd] in *; [|discriminate]. injection W as ->.
    assert (v' = w). { unfold assign in AS. destruct vw; [|congruence]. destruct (gval_eqb w GNil); [congruence|]. destruct (_ || _); congruence. } subst v'.
    unfold sm_get. cbn [flat sm_map om_at om_obs]. rewrite A. unfold om_set. rewrite (upd_nth_get _ _ _ _ L), Nat.eqb_refl. reflexivity.
  - intros p' o N O'. unfold sm_get. specialize (NI p' N). destruct O' as [->|[w ->]]; rewrite ?NH, ?NB.
    + cbn [fst flat sm_map om_at om_obs]. unfold om_set. destruct (om_at m p') as [i'|]; auto. destruct (Nat.eqb_spec i' i) as [->|N']; [congruence|].
      rewrite (upd_nth_get _ _ _ _ L). destruct (Nat.eqb_spec i' i); [congruence|reflexivity].
    + destruct (assign _ _ _) as [[v' ok]|]; cbn [fst]; auto. cbn [flat sm_map om_at om_obs]. unfold om_set. destruct (om_at m p') as [i'|]; auto.
      rewrite (upd_nth_get _ _ _ _ L). destruct (Nat.eqb_spec i' i) as [->|]; [congruence|reflexivity].
Qed.
Print Assumptions C78_live.

(** An item that reports itself deleted does so forever, and what is written through it no Get sees. *)
Theorem C78_gone_stays : forall h view max mode before key o1 after x j, mode <> CombineSearch4 ->
  obtained h view max mode before key o1 after x j -> snd (hstep h x (HIsDeleted j)) = HBool true ->
  (forall more x', obtained h view max mode before key o1 (after ++ more) x' j -> snd (hstep h x' (HIsDeleted j)) = HBool true) /\
  (forall key' o, o = HDelete j \/ (exists w, o = HSetValue j w) -> snd (hstep h (fst (hstep h x o)) (HCall (OpGet key'))) = snd (hstep h x (HCall (OpGet key')))).
Proof.
  intros h view max mode before key o1 after x j _ L D. split.
  - intros more x' L'. unfold obtained in L, L'. cbv zeta in L, L'. destruct L as (C & F & -> & ->). destruct L' as (C' & _ & _ & ->).
    apply hcovered_app in C as [C1 C2]. apply hcovered_app in C' as [_ C3]. cbn [hcovered hrun] in *. destruct C2 as [C0 C2]. destruct C3 as [_ C3].
    apply hcovered_app in C3 as [_ C3]. rewrite hrun_app.
    destruct (hrun_rel h before _ _ (new_rel view max mode) C1) as [R0 _]. destruct (hstep_rel h _ _ o1 R0 C0) as [R1 _]. destruct (hrun_rel h after _ _ R1 C2) as [R2 _].
    destruct (hrun_rel h more _ _ R2 C3) as [R3 _].
    set (j := List.length (snd (hrun h (new_map view max mode false, []) before))) in *. clearbody j.
    set (x2 := hrun h (fst (hstep h (hrun h (new_map view max mode false, []) before) o1)) after) in *. clearbody x2.
    set (y2 := orun h (fst (ostep h (orun h (om_empty view, []) before) o1)) after) in *. clearbody y2.
    destruct (hstep_rel h _ _ (HIsDeleted j) R2 I) as [_ E2]. rewrite E2 in D. destruct (hstep_rel h _ _ (HIsDeleted j) R3 I) as [_ ->].
    assert (G : exists w i b, nth_error (snd y2) j = Some (w, i) /\ nth_error (om_obs (fst y2)) i = Some b /\ ob_gone b = true).
    { destruct y2 as [m2 hs2]. cbn [ostep fst snd] in *. destruct (nth_error hs2 j) as [[w i]|]; [|discriminate D]. destruct (nth_error (om_obs m2) i) as [b|] eqn:B; [|discriminate D].
      exists w, i, b. split; auto. split; auto. cbn [snd] in D. congruence. }
    destruct G as (w & i & b & G1 & G2 & G3). destruct (gone_obj_run h i more _ _ R2 C3 (ex_intro _ b (conj G2 G3))) as (b' & G4 & G5).
    pose proof (kept_run h more y2 j _ G1) as G6. destruct (orun h y2 more) as [m3 hs3]. cbn [ostep fst snd] in *. rewrite G6, G4, G5. reflexivity.
  - destruct (obtained_obj _ _ _ _ _ _ _ _ _ _ L) as (y & p & i & b & vw & R & KH & NH & ST & NB). clear L.
    destruct (hstep_rel h x y (HIsDeleted j) R I) as [_ E0]. rewrite E0 in D. intros key' o O'.
    assert (Ro : hrel (fst (hstep h x o)) (fst (ostep h y o))) by (destruct O' as [->|[w ->]]; (apply hstep_rel; [auto|exact I])).
    rewrite (hget h _ _ key' Ro), (hget h _ _ key' R). destruct (key_to_hash h key') as [p'|]; auto. f_equal.
    pose proof (hr_ok _ _ R) as [K1 _]. clear R Ro E0. destruct y as [m hs]. cbn [fst snd ostep] in *. rewrite NH, NB in *. cbn [snd] in D.
    assert (NI : om_at m p' <> Some i). { intros X. destruct (K1 p' i X) as (b' & B1 & B2). congruence. }
    pose proof (nth_lt _ _ _ NB) as L. unfold sm_get. destruct O' as [->|[w ->]]; rewrite ?NH, ?NB.
    + cbn [fst flat sm_map om_at om_obs]. unfold om_set. destruct (om_at m p') as [i'|]; auto. destruct (Nat.eqb_spec i' i) as [->|N']; [congruence|].
      rewrite (upd_nth_get _ _ _ _ L). destruct (Nat.eqb_spec i' i); [congruence|reflexivity].
    + destruct (assign _ _ _) as [[v' ok]|]; cbn [fst]; auto. cbn [flat sm_map om_at om_obs]. unfold om_set. destruct (om_at m p') as [i'|]; auto.
      rewrite (upd_nth_get _ _ _ _ L). destruct (Nat.eqb_spec i' i) as [->|]; [congruence|reflexivity].
Qed.
Print Assumptions C78_gone_stays.

(** ** deciders for the examples *)
Fixpoint hcov_b (h : hashes) (x : hstate) (y : ostate) (ws : list (Z * Z)) (os : list hop) : bool :=
  match os with
  | [] => true
  | o :: os' => match map_call o with Some c => cov_b h (fst x) (flat (fst y)) ws [c] | None => true end &&
                hcov_b h (fst (hstep h x o)) (fst (ostep h y o)) (match map_call o with Some c => ws_next h ws c | None => ws end) os'
  end.
Lemma hcov_b_ok h os : forall x y ws, hrel x y -> (forall p, om_at (fst y) p <> None -> In p ws) -> hcov_b h x y ws os = true -> hcovered h x y os.
Proof.
  induction os as [|o os IH]; intros x y ws R D B; cbn [hcov_b hcovered] in *; auto. apply andb_true_iff in B as [B1 B2].
  assert (C : match map_call o with Some c => covered h (dump_bucket (fst x)) (flat (fst y)) c | None => True end).
  { destruct (map_call o) as [c|]; auto. assert (DF : forall p, sm_map (flat (fst y)) p <> None -> In p ws).
    { intros p N. apply D. intros X. apply N. cbn [flat sm_map]. rewrite X. reflexivity. }
    destruct (cov_b_ok h [c] (fst x) (flat (fst y)) ws DF B1) as [C1 _]. exact C1. }
  split; auto. destruct (hstep_rel h x y o R C) as [R1 _]. eapply IH; eauto. clear IH B1 B2 C R1.
  pose proof (hr_ok _ _ R) as K. clear R. destruct y as [m hs]. cbn [fst] in *.
  assert (CC : forall c p, om_at (om_step h m c) p <> None -> In p (ws_next h ws c)).
  { intros c p N. destruct (flat_step h m c K) as [K' FL]. apply (sm_dom h (flat m) c ws).
    - intros q Q. apply D. intros X. apply Q. cbn [flat sm_map]. rewrite X. reflexivity.
    - rewrite <- FL. intros X. apply N. apply flat_none; auto. }
  destruct o as [c|key|k c|it|j|j|j|j v|j]; cbn [ostep fst map_call]; auto; try (destruct (nth_error hs j) as [[w q]|]; [|exact D]; destruct (nth_error (om_obs m) q) as [ob|]; [|exact D]; try exact D).
  - destruct (assign _ _ _) as [[v' ok]|]; cbn [fst]; exact D.
  - cbn [fst om_at]. intros p N. apply D. destruct (om_at m p); [discriminate|congruence].
Qed.
Lemma hcov_new h view max mode os : hcov_b h (new_map view max mode false, []) (om_empty view, []) [] os = true ->
  hcovered h (new_map view max mode false, []) (om_empty view, []) os.
Proof. apply hcov_b_ok; [apply new_rel|]. intros p X. exfalso. apply X. reflexivity. Qed.

(** The natural claim: what was given for key reads what Get(key) answers, as long as Get(key) answers something. *)
Definition stays_attached : Prop := forall h view max mode before key o1 after x j v w, mode <> CombineSearch4 ->
  obtained h view max mode before key o1 after x j -> snd (hstep h x (HCall (OpGet key))) = HOut (RVal v true) -> snd (hstep h x (HValue j)) = HVal w -> v = w.
Theorem C78_stays_attached_refuted : ~ stays_attached.
Proof.
  intros H.
  specialize (H hx KEntry 8 CombineSearch2 [HCall (OpSet (KStr "ab") (GV 1 1))] (KStr "ab") (HLoad (KStr "ab")) [HCall (OpDelete (KStr "ab")); HCall (OpSet (KStr "ab") (GV 1 2))]
    (hrun hx (new_map KEntry 8 CombineSearch2 false, []) ([HCall (OpSet (KStr "ab") (GV 1 1))] ++ HLoad (KStr "ab") :: [HCall (OpDelete (KStr "ab")); HCall (OpSet (KStr "ab") (GV 1 2))]))
    0%nat (GV 1 2) (GV 1 1) ltac:(discriminate)).
  assert (X : GV 1 2 = GV 1 1); [|clear H; congruence].
  apply H; [|vm_compute; reflexivity|vm_compute; reflexivity]. split; [apply hcov_new; vm_compute; reflexivity|]. split; [left; split; [reflexivity|eexists; vm_compute; reflexivity]|].
  split; [vm_compute; reflexivity|]. rewrite hrun_app. reflexivity.
Qed.
Print Assumptions C78_stays_attached_refuted.

(** Four keys over several buckets, three items kept; one is written through, one deleted through, one outlives its key, which
    is stored again. *)
Definition kept_ops : list hop :=
  [HCall (st 21 1); HCall (st 23 3); HLoad (KU64 21); HCall (st 19 5); HLoad (KU64 23); HCall (st 37 6); HLoad (KU64 19); HSetValue 0 (GV 1 8);
   HCall (st 27 4); HDelete 1; HCall (OpDelete (KU64 19)); HCall (st 19 9); HSetValue 2 (GV 1 7); HCall (OpGet (KU64 21)); HCall (OpGet (KU64 23));
   HCall (OpGet (KU64 19)); HValue 0; HValue 2; HIsDeleted 0; HIsDeleted 1; HIsDeleted 2; HCall OpLen; HKey 0].
Example C78_case :
  hcovered hx (new_map KEntry 1 CombineSearch2 false, []) (om_empty KEntry, []) kept_ops /\
  skipn 13 (houts hx (new_map KEntry 1 CombineSearch2 false, []) kept_ops) =
    [HOut (RVal (GV 1 8) true); HOut (RVal GNil false); HOut (RVal (GV 1 9) true); HVal (GV 1 8); HVal (GV 1 7); HBool false; HBool true; HBool true; HOut (RLen 6); HName (Some (KU64 21))] /\
  (List.length (m_bl (fst (hrun hx (new_map KEntry 1 CombineSearch2 false, []) kept_ops))) > 1)%nat.
Proof. split; [apply hcov_new; vm_compute; reflexivity|]. split; [vm_compute; reflexivity|]. vm_compute. repeat constructor. Qed.
Example C78_live_case : exists x, obtained hx KEntry 1 CombineSearch2 [HCall (st 21 1); HCall (st 23 3)] (KU64 21) (HLoad (KU64 21)) [HCall (st 19 5); HCall (st 37 6); HSetValue 0 (GV 1 8)] x 0 /\
  snd (hstep hx x (HIsDeleted 0)) = HBool false /\ snd (hstep hx x (HValue 0)) = HVal (GV 1 8).
Proof.
  eexists. split; [|split].
  - split; [apply hcov_new; vm_compute; reflexivity|]. split; [left; split; [reflexivity|eexists; vm_compute; reflexivity]|]. split; [vm_compute; reflexivity|]. reflexivity.
  - vm_compute. reflexivity.
  - vm_compute. reflexivity.
Qed.
Example C78_gone_case : exists x, obtained hx KEntry 1 CombineSearch2 [HCall (st 21 1); HCall (st 23 3)] (KU64 21) (HLoad (KU64 21)) [HCall (st 19 5); HDelete 0; HCall (st 37 6)] x 0 /\
  snd (hstep hx x (HIsDeleted 0)) = HBool true.
Proof.
  eexists. split.
  - split; [apply hcov_new; vm_compute; reflexivity|]. split; [left; split; [reflexivity|eexists; vm_compute; reflexivity]|]. split; [vm_compute; reflexivity|]. reflexivity.
  - vm_compute. reflexivity.
Qed.
(** The caller's own item: a SampleItem in a map that reads entries with the other type until a Set of a string. *)
Definition own_item : item := mkI KSample (KStr "ab") (GV 1 1) 0 0 false.
Example C78_own_case : exists x, obtained hx KEntry 1 CombineSearch2 [HCall (st 21 1); HCall (st 23 3)] (KStr "ab") (HStore own_item) [HCall (st 19 5); HCall (OpSet (KStr "ab") (GV 1 4)); HCall (st 37 6)] x 0 /\
  snd (hstep hx x (HIsDeleted 0)) = HBool false /\ snd (hstep hx x (HValue 0)) = HVal (GV 1 4) /\ snd (hstep hx x (HKey 0)) = HName (Some (KStr "ab")).
Proof.
  eexists. split; [|split; [|split]].
  - split; [apply hcov_new; vm_compute; reflexivity|]. split; [right; exists own_item; split; [reflexivity|split; [reflexivity|vm_compute; reflexivity]]|]. split; [vm_compute; reflexivity|]. reflexivity.
  - vm_compute. reflexivity.
  - vm_compute. reflexivity.
  - vm_compute. reflexivity.
Qed.
