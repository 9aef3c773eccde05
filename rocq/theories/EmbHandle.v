(** C79: items of the embedded map that the caller keeps (LoadItem, LoadItemByHash) and calls later. *)
From Verif Require Import Base BaseProofs Util UtilProofs Bucket TrieProofs TrieInv TrieGrow MapModel ItemProofs MapInv MapSplit
  MapInit Spec MapRefine EmbModel EmbPool EmbTrie EmbInv EmbSplit EmbSpec EmbRefine EmbDel PurgeSpec EmbPurge PropEmb.
From Coq Require Import ZifyBool Sorted Ascii String.
Local Open Scope Z_scope.
Local Open Scope list_scope.
Local Opaque reverse64 level_of base find_bucket.

(** * Model *)
(** A kept item is a pointer to a slot: of the array a bucket now uses ([Att], bucket and index), or of an array that the map no
    longer uses ([Det]: its slots are kept in a list, by number). *)
Inductive place := Att (n : nid) (i : nat) | Det (c : nat).
Record estore_items := mkH { h_map : estate; h_cells : list slot; h_kept : list place }.
Notation xstate := estore_items.
Definition slot_of (e : estate) (cells : list slot) (q : place) : option slot :=
  match q with
  | Att n i => match b_pool (bget (x_trie e) n) with Some p => nth_error (p_slots p) i | None => None end
  | Det c => nth_error cells c
  end.

(** whether getWithFn (map_embedded.go:446-545, get_with_fn) gives the pool a new array: expand (547-614, the copy at 575-576 and
    594) or insertToPool (367-407, the copies at 368-372 and 404-407). The other ways to a slot, 301-320 and 513-537, stay in the
    array. Branches in the order of get_with_fn. *)
Fixpoint new_array (fuel : nat) (p : pool) (rv : Z) : bool :=
  match fuel with
  | O => false
  | S f =>
      if p_len p =? 0 then false else
      let tail := last_active (p_slots p) (p_n p) in
      match free_idx p rv tail with
      | Some _ => false
      | None =>
          if p_cap p =? p_len p then true
          else match tail with
               | None => false
               | Some tl => if sl_rev (slot_at p tl) <? rv then false
                            else match find_idx p rv with None => new_array f p rv | Some _ => true end
               end
      end
  end.
(** the old array of bucket b goes out of use: its slots become cells from number d on *)
Definition detach (b : nid) (d : nat) (q : place) : place :=
  match q with Att n i => if nid_eqb n b then Det (d + i) else q | Det _ => q end.

(** One round of makeBucket2 (map_embedded.go:61-132, make_bucket2): the state after it, the new bucket, the index from which
    the slots go to it, and the old length; [None] when nothing is divided. *)
Definition split_round (s : estate) (b : nid) : option (estate * nid * nat * Z) :=
  let t := x_trie s in
  let nx := prev_as_b (x_bl s) b in
  let r0 := brev t nx / 2 + brev t b / 2 in
  let nr := if Z.odd r0 then u64 (r0 + 1) else r0 in
  match bucket_from_pool_embedded t (x_lv s) nr with
  | None => None
  | Some (t1, lv1, nb) =>
      if in_blist (x_bl s) nb then None else
      if (brev t1 nb =? 0) && (1 <? lvl t1 nb) then None else
      match b_pool (bget t1 b) with
      | None => None
      | Some p =>
          match find_idx p nr with
          | None | Some O => None
          | Some i =>
              let t2 := tupd t1 nb (fun x => set_blen (set_pool x (Some (split_hi p i))) (p_len p - Z.of_nat i)) in
              let t3 := tupd t2 b (fun x => set_blen (set_pool x (Some (split_lo p i))) (Z.of_nat i)) in
              let bl := match bucket_below t3 (brev t3 nb) (x_bl s) with
                        | Some n => ins_before n nb (x_bl s)
                        | None => x_bl s
                        end in
              let lv := lv_set lv1 (lvl t3 nb)
                          (ins_level t3 (in_blist bl) nb (lv_get lv1 (lvl t3 nb))) in
              Some (mkX t3 bl lv (x_len s) (x_max s), nb, i, p_len p)
          end
      end
  end.
(** _split (map_embedded.go:647-680) gives the new bucket the rest of the same array: no slot is copied, a pointer to one stays a
    pointer to the same slot. *)
Definition moved (b nb : nid) (i : nat) (q : place) : place :=
  match q with Att n j => if nid_eqb n b && (i <=? j)%nat then Att nb (j - i) else q | Det _ => q end.
Fixpoint split_place (fuel : nat) (s : estate) (b : nid) (q : place) : place :=
  match fuel with
  | O => q
  | S f =>
      match split_round s b with
      | None => q
      | Some (s2, nb, i, ln) =>
          let q' := moved b nb i q in
          if x_max s <? ln - Z.of_nat i then split_place f s2 nb q'
          else if x_max s <? Z.of_nat i then split_place f s2 b q'
          else q'
      end
  end.

(** What a call does to the kept items: the slots that go out of use, and where the items are after it. Set of a key that is
    not found (map.go:591-705, eset), StoreItem of one (map.go:708-717, estore); the other calls move nothing. *)
Definition moves (h : hashes) (e : estate) (d : nat) (o : op) : list slot * (place -> place) :=
  match o with
  | OpSet key v =>
      match key_to_hash h key with
      | Some (k, conf) =>
          match eload e k conf with
          | Ret None =>
              let rv := reverse64 k in
              let b := base (x_trie e) (find_bucket (x_trie e) rv) in
              match pool_of (x_trie e) b with
              | Some p =>
                  match get_with_fn 4 p rv with
                  | GSlot p1 i =>
                      let out := if new_array 4 p rv then p_slots p else [] in
                      let q1 := fun q => if new_array 4 p rv then detach b d q else q in
                      let sl := slot_at p1 i in
                      let rv' := if sl_rev sl =? 0 then rv else sl_rev sl in
                      let cf' := if sl_conf sl =? 0 then conf else sl_conf sl in
                      match key, set_value KSample (sl_val sl) v with
                      | KStr _, Some (v', _) =>
                          let s1 := set_bpool e b (upd_slot p1 i (fun x => mkS rv' cf' (sl_del x) key v' true)) in
                          let s2 := mkX (x_trie s1) (x_bl s1) (x_lv s1) (x_len s1 + 1) (x_max s1) in
                          (out, fun q => if negb (sl_del sl) && (rv' <? MAX64) && (x_max s2 <? p_len p1)
                                         then split_place 64 s2 b (q1 q) else q1 q)
                      | _, _ => (out, q1)
                      end
                  | _ => ([], fun q => q)
                  end
              | None => ([], fun q => q)
              end
          | _ => ([], fun q => q)
          end
      | None => ([], fun q => q)
      end
  | OpStore i =>
      match item_hash h i with
      | Some (k, conf) =>
          match eload e k conf with
          | Ret None =>
              let b := find_bucket (x_trie e) (reverse64 k) in
              let s1 := mkX (x_trie e) (x_bl e) (x_lv e) (x_len e + 1) (x_max e) in
              let blen := match b_pool (bget (x_trie e) b) with
                          | Some p => p_len p
                          | None => b_len (bget (x_trie e) b)
                          end in
              ([], fun q => if negb (i_del i) && (i_rev i <? MAX64) && (x_max e <? blen) && in_blist (x_bl e) b
                            then split_place 64 s1 b q else q)
          | _ => ([], fun q => q)
          end
      | None => ([], fun q => q)
      end
  | _ => ([], fun q => q)
  end.

(** calls of the map, and of kept item number j: Value(), Key(), IsDeleted(), SetValue(v), Delete()
    (sample_hmap_entry.go:51-65, 83-85; maphead.go:40-42) *)
Inductive iop :=
| ICall (o : op)
| ILoad (key : gkey)             (* LoadItem, and the item is kept *)
| ILoadByHash (k c : Z)          (* LoadItemByHash *)
| IValue (j : nat) | IKey (j : nat) | IIsDeleted (j : nat) | ISetValue (j : nat) (v : gval) | IDelete (j : nat).
Inductive iout := IOut (o : out) | IVal (v : gval) | IName (k : gkey) | IBool (b : bool) | INone.
Definition lift (r : res out) : res iout :=
  match r with Ret o => Ret (IOut o) | Pan => Pan | Div => Div | Undef => Undef end.
(** what the search found (map.go:447-506), as a kept item *)
Definition found (r : res (option (nid * nat))) : list place :=
  match r with Ret (Some (n, i)) => [Att n i] | _ => [] end.
Definition set_cell (x : xstate) (q : place) (f : slot -> slot) : xstate :=
  match q with
  | Att n i => mkH (upd_item (h_map x) n i f) (h_cells x) (h_kept x)
  | Det c => mkH (h_map x) (upd_nth c (f (nth c (h_cells x) zero_slot)) (h_cells x)) (h_kept x)
  end.
Definition istep (h : hashes) (x : xstate) (o : iop) : xstate * res iout :=
  let e := h_map x in
  match o with
  | ICall o => let m := moves h e (List.length (h_cells x)) o in
               (mkH (fst (estep h e o)) (h_cells x ++ fst m) (map (snd m) (h_kept x)), lift (snd (estep h e o)))
  | ILoad key => (mkH e (h_cells x) (h_kept x ++ match key_to_hash h key with Some (k, c) => found (eload e k c) | None => [] end),
                  lift (snd (estep h e (OpLoad key))))
  | ILoadByHash k c => (mkH e (h_cells x) (h_kept x ++ found (eload e (u64 k) (u64 c))), lift (snd (estep h e (OpLoadByHash k c))))
  | IValue j | IKey j | IIsDeleted j | ISetValue j _ | IDelete j =>
      match nth_error (h_kept x) j with
      | None => (x, Ret INone)
      | Some q =>
          match slot_of e (h_cells x) q with
          | None => (x, Ret INone)
          | Some sl =>
              match o with
              | IValue _ => (x, Ret (IVal (sl_val sl)))
              | IKey _ => (x, Ret (IName (sl_key sl)))
              | IIsDeleted _ => (x, Ret (IBool (sl_del sl)))
              | ISetValue _ v => match set_value KSample (sl_val sl) v with
                                 | None => (x, Pan)
                                 | Some (v', ok) => (set_cell x q (set_sval v'), Ret (IBool ok))
                                 end
              | _ => (set_cell x q set_sdel, Ret (IBool true))
              end
          end
      end
  end.
(** as erun: nothing follows a call that does not return *)
Definition istops (r : res iout) : bool := match r with Div | Undef => true | _ => false end.
Fixpoint irun (h : hashes) (x : xstate) (os : list iop) : xstate :=
  match os with
  | [] => x
  | o :: os' => if istops (snd (istep h x o)) then fst (istep h x o) else irun h (fst (istep h x o)) os'
  end.
Fixpoint iouts (h : hashes) (x : xstate) (os : list iop) : list (res iout) :=
  match os with
  | [] => []
  | o :: os' => snd (istep h x o) :: (if istops (snd (istep h x o)) then [] else iouts h (fst (istep h x o)) os')
  end.
Definition new_items (max : Z) : xstate := mkH (new_emb max) [] [].

(** * Proof *)
Lemma split_round_shape s b : split_round s b =
  let t := x_trie s in
  let nr := mid_rev t (prev_as_b (x_bl s) b) b in
  match bucket_from_pool_embedded t (x_lv s) nr with
  | None => None
  | Some (t1, lv1, nb) =>
      if in_blist (x_bl s) nb then None else
      if (brev t1 nb =? 0) && (1 <? lvl t1 nb) then None else
      match b_pool (bget t1 b) with
      | None => None
      | Some p =>
          match find_idx p nr with
          | None | Some O => None
          | Some i =>
              let t2 := tupd t1 nb (fun x => set_blen (set_pool x (Some (split_hi p i))) (p_len p - Z.of_nat i)) in
              let t3 := tupd t2 b (fun x => set_blen (set_pool x (Some (split_lo p i))) (Z.of_nat i)) in
              let bl := match bucket_below t3 (brev t3 nb) (x_bl s) with
                        | Some n => ins_before n nb (x_bl s)
                        | None => x_bl s
                        end in
              let lv := lv_set lv1 (lvl t3 nb)
                          (ins_level t3 (in_blist bl) nb (lv_get lv1 (lvl t3 nb))) in
              Some (mkX t3 bl lv (x_len s) (x_max s), nb, i, p_len p)
          end
      end
  end.
Proof. reflexivity. Qed.
Lemma round_first {st} f s xl A y b B p m :
  einvb st s xl -> enodel s -> narrow (x_max s) (live p) -> x_bl s = A ++ y :: b :: B ->
  b_pool (bget (x_trie s) b) = Some p -> x_max s < p_len p ->
  up (x_trie s) y = brev (x_trie s) b + 2 ^ m -> 0 <= m ->
  let nr := brev (x_trie s) b + 2 ^ (m - 1) in
  let nb := (level_of nr, nr) in
  5 <= m /\ (2 ^ m | brev (x_trie s) b) /\
  exists t1 lv1 xa xb,
  let xl1 := xa ++ y :: nb :: b :: xb in
  let s1 := mkX t1 (x_bl s) lv1 (x_len s) (x_max s) in
  (xl = x_bl s -> xa = A /\ xb = B) /\
  einvb st s1 xl1 /\ enodel s1 /\ (forall x, cont s1 x <-> cont s x) /\
  (forall n, In n xl -> brev t1 n = brev (x_trie s) n /\ (n <> nb -> b_pool (bget t1 n) = b_pool (bget (x_trie s) n))) /\
  ext t1 (A ++ [y]) (xa ++ [y]) /\ ext t1 (b :: B) (b :: xb) /\
  ~ In nb (x_bl s) /\ nb <> bmax /\ brev t1 nb = nr /\ b_pool (bget t1 nb) = None /\ nr < brev (x_trie s) y /\
  (exists ds, xl = xa ++ y :: ds ++ b :: xb /\ mid (x_trie s) y b m ds) /\
  bucket_from_pool_embedded (x_trie s) (x_lv s) nr = Some (t1, lv1, nb) /\
  make_bucket2 (S f) s b =
          match find_idx p nr with
          | None | Some O => Ret s1
          | Some i =>
              let t2 := tupd t1 nb (fun x => set_blen (set_pool x (Some (split_hi p i))) (p_len p - Z.of_nat i)) in
              let t3 := tupd t2 b (fun x => set_blen (set_pool x (Some (split_lo p i))) (Z.of_nat i)) in
              let bl := match bucket_below t3 (brev t3 nb) (x_bl s) with
                        | Some n => ins_before n nb (x_bl s)
                        | None => x_bl s
                        end in
              let lv := lv_set lv1 (lvl t3 nb)
                          (ins_level t3 (in_blist bl) nb (lv_get lv1 (lvl t3 nb))) in
              let s2 := mkX t3 bl lv (x_len s) (x_max s) in
              if x_max s <? p_len p - Z.of_nat i then make_bucket2 f s2 nb
              else if x_max s <? Z.of_nat i then make_bucket2 f s2 b
              else Ret s2
          end /\
  split_round s b =
          match find_idx p nr with
          | None | Some O => None
          | Some i =>
              let t2 := tupd t1 nb (fun x => set_blen (set_pool x (Some (split_hi p i))) (p_len p - Z.of_nat i)) in
              let t3 := tupd t2 b (fun x => set_blen (set_pool x (Some (split_lo p i))) (Z.of_nat i)) in
              let bl := match bucket_below t3 (brev t3 nb) (x_bl s) with
                        | Some n => ins_before n nb (x_bl s)
                        | None => x_bl s
                        end in
              let lv := lv_set lv1 (lvl t3 nb)
                          (ins_level t3 (in_blist bl) nb (lv_get lv1 (lvl t3 nb))) in
              Some (mkX t3 bl lv (x_len s) (x_max s), nb, i, p_len p)
          end.
Proof.
  intros I ND HM EB HP HL HU Hf nr nb0.
  assert (Hyb : adj (x_bl s) y b) by (exists A, B; auto).
  destruct (ei_pool _ _ I y b Hyb) as (p' & E' & Kp); rewrite HP in E'; injection E' as <-.
  pose proof (ei_adj_lt s xl I _ _ Hyb) as LT.
  pose proof (Z.pow_pos_nonneg 2 m ltac:(lia) ltac:(lia)) as PM.
  assert (Hm5 : 5 <= m) by (destruct (Z_lt_ge_dec m 5); [|lia]; exfalso; exact (wide s xl y b p m I Hyb Kp HU ltac:(lia) HM HL)).
  split; [exact Hm5|].
  rewrite find_idx_shape, split_round_shape. cbv zeta. set (t := x_trie s) in *.
  pose proof (ei_nodup s xl I) as NDB.
  assert (EP : prev_as_b (x_bl s) b = y) by (rewrite EB in *; apply prev_as_b_adj; auto).
  rewrite EP.
  pose proof (ei_ext _ _ I) as EXT. rewrite EB in EXT. fold t in EXT.
  destruct (ext_at _ _ _ _ _ _ EXT) as (xa & ds & xb & m' & EX & EA & M & EBX).
  assert (m' = m).
  { destruct M as (MU & _ & M0 & _). rewrite HU in MU. apply Z.add_cancel_l in MU. symmetry in MU. apply Z.pow_inj_r in MU; lia. }
  subst m'.
  rewrite (md_mid_rev t xl xa y ds b xb m (ei_trie _ _ I) (ei_16 _ _ I) EX M Hm5).
  change (brev t b + 2 ^ (m - 1)) with nr.
  destruct (md_nr t xl xa y ds b xb m (ei_trie _ _ I) (ei_16 _ _ I) EX M Hm5) as (N1 & N2 & N3 & N4). fold nr in N1, N2, N3, N4.
  destruct (md_bfpe t xl xa y ds b xb m (ei_trie _ _ I) (ei_16 _ _ I) EX M Hm5 (x_lv s)) as (t1 & lv1 & E & K1 & HO & PNB & RNB & NBM).
  fold nr in E, K1, HO, PNB, RNB, NBM. rewrite E. set (nb := (level_of nr, nr)) in *. change nb0 with nb.
  assert (XB : forall n, In n (x_bl s) -> In n xl) by (apply (ext_in _ _ _ (ei_ext _ _ I))).
  assert (HyX : In y xl) by (apply XB, (adj_in _ _ _ Hyb)).
  assert (HbX : In b xl) by (apply XB, (adj_in _ _ _ Hyb)).
  assert (NIN : ~ In nb (x_bl s)).
  { intros H. destruct (HO nb (XB _ H)) as [R _]. rewrite RNB in R.
    apply (sorted_gap t (x_bl s) A y b B nb (ei_sorted s xl I) EB H). rewrite <- R. lia. }
  destruct (in_blist (x_bl s) nb) eqn:IB; [apply in_blist_spec in IB; contradiction|].
  rewrite RNB. destruct (Z.eqb_spec nr 0) as [Z0|_]; [lia|]. cbn [andb].
  assert (NBb : b <> nb) by (intros EQ; apply NIN; rewrite <- EQ; apply (adj_in _ _ _ Hyb)).
  assert (PB1 : b_pool (bget t1 b) = Some p) by (rewrite (proj2 (HO b HbX) NBb); auto).
  rewrite PB1.
  set (xl1 := xa ++ y :: nb :: b :: xb) in *.
  set (s1 := mkX t1 (x_bl s) lv1 (x_len s) (x_max s)).
  assert (INX : forall n, In n (xa ++ [y]) \/ In n (b :: xb) -> In n xl).
  { intros n [H|H]; rewrite EX.
    - apply in_app_or in H as [H|[<-|[]]]; apply in_or_app; [left; auto|right; left; auto].
    - apply in_or_app. right. right. apply in_or_app. right. auto. }
  pose proof (EmbInv.sorted_nodup _ _ (tk_sorted _ _ K1)) as NDX1.
  assert (NN : (forall n, In n (xa ++ [y]) -> n <> nb) /\ (forall n, In n (b :: xb) -> n <> nb) /\ NoDup (xa ++ [y]) /\ NoDup (b :: xb)).
  { unfold xl1 in NDX1. replace (xa ++ y :: nb :: b :: xb) with ((xa ++ [y]) ++ nb :: b :: xb) in NDX1 by (rewrite <- app_assoc; auto).
    clear -NDX1. set (u := xa ++ [y]) in *. clearbody u.
    pose proof (NoDup_remove _ _ _ NDX1) as [R1 R2].
    split; [intros n Hn ->; apply R2; apply in_or_app; auto|].
    split; [intros n Hn ->; apply R2; apply in_or_app; auto|].
    split; clear -R1; induction u as [|w u IH]; try (constructor; fail); auto; cbn [app] in R1; apply NoDup_cons_iff in R1 as [X Y]; auto.
    constructor; auto. intros H; apply X; apply in_or_app; auto. }
  destruct NN as (NN1 & NN2 & NN3 & NN4).
  assert (EA1 : ext t1 (A ++ [y]) (xa ++ [y])).
  { apply (ext_change t); auto.
    - intros n Hn. apply HO. auto.
    - intros n Hn _ D. unfold dead. rewrite (proj2 (HO n (INX n (or_introl Hn))) (NN1 n Hn)). auto. }
  assert (EB1 : ext t1 (b :: B) (b :: xb)).
  { apply (ext_change t); auto.
    - intros n Hn. apply HO. auto.
    - intros n Hn _ D. unfold dead. rewrite (proj2 (HO n (INX n (or_intror Hn))) (NN2 n Hn)). auto. }
  assert (I1 : einvb st s1 xl1).
  { constructor; cbn [s1 x_trie x_bl]; auto.
    - intros n Hn Nn. unfold xl1 in Hn. apply in_app_or in Hn as [Hn|[<-|[<-|Hn]]].
      + rewrite (proj1 (HO n (INX n (or_introl (in_or_app _ _ _ (or_introl Hn)))))).
        apply (ei_16 _ _ I); auto. apply INX. left. apply in_or_app; auto.
      + rewrite (proj1 (HO y HyX)). apply (ei_16 _ _ I); auto.
      + rewrite RNB. auto.
      + rewrite (proj1 (HO n (INX n (or_intror Hn)))). apply (ei_16 _ _ I); auto.
    - rewrite EB. unfold xl1. apply (ext_build t1 A y b B xa [nb] xb m); auto.
      unfold mid, up. rewrite (proj1 (HO y HyX)), (proj1 (HO b HbX)). fold (up t y).
      destruct M as (MU & MD & M0 & _). split; auto. split; auto. split; auto.
      right. exists nb. split; auto. split; auto. split; [rewrite RNB; auto|lia].
    - intros u w H. destruct (adj_in _ _ _ H) as [Hu Hw].
      assert (Nw : w <> nb) by (intros ->; contradiction).
      rewrite (proj2 (HO w (XB _ Hw)) Nw), (proj1 (HO w (XB _ Hw))).
      unfold up. rewrite (proj1 (HO u (XB _ Hu))). apply (ei_pool _ _ I); auto. }
  assert (C1 : forall x, cont s1 x <-> cont s x).
  { intros x. unfold cont. cbn [s1 x_trie x_bl]. split; intros (u & w & q & H & Hq & Hin); exists u, w, q;
    destruct (adj_in _ _ _ H) as [Hu Hw]; (assert (Nw : w <> nb) by (intros ->; contradiction));
    split; auto; split; auto; rewrite (proj2 (HO w (XB _ Hw)) Nw) in *; auto. }
  assert (ND1 : enodel s1).
  { intros u w q H Hq. cbn [s1 x_trie x_bl] in *. destruct (adj_in _ _ _ H) as [Hu Hw].
    assert (Nw : w <> nb) by (intros ->; contradiction). rewrite (proj2 (HO w (XB _ Hw)) Nw) in Hq. apply (ND u w q); auto. }
  split; [apply M|]. exists t1, lv1, xa, xb. cbv zeta. fold s1. fold xl1.
  split.
  { intros EQ. rewrite EQ, EB in EX. rewrite EB in NDB.
    assert (XA : xa = A /\ ds ++ b :: xb = b :: B).
    { clear -EX NDB. revert xa EX. induction A as [|a A IH]; intros xa EX; destruct xa as [|z xa]; cbn [app] in *.
      - injection EX as <-. auto.
      - exfalso. injection EX as <- EX. apply NoDup_cons_iff in NDB as [N _]. apply N. rewrite EX. apply in_or_app; right; left; auto.
      - exfalso. injection EX as -> EX. apply NoDup_cons_iff in NDB as [N _]. apply N. apply in_or_app; right; left; auto.
      - injection EX as <- EX. apply NoDup_cons_iff in NDB as [_ NDB]. destruct (IH NDB _ EX) as [-> ->]. auto. }
    destruct XA as [-> XB2]. split; auto. destruct M as (_ & _ & _ & [->|(d & -> & D & _)]); cbn [app] in XB2; [congruence|].
    injection XB2 as -> _. unfold dead in D. congruence. }
  repeat (split; [assumption|]). split; [exists ds; auto|]. repeat (split; [reflexivity|]). reflexivity.
Qed.

Lemma nth_skipn {A} (d : A) k : forall l j, nth j (skipn k l) d = nth (k + j) l d.
Proof. induction k as [|k IH]; intros [|x l] j; cbn [skipn nth Nat.add]; auto. destruct j; auto. Qed.
Lemma nth_firstn {A} (d : A) : forall l k j, (j < k)%nat -> nth j (firstn k l) d = nth j l d.
Proof. induction l as [|x l IH]; intros [|k] [|j] H; cbn [firstn nth]; auto; try lia. apply IH. lia. Qed.

(** a slot that is in use *)
Definition at_ok (s : estate) (n : nid) (j : nat) (sl : slot) : Prop :=
  In n (x_bl s) /\ n <> bmax /\ exists q, b_pool (bget (x_trie s) n) = Some q /\ (j < p_n q)%nat /\ slot_at q j = sl.
Lemma split_place_det : forall f s b c, split_place f s b (Det c) = Det c.
Proof.
  induction f as [|f IH]; intros s b c; cbn [split_place]; auto.
  destruct (split_round s b) as [[[[s2 nb] i] ln]|]; auto. cbn [moved]. destruct (x_max s <? _); auto. destruct (x_max s <? _); auto.
Qed.
Lemma split_place_ok : forall f s xl A y b B p m,
  einv s xl -> enodel s -> 16 <= x_max s -> x_bl s = A ++ y :: b :: B ->
  b_pool (bget (x_trie s) b) = Some p -> x_max s < p_len p ->
  up (x_trie s) y = brev (x_trie s) b + 2 ^ m -> 0 <= m <= Z.of_nat f ->
  forall s' n j sl, make_bucket2 f s b = Ret s' -> at_ok s n j sl ->
  exists n' j', split_place f s b (Att n j) = Att n' j' /\ at_ok s' n' j' sl.
Proof.
  induction f as [|f IH]; intros s xl A y b B p m I ND HM EB HP HL HU Hf s' n j sl EM AT; [discriminate|].
  assert (Hyb : adj (x_bl s) y b) by (exists A, B; auto).
  destruct (ei_pool _ _ I y b Hyb) as (p' & E' & Kp); rewrite HP in E'; injection E' as <-.
  assert (NW : narrow (x_max s) (live p)) by (eapply narrow_strict; eauto).
  destruct (round_first f s xl A y b B p m I ND NW EB HP HL HU ltac:(lia)) as (Hm5 & MD & t1 & lv1 & xa & xb & R).
  cbv zeta in R. destruct R as (_ & I1 & ND1 & C1 & HO & EA1 & EB1 & NIN & NBM & RNB & PNB & N4 & _ & _ & MB & SR).
  set (nr := brev (x_trie s) b + 2 ^ (m - 1)) in *. set (nb := (level_of nr, nr)) in *.
  cbn [split_place]. rewrite SR. rewrite MB in EM. clear SR MB.
  assert (XB : forall n, In n (x_bl s) -> In n xl) by (apply (ext_in _ _ _ (ei_ext _ _ I))).
  assert (TRIV : s' = mkX t1 (x_bl s) lv1 (x_len s) (x_max s) -> exists n' j', Att n j = Att n' j' /\ at_ok s' n' j' sl).
  { intros ->. exists n, j. split; auto. destruct AT as (A1 & A2 & q & A3 & A4 & A5). split; [exact A1|]. split; [exact A2|]. exists q.
    cbn [x_trie]. split; auto. rewrite (proj2 (HO n (XB _ A1))); auto. intros ->. contradiction. }
  destruct (find_idx p nr) as [[|i]|] eqn:FI; try (injection EM as <-; apply TRIV; reflexivity).
  clear TRIV.
  assert (NP : nodel p) by (apply (ND y b p); auto).
  destruct (find_idx_spec p _ _ nr (S i) Kp NP FI) as (l1 & x & l2 & EL & Ei & Rx & L1).
  assert (N1' : l1 <> []) by (intros ->; discriminate).
  assert (L2 : forall z, In z (x :: l2) -> nr <= sl_rev z).
  { intros z [<-|Hz]; auto. pose proof (po_sorted _ _ _ Kp) as S. rewrite EL, map_app in S. apply sorted_app in S as (_ & S2 & _).
    cbn [map] in S2. apply StronglySorted_inv in S2 as [_ F]. rewrite Forall_forall in F.
    specialize (F (sl_rev z) (in_map _ _ _ Hz)). lia. }
  pose proof (split_loc s xl A y b B p m t1 lv1 xa xb nr l1 (x :: l2) I EB HP I1 HO EA1 EB1 NIN NBM RNB ltac:(lia) HU
    MD eq_refl N4 EL N1' ltac:(discriminate) L1 L2) as ST.
  cbv zeta in ST, EM. cbv zeta. rewrite <- Ei in ST. fold nb in ST.
  match type of EM with context [mkX _ _ ?lvq _ _] => specialize (ST lvq) end.
  destruct ST as (S1 & S2 & S3 & S4 & S5 & S6 & S7 & S8 & S10).
  set (t3 := tupd (tupd t1 nb (fun x => set_blen (set_pool x (Some (split_hi p (S i)))) (p_len p - Z.of_nat (S i)))) b
      (fun x => set_blen (set_pool x (Some (split_lo p (S i)))) (Z.of_nat (S i)))) in *.
  set (bl := match bucket_below t3 (brev t3 nb) (x_bl s) with Some n => ins_before n nb (x_bl s) | None => x_bl s end) in *.
  match type of EM with context [mkX t3 bl ?l _ _] => set (lvq := l) in * end.
  set (s2 := mkX t3 bl lvq (x_len s) (x_max s)) in *.
  assert (PW : 2 ^ m = 2 * 2 ^ (m - 1)) by (replace m with (Z.succ (m - 1)) at 1 by lia; apply Z.pow_succ_r; lia).
  assert (HyX : In y xl) by (apply XB, (adj_in _ _ _ Hyb)).
  assert (HbX : In b xl) by (apply XB, (adj_in _ _ _ Hyb)).
  assert (UY : up t3 y = up (x_trie s) y) by (unfold up; rewrite S5 by auto; reflexivity).
  assert (INB : forall n, In n (x_bl s) -> In n bl).
  { intros n0 Hn. rewrite S1. rewrite EB in Hn. apply in_app_or in Hn as [Hn|[Hn|Hn]]; apply in_or_app; [left; auto|right; left; auto|right; right; right; auto]. }
  assert (INN : In nb bl) by (rewrite S1; apply in_or_app; right; right; left; auto).
  pose proof (po_n _ _ _ Kp) as PN. pose proof (po_len _ _ _ Kp) as PL.
  assert (LI : (List.length l1 <= p_n p)%nat).
  { rewrite <- (live_length _ _ _ Kp), EL, app_length. lia. }
  assert (AT2 : exists n1 j1, moved b nb (S i) (Att n j) = Att n1 j1 /\ at_ok s2 n1 j1 sl).
  { destruct AT as (A1 & A2 & q & A3 & A4 & A5). unfold moved. destruct (nid_eqb n b) eqn:EN; cbn [andb].
    - apply nid_eqb_eq in EN. subst n. rewrite HP in A3. injection A3 as <-. destruct (Nat.leb_spec (S i) j) as [LE|LT].
      + exists nb, (j - S i)%nat. split; auto. split; [exact INN|]. split; [exact NBM|]. exists (split_hi p (S i)). split; [exact S7|].
        split; [unfold split_hi, p_n in *; cbn [p_len]; lia|]. unfold slot_at, split_hi. cbn [p_slots]. rewrite nth_skipn.
        replace (S i + (j - S i))%nat with j by lia. exact A5.
      + exists b, j. split; auto. split; [apply INB; auto|]. split; [exact A2|]. exists (split_lo p (S i)). split; [exact S8|].
        split; [unfold split_lo, p_n in *; cbn [p_len]; lia|]. unfold slot_at, split_lo. cbn [p_slots]. rewrite nth_firstn by auto. exact A5.
    - exists n, j. split; auto. split; [apply INB; auto|]. split; [exact A2|]. exists q. split; [|auto]. cbn [s2 x_trie].
      rewrite S10; auto. intros ->. rewrite nid_eqb_refl in EN. discriminate. }
  destruct AT2 as (n1 & j1 & -> & AT2).
  destruct (Z.ltb_spec (x_max s) (p_len p - Z.of_nat (S i))) as [G1|G1].
  - apply (IH s2 _ A y nb (b :: B) (split_hi p (S i)) (m - 1) S2 (S3 ND)); auto; try lia.
    cbn [s2 x_trie]. rewrite UY, HU, S6. unfold nr. lia.
  - destruct (Z.ltb_spec (x_max s) (Z.of_nat (S i))) as [G2|G2].
    + apply (IH s2 _ (A ++ [y]) nb b B (split_lo p (S i)) (m - 1) S2 (S3 ND)); auto; try lia.
      * cbn [s2 x_bl]. rewrite S1, <- app_assoc. auto.
      * cbn [s2 x_trie]. unfold up. apply nid_eqb_neq in NBM. rewrite NBM, S6, S5 by auto. unfold nr. auto.
    + injection EM as <-. exists n1, j1. auto.
Qed.

(** * The array *)
Lemma same_array {st} lo hi rv : forall f p p1 i, pool_okb st p lo hi -> nodel p -> get_with_fn f p rv = GSlot p1 i ->
  new_array f p rv = false -> i = p_n p /\ p_slots p1 = p_slots p /\ p_len p1 = p_len p + 1.
Proof.
  induction f as [|f IH]; intros p p1 i K N G W; [discriminate|]. cbn [get_with_fn new_array] in *. cbv zeta in *.
  pose proof (po_len _ _ _ K) as PL.
  destruct (Z.eqb_spec (p_len p) 0) as [E0|N0].
  - destruct (p_cap p <=? 0); [discriminate|]. assert (G1 : mkP (p_slots p) 1 = p1 /\ 0%nat = i) by (split; congruence).
    destruct G1 as [<- <-]. unfold p_n. rewrite E0. auto.
  - assert (PN : (0 < p_n p)%nat) by (unfold p_n; lia).
    rewrite (last_active_live (p_slots p) (p_n p)) in * by (intros; try apply (nodel_at p lo hi _ K N); auto).
    rewrite (free_idx_none (st := st) p lo hi) in * by (auto; intros t X; injection X as <-; lia).
    destruct (p_cap p =? p_len p); [discriminate|].
    destruct (sl_rev (slot_at p (p_n p - 1)) <? rv).
    + destruct (p_cap p <=? p_len p); [discriminate|].
      assert (G1 : mkP (p_slots p) (p_len p + 1) = p1 /\ p_n p = i) by (split; congruence). destruct G1 as [<- <-]. auto.
    + destruct (find_idx p rv); [discriminate|]. eapply IH; eauto.
Qed.
(** a position below one that is there: a new array *)
Lemma new_array_below {st} lo hi rv : forall f p j, pool_okb st p lo hi -> nodel p -> (j < p_n p)%nat -> rv < sl_rev (slot_at p j) ->
  new_array (S f) p rv = true.
Proof.
  intros f p j K N Hj L. cbn [new_array]. cbv zeta. pose proof (po_len _ _ _ K) as PL.
  destruct (Z.eqb_spec (p_len p) 0) as [E0|N0]; [unfold p_n in Hj; lia|].
  rewrite (last_active_live (p_slots p) (p_n p)) by (intros; try apply (nodel_at p lo hi _ K N); lia).
  rewrite (free_idx_none (st := st) p lo hi) by (auto; intros t X; injection X as <-; lia).
  destruct (p_cap p =? p_len p); auto.
  pose proof (slot_le _ _ _ j (p_n p - 1) K ltac:(lia)) as LE. destruct (Z.ltb_spec (sl_rev (slot_at p (p_n p - 1))) rv); [lia|].
  destruct (find_idx p rv) as [i|] eqn:F; auto. exfalso. unfold find_idx in F. fold (live p) in F.
  pose proof (first_ge_none _ _ _ F (slot_at p j) (live_in _ _ _ j K Hj)) as X.
  specialize (X (N _ (live_in _ _ _ j K Hj))). lia.
Qed.

(** * A kept item and the key's place *)
Lemma hit_at_ok s xl k c n j p : einv s xl -> hit s k c n j p -> at_ok s n j (slot_at p j).
Proof.
  intros I (y & Hy & HP & K & Hj & _). split; [apply adj_in in Hy; tauto|]. split; [eapply ei_adj_ne; eauto|]. exists p. auto.
Qed.
Lemma at_ok_hit s xl k c n j sl : einv s xl -> at_ok s n j sl -> sl_rev sl = reverse64 k -> sl_conf sl = c -> sl_del sl = false ->
  exists p, hit s k c n j p.
Proof.
  intros I (Hn & Nb & q & HQ & Hj & <-) HR HC HD. destruct (ei_pred s xl I n Hn Nb) as (y & Hy).
  destruct (ei_pool _ _ I y n Hy) as (q' & E & K). rewrite HQ in E. injection E as <-. exists q, y. auto 10.
Qed.
Lemma hit_rng s k c n j p : hit s k c n j p -> exists y, adj (x_bl s) y n /\ brev (x_trie s) n <= reverse64 k < up (x_trie s) y.
Proof. intros (y & Hy & HP & K & Hj & HR & _). exists y. split; auto. rewrite <- HR. apply (po_rng _ _ _ K). eapply live_in; eauto. Qed.
Lemma hit_uniq s xl k c c' n j p n' j' p' : einv s xl -> hit s k c n j p -> hit s k c' n' j' p' -> n' = n /\ j' = j.
Proof.
  intros I H H'. destruct (hit_rng _ _ _ _ _ _ H) as (y & Hy & R). destruct (hit_rng _ _ _ _ _ _ H') as (y' & Hy' & R').
  destruct (ei_disjoint s xl I y n y' n' (reverse64 k) Hy Hy' R R') as [E _]. assert (Q : n' = n) by congruence. subst n'. split; auto.
  destruct H as (z & Hz & HP & K & Hj & HR & _), H' as (z' & Hz' & HP' & K' & Hj' & HR' & _). assert (p' = p) by congruence. subst p'.
  apply (slot_inj _ _ _ j' j K); auto. congruence.
Qed.
Lemma hit_load s m k c n j p : erel s m -> hit s k c n j p -> eload s k c = Div \/ eload s k c = Ret (Some (n, j)).
Proof.
  intros H HT. destruct (er_inv _ _ H) as (xl & I). pose proof (hit_nodel _ _ _ _ _ _ (er_nd _ _ H) HT) as DD.
  destruct (eload_spec s xl k c I) as [E|[(n' & j' & p' & E & HT')|(E & y & n' & p' & Hy & _ & Ri & HP & K & HN)]]; auto.
  - destruct (hit_uniq s xl k c c n j p n' j' p' I HT HT') as [-> ->]. auto.
  - exfalso. destruct (hit_rng _ _ _ _ _ _ HT) as (z & Hz & R). destruct (ei_disjoint s xl I y n' z n (reverse64 k) Hy Hz Ri R) as [E2 _]. assert (Q : n' = n) by congruence. subst n'.
    destruct HT as (w & Hw & HP' & K' & Hj & HR & HC & _). assert (p' = p) by congruence. subst p'. destruct (HN j Hj HR); [auto|]. destruct H0. congruence.
Qed.
Lemma hit_map s m k c n j p : erel s m -> 0 <= k < W64 -> hit s k c n j p ->
  sm_map m (k, c) = Some (mkBd KSample (sl_key (slot_at p j)) (sl_val (slot_at p j))).
Proof.
  intros H Hk HT. apply (er_at _ _ H); auto. eexists _, _. split; [reflexivity|]. destruct (hit_at _ _ _ _ _ _ HT) as [HC _].
  rewrite (hit_nodel _ _ _ _ _ _ (er_nd _ _ H) HT) in HC. exact HC.
Qed.

(** changing the value of one slot keeps the others *)
Lemma hit_update s xl k c n j p v k0 c0 n0 j0 p0 : einv s xl -> enodel s -> hit s k c n j p -> hit s k0 c0 n0 j0 p0 ->
  exists p1, hit (upd_item s n j (set_sval v)) k0 c0 n0 j0 p1.
Proof.
  intros I ND H H0. pose proof (hit_nodel _ _ _ _ _ _ ND H0) as D0.
  destruct (upd_item_spec s xl k c n j p (set_sval v) I H ltac:(reflexivity)) as (I' & _ & _ & B' & _ & P1 & P2 & _).
  pose proof (hit_at_ok s xl _ _ _ _ _ I H0) as (A1 & A2 & q & A3 & A4 & A5).
  destruct H0 as (y0 & Hy0 & HP0 & K0 & Hj0 & HR0 & HC0 & _).
  set (s' := upd_item s n j (set_sval v)) in *.
  destruct (nid_eq_dec n0 n) as [->|Nn].
  - destruct H as (y & Hy & HP & K & Hj & HR & HC & _). assert (p0 = p) by congruence. subst p0.
    destruct (upd_slot_ok p _ _ j (set_sval v) K Hj eq_refl) as (K' & L' & N' & S').
    apply (at_ok_hit s' xl k0 c0 n j0 (slot_at (upd_slot p j (set_sval v)) j0) I').
    + split; [rewrite B'; auto|]. split; auto. exists (upd_slot p j (set_sval v)). auto.
    + rewrite S' by auto. destruct (Nat.eqb_spec j j0) as [->|]; cbn [set_sval sl_rev]; auto.
    + rewrite S' by auto. destruct (Nat.eqb_spec j j0) as [->|]; cbn [set_sval sl_conf]; auto.
    + rewrite S' by auto. destruct (Nat.eqb_spec j j0) as [->|]; cbn [set_sval sl_del]; auto.
  - apply (at_ok_hit s' xl k0 c0 n0 j0 (slot_at p0 j0) I'); auto.
    split; [rewrite B'; auto|]. split; auto. exists p0. split; [rewrite P2; auto|]. auto.
Qed.
Lemma upd_rel s m k c n j p v : erel s m -> 0 <= k < W64 -> hit s k c n j p -> (forall c', c' <> c -> sm_map m (k, c') = None) ->
  erel (upd_item s n j (set_sval v)) (mkSM (sm_put m (k, c) (Some (mkBd KSample (sl_key (slot_at p j)) v))) KSample (sm_created m)).
Proof.
  intros H Hk HT HC. destruct (er_inv _ _ H) as (xl & I). destruct (hit_at _ _ _ _ _ _ HT) as [_ HI].
  destruct (upd_item_spec s xl k c n j p (set_sval v) I HT ltac:(reflexivity)) as (I' & M' & L' & B' & _ & _ & _ & C' & N').
  pose proof (hit_nodel _ _ _ _ _ _ (er_nd _ _ H) HT) as DD.
  constructor; cbn [sm_view sm_created sm_map].
  + exists xl; auto.
  + apply N'; [apply (er_nd _ _ H)|exact DD].
  + rewrite M'. apply (er_max _ _ H).
  + reflexivity.
  + rewrite L'. apply (er_len _ _ H).
  + intros k' c' bd Hk'. rewrite sm_put_eq. destruct (pair_eqb_spec (k, c) (k', c')) as [Ep|Np].
    * injection Ep as <- <-. destruct HT as (y & Hy & HP & K & Hj & Hr & Hcf & Hv).
      assert (EP : pr (set_sval v (slot_at p j)) = (reverse64 k, c, false, sl_key (slot_at p j), v)).
      { unfold pr, set_sval. cbn [sl_rev sl_conf sl_del sl_key sl_val]. rewrite Hr, Hcf, DD. auto. }
      split.
      -- intros Eb. injection Eb as <-. eexists _, _. split; [reflexivity|]. apply C'. left. auto.
      -- intros (key & w & -> & HX). apply C' in HX as [HX|[_ HX]]; [|exfalso; apply HX; reflexivity].
         rewrite EP in HX. injection HX as -> ->. auto.
    * rewrite (er_at _ _ H k' c' bd Hk'). split; intros (key & w & -> & HX); eexists _, _; (split; [reflexivity|]).
      -- apply C'. right. split; auto. cbn [pr_rev fst]. intros Er. apply reverse64_inj in Er; auto. subst k'.
         assert (EX : sm_map m (k, c') = Some (mkBd KSample key w)) by (apply (er_at _ _ H); eauto).
         rewrite HC in EX; [discriminate|congruence].
      -- apply C' in HX as [HX|[HX _]]; auto. exfalso. destruct HT as (y & Hy & HP & K & Hj & Hr & Hcf & Hv).
         unfold pr, set_sval in HX. cbn [sl_rev sl_conf sl_del sl_key sl_val] in HX.
         injection HX as E1 E2 _ _ _. apply Np. rewrite Hr in E1. apply reverse64_inj in E1; auto. congruence.
Qed.

(** * Set of a new key *)
Definition okp (s : estate) (nc : nat) (kc : Z * Z) (q : place) : Prop :=
  0 <= fst kc < W64 /\ match q with Att n i => exists p, hit s (fst kc) (snd kc) n i p | Det d => (d < nc)%nat end.
Definition is_att (q : place) : Prop := match q with Att _ _ => True | Det _ => False end.
Definition at_rev (s : estate) (q : place) : option Z := match q with Att n i => Some (sl_rev (item_at s n i)) | Det _ => None end.
(** a stored key of the same bucket has a greater position than k *)
Definition above (s : estate) (k0 k : Z) : Prop :=
  exists k1 c1 n1 j1 p1, hit s k1 c1 n1 j1 p1 /\ together (edump s) (reverse64 k0) (reverse64 k1) = true /\ reverse64 k < reverse64 k1.
Lemma set_new_place h s m x v k conf d : erel s m -> key_to_hash h (KStr x) = Some (k, conf) ->
  eload s k conf = Ret None -> (forall z, cont s z -> pr_rev z <> reverse64 k) ->
  let s' := fst (eset h s (KStr x) v) in
  let mv := moves h s d (OpSet (KStr x) v) in
  forall kc q, okp s d kc q ->
  okp s' (d + List.length (fst mv)) kc (snd mv q) /\
  (is_att q -> together (edump s) (reverse64 (fst kc)) (reverse64 k) = false -> is_att (snd mv q)) /\
  (is_att q -> together (edump s) (reverse64 (fst kc)) (reverse64 k) = true -> above s (fst kc) k -> ~ is_att (snd mv q)) /\
  (~ is_att q -> ~ is_att (snd mv q)).
Proof.
  intros H HK EL HF. pose proof (reverse64_range k) as R. destruct (er_inv _ _ H) as (xl & I). pose proof (er_nd _ _ H) as ND. pose proof (er_max _ _ H) as HM.
  destruct (eset_new h s xl x v k conf I ND HM HK EL HF) as (s9 & xl9 & E9 & I9 & N9 & _). rewrite E9. cbn [fst]. revert E9.
  destruct (eload_spec s xl k conf I) as [E|[(n & j & p & E & _)|(_ & y & b & p & Hy & Eb & Ri & HP & K & _)]];
    [congruence|congruence|].
  unfold eset, moves. rewrite HK, EL. cbv zeta. unfold pool_of.
  assert (BB : base (x_trie s) (base (x_trie s) (find_bucket (x_trie s) (reverse64 k))) = b).
  { rewrite <- Eb. apply (base_linked _ xl); [apply (ei_trie _ _ I)|]. apply (ei_adj_x s xl I _ _ Hy). }
  rewrite BB, HP. rewrite <- Eb.
  assert (NP : forall sl, In sl (live p) -> sl_rev sl <> reverse64 k).
  { intros sl Hs E. apply (HF (pr sl)); [|exact E]. exists y, b, p. split; auto. split; auto. apply in_map; auto. }
  pose proof (ND _ _ _ Hy HP) as NDp.
  destruct (get_with_fn_ok p _ _ (reverse64 k) K NDp Ri NP) as (p1 & i & l1 & l2 & EG & ES & EM & EN & HL1 & HL2 & HU).
  rewrite EG, ES. cbn [zero_slot sl_rev sl_conf sl_val sl_del sl_linked negb andb]. rewrite !Z.eqb_refl.
  destruct (set_value_zero v) as (ok & ->).
  set (fl := fun z : slot => mkS (reverse64 k) conf (sl_del z) (KStr x) v true).
  destruct (HU fl eq_refl) as (K1 & EM1 & ND1). specialize (ND1 NDp eq_refl).
  set (p2 := upd_slot p1 i fl) in *.
  unfold set_bpool, set_xtrie. cbn [x_trie x_bl x_lv x_len x_max fst snd].
  set (t' := tupd (x_trie s) b (fun z => set_pool z (Some p2))).
  assert (SS : same_shape (x_trie s) t') by (apply same_shape_tupd; intros; reflexivity).
  assert (GN : b_pool (bget t' b) = Some p2) by (unfold t', tupd; rewrite bget_tset, nid_eqb_refl; reflexivity).
  assert (GO : forall m, m <> b -> b_pool (bget t' m) = b_pool (bget (x_trie s) m)).
  { intros m0 Hm. unfold t', tupd. rewrite bget_tset. destruct (nid_eqb b m0) eqn:E; auto.
    apply nid_eqb_eq in E. congruence. }
  destruct (einv_pool s xl t' y b p p2 I SS Hy HP GN GO K1 (x_lv s) (x_len s + 1)) as (I' & C' & D').
  set (s2 := mkX t' (x_bl s) (x_lv s) (x_len s + 1) (x_max s)) in *.
  intros E9 [k0 c0] q [Hk0 OK]. cbn [fst snd] in *.
  assert (DT : forall c, (if (reverse64 k <? MAX64) && (x_max s <? p_len p1) then split_place 64 s2 b (Det c) else Det c) = Det c).
  { intros c. destruct (_ && _); auto. apply split_place_det. }
  destruct q as [n j|c]; cbn [okp is_att] in *.
  2:{ assert (E : (if new_array 4 p (reverse64 k) then detach b d (Det c) else Det c) = Det c) by (destruct (new_array _ _ _); auto).
      rewrite E, DT. split; [split; [exact Hk0|lia]|]. cbn [is_att]. tauto. }
  destruct OK as (p0 & HT). pose proof (hit_at_ok s xl _ _ _ _ _ I HT) as AT. destruct (hit_rng _ _ _ _ _ _ HT) as (y0 & Hy0 & R0).
  pose proof (hit_nodel _ _ _ _ _ _ ND HT) as D0.
  assert (TG : together (edump s) (reverse64 k0) (reverse64 k) = true <-> n = b).
  { rewrite (together_bucket s xl y0 n (reverse64 k0) (reverse64 k) I Hy0 R0 R). split.
    - intros RR. destruct (ei_disjoint s xl I y0 n y b (reverse64 k) Hy0 Hy RR Ri) as [? _]. congruence.
    - intros ->. pose proof (ei_nodup s xl I) as NDB. pose proof (adj_uniq_l _ _ _ _ NDB Hy Hy0) as ->. exact Ri. }
  (* the item stays in the array *)
  assert (STAY : forall n1 j1, at_ok s2 n1 j1 (slot_at p0 j) ->
     exists n2 j2, (if (reverse64 k <? MAX64) && (x_max s <? p_len p1) then split_place 64 s2 b (Att n1 j1) else Att n1 j1) = Att n2 j2 /\
       exists p3, hit s9 k0 c0 n2 j2 p3).
  { intros n1 j1 A1. destruct HT as (w & Hw & HPw & Kw & Hj & HR & HC & _).
    assert (FIN : exists s3, (if (reverse64 k <? MAX64) && (x_max s <? p_len p1) then make_bucket2 64 s2 b else Ret s2) = Ret s3 /\
       exists n2 j2, (if (reverse64 k <? MAX64) && (x_max s <? p_len p1) then split_place 64 s2 b (Att n1 j1) else Att n1 j1) = Att n2 j2 /\
         at_ok s3 n2 j2 (slot_at p0 j)).
    { destruct ((reverse64 k <? MAX64) && (x_max s <? p_len p1)) eqn:EC; [|eauto 8].
      apply andb_true_iff in EC as [_ EC]. apply Z.ltb_lt in EC.
      assert (Hy2 : adj (x_bl s2) y b) by exact Hy.
      destruct (gap_pow s2 xl y b I' Hy2) as (mm & MU & M0). destruct Hy2 as (A & B & EAB).
      destruct (make_bucket2_spec 64 s2 xl A y b B p2 mm I' (D' ND ND1) HM EAB GN EC MU M0) as (s3 & xl' & E3 & _).
      exists s3. split; [exact E3|].
      exact (split_place_ok 64 s2 xl A y b B p2 mm I' (D' ND ND1) HM EAB GN EC MU M0 s3 n1 j1 _ E3 A1). }
    destruct FIN as (s3 & E3 & n2 & j2 & E4 & A4). rewrite E3 in E9. exists n2, j2. split; [exact E4|].
    assert (E9' : s9 = mkX (tupd (x_trie s3) b (fun z => set_blen z (b_len z + 1))) (x_bl s3) (x_lv s3) (x_len s3) (x_max s3)) by congruence.
    apply (at_ok_hit s9 xl9 k0 c0 n2 j2 (slot_at p0 j) I9); auto. destruct A4 as (B1 & B2 & q4 & B3 & B4 & B5). rewrite E9'.
    split; [exact B1|]. split; [exact B2|]. exists q4. split; [|auto]. cbn [x_trie]. unfold tupd. rewrite bget_tset.
    destruct (nid_eqb b n2) eqn:Q; auto. apply nid_eqb_eq in Q. subst n2. exact B3. }
  destruct (nid_eq_dec n b) as [->|NB].
  - assert (E0 : p0 = p) by (destruct HT as (? & ? & ? & _); congruence). subst p0.
    assert (Hj : (j < p_n p)%nat) by (destruct HT as (? & ? & ? & ? & ? & _); auto).
    destruct (new_array 4 p (reverse64 k)) eqn:NA.
    + cbn [detach]. rewrite nid_eqb_refl, DT. pose proof (po_n _ _ _ K) as PN. split; [split; [exact Hk0|lia]|]. cbn [is_att].
      split; [|tauto]. intros _ T. assert (T' : together (edump s) (reverse64 k0) (reverse64 k) = true) by (apply TG; auto). congruence.
    + destruct (same_array _ _ _ 4 p p1 i K NDp EG NA) as (-> & SL & LN).
      assert (A1 : at_ok s2 b j (slot_at p j)).
      { destruct AT as (B1 & B2 & _). split; [exact B1|]. split; [exact B2|]. exists p2. split; [exact GN|].
        unfold p2, upd_slot, slot_at, p_n in *. cbn [p_len p_slots]. split; [lia|]. rewrite SL.
        clear -Hj. revert j Hj. generalize (Z.to_nat (p_len p)). generalize (p_slots p).
        intros l nn j Hj. generalize (fl (nth nn l zero_slot)). intros z. revert l j Hj. induction nn as [|nn IH]; intros l j Hj; [lia|].
        destruct l as [|a l]; auto. destruct j as [|j]; cbn [upd_nth nth]; auto. apply IH. lia. }
      destruct (STAY b j A1) as (n2 & j2 & E4 & HH). rewrite E4. split; [split; auto|]. cbn [is_att]. split; auto. split; [|tauto].
      intros _ _ (k1 & c1 & n1 & j1 & p1' & HT1 & TG1 & LT). exfalso. pose proof (reverse64_range k1) as R1.
      rewrite (together_bucket s xl y0 b (reverse64 k0) (reverse64 k1) I Hy0 R0 R1) in TG1. destruct (hit_rng _ _ _ _ _ _ HT1) as (y1 & Hy1 & RR1).
      destruct (ei_disjoint s xl I y0 b y1 n1 (reverse64 k1) Hy0 Hy1 TG1 RR1) as [Q1 _]. assert (Q : n1 = b) by congruence. subst n1.
      assert (Q2 : p1' = p) by (destruct HT1 as (? & ? & ? & _); congruence). subst p1'. destruct HT1 as (? & ? & ? & ? & Hj1 & HR & _).
      rewrite (new_array_below _ _ (reverse64 k) 3 p j1 K NDp Hj1) in NA by lia. discriminate.
  - assert (A1 : at_ok s2 n j (slot_at p0 j)).
    { destruct AT as (B1 & B2 & q4 & B3 & B4 & B5). split; [exact B1|]. split; [exact B2|]. exists q4. split; auto. cbn [s2 x_trie]. rewrite GO; auto. }
    assert (EQ : (if new_array 4 p (reverse64 k) then detach b d (Att n j) else Att n j) = Att n j).
    { destruct (new_array _ _ _); auto. cbn [detach]. apply nid_eqb_neq in NB. rewrite NB. auto. }
    rewrite EQ. destruct (STAY n j A1) as (n2 & j2 & E4 & HH). rewrite E4. split; [split; auto|]. cbn [is_att]. split; auto. split; [|tauto].
    intros _ T. apply TG in T. contradiction.
Qed.
