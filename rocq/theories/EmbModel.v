(** Model of the embedded mode (UseEmbeddedPool(true)): map_embedded.go and the embedded branches of
    map.go, bucket.go. One goroutine. Definitions only.

    Simplifications, beside those of Bucket.v:
    - the main item list is not modelled in this mode: its links are rewritten by functions of the list
      package, which is not in the repository. Get, Set, Delete, Purge read it only in add2, to find the
      place of the new item; that search fails exactly when the item's position is 2^64-1 (the
      position of the last sentinel), which is what decides whether a bucket is split. Range is in EmbList.v;
    - one goroutine: every TryLock, Lock and CompareAndSwap on a value just read succeeds;
    - counters are unbounded integers. *)
From Verif Require Import Base Util Bucket MapModel.
Local Open Scope Z_scope.

Record estate := mkX {
  x_trie : trie; x_bl : list nid; x_lv : levels; x_len : Z; x_max : Z }.
Definition set_xtrie (s : estate) (t : trie) : estate := mkX t (x_bl s) (x_lv s) (x_len s) (x_max s).

(** * Construction: map.go:160-193 NewHMap, 222-304 initBeforeSet.
    bmax comes from newBucket (bucket.go:50-59): an item pool without array. *)
Definition emb_trie (max : Z) : trie :=
  (bmax, mkB 16 0 MAX64 0 None (Some (mkP [] 0)))
  :: map (fun i => (top i, mkB 1 0 (i * 16 ^ 15) 0 None
                             (Some (mkP (repeat zero_slot (Z.to_nat (max * 3 / 2))) 0)))) idx16.
Definition new_emb (max : Z) : estate := mkX (emb_trie max) init_bl init_lv 0 max.

(** * Searching a pool *)
Definition slot_at (p : pool) (i : nat) : slot := nth i (p_slots p) zero_slot.
Definition p_n (p : pool) : nat := Z.to_nat (p_len p).

(** sort.Search(n, f) of the standard library: binary search on [i, j). *)
Fixpoint sort_search (fuel i j : nat) (f : nat -> bool) : nat :=
  match fuel with
  | O => i
  | S fl =>
      if (j <=? i)%nat then i else
      let h := Nat.div2 (i + j) in
      if f h then sort_search fl i h f else sort_search fl (S h) j f
  end.

(** map_embedded.go:781-807 _at(i, true, true): from i to the left, to the first slot that is not
    deleted, at most to the first slot. *)
Fixpoint skip_left (slots : list slot) (i : nat) : nat :=
  match i with
  | O => O
  | S i' => if sl_del (nth i slots zero_slot) then skip_left slots i' else i
  end.

(** map_embedded.go:21-52 bsearchBybucket, on the pool. The result is the index of the slot returned. *)
Definition emb_search (p : pool) (rv : Z) : option nat :=
  let idx := sort_search (p_n p) 0 (p_n p) (fun i => rv <=? sl_rev (slot_at p (skip_left (p_slots p) i))) in
  if (idx <? p_n p)%nat && (sl_rev (slot_at p idx) =? rv) then Some (skip_left (p_slots p) idx) else None.

(** bucket.go:123-137 itemPool() of toBase(); a bucket without pool and parent calls itself for ever
    ([None]). Slot-0 children never have a pool of their own (setItemPool, bucket.go:143-148, hands it to
    the parent), so this is also itemPool() of the bucket itself. *)
Definition pool_of (t : trie) (n : nid) : option pool := b_pool (bget t (base t n)).

(** map.go:447-465 _get and 467-506 getWithBucket in this mode. *)
Definition eload (s : estate) (k conf : Z) : res (option (nid * nat)) :=
  let rv := reverse64 k in
  let n := find_bucket (x_trie s) rv in
  match pool_of (x_trie s) n with
  | None => Div
  | Some p =>
      match emb_search p rv with
      | None => Ret None
      | Some i => if (sl_rev (slot_at p i) =? rv) && (sl_conf (slot_at p i) =? conf)
                  then Ret (Some (base (x_trie s) n, i)) else Ret None
      end
  end.

(** * Taking a slot for a new item *)
Definition upd_slot (p : pool) (i : nat) (f : slot -> slot) : pool :=
  mkP (upd_nth i (f (slot_at p i)) (p_slots p)) (p_len p).

(** map_embedded.go:448-465: the last slot that is not deleted ([None]: -1). *)
Fixpoint last_active (slots : list slot) (n : nat) : option nat :=
  match n with
  | O => None
  | S n' => if sl_del (nth n' slots zero_slot) then last_active slots n' else Some n'
  end.

(** map_embedded.go:271-289 bsearchFromFreeList *)
Definition free_idx (p : pool) (rv : Z) (tail : option nat) : option nat :=
  match tail with
  | None => None
  | Some tl =>
      let idx := sort_search tl 0 tl (fun i => rv <? sl_rev (slot_at p i)) in
      if (idx <=? 1)%nat || (tl <? idx)%nat then None
      else if sl_del (slot_at p (idx - 1)) && sl_linked (slot_at p (idx - 1)) then Some (idx - 1)%nat
      else None
  end.

(** map_embedded.go:513-537: position, conflict and state are cleared and the slot unlinked; key and
    value stay. *)
Definition recycle (sl : slot) : slot := mkS 0 0 false (sl_key sl) (sl_val sl) false.

(** map_embedded.go:547-614 expand *)
Definition expand (p : pool) : pool :=
  mkP (firstn (p_n p) (p_slots p) ++ repeat zero_slot (Z.to_nat (pool_cap (p_len p)) - p_n p)) (p_len p).

(** map_embedded.go:348-355: first slot not deleted whose position is not smaller; also findIdx
    (629-641), which compares the same way. *)
Fixpoint first_ge (rv : Z) (i : nat) (slots : list slot) : option nat :=
  match slots with
  | [] => None
  | sl :: r => if negb (sl_del sl) && (rv <=? sl_rev sl) then Some i else first_ge rv (S i) r
  end.
Definition find_idx (p : pool) (rv : Z) : option nat := first_ge rv 0 (firstn (p_n p) (p_slots p)).

(** map_embedded.go:367-407: a new array with a zero slot at i; all old slots are linked again. *)
Definition relink (sl : slot) : slot :=
  mkS (sl_rev sl) (sl_conf sl) (sl_del sl) (sl_key sl) (sl_val sl) true.
Definition insert_at (p : pool) (i : nat) : pool :=
  let old := map relink (firstn (p_n p) (p_slots p)) in
  mkP (firstn i old ++ zero_slot :: skipn i old
         ++ repeat zero_slot (Z.to_nat (Z.max (p_cap p) (p_len p + 1)) - (p_n p + 1)))
      (p_len p + 1).

Inductive gres := GSlot (p : pool) (i : nat) | GDiv | GUndef.

(** map_embedded.go:247-269 state4get, 301-320 appendLast, 322-443 insertToPool, 446-545 getWithFn.
    The recursive calls (after expand; and when insertToPool finds no place, with nothing
    changed) use the fuel; running out of it stands for the endless recursion of the second kind. *)
Fixpoint get_with_fn (fuel : nat) (p : pool) (rv : Z) : gres :=
  match fuel with
  | O => GDiv
  | S f =>
      if p_len p =? 0 then
        if p_cap p <=? 0 then GDiv               (* appendLast returns nil, 483-495 retries for ever *)
        else GSlot (mkP (p_slots p) 1) 0
      else
        let tail := last_active (p_slots p) (p_n p) in
        match free_idx p rv tail with
        | Some i => GSlot (upd_slot p i recycle) i
        | None =>
            if p_cap p =? p_len p then get_with_fn f (expand p) rv
            else match tail with
                 | None => GUndef                (* items[-1] *)
                 | Some tl =>
                     if sl_rev (slot_at p tl) <? rv then
                       if p_cap p <=? p_len p then GDiv
                       else GSlot (mkP (p_slots p) (p_len p + 1)) (p_n p)
                     else match find_idx p rv with
                          | None => get_with_fn f p rv
                          | Some i => GSlot (insert_at p i) i
                          end
                 end
        end
  end.

(** * Splitting a bucket: map_embedded.go:61-132 makeBucket2, 647-680 _split; addBucket map.go:1192-1209.
    The recursion halves the interval each time: 64 rounds suffice. A bucket that is already linked would be
    re-initialised while in the list: [Undef]. The errors returned are dropped by the caller. *)
Definition split_lo (p : pool) (i : nat) : pool := mkP (firstn i (p_slots p)) (Z.of_nat i).
Definition split_hi (p : pool) (i : nat) : pool := mkP (skipn i (p_slots p)) (p_len p - Z.of_nat i).

Fixpoint make_bucket2 (fuel : nat) (s : estate) (b : nid) : res estate :=
  match fuel with
  | O => Undef
  | S f =>
      let t := x_trie s in
      let nx := prev_as_b (x_bl s) b in
      let r0 := brev t nx / 2 + brev t b / 2 in
      let nr := if Z.odd r0 then u64 (r0 + 1) else r0 in
      match bucket_from_pool_embedded t (x_lv s) nr with
      | None => Ret s
      | Some (t1, lv1, nb) =>
          if in_blist (x_bl s) nb then Undef else
          let s1 := mkX t1 (x_bl s) lv1 (x_len s) (x_max s) in
          if (brev t1 nb =? 0) && (1 <? lvl t1 nb) then Ret s1 else
          match b_pool (bget t1 b) with
          | None => Div
          | Some p =>
              match find_idx p nr with
              | None | Some O => Ret s1
              | Some i =>
                  let t2 := tupd t1 nb (fun x => set_blen (set_pool x (Some (split_hi p i))) (p_len p - Z.of_nat i)) in
                  let t3 := tupd t2 b (fun x => set_blen (set_pool x (Some (split_lo p i))) (Z.of_nat i)) in
                  let bl := match bucket_below t3 (brev t3 nb) (x_bl s) with
                            | Some n => ins_before n nb (x_bl s)
                            | None => x_bl s
                            end in
                  let lv := lv_set lv1 (lvl t3 nb)
                              (ins_level t3 (in_blist bl) nb (lv_get lv1 (lvl t3 nb))) in
                  let s2 := mkX t3 bl lv (x_len s) (x_max s) in
                  if x_max s <? p_len p - Z.of_nat i then make_bucket2 f s2 nb
                  else if x_max s <? Z.of_nat i then make_bucket2 f s2 b
                  else Ret s2
              end
          end
      end
  end.

(** * API *)
Definition set_bpool (s : estate) (n : nid) (p : pool) : estate :=
  set_xtrie s (tupd (x_trie s) n (fun b => set_pool b (Some p))).
Definition upd_item (s : estate) (n : nid) (i : nat) (f : slot -> slot) : estate :=
  match b_pool (bget (x_trie s) n) with
  | Some p => set_bpool s n (upd_slot p i f)
  | None => s
  end.
Definition item_at (s : estate) (n : nid) (i : nat) : slot :=
  match b_pool (bget (x_trie s) n) with Some p => slot_at p i | None => zero_slot end.
Definition set_sval (v : gval) (sl : slot) : slot :=
  mkS (sl_rev sl) (sl_conf sl) (sl_del sl) (sl_key sl) v (sl_linked sl).
Definition set_sdel (sl : slot) : slot :=
  mkS (sl_rev sl) (sl_conf sl) true (sl_key sl) (sl_val sl) (sl_linked sl).
Definition set_slink (b : bool) (sl : slot) : slot :=
  mkS (sl_rev sl) (sl_conf sl) (sl_del sl) (sl_key sl) (sl_val sl) b.

(** map.go:306-308 _update (SampleItem.SetValue) *)
Definition eupdate (s : estate) (n : nid) (i : nat) (v : gval) : estate * res out :=
  match set_value KSample (sl_val (item_at s n i)) v with
  | None => (s, Pan)
  | Some (v', ok) => (upd_item s n i (set_sval v'), Ret (RBool ok))
  end.

(** map.go:591-705 Set. *)
Definition eset (h : hashes) (s : estate) (key : gkey) (v : gval) : estate * res out :=
  match key_to_hash h key with
  | None => (s, Pan)
  | Some (k, conf) =>
      match eload s k conf with
      | Ret (Some (n, i)) => eupdate s n i v
      | Ret None =>
          let rv := reverse64 k in
          let b := base (x_trie s) (find_bucket (x_trie s) rv) in
          match pool_of (x_trie s) b with
          | None => (s, Div)
          | Some p =>
              match get_with_fn 4 p rv with
              | GDiv => (s, Div)
              | GUndef => (s, Undef)
              | GSlot p1 i =>
                  let sl := slot_at p1 i in
                  (* map.go:642-647 CompareAndSwap(&reverse, 0, ..), (&conflict, 0, ..) *)
                  let rv' := if sl_rev sl =? 0 then rv else sl_rev sl in
                  let cf' := if sl_conf sl =? 0 then conf else sl_conf sl in
                  let fill := fun ky vl lk => set_bpool s b (upd_slot p1 i (fun x => mkS rv' cf' (sl_del x) ky vl lk)) in
                  match key with
                  | KStr _ =>
                      match set_value KSample (sl_val sl) v with
                      | None => (fill key (sl_val sl) (sl_linked sl), Pan)
                      | Some (v', _) =>
                          let s1 := fill key v' true in
                          let s2 := mkX (x_trie s1) (x_bl s1) (x_lv s1) (x_len s1 + 1) (x_max s1) in
                          (* add2, map.go:991-1001 *)
                          let r := if negb (sl_del sl) && (rv' <? MAX64) && (x_max s2 <? p_len p1)
                                   then make_bucket2 64 s2 b else Ret s2 in
                          match r with
                          | Ret s3 =>
                              let s4 := set_xtrie s3 (tupd (x_trie s3) b (fun x => set_blen x (b_len x + 1))) in
                              (s4, Ret (RBool true))
                          | Div => (s2, Div)
                          | _ => (s2, Undef)
                          end
                      end
                  | _ => (fill (sl_key sl) (sl_val sl) (sl_linked sl), Pan)   (* key.(string), map.go:688 *)
                  end
              end
          end
      | Div => (s, Div)
      | Pan => (s, Pan)
      | Undef => (s, Undef)
      end
  end.

(** map.go:708-717 StoreItem: a new item only goes to the main list (_set fills reverse and conflict in
    the other mode only, map.go:331). add2 may split the bucket; for a slot-0 child (which is in no list)
    makeBucket2 re-initialises the bucket above it while linked: [Undef]. *)
Definition estore (h : hashes) (s : estate) (i : item) : estate * res out :=
  match item_hash h i with
  | None => (s, Pan)
  | Some (k, conf) =>
      match eload s k conf with
      | Ret (Some (n, j)) => eupdate s n j (i_val i)
      | Ret None =>
          let b := find_bucket (x_trie s) (reverse64 k) in
          let s1 := mkX (x_trie s) (x_bl s) (x_lv s) (x_len s + 1) (x_max s) in
          let blen := match b_pool (bget (x_trie s) b) with
                      | Some p => p_len p
                      | None => b_len (bget (x_trie s) b)
                      end in
          let r := if negb (i_del i) && (i_rev i <? MAX64) && (x_max s <? blen)
                   then if in_blist (x_bl s) b then make_bucket2 64 s1 b else Undef
                   else Ret s1 in
          match r with
          | Ret s2 => (set_xtrie s2 (tupd (x_trie s2) b (fun x => set_blen x (b_len x + 1))), Ret (RBool true))
          | Div => (s1, Div)
          | _ => (s1, Undef)
          end
      | Div => (s, Div)
      | Pan => (s, Pan)
      | Undef => (s, Undef)
      end
  end.

Definition ewith (h : hashes) (s : estate) (key : gkey) (f : Z -> Z -> estate * res out) : estate * res out :=
  match key_to_hash h key with None => (s, Pan) | Some (k, c) => f k c end.
Definition eget (s : estate) (k c : Z) : estate * res out :=
  match eload s k c with
  | Ret (Some (n, i)) => (s, Ret (RVal (sl_val (item_at s n i)) true))
  | Ret None => (s, Ret (RVal GNil false))
  | Pan => (s, Pan) | Div => (s, Div) | Undef => (s, Undef)
  end.
Definition eget_item (s : estate) (k c : Z) : estate * res out :=
  match eload s k c with
  | Ret (Some (n, i)) => (s, Ret (RItem (Some (Some (sl_key (item_at s n i)), sl_val (item_at s n i)))))
  | Ret None => (s, Ret (RItem None))
  | Pan => (s, Pan) | Div => (s, Div) | Undef => (s, Undef)
  end.
(** map.go:1550-1559 Delete *)
Definition edelete (s : estate) (k c : Z) : estate * res out :=
  match eload s k c with
  | Ret (Some (n, i)) => (upd_item s n i set_sdel, Ret (RBool true))
  | Ret None => (s, Ret (RBool false))
  | Pan => (s, Pan) | Div => (s, Div) | Undef => (s, Undef)
  end.

(** map_embedded.go:712-728 shrinkLen. The first successful CompareAndSwap sets the length to i-1 and makes
    the next one fail, so at most one round takes effect. *)
Definition shrink_len (p : pool) : pool :=
  match p_n p with
  | O => p
  | S j => if sl_del (slot_at p j)
           then mkP (upd_nth j (set_slink false (slot_at p j)) (p_slots p)) (p_len p - 2)
           else p
  end.
(** map.go:1569-1613 purgeInEmbedded *)
Definition epurge (s : estate) (k c : Z) : estate * res out :=
  match eload s k c with
  | Ret (Some (n, i)) =>
      match b_pool (bget (x_trie s) n) with
      | Some p =>
          let last := (p_len p - 1 =? Z.of_nat i) in
          let p1 := upd_slot p i (fun sl => set_slink (negb last) (set_sdel sl)) in
          let p2 := if last then shrink_len (mkP (p_slots p1) (p_len p1 - 1)) else p1 in
          (set_bpool s n p2, Ret (RBool true))
      | None => (s, Div)
      end
  | Ret None => (s, Ret (RBool false))
  | Pan => (s, Pan) | Div => (s, Div) | Undef => (s, Undef)
  end.

Definition estep (h : hashes) (s : estate) (o : op) : estate * res out :=
  match o with
  | OpSet key v => eset h s key v
  | OpStore i => estore h s i
  | OpGet key => ewith h s key (eget s)
  | OpGetByHash k c => eget s (u64 k) (u64 c)
  | OpLoad key => ewith h s key (eget_item s)
  | OpLoadByHash k c => eget_item s (u64 k) (u64 c)
  | OpDelete key => ewith h s key (edelete s)
  | OpPurge key => ewith h s key (epurge s)
  | OpLen => (s, Ret (RLen (x_len s)))
  end.

(** A history. Unbounded recursion ends the process (stack overflow is fatal in Go), so nothing follows a
    call that does not return; a panic can be recovered. *)
Definition stops (r : res out) : bool := match r with Div | Undef => true | _ => false end.
Fixpoint erun (h : hashes) (s : estate) (os : list op) : estate :=
  match os with
  | [] => s
  | o :: os' => let '(s', r) := estep h s o in if stops r then s' else erun h s' os'
  end.
Fixpoint eouts (h : hashes) (s : estate) (os : list op) : list (res out) :=
  match os with
  | [] => []
  | o :: os' => let '(s', r) := estep h s o in r :: (if stops r then [] else eouts h s' os')
  end.

(** map.go:1060-1074 DumpBucket: the boundaries (reverse column), from the largest down. *)
Definition edump (s : estate) : list Z := map (brev (x_trie s)) (x_bl s).
