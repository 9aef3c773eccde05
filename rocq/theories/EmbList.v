(** The main item list in the embedded mode, beside EmbModel.v: what Set and the splits do to the links, and
    Range. One goroutine. Definitions only.

    The list is the Coq list of its elements between the head and tail sentinels. An element is the dummy of a
    bucket or a slot of a bucket's item pool (by its index; a new array takes over the indices of the old one).
    Simplifications:
    - the list packages are not in the repository: InsertBefore, MarkForDelete, Init and ReplaceNext are taken
      to do what their names say. ReplaceNext(first, last, next) replaces everything between the receiver and
      next; the links between the elements put in are those of the new array (map_embedded.go:377-381: each
      slot linked to its neighbours; expand, 575: a copy of the old links, which are offsets). Where
      this would drop an element that is not a slot of the pool from the list, or follow an offset out of the
      new array, the list is not represented ([None]);
    - the items StoreItem adds are not represented ([None]); a pool's free list (PushWithOrder, map_embedded.go:687-710) is a
      list of its own and is not modelled;
    - headPool and tailPool of a bucket are never linked, so bucket._head() (bucket.go:400-419) is the dummy. *)
From Verif Require Import Base Util Bucket MapModel EmbModel.
Local Open Scope Z_scope.

Inductive eref := RD (n : nid) | RS (n : nid) (i : nat).
Definition eref_eqb (a b : eref) : bool :=
  match a, b with
  | RD n, RD m => nid_eqb n m
  | RS n i, RS m j => nid_eqb n m && (i =? j)%nat
  | _, _ => false
  end.
(** MapHead.reverse of the element (the dummy's is the bucket's, map.go:1161, 234, 275). *)
Definition slot_in (t : trie) (n : nid) (i : nat) : slot :=
  match b_pool (bget t n) with Some p => slot_at p i | None => zero_slot end.
Definition rv_of (t : trie) (r : eref) : Z :=
  match r with RD n => brev t n | RS n i => sl_rev (slot_in t n i) end.

(** map.go:222-304: the dummies of the sixteen buckets and of the last one. *)
Definition init_list : list eref := map RD (rev init_bl).

(** From the first element with the property on. *)
Fixpoint split_at (P : eref -> bool) (l : list eref) : option (list eref * list eref) :=
  match l with
  | [] => None
  | e :: l' => if P e then Some ([], l)
               else match split_at P l' with Some (a, b) => Some (e :: a, b) | None => None end
  end.

(** map.go:928-989 add2 with util.go:108-125 inserBeforeWithCheck: x goes before the first element, from start
    on, with a greater position; the check refuses it if the element to the left has a greater one. No such
    element (991-1033): not represented. *)
Definition ins_gt (t : trie) (x start : eref) (l : list eref) : option (list eref) :=
  match split_at (eref_eqb start) l with
  | None => None
  | Some (a, r) =>
      match split_at (fun e => rv_of t x <? rv_of t e) r with
      | None => None
      | Some (b, c) =>
          match rev (a ++ b) with
          | p :: _ => if rv_of t x <? rv_of t p then Some l else Some ((a ++ b) ++ x :: c)
          | [] => Some ((a ++ b) ++ x :: c)
          end
      end
  end.

(** map.go:389-421 _set: where add2 starts. *)
Definition link_in (t : trie) (b : nid) (rk : Z) (x : eref) (l : list eref) : option (list eref) :=
  match split_at (eref_eqb (RD b)) l with
  | None => None
  | Some (a, r) =>
      let start := match split_at (fun e => rk <=? rv_of t e) r with
                   | Some (c, _) => match rev (a ++ c) with
                                    | p :: _ => if rv_of t p <? rk then p else RD b
                                    | [] => RD b
                                    end
                   | None => RD b
                   end in
      ins_gt t x start l
  end.

(** The elements from slot 0 to slot n-1 of bucket b, if they are slots of b only. *)
Definition own (b : nid) (e : eref) : bool := match e with RS m _ => nid_eqb m b | RD _ => false end.
Definition chunk (b : nid) (n : nat) (l : list eref) : option (list eref * list eref * list eref) :=
  match split_at (eref_eqb (RS b 0)) l with
  | None => None
  | Some (pre, r) =>
      match split_at (eref_eqb (RS b (n - 1))) r with
      | Some (c, e :: post) => if forallb (own b) c then Some (pre, c ++ [e], post) else None
      | _ => None
      end
  end.

(** map_embedded.go:361-407: the n+1 slots of the new array but slot i. *)
Definition relist (b : nid) (n i : nat) (l : list eref) : option (list eref) :=
  match chunk b n l with
  | Some (pre, _, post) => Some (pre ++ map (RS b) (seq 0 i ++ seq (S i) (n - i)) ++ post)
  | None => None
  end.

(** What getWithFn (map_embedded.go:446-545) does to the list; the cases are those of [get_with_fn].
    538: MarkForDelete unlinks the slot that is taken again. *)
Fixpoint link_get (fuel : nat) (p : pool) (rv : Z) (b : nid) (l : list eref) : option (list eref) :=
  match fuel with
  | O => None
  | S f =>
      if p_len p =? 0 then Some l
      else
        let tail := last_active (p_slots p) (p_n p) in
        match free_idx p rv tail with
        | Some i => Some (filter (fun e => negb (eref_eqb (RS b i) e)) l)
        | None =>
            if p_cap p =? p_len p then
              match chunk b (p_n p) l with Some _ => link_get f (expand p) rv b l | None => None end
            else match tail with
                 | None => None
                 | Some tl =>
                     if sl_rev (slot_at p tl) <? rv then Some l
                     else match find_idx p rv with
                          | None => link_get f p rv b l
                          | Some i => relist b (p_n p) i l
                          end
                 end
        end
  end.

(** _split (map_embedded.go:647-680): the slots from i on become those of the new bucket. *)
Definition rename (b nb : nid) (i : nat) (e : eref) : eref :=
  match e with
  | RS m j => if nid_eqb m b && (i <=? j)%nat then RS nb (j - i) else e
  | RD _ => e
  end.

(** What makeBucket2 (map_embedded.go:61-132) does to the list: addBucket (map.go:1192-1209) and _InsertBefore
    (map.go:1157-1190) link the dummy of the new bucket. The cases are those of [make_bucket2]. *)
Fixpoint link_split (fuel : nat) (s : estate) (b : nid) (l : list eref) : option (list eref) :=
  match fuel with
  | O => None
  | S f =>
      let t := x_trie s in
      let nx := prev_as_b (x_bl s) b in
      let r0 := brev t nx / 2 + brev t b / 2 in
      let nr := if Z.odd r0 then u64 (r0 + 1) else r0 in
      match bucket_from_pool_embedded t (x_lv s) nr with
      | None => Some l
      | Some (t1, lv1, nb) =>
          if in_blist (x_bl s) nb then None else
          if (brev t1 nb =? 0) && (1 <? lvl t1 nb) then Some l else
          match b_pool (bget t1 b) with
          | None => None
          | Some p =>
              match find_idx p nr with
              | None | Some O => Some l
              | Some i =>
                  let t2 := tupd t1 nb (fun x => set_blen (set_pool x (Some (split_hi p i))) (p_len p - Z.of_nat i)) in
                  let t3 := tupd t2 b (fun x => set_blen (set_pool x (Some (split_lo p i))) (Z.of_nat i)) in
                  let below := bucket_below t3 (brev t3 nb) (x_bl s) in
                  let l1 := map (rename b nb i) l in
                  let l2 := match below with Some n => ins_gt t3 (RD nb) (RD n) l1 | None => Some l1 end in
                  let bl := match below with Some n => ins_before n nb (x_bl s) | None => x_bl s end in
                  let lv := lv_set lv1 (lvl t3 nb)
                              (ins_level t3 (in_blist bl) nb (lv_get lv1 (lvl t3 nb))) in
                  let s2 := mkX t3 bl lv (x_len s) (x_max s) in
                  match l2 with
                  | None => None
                  | Some l2 =>
                      if x_max s <? p_len p - Z.of_nat i then link_split f s2 nb l2
                      else if x_max s <? Z.of_nat i then link_split f s2 b l2
                      else Some l2
                  end
              end
          end
      end
  end.

(** What Set (map.go:591-705) does to the list; the cases are those of [eset]. *)
Definition link_set (h : hashes) (s : estate) (key : gkey) (v : gval) (l : list eref) : option (list eref) :=
  match key_to_hash h key with
  | None => Some l
  | Some (k, conf) =>
      match eload s k conf with
      | Ret None =>
          let rv := reverse64 k in
          let b := base (x_trie s) (find_bucket (x_trie s) rv) in
          match pool_of (x_trie s) b with
          | None => Some l
          | Some p =>
              match get_with_fn 4 p rv with
              | GSlot p1 i =>
                  match link_get 4 p rv b l with
                  | None => None
                  | Some l1 =>
                      let sl := slot_at p1 i in
                      let rv' := if sl_rev sl =? 0 then rv else sl_rev sl in
                      let cf' := if sl_conf sl =? 0 then conf else sl_conf sl in
                      match key with
                      | KStr _ =>
                          match set_value KSample (sl_val sl) v with
                          | None => Some l1
                          | Some (v', _) =>
                              let s1 := set_bpool s b (upd_slot p1 i (fun x => mkS rv' cf' (sl_del x) key v' true)) in
                              let s2 := mkX (x_trie s1) (x_bl s1) (x_lv s1) (x_len s1 + 1) (x_max s1) in
                              match link_in (x_trie s1) b rv (RS b i) l1 with
                              | None => None
                              | Some l2 =>
                                  if negb (sl_del sl) && (rv' <? MAX64) && (x_max s2 <? p_len p1)
                                  then link_split 64 s2 b l2 else Some l2
                              end
                          end
                      | _ => Some l1
                      end
                  end
              | _ => Some l
              end
          end
      | _ => Some l
      end
  end.

(** What Purge (map.go:1569-1613) does to the list; the cases are those of [epurge]. 1595-1598: the item is unlinked;
    shrinkLen (map_embedded.go:724-726) unlinks the deleted item before it, and not the one it takes off as well. *)
Definition unlink (n : nid) (i : nat) (l : list eref) : list eref := filter (fun e => negb (eref_eqb (RS n i) e)) l.
Definition link_purge (s : estate) (k c : Z) (l : list eref) : list eref :=
  match eload s k c with
  | Ret (Some (n, i)) =>
      match b_pool (bget (x_trie s) n) with
      | Some p =>
          let l1 := unlink n i l in
          if p_len p - 1 =? Z.of_nat i
          then match i with
               | O => l1
               | S j => if sl_del (slot_at p j) then unlink n j l1 else l1
               end
          else l1
      | None => l
      end
  | _ => l
  end.

(** * API: the calls of EmbModel.v with the list *)
Definition link_step (h : hashes) (s : estate) (o : op) (l : list eref) : option (list eref) :=
  match o with
  | OpSet key v => link_set h s key v l
  | OpStore i =>                  (* map.go:708-717: an existing item only gets the value *)
      match item_hash h i with
      | Some (k, c) => match eload s k c with Ret None => None | _ => Some l end
      | None => Some l
      end
  | OpPurge key => match key_to_hash h key with Some (k, c) => Some (link_purge s k c l) | None => Some l end
  | _ => Some l                   (* Delete only marks the item (map.go:1550-1559) *)
  end.
Definition lstate := (estate * list eref)%type.
Definition new_lemb (max : Z) : lstate := (new_emb max, init_list).
Definition fstep (h : hashes) (s : lstate) (o : op) : lstate * res out :=
  let '(s', r) := estep h (fst s) o in
  match link_step h (fst s) o (snd s) with
  | Some l => ((s', l), r)
  | None => ((s', snd s), Undef)
  end.
Fixpoint frun (h : hashes) (s : lstate) (os : list op) : lstate :=
  match os with
  | [] => s
  | o :: os' => let '(s', r) := fstep h s o in if stops r then s' else frun h s' os'
  end.
Fixpoint fouts (h : hashes) (s : lstate) (os : list op) : list (res out) :=
  match os with
  | [] => []
  | o :: os' => let '(s', r) := fstep h s o in r :: (if stops r then [] else fouts h s' os')
  end.

(** map.go:1617-1649 RangeItem, Range: dummies and deleted items are passed over. ItemFn() is a
    SampleItem once an item is linked (map.go:691-695). *)
Fixpoint frange_loop {A} (t : trie) (f : A -> option gkey -> gval -> A * bool) (a : A) (l : list eref) : A :=
  match l with
  | [] => a
  | RD _ :: l' => frange_loop t f a l'
  | RS n i :: l' =>
      if sl_del (slot_in t n i) then frange_loop t f a l'
      else let '(a', go) := f a (Some (sl_key (slot_in t n i))) (sl_val (slot_in t n i)) in
           if go then frange_loop t f a' l' else a'
  end.
Definition frange {A} (s : lstate) (f : A -> option gkey -> gval -> A * bool) (a : A) : A :=
  frange_loop (x_trie (fst s)) f a (snd s).
