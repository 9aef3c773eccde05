(** Model of the package rmap: rmap/rmap.go. One goroutine. Definitions only.

    Simplifications:
    - an atomic.Value holding a *SampleItem is the part of the item that RMap reads: its conflict
      hash and its value. An item is in the dirty map or in the read map, never in both (storeReadFromDirty
      replaces the dirty map by a new one), so copying it loses no aliasing;
    - a Go map is an association list with distinct keys; ranging over it in another order
      gives the same map;
    - onNewStores is empty: nothing in the package appends to it;
    - the loop of storeReadFromDirty (219-260) runs once: its CompareAndSwap cannot fail with one goroutine. *)
From Verif Require Import Base Util Bucket MapModel.
Local Open Scope Z_scope.

Record ritem := mkRI { ri_conf : Z; ri_val : gval }.
(** readMap (25-28): m and amended *)
Record rread := mkRR { rr_m : list (Z * ritem); rr_am : bool }.
(** RMap (11-23): read (None until the first Store), dirty, misses *)
Record rstate := mkR { r_read : option rread; r_dirty : mstate; r_miss : Z }.

(** 263-271 initDirty *)
Definition init_dirty : mstate := new_map KSample 16 CombineSearch false.
(** 30-39 New *)
Definition new_rmap : rstate := mkR None init_dirty 0.

Fixpoint rassoc (k : Z) (l : list (Z * ritem)) : option ritem :=
  match l with
  | [] => None
  | (k', x) :: l' => if k' =? k then Some x else rassoc k l'
  end.
Fixpoint rput (k : Z) (x : ritem) (l : list (Z * ritem)) : list (Z * ritem) :=
  match l with
  | [] => [(k, x)]
  | (k', y) :: l' => if k' =? k then (k, x) :: l' else (k', y) :: rput k x l'
  end.

(** What the caller gets. [OBox]: an atomic.Value containing the value, instead of the value. *)
Inductive rout :=
| OBool (b : bool)
| OVal (v : gval) (ok : bool)
| OBox (v : gval) (ok : bool)
| OLen (n : Z)
| OPanic.

(** 235-245: RangeItem over the dirty map (the items are those MapModel.range_loop visits); the
    type assertion succeeds because ItemFn gives *SampleItem. *)
Definition gather (items : list entry) (m : list (Z * ritem)) : list (Z * ritem) :=
  fold_left (fun acc e => if ignored e then acc else rput (key_in_hmap (e_rev e)) (mkRI (e_conf e) (e_val e)) acc) items m.
(** 214-261 storeReadFromDirty; [rd] is the current read map (every caller has one) *)
Definition promote (s : rstate) (rd : rread) (am : bool) : rstate :=
  let nm := gather (m_items (r_dirty s)) (rr_m rd) in
  match nm with
  | [] => s
  | _ => mkR (Some (mkRR nm (match rr_m rd with [] => true | _ => am end))) init_dirty (r_miss s)
  end.

Definition set_dirty (s : rstate) (d : mstate) : rstate := mkR (r_read s) d (r_miss s).
Definition set_miss (s : rstate) (n : Z) : rstate := mkR (r_read s) (r_dirty s) n.

(** 131-137 isNotRestoreRead, for a counter value n *)
Definition not_restore (s : rstate) (rd : rread) (n : Z) : bool :=
  (n <=? Z.of_nat (List.length (rr_m rd))) && (n <? m_len (r_dirty s)).

(** 71-111 Set2, with store2 (273-286). CompareAndSwap works on a copy of the atomic.Value (274): it succeeds
    and changes nothing. *)
Definition rset (h : hashes) (s : rstate) (k c : Z) (x : string) (v : gval) : rstate * res rout :=
  let s0 := match r_read s with Some _ => s | None => mkR (Some (mkRR [] false)) (r_dirty s) (r_miss s) end in
  match r_read s0 with
  | None => (s0, Undef)
  | Some rd =>
      match rassoc k (rr_m rd) with
      | Some _ => (s0, Ret (OBool true))
      | None =>
          match get (r_dirty s0) k c with
          | Ret (Some z) =>                                       (* 90-94 *)
              match update (r_dirty s0) z v with
              | (d, RBool _) => (set_dirty s0 d, Ret (OBool true))
              | (d, _) => (s0, Ret OPanic)
              end
          | Ret None =>
              let s1 := if rr_am rd then s0 else promote s0 rd true in     (* 96-98 *)
              let '(d, r) := store h (r_dirty s1) (new_sample x v) in      (* 101-103 *)
              let s2 := set_dirty s1 d in
              match r with
              | RPanic => (s2, Ret OPanic)
              | _ => match rr_m rd with                                    (* 105-107 *)
                     | [] => (match r_read s2 with Some rd2 => promote s2 rd2 true | None => s2 end, Ret (OBool true))
                     | _ => (s2, Ret (OBool true))
                     end
              end
          | _ => (s0, Ret OPanic)
          end
      end
  end.

(** 148-178 Get2, with getDirty (54-69) and missLocked (139-146). The read map is the same at 155 and 170. *)
Definition rget (s : rstate) (k c : Z) : rstate * res rout :=
  match r_read s with
  | None => (s, Ret OPanic)                     (* failed type assertion, 155 *)
  | Some rd =>
      match rassoc k (rr_m rd) with
      | Some x =>
          if ri_conf x =? c then (s, Ret (OBox (ri_val x) true))           (* v = e.V, 163 *)
          else (s, Ret (OVal GNil (rr_am rd)))  (* 161; if amended, 171 sets ok again *)
      | None =>
          if rr_am rd then
            match get (r_dirty s) k c with
            | Ret (Some (_, e :: _)) =>
                let n := r_miss s + 1 in
                (if not_restore s rd n then set_miss s n else set_miss (promote s rd false) 0,
                 Ret (OVal (e_val e) true))
            | _ => (s, Ret OPanic)              (* e.Value() of a nil interface, 68 *)
            end
          else (s, Ret (OVal GNil false))
      end
  end.

(** 180-209 Delete. missLocked is called with the mutex held (186): if it gets to storeReadFromDirty, the
    second Lock (216) never returns. *)
Definition rdelete (s : rstate) (k c : Z) : rstate * res rout :=
  match r_read s with
  | None => (s, Ret OPanic)                     (* read.m of a nil pointer, 184 *)
  | Some rd =>
      match rassoc k (rr_m rd) with
      | Some _ => (s, Ret OPanic)               (* CompareAndSwap(_, nil), 205 *)
      | None =>
          if rr_am rd then
            match get (r_dirty s) k c with
            | Ret oz =>
                let d := r_dirty s in
                let s1 := match oz with
                          | Some z => set_dirty s (set_len (set_items d (upd_cur z (del_entry (m_view d)))) (m_len d - 1))
                          | None => s
                          end in
                let n := r_miss s1 + 1 in
                (set_miss s1 n, if not_restore s1 rd n then Ret (OBool false) else Div)
            | _ => (s, Ret OPanic)
            end
          else (s, Ret (OBool false))
      end
  end.

(** * API: Set (49-52), Get (148-151), Delete, Len (210-212) *)
Inductive rop := RSet (x : string) (v : gval) | RGet (x : string) | RDel (x : string) | RLn.
Definition rstep (h : hashes) (s : rstate) (o : rop) : rstate * res rout :=
  match o with
  | RSet x v => match key_to_hash h (KStr x) with Some (k, c) => rset h s k c x v | None => (s, Ret OPanic) end
  | RGet x => match key_to_hash h (KStr x) with Some (k, c) => rget s k c | None => (s, Ret OPanic) end
  | RDel x => match key_to_hash h (KStr x) with Some (k, c) => rdelete s k c | None => (s, Ret OPanic) end
  | RLn => (s, Ret (OLen (m_len (r_dirty s))))
  end.
(** A history of calls; a call that never returns ends it. *)
Definition rstops (r : res rout) : bool := match r with Div => true | _ => false end.
Fixpoint rrun (h : hashes) (s : rstate) (os : list rop) : rstate :=
  match os with
  | [] => s
  | o :: os' => if rstops (snd (rstep h s o)) then s else rrun h (fst (rstep h s o)) os'
  end.
Fixpoint routs (h : hashes) (s : rstate) (os : list rop) : list (res rout) :=
  match os with
  | [] => []
  | o :: os' => let r := snd (rstep h s o) in
                r :: (if rstops r then [] else routs h (fst (rstep h s o)) os')
  end.
