(** Concurrent Set, Get and Delete on one RMap (rmap/rmap.go): small steps, any number of goroutines, any schedule.
    Definitions only.

    Simplifications:
    - the dirty map (a skiplistmap.Map) is ideal: its LoadItemByHash, StoreItem, RangeItem and the deletion of an item
      (AddLen and e.Delete()) are each one step and always right. Everything that goes wrong here goes wrong in rmap.go. What the real dirty map adds is in PropConc.v;
    - one step is one access to the shared state: m.read, m.dirty, the mutex, a dirty map, the value of an item. A
      published read map never changes (map entries are only written to nread before it is published), so looking
      into it is no step of its own;
    - the counter m.misses is not represented: whether a Get or Delete that has missed goes on to storeReadFromDirty
      (rmap/rmap.go:131-146) is chosen by the schedule;
    - values are of one type, so that SetValue does not panic;
    - onNewStores is empty. *)
From Verif Require Import Base.
From Coq Require Import PeanoNat.
Local Open Scope Z_scope.
Local Open Scope list_scope.

(** SampleItem: the two hashes never change, the value is atomic (sample_hmap_entry.go:17-21) *)
Record qitem := mkQI { q_k : Z; q_c : Z; q_v : Z }.
(** rmap/rmap.go:25-28 readMap. Items by their index in the heap. *)
Record qread := mkQR { qr_m : list (Z * nat); qr_am : bool }.

Inductive qcall := QSet (k c v : Z) | QGet (k c : Z) | QDel (k c : Z).
(** [QBox]: the holder of the value (v = e.V, 163). [QVal None ok]: a nil value. *)
Inductive qres := QTrue | QFalse | QVal (v : option Z) (ok : bool) | QBox (v : Z) | QPanic.
Inductive qevent := QInv (t : nat) (o : qcall) | QRsp (t : nat) (o : qcall) (r : qres).

(** what is done after storeReadFromDirty *)
Inductive qcont :=
| KStore (rd : nat)    (* Set goes on at 100 with the read map it loaded *)
| KRet (r : qres)      (* the call returns *)
| KDel.                (* Delete goes on at 202, with the deferred m.Unlock() of 187 *)
Inductive qpc :=
| QIdle
| SLoad (o : qcall)                    (* before m.read.Load(), 72 or 75 *)
| SInit (o : qcall)                    (* before m.read.Store, 74 *)
| SPtr (o : qcall) (rd : nat)          (* before reading m.dirty, 56 *)
| SFind (o : qcall) (rd d : nat)       (* before LoadItemByHash, 56 *)
| SUpd (o : qcall) (i : nat)           (* before SetValue, 93 *)
| SPtr2 (o : qcall) (rd : nat)         (* before reading m.dirty, 103 *)
| SStore (o : qcall) (rd d : nat)      (* before StoreItem, 103 *)
| GLoad (o : qcall)                    (* before m.read.Load(), 155 *)
| GVal (o : qcall) (i : nat)           (* before reading e.V, 163 *)
| GLoad2 (o : qcall)                   (* before m.read.Load(), 170 *)
| GPtr (o : qcall)                     (* before reading m.dirty, 56 *)
| GFind (o : qcall) (d : nat)          (* before LoadItemByHash, 56 *)
| GRd (o : qcall) (i : nat)            (* before e.Value(), 68 *)
| GMiss (o : qcall) (v : Z)            (* before missLocked, 174 *)
| DLoad (o : qcall)                    (* before m.read.Load(), 183 *)
| DAcq (o : qcall)                     (* before m.Lock(), 186 *)
| DRead (o : qcall)                    (* before m.read.Load(), 188 *)
| DPtr (o : qcall)                     (* before reading m.dirty, 56 *)
| DFind (o : qcall) (d : nat)          (* before LoadItemByHash, 56 *)
| DDel (o : qcall) (i : nat)           (* before e.Delete(), 194-195 *)
| DMiss (o : qcall)                    (* before missLocked, 198 *)
| DUnl (o : qcall)                     (* before the deferred m.Unlock(), 187 *)
| PLock (o : qcall) (am : bool) (k : qcont)                 (* before m.Lock(), 216 *)
| PRead (o : qcall) (am : bool) (k : qcont)                 (* before m.read.Load(), 220 *)
| PPtr (o : qcall) (am : bool) (k : qcont) (r : nat)        (* before reading m.dirty, 235 *)
| PScan (o : qcall) (am : bool) (k : qcont) (r d : nat)     (* before RangeItem, 235 *)
| PCas (o : qcall) (am : bool) (k : qcont) (r : nat) (nm : list (Z * nat))   (* before CompareAndSwap, 253 *)
| PUnl (o : qcall) (k : qcont)                              (* before m.Unlock(), 254 *)
| PInit (o : qcall) (k : qcont)                             (* before m.dirty = ..., 255 *)
| PLock2 (o : qcall) (k : qcont)                            (* before m.Lock(), 256 *)
| PEnd (o : qcall) (k : qcont).                             (* before the deferred m.Unlock(), 217 *)

(** [q_read]: m.read, None before the first Store; [q_dirty]: m.dirty. Pointers are indices. *)
Record qstate := mkQ { q_items : list qitem; q_reads : list qread; q_read : option nat; q_dirts : list (list nat); q_dirty : nat;
                       q_lock : option nat; q_pcs : nat -> qpc; q_hist : list qevent }.

Definition q_upd (f : nat -> qpc) (t : nat) (p : qpc) : nat -> qpc := fun u => if Nat.eqb u t then p else f u.
Definition q_goto (s : qstate) (t : nat) (p : qpc) : qstate :=
  mkQ (q_items s) (q_reads s) (q_read s) (q_dirts s) (q_dirty s) (q_lock s) (q_upd (q_pcs s) t p) (q_hist s).
Definition q_ret (s : qstate) (t : nat) (o : qcall) (r : qres) : qstate :=
  mkQ (q_items s) (q_reads s) (q_read s) (q_dirts s) (q_dirty s) (q_lock s) (q_upd (q_pcs s) t QIdle) (q_hist s ++ [QRsp t o r]).
Definition set_lock (s : qstate) (l : option nat) : qstate :=
  mkQ (q_items s) (q_reads s) (q_read s) (q_dirts s) (q_dirty s) l (q_pcs s) (q_hist s).
(** m.read = a new read map *)
Definition new_read (s : qstate) (r : qread) : qstate :=
  mkQ (q_items s) (q_reads s ++ [r]) (Some (List.length (q_reads s))) (q_dirts s) (q_dirty s) (q_lock s) (q_pcs s) (q_hist s).
(** rmap/rmap.go:263-271 initDirty: m.dirty = a new map *)
Definition new_dirty (s : qstate) : qstate :=
  mkQ (q_items s) (q_reads s) (q_read s) (q_dirts s ++ [[]]) (List.length (q_dirts s)) (q_lock s) (q_pcs s) (q_hist s).
Fixpoint put_nth {A} (l : list A) (i : nat) (x : A) : list A :=
  match l, i with
  | [], _ => []
  | _ :: l', O => x :: l'
  | y :: l', S j => y :: put_nth l' j x
  end.
Definition set_item (s : qstate) (i : nat) (x : qitem) : qstate :=
  mkQ (put_nth (q_items s) i x) (q_reads s) (q_read s) (q_dirts s) (q_dirty s) (q_lock s) (q_pcs s) (q_hist s).
(** SetValue of item i *)
Definition set_val (s : qstate) (i : nat) (v : Z) : qstate :=
  match nth_error (q_items s) i with
  | Some x => set_item s i (mkQI (q_k x) (q_c x) v)
  | None => s
  end.
(** a new item in dirty map d *)
Definition add_item (s : qstate) (d : nat) (x : qitem) : qstate :=
  mkQ (q_items s ++ [x]) (q_reads s) (q_read s) (put_nth (q_dirts s) d (nth d (q_dirts s) [] ++ [List.length (q_items s)])) (q_dirty s)
      (q_lock s) (q_pcs s) (q_hist s).

(** item i leaves the dirty map it is in (e.Delete() marks it, the map then passes over it) *)
Definition del_item (s : qstate) (i : nat) : qstate :=
  mkQ (q_items s) (q_reads s) (q_read s) (map (filter (fun j => negb (Nat.eqb j i))) (q_dirts s)) (q_dirty s) (q_lock s) (q_pcs s) (q_hist s).

Fixpoint qassoc (k : Z) (m : list (Z * nat)) : option nat :=
  match m with
  | [] => None
  | (k', i) :: m' => if k' =? k then Some i else qassoc k m'
  end.
Fixpoint qput (k : Z) (i : nat) (m : list (Z * nat)) : list (Z * nat) :=
  match m with
  | [] => [(k, i)]
  | (k', j) :: m' => if k' =? k then (k, i) :: m' else (k', j) :: qput k i m'
  end.
Definition q_is (s : qstate) (k c : Z) (i : nat) : bool :=
  match nth_error (q_items s) i with Some x => (q_k x =? k) && (q_c x =? c) | None => false end.
(** LoadItemByHash on dirty map d *)
Definition q_find (s : qstate) (d : nat) (k c : Z) : option nat := find (q_is s k c) (nth d (q_dirts s) []).
(** rmap/rmap.go:228-245: the entries of the old read map, then those of the dirty map *)
Definition q_gather (s : qstate) (r d : nat) : list (Z * nat) :=
  fold_left (fun m i => match nth_error (q_items s) i with Some x => qput (q_k x) i m | None => m end)
            (nth d (q_dirts s) []) (match nth_error (q_reads s) r with Some x => qr_m x | None => [] end).
Definition q_cont (s : qstate) (t : nat) (o : qcall) (k : qcont) : qstate :=
  match k with KStore rd => q_goto s t (SPtr2 o rd) | KRet r => q_ret s t o r | KDel => q_goto s t (DUnl o) end.
Definition the_read (s : qstate) (rd : nat) : qread := nth rd (q_reads s) (mkQR [] false).

(** the scheduler chooses a goroutine; [QPromote b]: whether a Get or Delete that missed promotes *)
Inductive qact := QCall (o : qcall) | QStep | QPromote (b : bool).
Definition qlabel := (nat * qact)%type.

Definition qstep (s : qstate) (l : qlabel) : option qstate :=
  let '(t, a) := l in
  match q_pcs s t, a with
  | QIdle, QCall o =>
      let s1 := mkQ (q_items s) (q_reads s) (q_read s) (q_dirts s) (q_dirty s) (q_lock s) (q_pcs s) (q_hist s ++ [QInv t o]) in
      Some (q_goto s1 t (match o with QSet _ _ _ => SLoad o | QGet _ _ => GLoad o | QDel _ _ => DLoad o end))
  (* Set2, rmap/rmap.go:71-111; store2 (273-286) changes a copy of the holder and nothing else *)
  | SLoad (QSet k c v as o), QStep =>
      match q_read s with
      | None => Some (q_goto s t (SInit o))
      | Some rd => match qassoc k (qr_m (the_read s rd)) with
                   | Some _ => Some (q_ret s t o QTrue)
                   | None => Some (q_goto s t (SPtr o rd))
                   end
      end
  | SInit o, QStep => Some (q_goto (new_read s (mkQR [] false)) t (SLoad o))
  | SPtr o rd, QStep => Some (q_goto s t (SFind o rd (q_dirty s)))
  | SFind (QSet k c v as o) rd d, QStep =>
      match q_find s d k c with
      | Some i => Some (q_goto s t (SUpd o i))
      | None => if qr_am (the_read s rd) then Some (q_goto s t (SPtr2 o rd)) else Some (q_goto s t (PLock o true (KStore rd)))
      end
  | SUpd (QSet k c v as o) i, QStep => Some (q_ret (set_val s i v) t o QTrue)
  | SPtr2 o rd, QStep => Some (q_goto s t (SStore o rd (q_dirty s)))
  | SStore (QSet k c v as o) rd d, QStep =>
      let s1 := match q_find s d k c with Some i => set_val s i v | None => add_item s d (mkQI k c v) end in
      match qr_m (the_read s rd) with
      | [] => Some (q_goto s1 t (PLock o true (KRet QTrue)))
      | _ => Some (q_ret s1 t o QTrue)
      end
  (* Get2, rmap/rmap.go:153-178 *)
  | GLoad (QGet k c as o), QStep =>
      match q_read s with
      | None => Some (q_ret s t o QPanic)
      | Some rd => let r := the_read s rd in
                   match qassoc k (qr_m r) with
                   | Some i => if q_is s k c i then Some (q_goto s t (GVal o i))
                               else if qr_am r then Some (q_goto s t (GLoad2 o)) else Some (q_ret s t o (QVal None false))
                   | None => if qr_am r then Some (q_goto s t (GLoad2 o)) else Some (q_ret s t o (QVal None false))
                   end
      end
  | GVal o i, QStep => match nth_error (q_items s) i with Some x => Some (q_ret s t o (QBox (q_v x))) | None => None end
  | GLoad2 (QGet k c as o), QStep =>
      match q_read s with
      | None => Some (q_ret s t o QPanic)
      | Some rd => let r := the_read s rd in
                   match qassoc k (qr_m r) with
                   | Some _ => Some (q_ret s t o (QVal None true))
                   | None => if qr_am r then Some (q_goto s t (GPtr o)) else Some (q_ret s t o (QVal None false))
                   end
      end
  | GPtr o, QStep => Some (q_goto s t (GFind o (q_dirty s)))
  | GFind (QGet k c as o) d, QStep =>
      match q_find s d k c with
      | Some i => Some (q_goto s t (GRd o i))
      | None => Some (q_ret s t o QPanic)
      end
  | GRd o i, QStep => match nth_error (q_items s) i with Some x => Some (q_goto s t (GMiss o (q_v x))) | None => None end
  | GMiss o v, QPromote b =>
      Some (if b then q_goto s t (PLock o false (KRet (QVal (Some v) true))) else q_ret s t o (QVal (Some v) true))
  (* Delete, rmap/rmap.go:180-209. With a nil read map 184 panics; CompareAndSwap(ohead, nil) (205) panics. The check at
     189 uses the ok of 184. missLocked is called with the mutex held. *)
  | DLoad (QDel k c as o), QStep =>
      match q_read s with
      | None => Some (q_ret s t o QPanic)
      | Some rd => let r := the_read s rd in
                   match qassoc k (qr_m r) with
                   | Some _ => Some (q_ret s t o QPanic)
                   | None => if qr_am r then Some (q_goto s t (DAcq o)) else Some (q_ret s t o QFalse)
                   end
      end
  | DAcq o, QStep => match q_lock s with None => Some (q_goto (set_lock s (Some t)) t (DRead o)) | Some _ => None end
  | DRead o, QStep =>
      match q_read s with
      | None => Some (q_ret (set_lock s None) t o QPanic)
      | Some rd => if qr_am (the_read s rd) then Some (q_goto s t (DPtr o)) else Some (q_goto s t (DUnl o))
      end
  | DPtr o, QStep => Some (q_goto s t (DFind o (q_dirty s)))
  | DFind (QDel k c as o) d, QStep =>
      match q_find s d k c with
      | Some i => Some (q_goto s t (DDel o i))
      | None => Some (q_goto s t (DMiss o))
      end
  | DDel o i, QStep => Some (q_goto (del_item s i) t (DMiss o))
  | DMiss o, QPromote b => Some (q_goto s t (if b then PLock o false KDel else DUnl o))
  | DUnl o, QStep => Some (q_ret (set_lock s None) t o QFalse)
  (* storeReadFromDirty, rmap/rmap.go:214-261 *)
  | PLock o am k, QStep => match q_lock s with None => Some (q_goto (set_lock s (Some t)) t (PRead o am k)) | Some _ => None end
  | PRead o am k, QStep => match q_read s with
                           | Some r => Some (q_goto s t (PPtr o am k r))
                           | None => Some (q_ret (set_lock s None) t o QPanic)
                           end
  | PPtr o am k r, QStep => Some (q_goto s t (PScan o am k r (q_dirty s)))
  | PScan o am k r d, QStep =>
      match q_gather s r d with
      | [] => Some (q_goto s t (PEnd o k))
      | nm => Some (q_goto s t (PCas o am k r nm))
      end
  | PCas o am k r nm, QStep =>
      if match q_read s with Some r' => Nat.eqb r' r | None => false end
      then Some (q_goto (new_read s (mkQR nm (match qr_m (the_read s r) with [] => true | _ => am end))) t (PUnl o k))
      else Some (q_goto s t (PRead o am k))
  | PUnl o k, QStep => Some (q_goto (set_lock s None) t (PInit o k))
  | PInit o k, QStep => Some (q_goto (new_dirty s) t (PLock2 o k))
  | PLock2 o k, QStep => match q_lock s with None => Some (q_goto (set_lock s (Some t)) t (PEnd o k)) | Some _ => None end
  | PEnd o k, QStep => Some (q_cont (set_lock s None) t o k)
  | _, _ => None
  end.
Fixpoint qrun (s : qstate) (ls : list qlabel) : option qstate :=
  match ls with
  | [] => Some s
  | l :: ls' => match qstep s l with Some s' => qrun s' ls' | None => None end
  end.
(** rmap/rmap.go:30-39 New *)
Definition qinit : qstate := mkQ [] [] None [[]] 0 None (fun _ => QIdle) [].
