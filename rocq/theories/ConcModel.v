(** Concurrent calls on one default map: small steps, any number of goroutines, any schedule. Definitions only.

    Shared state: the item list, Len, and the global search option. A goroutine runs Set, Get or Delete on
    SampleItems, or adds the sentinel of a new bucket (the part of makeBucket that touches the item list).

    Simplifications:
    - one step is one access to the shared state: a read of a link together with the fields of the node read (these
      never change), an atomic store, an elist_head.InsertBefore;
    - the bucket structure is not represented. Bucket choice and key search (map.go:467-505, 1458-1546) may give any
      visible item of the list with the two hashes asked for; with [c_lax] they may also miss one that is there;
    - the first find of _set (map.go:389-414), which selects the starting node of add2, may give any node
      whose position is not after the new one (397-414; the head of the bucket otherwise);
    - when add2 finds no position (map.go:1005-1032) the node it inserts before may be any node;
    - with [c_atomic], the order check of inserBeforeWithCheck and its InsertBefore are one step. Without, another
      goroutine can run in between, as in the code. *)
From Verif Require Import Base Util Bucket MapModel.
Local Open Scope Z_scope.
Local Open Scope list_scope.

Record cfg := mkCfg { c_atomic : bool; c_lax : bool }.

(** MapHead with the value of the item (maphead.go:19-24, sample_hmap_entry.go:17-21) *)
Record cnode := mkN { n_rev : Z; n_conf : Z; n_val : gval; n_dum : bool; n_del : bool }.
(** maphead.go:32-34 IsIgnored *)
Definition n_ign (n : cnode) : bool := n_dum n || n_del n.

(** Calls. [CDummy] is makeBucket adding a sentinel (map.go:1157-1190). *)
Inductive call := CSet (k c : Z) (v : gval) | CGet (k c : Z) | CDel (k c : Z) | CDummy (rv : Z).
Inductive cres := CBool (b : bool) | CVal (v : gval) (ok : bool) | CPanic | CDone.
Inductive event := Inv (t : nat) (o : call) | Rsp (t : nat) (o : call) (r : cres).

(** Where a goroutine is. Node = index into the heap. *)
Inductive pc :=
| Idle
| Load (o : call)                      (* before the search of _loadItem *)
| Upd (o : call) (i : nat)             (* Set found item i; before SetValue *)
| Rd (o : call) (i : nat)              (* Get found item i; before Value() *)
| Mark (o : call) (i : nat)            (* Delete found item i; before Delete() *)
| Save (o : call) (i : nat) (n : nat)  (* before conf.Options in find; n finds to go after this one *)
| Walk (o : call) (i cur : nat) (pv : bool)       (* in the loop of find, at node cur *)
| Restore (o : call) (i : nat) (n : nat) (pos : option nat) (pv : bool) (* before the deferred conf.Options *)
| Chk (o : call) (i right : nat)       (* before inserBeforeWithCheck *)
| Ins (o : call) (i right : nat)       (* checked; before InsertBefore *)
| Cnt (o : call).                      (* before atomic.AddInt64(&h.len, 1) *)

Record cstate := mkC { heap : list cnode; order : list nat; clen : Z; copt : bool; pcs : nat -> pc; hist : list event }.

Definition upd_pc (f : nat -> pc) (t : nat) (p : pc) : nat -> pc := fun u => if Nat.eqb u t then p else f u.
Definition goto (s : cstate) (t : nat) (p : pc) : cstate := mkC (heap s) (order s) (clen s) (copt s) (upd_pc (pcs s) t p) (hist s).
Definition ret (s : cstate) (t : nat) (o : call) (r : cres) : cstate :=
  mkC (heap s) (order s) (clen s) (copt s) (upd_pc (pcs s) t Idle) (hist s ++ [Rsp t o r]).
Definition set_opt (s : cstate) (b : bool) : cstate := mkC (heap s) (order s) (clen s) b (pcs s) (hist s).
Definition node (s : cstate) (i : nat) : option cnode := nth_error (heap s) i.
Fixpoint set_nth {A} (l : list A) (i : nat) (x : A) : list A :=
  match l, i with
  | [], _ => []
  | _ :: l', O => x :: l'
  | y :: l', S j => y :: set_nth l' j x
  end.
Definition set_node (s : cstate) (i : nat) (n : cnode) : cstate :=
  mkC (set_nth (heap s) i n) (order s) (clen s) (copt s) (pcs s) (hist s).

(** Links *)
Fixpoint next_of (i : nat) (l : list nat) : option nat :=
  match l with
  | [] => None
  | x :: l' => if Nat.eqb x i then hd_error l' else next_of i l'
  end.
Fixpoint prev_of (i : nat) (l : list nat) : option nat :=
  match l with
  | [] => None
  | x :: l' => match l' with
               | [] => None
               | y :: _ => if Nat.eqb y i then Some x else prev_of i l'
               end
  end.
Fixpoint ins_bef (right i : nat) (l : list nat) : list nat :=
  match l with
  | [] => []
  | x :: l' => if Nat.eqb x right then i :: l else x :: ins_bef right i l'
  end.

(** util.go:110-122 the tests of inserBeforeWithCheck; the new node is single *)
Definition check (s : cstate) (i right : nat) : bool :=
  match node s i, node s right with
  | Some ni, Some nr =>
      (n_rev ni <=? n_rev nr) &&
      match prev_of right (order s) with
      | Some l => match node s l with Some nl => n_rev nl <=? n_rev ni | None => false end
      | None => true
      end
  | _, _ => false
  end.
(** util.go:124 *)
Definition insert (s : cstate) (i right : nat) : cstate :=
  mkC (heap s) (ins_bef right i (order s)) (clen s) (copt s) (pcs s) (hist s).

Definition matches (k c : Z) (n : cnode) : bool :=
  negb (n_ign n) && (n_rev n =? reverse64 k) && (n_conf n =? c).
Definition in_order (s : cstate) (i : nat) : bool := existsb (Nat.eqb i) (order s).
(** what the search may answer *)
Definition hit (s : cstate) (k c : Z) (i : nat) : bool :=
  in_order s i && match node s i with Some n => matches k c n | None => false end.
Definition may_miss (g : cfg) (s : cstate) (k c : Z) : bool :=
  c_lax g || negb (existsb (hit s k c) (order s)).

(** New SampleItem with its hashes (map.go:685-689, sample_hmap_entry.go:59-65, map.go:331-338); sentinel
    (map.go:1159-1163). *)
Definition new_node (o : call) : option cnode :=
  match o with
  | CSet k c v => Some (mkN (reverse64 k) c v false false)
  | CDummy rv => Some (mkN rv 0 GNil true false)
  | _ => None
  end.
Definition alloc (s : cstate) (n : cnode) : cstate := mkC (heap s ++ [n]) (order s) (clen s) (copt s) (pcs s) (hist s).

(** What the scheduler chooses: a goroutine, and for some steps an outcome. *)
Inductive act := ACall (o : call) | AStep | AHit (i : nat) | AMiss | AAt (i : nat).
Definition label := (nat * act)%type.

(** end of an insertion: Set goes on to Len (map.go:426), makeBucket is done *)
Definition after_insert (s : cstate) (t : nat) (o : call) : cstate :=
  match o with CSet _ _ _ => goto s t (Cnt o) | _ => ret s t o CDone end.

Definition cstep (g : cfg) (s : cstate) (l : label) : option cstate :=
  let '(t, a) := l in
  match pcs s t, a with
  | Idle, ACall o =>
      let s1 := mkC (heap s) (order s) (clen s) (copt s) (pcs s) (hist s ++ [Inv t o]) in
      match o with
      | CDummy rv => match new_node o with
                     | Some n => Some (goto (alloc s1 n) t (Save o (List.length (heap s)) 0))   (* add2 only *)
                     | None => None
                     end
      | _ => Some (goto s1 t (Load o))
      end
  (* map.go:598-604, 535-541, 1552: _loadItem *)
  | Load o, AHit i =>
      match o with
      | CSet k c v => if hit s k c i then Some (goto s t (Upd o i)) else None
      | CGet k c => if hit s k c i then Some (goto s t (Rd o i)) else None
      | CDel k c => if hit s k c i then Some (goto s t (Mark o i)) else None
      | CDummy _ => None
      end
  | Load o, AMiss =>
      match o with
      | CSet k c v =>
          if may_miss g s k c then
            match new_node o with
            | Some n => Some (goto (alloc s n) t (Save o (List.length (heap s)) 1))   (* find in _set, then in add2 *)
            | None => None
            end
          else None
      | CGet k c => if may_miss g s k c then Some (ret s t o (CVal GNil false)) else None
      | CDel k c => if may_miss g s k c then Some (ret s t o (CBool false)) else None
      | CDummy _ => None
      end
  (* map.go:306-308, sample_hmap_entry.go:59-65 *)
  | Upd (CSet k c v as o) i, AStep =>
      match node s i with
      | Some n => match set_value KSample (n_val n) v with
                  | Some (v', ok) => Some (ret (set_node s i (mkN (n_rev n) (n_conf n) v' (n_dum n) (n_del n))) t o (CBool ok))
                  | None => Some (ret s t o CPanic)
                  end
      | None => None
      end
  (* map.go:540 *)
  | Rd o i, AStep => match node s i with Some n => Some (ret s t o (CVal (n_val n) true)) | None => None end
  (* map.go:1556, sample_hmap_entry.go:83-85 *)
  | Mark o i, AStep =>
      match node s i with
      | Some n => Some (ret (set_node s i (mkN (n_rev n) (n_conf n) (n_val n) (n_dum n) true)) t o (CBool true))
      | None => None
      end
  (* map.go:742-743, 1356-1373: ignoreBucketEntry(false). The walk of the first find only reads. *)
  | Save o i n, AAt st =>
      let pv := copt s in
      match n with
      | O => match node s i, node s st with
             | Some ni, Some ns => if in_order s st && (n_rev ns <=? n_rev ni) then Some (goto (set_opt s false) t (Walk o i st pv)) else None
             | _, _ => None
             end
      | S _ => Some (goto (set_opt s false) t (Restore o i n None pv))
      end
  (* map.go:755-767 *)
  | Walk o i cur pv, AStep =>
      match node s i, node s cur with
      | Some ni, Some nc =>
          if negb (copt s && n_ign nc) && (n_rev ni <? n_rev nc) then Some (goto s t (Restore o i 0 (Some cur) pv))
          else match next_of cur (order s) with
               | Some nx => Some (goto s t (Walk o i nx pv))
               | None => Some (goto s t (Restore o i 0 None pv))
               end
      | _, _ => None
      end
  (* map.go:744-749 *)
  | Restore o i n pos pv, AStep =>
      match n, pos with
      | S m, _ => Some (goto (set_opt s pv) t (Save o i m))
      | O, Some r => Some (goto (set_opt s pv) t (Chk o i r))
      | O, None => None
      end
  | Restore o i 0 None pv, AAt r => if in_order s r then Some (goto (set_opt s pv) t (Chk o i r)) else None
  (* map.go:984-987, util.go:108-125. If the check fails nothing is inserted and the call goes on. *)
  | Chk o i r, AStep =>
      if check s i r then Some (if c_atomic g then after_insert (insert s i r) t o else goto s t (Ins o i r))
      else Some (after_insert s t o)
  | Ins o i r, AStep => Some (after_insert (insert s i r) t o)
  (* map.go:426, 434 *)
  | Cnt o, AStep => Some (ret (mkC (heap s) (order s) (clen s + 1) (copt s) (pcs s) (hist s)) t o (CBool true))
  | _, _ => None
  end.

Fixpoint crun (g : cfg) (s : cstate) (ls : list label) : option cstate :=
  match ls with
  | [] => Some s
  | l :: ls' => match cstep g s l with Some s' => crun g s' ls' | None => None end
  end.

(** The new map: the sentinels of MapModel.init_items, nobody running, search option as map.go:1327-1332. *)
Definition cinit : cstate :=
  mkC (map (fun e => mkN (e_rev e) (e_conf e) GNil true false) init_items)
      (seq 0 (List.length init_items)) 0 true (fun _ => Idle) [].
