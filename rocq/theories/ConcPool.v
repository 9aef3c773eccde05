(** Concurrent Get on one segment of the item pool (pool2.go, UsePool on): small steps, any number of goroutines, any
    schedule. Definitions only.

    Simplifications:
    - the free list is empty: nothing in the map calls Pool.Put (pool2.go:365-383), so pool2.go:205-212 never runs;
    - the mutex is a plain mutex with an owner: Lock waits until it is free;
    - at(i) reads length, capacity and data in one step (map_embedded.go:776-807);
    - what _expand does once it holds the mutex is one step: it fails on an empty segment (pool2.go:291-293), otherwise
      the item comes from the new segment, which is not represented (pool2.go:251-265, 286-363);
    - UseGoroutineInPool is off, its initial value (pool2.go:27, 75-80). *)
From Verif Require Import Base.
Local Open Scope list_scope.
Local Open Scope nat_scope.

(** pool2.go:105 CntOfPersamepleItemPool *)
Definition seg_cap : nat := 64.

(** Where a goroutine is in Get (pool2.go:199-266). [h]: the local variable mu is set. *)
Inductive ppc :=
| PIdle
| PStart                     (* 200 *)
| PInit1                     (* 201, before InitAsEmpty of the free list, 147 *)
| PInit2                     (* before sp.items = make(...), 149 *)
| PCheck                     (* before the test of Cap and Len, 218 *)
| PRead                      (* before i = Len, 221 *)
| PLock (i : nat)            (* before mu.Lock, 224 *)
| PCas (i : nat) (h : bool)  (* before the CompareAndSwap of len, 231 *)
| PTry                       (* it failed: before TryLock, 233 *)
| PAt (i : nat) (h : bool)   (* it succeeded: before at(i), 239 *)
| PHold                      (* Get returned the mutex; Set unlocks it when it ends, map.go:654-665 *)
| PExp                       (* before Lock in _expand, 288 *)
| PExpIn                     (* in _expand *)
| PCrash.                    (* nil or out of range dereference *)

(** the segment (pool2.go:113-119): free list set up, number of times items was made, len and cap of items, owner of mu;
    the slots handed out, first to last, as (goroutine, (which items array, index)) *)
Record pstate := mkP { p_init : bool; p_gen : nat; p_len : nat; p_cap : nat; p_mu : option nat; p_pcs : nat -> ppc; p_out : list (nat * (nat * nat)) }.

Definition pgo (s : pstate) (t : nat) (p : ppc) : pstate :=
  mkP (p_init s) (p_gen s) (p_len s) (p_cap s) (p_mu s) (fun u => if Nat.eqb u t then p else p_pcs s u) (p_out s).
Definition set_mu (s : pstate) (m : option nat) : pstate := mkP (p_init s) (p_gen s) (p_len s) (p_cap s) m (p_pcs s) (p_out s).
Definition set_plen (s : pstate) (n : nat) : pstate := mkP (p_init s) (p_gen s) n (p_cap s) (p_mu s) (p_pcs s) (p_out s).

(** one step of goroutine t *)
Definition pstep (s : pstate) (t : nat) : option pstate :=
  match p_pcs s t with
  | PIdle => Some (pgo s t PStart)
  | PStart => Some (pgo s t (if p_init s then PCheck else PInit1))
  | PInit1 => Some (pgo (mkP true (p_gen s) (p_len s) (p_cap s) (p_mu s) (p_pcs s) (p_out s)) t PInit2)
  | PInit2 => Some (pgo (mkP (p_init s) (S (p_gen s)) 0 seg_cap (p_mu s) (p_pcs s) (p_out s)) t PCheck)
  | PCheck => Some (pgo s t (if Nat.leb (p_cap s) (p_len s) then PExp else PRead))
  (* 221-222 *)
  | PRead => let i := p_len s in Some (pgo s t (if Nat.eqb (S i) (p_cap s) then PLock i else PCas i false))
  (* 224-229 *)
  | PLock i => match p_mu s with
               | None => if Nat.eqb (S i) (p_cap s) then Some (pgo (set_mu s (Some t)) t (PCas i true)) else Some (pgo s t PStart)
               | Some _ => None
               end
  | PCas i h => if Nat.eqb (p_len s) i then Some (pgo (set_plen s (S i)) t (PAt i h)) else Some (pgo s t PTry)
  (* 233-237: TryLock then Unlock leaves the mutex as it was *)
  | PTry => Some (pgo s t PStart)
  (* 239-246 *)
  | PAt i h => if Nat.leb (p_len s) i || Nat.leb (p_cap s) i then Some (pgo s t PCrash)
               else Some (pgo (mkP (p_init s) (p_gen s) (p_len s) (p_cap s) (p_mu s) (p_pcs s) (p_out s ++ [(t, (p_gen s, i))])) t (if h then PHold else PIdle))
  | PHold => Some (pgo (set_mu s None) t PIdle)
  | PExp => match p_mu s with None => Some (pgo (set_mu s (Some t)) t PExpIn) | Some _ => None end
  (* 288-289, 291-293 *)
  | PExpIn => Some (pgo (set_mu s None) t (if Nat.eqb (p_len s) 0 then PCrash else PIdle))
  | PCrash => None
  end.
Fixpoint prun (s : pstate) (ls : list nat) : option pstate :=
  match ls with
  | [] => Some s
  | t :: ls' => match pstep s t with Some s' => prun s' ls' | None => None end
  end.

(** newPool (pool2.go:44-56): the segment is not set up. *)
Definition pfresh : pstate := mkP false 0 0 0 None (fun _ => PIdle) [].
(** a segment set up before goroutines share it, e.g. by one Get that ended *)
Definition pready (n : nat) : pstate := mkP true 1 0 n None (fun _ => PIdle) [].
