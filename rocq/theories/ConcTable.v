(** Concurrent creation of buckets below one bucket of a default map: bucketFromPool and makeBucket (map.go:771-913,
    1766-1951) on one child table, small steps, any number of goroutines, any schedule. Definitions only.

    Simplifications:
    - one table, reached at the last round of the loop over the levels (l = level), so the index is not 0;
    - one step is one access to the table's count, length, a slot's state or a slot's sentinel;
    - bucketFromPool is called with useOnOk(true), as in its only call (map.go:809);
    - from the test of the sentinel to its linking (map.go:823-864) nothing of this state is touched. *)
From Verif Require Import Base.
Local Open Scope list_scope.
Local Open Scope nat_scope.

(** bucket.go:14-16 *)
Inductive sst := SNone | SInit | SActive.
(** Where a goroutine is that wants the child with index i *)
Inductive tpc :=
| TIdle
| TStart (i : nat)     (* before the CompareAndSwap of the count, 0 to 1: map.go:1789 *)
| TBuild (i : nat)     (* it won: before b.downLevels = downLevels, 1819 *)
| TWait (i : nat)      (* it lost: before the test for an empty table, 1820 *)
| TCnt (i : nat)       (* before the test of the count, 1830 *)
| TLen (i : nat)       (* before len(b.downLevels), 1830 *)
| TCas (i l : nat)     (* before the CompareAndSwap of the count, l to i+1, 1830 *)
| TFull (i : nat)      (* before the test of the length, 1879 *)
| TOwn (i : nat)       (* it won: before the index is read back and the slot filled, 1831-1839 *)
| TSlot (i : nat)      (* before the CompareAndSwap of the slot's state, 1894 *)
| THead (i : nat)      (* back in makeBucket: before the test of the sentinel, 823 *)
| TMake (i : nat)      (* initialising the bucket: before the sentinel is linked, 848-860 *)
| TOk (i : nat)        (* deferred onOk: before its first test, 1848-1850 *)
| TOkL (i : nat)       (* its loop: before the test, 1854 *)
| TOkR (i : nat)       (* before the length is read, 1857 *)
| TOkC (i l : nat)     (* before the CompareAndSwap of the length, 1858 *)
| TAct (i : nat).      (* before the CompareAndSwap of the slot's state to active, 1865 *)

(** cntOfActiveLevels, len(downLevels), states of the slots, slots with a sentinel in the list; logs: how often the table
    was allocated, who claimed which slot, who went on to initialise which slot *)
Record tstate := mkT { t_cnt : nat; t_len : nat; t_slot : nat -> sst; t_head : nat -> bool; t_pcs : nat -> tpc;
                       t_allocs : nat; t_claims : list (nat * nat); t_makes : list (nat * nat) }.
(** map.go:1791 make([]bucket, 1, 16) *)
Definition table_cap : nat := 16.

Definition upd {A} (f : nat -> A) (i : nat) (x : A) : nat -> A := fun j => if Nat.eqb j i then x else f j.
Definition tgo (s : tstate) (t : nat) (p : tpc) : tstate :=
  mkT (t_cnt s) (t_len s) (t_slot s) (t_head s) (upd (t_pcs s) t p) (t_allocs s) (t_claims s) (t_makes s).
Definition set_cnt (s : tstate) (n : nat) : tstate := mkT n (t_len s) (t_slot s) (t_head s) (t_pcs s) (t_allocs s) (t_claims s) (t_makes s).
Definition set_tlen (s : tstate) (n : nat) : tstate := mkT (t_cnt s) n (t_slot s) (t_head s) (t_pcs s) (t_allocs s) (t_claims s) (t_makes s).
Definition set_slot (s : tstate) (i : nat) (x : sst) : tstate := mkT (t_cnt s) (t_len s) (upd (t_slot s) i x) (t_head s) (t_pcs s) (t_allocs s) (t_claims s) (t_makes s).
Definition log_claim (s : tstate) (t i : nat) : tstate := mkT (t_cnt s) (t_len s) (t_slot s) (t_head s) (t_pcs s) (t_allocs s) (t_claims s ++ [(t, i)]) (t_makes s).

(** a step of goroutine t; [want] is used when it starts a call *)
Definition tstep (s : tstate) (l : nat * nat) : option tstate :=
  let '(t, want) := l in
  match t_pcs s t with
  | TIdle => if (1 <=? want) && (want <? table_cap) then Some (tgo s t (TStart want)) else None
  | TStart i => if t_cnt s =? 0 then Some (tgo (set_cnt s 1) t (TBuild i)) else Some (tgo s t (TWait i))
  | TBuild i => Some (tgo (mkT (t_cnt s) 1 (upd (fun _ => SNone) 0 SInit) (t_head s) (t_pcs s) (S (t_allocs s)) (t_claims s) (t_makes s)) t (TCnt i))
  | TWait i => Some (tgo s t (if t_len s =? 0 then TStart i else TCnt i))
  | TCnt i => Some (tgo s t (if t_cnt s <=? i then TLen i else TFull i))
  | TLen i => Some (tgo s t (TCas i (t_len s)))
  | TCas i l => if t_cnt s =? l then Some (tgo (set_cnt s (S i)) t (TOwn i)) else Some (tgo s t (TFull i))
  | TFull i => Some (tgo s t (if t_len s <=? i then TCnt i else TSlot i))
  | TOwn i => let c := t_cnt s - 1 in Some (tgo (log_claim (set_slot s c SInit) t c) t (THead c))
  | TSlot i => match t_slot s i with
               | SNone => Some (tgo (log_claim (set_slot s i SInit) t i) t (THead i))
               | _ => Some (tgo s t (THead i))
               end
  | THead i => if t_head s i then Some (tgo s t (TOk i))
               else Some (tgo (mkT (t_cnt s) (t_len s) (t_slot s) (t_head s) (t_pcs s) (t_allocs s) (t_claims s) (t_makes s ++ [(t, i)])) t (TMake i))
  | TMake i => Some (tgo (mkT (t_cnt s) (t_len s) (t_slot s) (upd (t_head s) i true) (t_pcs s) (t_allocs s) (t_claims s) (t_makes s)) t (TOk i))
  | TOk i => Some (tgo s t (if (i <? t_len s) || (table_cap <=? i) then TAct i else TOkL i))
  | TOkL i => Some (tgo s t (if i <? t_len s then TAct i else TOkR i))
  | TOkR i => Some (tgo s t (TOkC i (t_len s)))
  | TOkC i l => if t_len s =? l then Some (tgo (set_tlen s (S i)) t (TOkL i)) else Some (tgo s t (TOkL i))
  | TAct i => match t_slot s i with
              | SInit => Some (tgo (set_slot s i SActive) t TIdle)
              | _ => Some (tgo s t TIdle)
              end
  end.
Fixpoint trun (s : tstate) (ls : list (nat * nat)) : option tstate :=
  match ls with
  | [] => Some s
  | l :: ls' => match tstep s l with Some s' => trun s' ls' | None => None end
  end.
(** a bucket without children *)
Definition tinit : tstate := mkT 0 0 (fun _ => SNone) (fun _ => false) (fun _ => TIdle) 0 [] [].
