(** Pool allocation with UseGoroutineInPool on: every Set of a new key sends a request to the goroutine that manages its
    part of the pool and waits for the answer (pool2.go:27, 58-86, 388-418; map.go:648-665). Small steps, any number of
    calling goroutines, any schedule. Definitions only. One of the eight parts; a key's part depends on its hash alone
    (pool2.go:73) and the parts share nothing.

    Simplifications:
    - what the managing goroutine does inside samepleItemPool.Get is ConcPool.v, run by goroutine 0 of that model;
    - _expand replaces the segment by one with the same items at the same indices (pool2.go:286-363, as in PoolMove.v);
    - the messages of the debug mode (399-404) and LastItem (397) are left out;
    - CmdPut and CmdClose are never sent: nothing calls Pool.Put or closes a pool. *)
From Verif Require Import Base Util ConcPool.
Local Open Scope list_scope.
Local Open Scope nat_scope.

(** A goroutine that calls Set: before the channel send (82), after it and before wg.Wait returns (map.go:665), after it *)
Inductive gpc := GIdle | GSend | GWait | GHave (a : nat * nat).
(** [g_mgr]: startMgr has started the managing goroutine; [g_req]: whose request it is serving; [g_got]: the items handed
    over, first to last, as (goroutine, (segment, index)) *)
Record gstate := mkG { g_mgr : bool; g_seg : pstate; g_req : option nat; g_pcs : nat -> gpc; g_got : list (nat * (nat * nat)) }.
Definition gupd (f : nat -> gpc) (t : nat) (p : gpc) : nat -> gpc := fun u => if Nat.eqb u t then p else f u.

(** pool2.go:286-363, and back to Get on the new segment, 262 *)
Definition new_segment (s : pstate) : pstate :=
  pgo (mkP true (S (p_gen s)) (p_len s) (Z.to_nat (pool_cap (Z.of_nat (p_len s)))) None (p_pcs s) (p_out s)) 0 PStart.

(** the managing goroutine: [None] if it waits for a request or for a mutex *)
Definition mstep (s : gstate) : option gstate :=
  match g_req s with
  | None => None
  | Some t =>
      match p_pcs (g_seg s) 0 with
      (* 394-396, 406: Get has returned and the mutex is unlocked; onSuccess sets the caller's item and calls wg.Done *)
      | PIdle => match last (map snd (p_out (g_seg s))) (0, 0) with
                 | a => Some (mkG (g_mgr s) (g_seg s) None (gupd (g_pcs s) t (GHave a)) (g_got s ++ [(t, a)])) end
      | PExpIn => if Nat.eqb (p_len (g_seg s)) 0 then None
                  else Some (mkG (g_mgr s) (new_segment (g_seg s)) (g_req s) (g_pcs s) (g_got s))
      | _ => match pstep (g_seg s) 0 with
             | Some sg => Some (mkG (g_mgr s) sg (g_req s) (g_pcs s) (g_got s))
             | None => None
             end
      end
  end.
(** a step of calling goroutine t *)
Definition gstep_ (s : gstate) (t : nat) : option gstate :=
  match g_pcs s t with
  | GIdle => Some (mkG (g_mgr s) (g_seg s) (g_req s) (gupd (g_pcs s) t GSend) (g_got s))
  (* 82: the channel is not buffered: the send ends when the managing goroutine receives (390) *)
  | GSend => if g_mgr s then match g_req s with
                             | None => Some (mkG (g_mgr s) (pgo (g_seg s) 0 PStart) (Some t) (gupd (g_pcs s) t GWait) (g_got s))
                             | Some _ => None
                             end
             else None
  | GWait => None
  | GHave _ => Some (mkG (g_mgr s) (g_seg s) (g_req s) (gupd (g_pcs s) t GIdle) (g_got s))
  end.
(** [None]: the managing goroutine; [Some t]: goroutine t *)
Definition gstep (s : gstate) (l : option nat) : option gstate := match l with None => mstep s | Some t => gstep_ s t end.
Fixpoint grun (s : gstate) (ls : list (option nat)) : option gstate :=
  match ls with
  | [] => Some s
  | l :: ls' => match gstep s l with Some s' => grun s' ls' | None => None end
  end.
(** a new map; [mgr]: UseGoroutineInPool was on when UsePool(true) was applied (map.go:121-133, pool2.go:58-69) *)
Definition ginit (mgr : bool) : gstate := mkG mgr pfresh None (fun _ => GIdle) [].
