(** Concurrent Sets on one bucket of an embedded map: Set (map.go:591-705), getWithFn, appendLast, insertToPool, expand
    (map_embedded.go:301-614), with the bucket's lock, small steps, any number of goroutines, any schedule. Definitions
    only.

    Simplifications:
    - one bucket that is not split meanwhile; the main item list is not modelled;
    - an item is its position (distinct keys have distinct positions); key, value and conflict are not modelled;
    - state4get (map_embedded.go:247-269, with the loop 448-465) is one step; so are appendLast, insertToPool, expand and
      the reuse of a deleted slot, after the lock was taken; so is the search of a Get;
    - the lock (github.com/LK4D4/trylock, outside the repository) is taken to be a sync.Mutex with TryLock: unlocking it
      without holding it releases it for the holder, or is fatal if there is none. *)
From Verif Require Import Base Bucket EmbModel.
Local Open Scope list_scope.
Local Open Scope Z_scope.

(** [m]: the parameter mu is not nil. [r]: the unlocker the caller has already decided to return (getNoCap, 496-502);
    [None]: the one of this call. *)
Inductive lpc :=
| LIdle
| LUpd                                              (* Set of a present key: before TryLock, map.go:606 *)
| LRead (rv : Z) (m : bool) (r : option bool)       (* getWithFn: before it looks at the items, 448-474 *)
| LApp (rv : Z) (m : bool) (r : option bool)        (* appendLast: before Lock, 303-306 *)
| LApp2 (rv : Z) (m : bool) (r : option bool)       (* ... after it, 308-319 *)
| LExp (rv : Z) (m : bool) (r : option bool)        (* expand: before Lock, 548-552 *)
| LExp2 (rv : Z) (m : bool) (r : option bool)       (* ... after it *)
| LIns (rv : Z) (m : bool) (r : option bool)        (* insertToPool: before Lock, 323-326 *)
| LIns2 (rv : Z) (m : bool) (r : option bool)       (* ... after it *)
| LFree (rv : Z) (m : bool) (r : option bool) (tl : option nat)    (* foundFree: before TryLock, 504 *)
| LWait (rv : Z) (r : option bool) (tl : option nat)               (* TryLock failed: before Lock, 505 *)
| LWait2 (rv : Z) (r : option bool) (tl : option nat)              (* ... before Unlock, 506 *)
| LFree2 (rv : Z) (m : bool) (r : option bool) (tl : option nat)   (* before the slot is looked up and taken, 509-537 *)
| LFill (i : nat) (rv : Z) (fn : bool)              (* Set: before the slot's fields are filled, map.go:642-690 *)
| LRet (fn : bool)                                  (* Set: before the deferred fn, map.go:631-633, or Unlock, 607 *)
| LCrash.
(** what a goroutine does when it starts a call: Set of a new key, Set of a present key, Delete of the item in slot i *)
Inductive lcall := CNew (rv : Z) | CUpd | CDel (i : nat) | CGo.

(** [l_bad]: somebody unlocked the lock without holding it. [l_done]: the positions whose Set has filled its slot. *)
Record lstate := mkL { l_pool : pool; l_owner : option nat; l_pcs : nat -> lpc; l_bad : bool; l_done : list Z }.

Definition lgo (s : lstate) (t : nat) (p : lpc) : lstate :=
  mkL (l_pool s) (l_owner s) (fun u => if Nat.eqb u t then p else l_pcs s u) (l_bad s) (l_done s).
Definition l_setp (s : lstate) (p : pool) : lstate := mkL p (l_owner s) (l_pcs s) (l_bad s) (l_done s).
Definition l_seto (s : lstate) (o : option nat) : lstate := mkL (l_pool s) o (l_pcs s) (l_bad s) (l_done s).
Definition l_log (s : lstate) (rv : Z) : lstate := mkL (l_pool s) (l_owner s) (l_pcs s) (l_bad s) (l_done s ++ [rv]).
Definition or_else (r : option bool) (b : bool) : bool := match r with Some x => x | None => b end.

(** mu.Lock() if mu is not nil; waits while the lock is taken *)
Definition l_lock (s : lstate) (t : nat) (m : bool) (p : lpc) : option lstate :=
  if m then match l_owner s with None => Some (lgo (l_seto s (Some t)) t p) | Some _ => None end else Some (lgo s t p).
(** lazyUnlock *)
Definition l_unlock (s : lstate) (t : nat) : lstate :=
  let mine := match l_owner s with Some u => Nat.eqb u t | None => false end in
  mkL (l_pool s) None (l_pcs s) (l_bad s || negb mine) (l_done s).

(** map_embedded.go:247-269 state4get after 448-465, then the switch 474 *)
Definition decide_get (p : pool) (rv : Z) (m : bool) (r : option bool) : lpc :=
  if p_len p =? 0 then LApp rv m r
  else
    let tail := last_active (p_slots p) (p_n p) in
    match free_idx p rv tail with
    | Some _ => LFree rv m r tail
    | None =>
        if p_cap p =? p_len p then LExp rv m r
        else match tail with
             | None => LCrash                      (* items[-1] *)
             | Some tl => if sl_rev (slot_at p tl) <? rv then LApp rv m r else LIns rv m r
             end
    end.

Definition fill_slot (rv : Z) (x : slot) : slot :=
  mkS (if sl_rev x =? 0 then rv else sl_rev x) (sl_conf x) (sl_del x) (sl_key x) (sl_val x) true.

(** one step of goroutine t *)
Definition lstep (s : lstate) (l : nat * lcall) : option lstate :=
  let '(t, c) := l in
  let p := l_pool s in
  match l_pcs s t with
  | LIdle =>
      match c with
      | CNew rv => Some (lgo s t (LRead rv true None))
      | CUpd => Some (lgo s t LUpd)
      | CDel i => if (i <? p_n p)%nat then Some (l_setp s (upd_slot p i set_sdel)) else None  (* map.go:1550-1559, no lock *)
      | CGo => None
      end
  | LUpd => match l_owner s with
            | None => Some (lgo (l_seto s (Some t)) t (LRet true))
            | Some _ => Some s                                      (* map.go:598-610: looks again *)
            end
  | LRead rv m r => Some (lgo s t (decide_get p rv m r))
  | LApp rv m r => l_lock s t m (LApp2 rv m r)
  | LApp2 rv m r =>
      if p_cap p <=? p_len p then Some (lgo s t (LRead rv false r)) (* 309-311, 483-495: nmu = nil *)
      else Some (lgo (l_setp s (mkP (p_slots p) (p_len p + 1))) t (LFill (p_n p) rv (or_else r m)))
  | LExp rv m r => l_lock s t m (LExp2 rv m r)
  | LExp2 rv m r => Some (lgo (l_setp s (expand p)) t (LRead rv false (Some (or_else r m))))
  | LIns rv m r => l_lock s t m (LIns2 rv m r)
  | LIns2 rv m r =>
      match find_idx p rv with
      | None => Some (lgo s t (LRead rv false r))                   (* 440 *)
      | Some i => Some (lgo (l_setp s (insert_at p i)) t (LFill i rv (or_else r true)))  (* 438: lazyUnlock always *)
      end
  | LFree rv m r tl =>
      if m then match l_owner s with
                | None => Some (lgo (l_seto s (Some t)) t (LFree2 rv m r tl))
                | Some _ => Some (lgo s t (LWait rv r tl))
                end
      else Some (lgo s t (LFree2 rv m r tl))
  | LWait rv r tl => l_lock s t true (LWait2 rv r tl)
  | LWait2 rv r tl => Some (lgo (l_unlock s t) t (LFree2 rv true r tl))
  | LFree2 rv m r tl =>
      match free_idx p rv tl with
      | None => Some (lgo s t (LRead rv m r))                       (* RETRY *)
      | Some i => Some (lgo (l_setp s (upd_slot p i recycle)) t (LFill i rv (or_else r m)))
      end
  | LFill i rv fn => Some (lgo (l_log (l_setp s (upd_slot p i (fill_slot rv))) rv) t (LRet fn))
  | LRet fn => Some (lgo (if fn then l_unlock s t else s) t LIdle)
  | LCrash => None
  end.
Fixpoint lrun (s : lstate) (ls : list (nat * lcall)) : option lstate :=
  match ls with
  | [] => Some s
  | l :: ls' => match lstep s l with Some s' => lrun s' ls' | None => None end
  end.

(** a bucket with the items at the given positions and room for [room] more; the lock is free *)
Definition stored_slot (rv : Z) : slot := mkS rv 0 false (KStr "") GNil true.
Definition linit (rvs : list Z) (room : nat) : lstate :=
  mkL (mkP (map stored_slot rvs ++ repeat zero_slot room) (Z.of_nat (List.length rvs))) None (fun _ => LIdle) false [].
(** bsearchBybucket, map_embedded.go:21-52: does a Get of the item at this position find it now? *)
Definition finds (s : lstate) (rv : Z) : Prop := exists i, emb_search (l_pool s) rv = Some i /\ sl_rev (slot_at (l_pool s) i) = rv.
