(** Sets of new keys in the embedded map while another Set splits their bucket (map.go:591-705 Set, map_embedded.go:61-132
    makeBucket2, 446-545 getWithFn): small steps, any number of Sets, any schedule. Definitions only.

    Simplifications:
    - one split of one bucket, by a Set that has stored its key and holds the bucket's lock (map.go:630-633; makeBucket2 runs
      inside _set, map.go:1000, before the deferred unlock). No Delete; the splits that makeBucket2 may add are not followed;
    - a Set is two steps: the lookup of its bucket (map.go:598, getWithBucket), and getWithFn, the filling of the slot and
      the unlock (630-705) together, once the lock is free: what two Sets do to each other between these is in ConcEmb.v
      (C39, C53), here it is only the split that interferes;
    - an item is its position; the main item list and the lists of buckets and levels are not modelled;
    - the descent findBucket ends at the new bucket as soon as its level is set (map_embedded.go:196-205), see ConcSplit.v. *)
From Verif Require Import Base Bucket EmbModel ConcEmb.
From Coq Require Import PeanoNat.
Local Open Scope list_scope.
Local Open Scope Z_scope.

(** the bucket's range of positions, its items, room for more, and where the new bucket begins (map_embedded.go:66-71) *)
Record wcfg := mkWC { wc_lo : Z; wc_hi : Z; wc_items : list Z; wc_room : nat; wc_new : Z }.
(** the new bucket: not there; there, without a pool; with its pool (94) *)
Inductive wnew := WNone | WBare | WPool (p : pool).
Inductive wphase :=
| PhBegin              (* before bucketFromPoolEmbedded, 72 *)
| PhFind               (* before findIdx, 86 *)
| PhCut (i : nat)      (* before _split, 92 *)
| PhPool (p : pool)    (* before setItemPool, 94 *)
| PhLast               (* before the lock is released, map.go:632 *)
| PhDone.
(** a Set of the key at position rv; [nw]: it found the new bucket *)
Inductive wpc := WIdle | WLook (rv : Z) | WPut (rv : Z) (nw : bool).
(** [w_called]: the keys of all Sets so far; [w_done]: the keys of those that have returned, with the bucket they used *)
Record wstate := mkW { w_old : pool; w_new : wnew; w_ph : wphase; w_pcs : nat -> wpc; w_called : list Z; w_done : list (Z * bool) }.

Definition w_goto (s : wstate) (t : nat) (p : wpc) : wstate :=
  mkW (w_old s) (w_new s) (w_ph s) (fun u => if Nat.eqb u t then p else w_pcs s u) (w_called s) (w_done s).
Definition w_call (s : wstate) (rv : Z) : wstate := mkW (w_old s) (w_new s) (w_ph s) (w_pcs s) (w_called s ++ [rv]) (w_done s).
Definition w_end (s : wstate) (d : Z * bool) : wstate := mkW (w_old s) (w_new s) (w_ph s) (w_pcs s) (w_called s) (w_done s ++ [d]).
Definition w_seto (s : wstate) (p : pool) : wstate := mkW p (w_new s) (w_ph s) (w_pcs s) (w_called s) (w_done s).
Definition w_setn (s : wstate) (n : wnew) : wstate := mkW (w_old s) n (w_ph s) (w_pcs s) (w_called s) (w_done s).
Definition w_setph (s : wstate) (p : wphase) : wstate := mkW (w_old s) (w_new s) p (w_pcs s) (w_called s) (w_done s).

(** the split *)
Definition wsplit (g : wcfg) (s : wstate) : option wstate :=
  match w_ph s with
  | PhBegin => Some (w_setph (w_setn s WBare) PhFind)
  | PhFind => match find_idx (w_old s) (wc_new g) with
              | None | Some O => Some (w_setph s PhLast)                           (* 87-89 *)
              | Some i => Some (w_setph s (PhCut i))
              end
  | PhCut i => Some (w_setph (w_seto s (split_lo (w_old s) i)) (PhPool (split_hi (w_old s) i)))
  | PhPool p => Some (w_setph (w_setn s (WPool p)) PhLast)
  | PhLast => Some (w_setph s PhDone)
  | PhDone => None
  end.
(** getWithFn and the filling of the slot *)
Definition put (p : pool) (rv : Z) : option pool :=
  match get_with_fn 4 p rv with GSlot p1 i => Some (upd_slot p1 i (fill_slot rv)) | _ => None end.
(** goroutine t goes on with its Set *)
Definition wset (g : wcfg) (s : wstate) (t : nat) : option wstate :=
  match w_pcs s t with
  | WIdle => None
  | WLook rv => Some (w_goto s t (WPut rv (match w_new s with WNone => false | _ => wc_new g <=? rv end)))
  | WPut rv false =>                                                               (* the splitting Set holds the lock *)
      match w_ph s with
      | PhDone => match put (w_old s) rv with Some p => Some (w_goto (w_end (w_seto s p) (rv, false)) t WIdle) | None => None end
      | _ => None
      end
  | WPut rv true =>
      match w_new s with
      | WPool p => match put p rv with Some q => Some (w_goto (w_end (w_setn s (WPool q)) (rv, true)) t WIdle) | None => None end
      | _ => Some s                                                                (* bucket.go:122-137 *)
      end
  end.
(** the schedule: the split goes on; goroutine t calls Set; goroutine t goes on *)
Inductive wlabel := LSplit | LSet (t : nat) (rv : Z) | LGo (t : nat).
Definition wstep (g : wcfg) (s : wstate) (l : wlabel) : option wstate :=
  match l with
  | LSplit => wsplit g s
  | LSet t rv => match w_pcs s t with
                 | WIdle => if (wc_lo g <=? rv) && (rv <? wc_hi g) then Some (w_goto (w_call s rv) t (WLook rv)) else None
                 | _ => None
                 end
  | LGo t => wset g s t
  end.
Fixpoint wrun (g : wcfg) (s : wstate) (ls : list wlabel) : option wstate :=
  match ls with
  | [] => Some s
  | l :: ls' => match wstep g s l with Some s' => wrun g s' ls' | None => None end
  end.
Definition winit (g : wcfg) : wstate :=
  mkW (mkP (map stored_slot (wc_items g) ++ repeat zero_slot (wc_room g)) (Z.of_nat (List.length (wc_items g)))) WNone PhBegin (fun _ => WIdle) [] [].
(** Does a Get find the key at this position? findBucket and bsearchBybucket, map_embedded.go:21-58; a bucket without pool
    makes it wait. *)
Definition whit (p : pool) (rv : Z) : Prop := exists i, emb_search p rv = Some i /\ sl_rev (slot_at p i) = rv.
Definition wfinds (g : wcfg) (s : wstate) (rv : Z) : Prop :=
  match w_new s with
  | WNone => whit (w_old s) rv
  | WBare => rv < wc_new g /\ whit (w_old s) rv
  | WPool p => whit (if wc_new g <=? rv then p else w_old s) rv
  end.
