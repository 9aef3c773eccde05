(** Calls on the items of a default map with UsePool beside the expansion of the pool, which moves the items: small steps,
    any number of goroutines, any schedule (pool2.go:199-363; map.go:591-604, 648-705, 1550-1559; sample_hmap_entry.go:55-65,
    83-85). Definitions only. One of the eight parts of the pool; the items are named by their index in it, which an
    expansion keeps (pool2.go:309).

    Simplifications, all in favour of the code:
    - a lookup is one step and finds the item; that it does is ConcModel.v. So is linking a new item into the list;
    - taking an item from the pool is one step; that items are handed out once is ConcPool.v (C36);
    - the copy and the repair of the links (elist_head.RepaireSliceAfterCopy, an external library) are one step, after
      which the map has every linked item of the old segment at its new place. *)
From Verif Require Import Base Util.
Local Open Scope list_scope.
Local Open Scope nat_scope.

(** what an item holds: its value and its deleted mark (sample_hmap_entry.go:12-16, maphead.go:19-24) *)
Notation cell := (Z * bool)%type.
(** what a call stores into an item it found: Set a value (sample_hmap_entry.go:63), Delete the mark (84) *)
Inductive wr := WVal (v : Z) | WDel.
Definition put (w : wr) (c : cell) : cell := match w with WVal v => (v, snd c) | WDel => (fst c, true) end.

Inductive mcall := CNew (v : Z) | CPut (i : nat) (w : wr) | CGet (i : nat).
(** inside a call: [KNew i g v]: it got item i at segment g from the pool; [KLink]: key and value are stored; [KTail]: the item
    is linked, the deferred unlock is left; [KPut], [KGet]: it has found item i at segment g *)
Inductive mpc := KIdle | KNew (i g : nat) (v : Z) | KLink (i g : nat) | KTail | KPut (i g : nat) (w : wr) | KGet (i g : nat) | KGot (c : cell).
(** what happened, for the specification *)
Inductive mev := EvNew (t i : nat) (v : Z) | EvLink (t i : nat) | EvFind (t i : nat) (w : wr) | EvStore (t i : nat) | EvExpand.
(** [x_seg], [x_len], [x_cap]: the segment in use, the items handed out, their most; [x_mu]: who holds the pool's mutex;
    [x_mem g i]: item i of segment g; [x_at i]: the segment at which the map has item i *)
Record xstate := mkX { x_seg : nat; x_len : nat; x_cap : nat; x_mu : option nat; x_mem : nat -> nat -> cell; x_at : nat -> option nat;
  x_pcs : nat -> mpc; x_ev : list mev }.

Definition fset {A} (f : nat -> A) (i : nat) (a : A) : nat -> A := fun j => if Nat.eqb j i then a else f j.
Definition xgo (s : xstate) (t : nat) (p : mpc) (es : list mev) : xstate :=
  mkX (x_seg s) (x_len s) (x_cap s) (x_mu s) (x_mem s) (x_at s) (fset (x_pcs s) t p) (x_ev s ++ es).
(** pool2.go:286-363: the items are copied to a new segment, and the map has them there *)
Definition xexpand (s : xstate) : xstate :=
  mkX (S (x_seg s)) (x_len s) (Z.to_nat (pool_cap (Z.of_nat (x_len s)))) (x_mu s)
      (fun g i => if Nat.eqb g (S (x_seg s)) then x_mem s (x_seg s) i else x_mem s g i)
      (fun i => match x_at s i with Some g => if Nat.eqb g (x_seg s) then Some (S (x_seg s)) else Some g | None => None end)
      (x_pcs s) (x_ev s ++ [EvExpand]).
(** pool2.go:218-246: the next item; whoever takes the last one keeps the mutex until its Set returns (map.go:654-663) *)
Definition xtake (s : xstate) (t : nat) (v : Z) : xstate :=
  let s1 := xgo s t (KNew (x_len s) (x_seg s) v) [EvNew t (x_len s) v] in
  mkX (x_seg s) (S (x_len s)) (x_cap s) (if Nat.eqb (S (x_len s)) (x_cap s) then Some t else x_mu s) (x_mem s) (x_at s) (x_pcs s1) (x_ev s1).

(** a step of goroutine t, [None] if it has to wait; [c] is the call it makes if it is idle *)
Definition xstep (s : xstate) (t : nat) (c : mcall) : option xstate :=
  match x_pcs s t with
  | KIdle =>
      match c with
      (* map.go:648-656, pool2.go:210-224, 249-262, 286-288 *)
      | CNew v => if x_cap s <=? x_len s then match x_mu s with None => Some (xtake (xexpand s) t v) | Some _ => None end
                  else if Nat.eqb (S (x_len s)) (x_cap s) then match x_mu s with None => Some (xtake s t v) | Some _ => None end
                  else Some (xtake s t v)
      (* map.go:597-603, 1552: the item is found if it is linked and not deleted *)
      | CPut i w => match x_at s i with
                    | Some g => if snd (x_mem s g i) then None else Some (xgo s t (KPut i g w) [EvFind t i w])
                    | None => None end
      | CGet i => match x_at s i with
                  | Some g => if snd (x_mem s g i) then None else Some (xgo s t (KGet i g) [])
                  | None => None end
      end
  (* map.go:688-689: into the item the call got *)
  | KNew i g v => Some (let s1 := xgo s t (KLink i g) [] in
                        mkX (x_seg s1) (x_len s1) (x_cap s1) (x_mu s1) (fset (x_mem s) g (fset (x_mem s g) i (v, false))) (x_at s1) (x_pcs s1) (x_ev s1))
  (* map.go:705 *)
  | KLink i g => Some (let s1 := xgo s t KTail [EvLink t i] in
                       mkX (x_seg s1) (x_len s1) (x_cap s1) (x_mu s1) (x_mem s1) (fset (x_at s) i (Some g)) (x_pcs s1) (x_ev s1))
  (* map.go:661-663 *)
  | KTail => Some (let s1 := xgo s t KIdle [] in
                   mkX (x_seg s1) (x_len s1) (x_cap s1) (match x_mu s with Some u => if Nat.eqb u t then None else Some u | None => None end) (x_mem s1) (x_at s1) (x_pcs s1) (x_ev s1))
  (* sample_hmap_entry.go:63, 84: into the item the call found *)
  | KPut i g w => Some (let s1 := xgo s t KIdle [EvStore t i] in
                        mkX (x_seg s1) (x_len s1) (x_cap s1) (x_mu s1) (fset (x_mem s) g (fset (x_mem s g) i (put w (x_mem s g i)))) (x_at s1) (x_pcs s1) (x_ev s1))
  (* map.go:442, sample_hmap_entry.go:56 *)
  | KGet i g => Some (xgo s t (KGot (x_mem s g i)) [])
  | KGot _ => Some (xgo s t KIdle [])
  end.
Fixpoint xrun (s : xstate) (ls : list (nat * mcall)) : option xstate :=
  match ls with
  | [] => Some s
  | (t, c) :: ls' => match xstep s t c with Some s' => xrun s' ls' | None => None end
  end.
(** pool2.go:141-154: the first segment *)
Definition xinit : xstate := mkX 0 0 64 None (fun _ _ => (0%Z, false)) (fun _ => None) (fun _ => KIdle) [].
