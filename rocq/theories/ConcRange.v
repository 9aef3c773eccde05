(** Range running beside other goroutines on one default map. Definitions only.

    The other goroutines are those of ConcModel. A Range only reads the shared state, so one Range is enough: further
    Ranges do not influence it or the others. Calls made by the callback are calls of some other goroutine that run
    while the Range stands between two of its steps.

    One step is one access to the shared state, as in ConcModel. Not represented: the traverse mode of the external
    list_head package (map.go:1619-1620). *)
From Verif Require Import Base Util Bucket MapModel ConcModel.
Local Open Scope list_scope.

(** Where the Range is *)
Inductive rpos :=
| RBegin                (* called *)
| RLook (i : nat)       (* at item i, before IsIgnored *)
| RCall (i : nat)       (* item i is not ignored; before its value is read and f is called *)
| RNext (i : nat)       (* before cur.Next() *)
| RStop                 (* f returned false *)
| REnd.                 (* no item left *)

(** [out]: what f was called with so far, as item and value *)
Record rstate := mkRg { rc : cstate; rp : rpos; out : list (nat * gval) }.

(** [Oth l]: a step of another goroutine. [Rng go]: a step of the Range; go is what f returns if it is called. *)
Inductive rlabel := Oth (l : label) | Rng (go : bool).

(** map.go:1617-1643 *)
Definition rstep (g : cfg) (r : rstate) (l : rlabel) : option rstate :=
  match l with
  | Oth l' => match cstep g (rc r) l' with Some s' => Some (mkRg s' (rp r) (out r)) | None => None end
  | Rng go =>
      let s := rc r in
      match rp r with
      (* 1622 h.head.Prev().Next() *)
      | RBegin => Some (mkRg s (match hd_error (order s) with Some i => RLook i | None => REnd end) (out r))
      (* 1623-1626 *)
      | RLook i => match node s i with
                   | Some n => Some (mkRg s (if n_ign n then RNext i else RCall i) (out r))
                   | None => None
                   end
      (* 1627-1630, 1639 *)
      | RCall i => match node s i with
                   | Some n => Some (mkRg s (if go then RNext i else RStop) (out r ++ [(i, n_val n)]))
                   | None => None
                   end
      (* 1622 cur.Next(), !cur.Empty() *)
      | RNext i => Some (mkRg s (match next_of i (order s) with Some j => RLook j | None => REnd end) (out r))
      | RStop | REnd => None
      end
  end.
Fixpoint rrun (g : cfg) (r : rstate) (ls : list rlabel) : option rstate :=
  match ls with
  | [] => Some r
  | l :: ls' => match rstep g r l with Some r' => rrun g r' ls' | None => None end
  end.
(** Range is called in state s *)
Definition rstart (s : cstate) : rstate := mkRg s RBegin [].
