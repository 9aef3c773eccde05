(** 64-bit words, bit reversal, Go values and keys, call outcomes. *)
From Coq Require Export ZArith List Bool Lia String.
Export ListNotations.
Open Scope Z_scope.

(** Number of uint64 values. *)
Definition W64 : Z := 2 ^ 64.
(** ^uint64(0), used as the reverse of the last sentinel (map.go:228). *)
Definition MAX64 : Z := 2 ^ 64 - 1.

(** [bits.Reverse64] (math/bits; used at map.go:332 and throughout).
    Bit by bit: the n low bits of x are pushed, lowest first, onto acc. *)
Fixpoint rev_bits (n : nat) (x acc : Z) : Z :=
  match n with
  | O => acc
  | S n' => rev_bits n' (x / 2) (2 * acc + x mod 2)
  end.
Definition reverse64 (x : Z) : Z := rev_bits 64 x 0.

(** Conversion to uint64 (Go spec: truncation to 64 bits). *)
Definition u64 (x : Z) : Z := x mod W64.

(** A Go [interface{}] value: nil, or a dynamic type tag with a payload. *)
Inductive gval := GNil | GV (ty : Z) (payload : Z).

Definition gval_eqb (a b : gval) : bool :=
  match a, b with
  | GNil, GNil => true
  | GV t p, GV t' p' => (t =? t') && (p =? p')
  | _, _ => false
  end.

(** A key passed to the API as [interface{}]: the cases of the type switch
    in hashfn.go:33-52, nil (hashfn.go:30) and any other type. *)
Inductive gkey :=
| KNil
| KU64 (z : Z) | KStr (s : string) | KBytes (s : string) | KU8 (z : Z)
| KInt (z : Z) | KI32 (z : Z) | KU32 (z : Z) | KI64 (z : Z)
| KOther.

(** The two external hash functions (hashfn.go:16 runtime.memhash, and
    cespare/xxhash). Arbitrary; results are truncated to 64 bits. *)
Record hashes := mkH { memhash : string -> Z; xxhash : string -> Z }.

(** Outcome of a call.
    [Ret]   returns;
    [Pan]   Go panic (the state component carried alongside, where there is
            one, is the state left behind);
    [Div]   never returns: unbounded recursion (fatal stack overflow),
            an endless retry loop, or waiting for a mutex held by itself;
    [Undef] an access outside an allocated array: no defined behaviour. *)
Inductive res (A : Type) := Ret (a : A) | Pan | Div | Undef.
Arguments Ret {A} a.
Arguments Pan {A}.
Arguments Div {A}.
Arguments Undef {A}.

Definition rbind {A B} (r : res A) (f : A -> res B) : res B :=
  match r with Ret a => f a | Pan => Pan | Div => Div | Undef => Undef end.
Notation "x <- r ;; f" := (rbind r (fun x => f))
  (at level 61, r at next level, right associativity).
Notation "' p <- r ;; f" := (rbind r (fun x => let p := x in f))
  (at level 61, p pattern, r at next level, right associativity).

(** Association lists with [Z * Z] keys (bucket table) — plain finite maps. *)
Definition nid := (Z * Z)%type.
Definition nid_eqb (a b : nid) : bool := (fst a =? fst b) && (snd a =? snd b).
