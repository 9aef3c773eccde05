(** Model of util.go, hashfn.go, error.go, debug.go and the option functions
    of map.go. Definitions only. *)
From Verif Require Import Base.
Local Open Scope Z_scope.

(** util.go:14-19 *)
Definition abs_diff (x y : Z) : Z := if x <? y then y - x else x - y.

(** util.go:21-26 *)
Definition near (a b dst : Z) : Z :=
  if abs_diff b dst <? abs_diff a dst then b else a.

(** util.go:28-41 (uint64 arithmetic; both operations are wrapped explicitly) *)
Definition half (os oe : Z) : Z :=
  let '(s, e) := if oe <? os then (oe, os) else (os, oe) in
  u64 (s + u64 (e - s) / 2).

(** util.go:83-89: intPow(a,b), b loop iterations *)
Fixpoint int_pow (a : Z) (b : nat) : Z :=
  match b with O => 1 | S b' => int_pow a b' * a end.

(** the loop util.go:59-63: i counts up from [i], at most [n] more rounds *)
Fixpoint first_zero_shift (n : nat) (i : nat) (len : Z) : option nat :=
  match n with
  | O => None
  | S n' => if Z.shiftr len (Z.of_nat i) =? 0 then Some i else first_zero_shift n' (S i) len
  end.

(** map.go:65-68 *)
Definition minCapItem : Z := 2.
Definition thresholdCapItem : Z := 256.

(** util.go:48-65. Go integer division of non-negative operands is [Z.div];
    [int] overflow is not modelled (lengths are below 2^62). *)
Definition pool_cap (len : Z) : Z :=
  if len <? minCapItem then minCapItem
  else if thresholdCapItem <=? len then
    thresholdCapItem / 4 * (1 + len / (thresholdCapItem / 4))
  else match first_zero_shift 60 0 len with
       | Some i => int_pow 2 i
       | None => 512
       end.

(** util.go:67-81 (not called in the package) *)
Definition calc_cap (len : Z) : Z :=
  if 1024 <? len then len + len / 4
  else match first_zero_shift 60 0 len with
       | Some i => int_pow 2 i
       | None => 512
       end.

(** util.go:91-102: the maximum of its arguments, 0 when there are none *)
Definition max_ints (l : list Z) : Z :=
  match l with
  | [] => 0
  | x :: l' => fold_left (fun m y => if m <? y then y else m) l' x
  end.

(** hashfn.go:28-53; [None] is panic("Key type not supported").
    The integer payload of a key is the mathematical integer it denotes;
    uint64(k) truncates it. *)
Definition key_to_hash (h : hashes) (k : gkey) : option (Z * Z) :=
  match k with
  | KNil => Some (0, 0)
  | KU64 z | KU8 z | KInt z | KI32 z | KU32 z | KI64 z => Some (u64 z, 0)
  | KStr s | KBytes s => Some (u64 (memhash h s), u64 (xxhash h s))
  | KOther => None
  end.

(** Which integers a Go key of a given type can hold. *)
Definition key_in_type (k : gkey) : Prop :=
  match k with
  | KU64 z => 0 <= z < 2 ^ 64
  | KU8 z => 0 <= z < 2 ^ 8
  | KU32 z => 0 <= z < 2 ^ 32
  | KI32 z => - 2 ^ 31 <= z < 2 ^ 31
  | KInt z | KI64 z => - 2 ^ 63 <= z < 2 ^ 63
  | _ => True
  end.

(** maphead.go:28-30 *)
Definition key_in_hmap (reverse : Z) : Z := reverse64 reverse.

(** debug.go:20-26: LogDebug..LogFatal *)
Definition LogDebug : Z := 0.
Definition LogInfo : Z := 1.
Definition LogWarn : Z := 2.
Definition LogError : Z := 3.
Definition LogFatal : Z := 4.
(** debug.go:29 *)
Definition CurrentLogLevel : Z := LogInfo.
(** debug.go:37-47: [Pan] for Fatal, otherwise whether the message is written *)
Definition log_emits (l : Z) : res bool :=
  if l =? LogFatal then Pan else Ret (l <=? CurrentLogLevel).

(** error.go:9-19: ErrType codes 1 << iota *)
Definition err_codes : list Z := map (fun i => Z.shiftl 1 i) [0;1;2;3;4;5;6;7;8].

(** * Options (map.go:91-153)
    The configuration part of a Map. [c_itemfn] abstracts the ItemFn closure
    by a tag, [None] being a nil function; [c_pool] is whether h.pooler is
    non-nil. *)
Record config := mkC {
  c_max : Z; c_mode : Z; c_itemfn : option Z; c_pool : bool; c_emb : bool }.

(** An option value. [ONilFn] is the nil OptHMap that ItemFn returns when no
    previous function was set (map.go:114-116); calling it panics. *)
Inductive opt := OMax (n : Z) | OMode (m : Z) | OItem (f : option Z)
               | OPool (b : bool) | OEmb (b : bool) | ONilFn.

(** map.go:93-144: apply one option, returning the new configuration and the
    option it returns. *)
Definition apply_opt (o : opt) (c : config) : res (config * opt) :=
  match o with
  | OMax n => Ret (mkC n (c_mode c) (c_itemfn c) (c_pool c) (c_emb c), OMax (c_max c))
  | OMode m => Ret (mkC (c_max c) m (c_itemfn c) (c_pool c) (c_emb c), OMode (c_mode c))
  | OItem f => Ret (mkC (c_max c) (c_mode c) f (c_pool c) (c_emb c),
                    match c_itemfn c with None => ONilFn | Some g => OItem (Some g) end)
  | OPool b => Ret (mkC (c_max c) (c_mode c) (c_itemfn c) b (c_emb c), OPool (negb b))
  | OEmb b => Ret (mkC (c_max c) (c_mode c) (c_itemfn c)
                       (if b then false else c_pool c) b, OPool (c_emb c))
  | ONilFn => Pan
  end.

(** map.go:146-153: Options applies them left to right and collects the
    returned options in the same order. *)
Fixpoint options (os : list opt) (c : config) : res (config * list opt) :=
  match os with
  | [] => Ret (c, [])
  | o :: os' =>
      '(c1, p) <- apply_opt o c ;;
      '(c2, ps) <- options os' c1 ;;
      Ret (c2, p :: ps)
  end.
