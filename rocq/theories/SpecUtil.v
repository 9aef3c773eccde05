(** Specification vocabulary for the property theorems of PropUtil.v: nothing here is part
    of the model. *)
From Verif Require Import Base Util.
Local Open Scope Z_scope.

(** the integer denoted by an integer key *)
Definition key_int (k : gkey) : option Z :=
  match k with
  | KU64 z | KU8 z | KInt z | KI32 z | KU32 z | KI64 z => Some z
  | KNil => Some 0
  | _ => None
  end.

(** Two integer keys of the same Go type. *)
Definition same_int_type (k1 k2 : gkey) : bool :=
  match k1, k2 with
  | KU64 _, KU64 _ | KU8 _, KU8 _ | KInt _, KInt _ | KI32 _, KI32 _
  | KU32 _, KU32 _ | KI64 _, KI64 _ => true
  | _, _ => false
  end.

(** The three options whose returned option is their inverse. *)
Definition plain (o : opt) : bool :=
  match o with OMax _ | OMode _ | OItem (Some _) => true | _ => false end.
Definition kind (o : opt) : Z :=
  match o with OMax _ => 0 | OMode _ => 1 | OItem _ => 2 | OPool _ => 3 | OEmb _ => 4 | ONilFn => 5 end.
Fixpoint kinds_distinct (os : list opt) : bool :=
  match os with
  | [] => true
  | o :: os' => negb (existsb (fun p => kind p =? kind o) os') && kinds_distinct os'
  end.

