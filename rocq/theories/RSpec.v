(** Specification of the package rmap, without hash tables, buckets or lists: two finite maps from hash pairs
    to values, "promoted" (frozen, read through a box) and "pending". *)
From Verif Require Import Base Util MapModel Spec RMapModel.
Local Open Scope Z_scope.

(** Finite maps as association lists with distinct keys. *)
Definition fmap := list ((Z * Z) * gval).
Fixpoint fget (p : Z * Z) (l : fmap) : option gval :=
  match l with
  | [] => None
  | (q, v) :: l' => if pair_eqb q p then Some v else fget p l'
  end.
Fixpoint fset (p : Z * Z) (v : gval) (l : fmap) : fmap :=
  match l with
  | [] => [(p, v)]
  | (q, w) :: l' => if pair_eqb q p then (q, v) :: l' else (q, w) :: fset p v l'
  end.
Definition fdel (p : Z * Z) (l : fmap) : fmap := filter (fun x => negb (pair_eqb (fst x) p)) l.
Definition size (l : fmap) : Z := Z.of_nat (List.length l).

(** q_set: Set was called before. q_am: absent keys are looked for among the pending ones. q_miss: reads of
    pending keys since the last promotion by a read. *)
Record rspec := mkQ { q_set : bool; q_prom : fmap; q_pend : fmap; q_am : bool; q_miss : Z }.
Definition q_new : rspec := mkQ false [] [] false 0.

(** Too few reads of pending keys to promote them. *)
Definition few (n : Z) (prom pend : fmap) : bool := (n <=? size prom) && (n <? size pend).

Definition q_step (h : hashes) (q : rspec) (o : rop) : rspec * res rout :=
  match o with
  | RSet x v =>
      match key_to_hash h (KStr x) with
      | None => (q, Ret OPanic)
      | Some p =>
          match fget p (q_prom q) with
          | Some _ => (q, Ret (OBool true))                     (* the new value is dropped *)
          | None =>
              match fget p (q_pend q) with
              | Some old =>
                  match assign KSample old v with
                  | Some (v', _) => (mkQ true (q_prom q) (fset p v' (q_pend q)) (q_am q) (q_miss q), Ret (OBool true))
                  | None => (q, Ret OPanic)
                  end
              | None =>
                  (match q_prom q with
                   | [] => mkQ true [(p, v)] [] true (q_miss q)  (* the first key is promoted at once *)
                   | _ => mkQ true (q_prom q) (fset p v (q_pend q)) true (q_miss q)
                   end, Ret (OBool true))
              end
          end
      end
  | RGet x =>
      match key_to_hash h (KStr x) with
      | None => (q, Ret OPanic)
      | Some p =>
          if negb (q_set q) then (q, Ret OPanic) else
          match fget p (q_prom q) with
          | Some v => (q, Ret (OBox v true))
          | None =>
              if negb (q_am q) then (q, Ret (OVal GNil false)) else
              match fget p (q_pend q) with
              | None => (q, Ret OPanic)
              | Some v =>
                  (if few (q_miss q + 1) (q_prom q) (q_pend q)
                   then mkQ true (q_prom q) (q_pend q) true (q_miss q + 1)
                   else mkQ true (q_prom q ++ q_pend q) [] false 0,
                   Ret (OVal v true))
              end
          end
      end
  | RDel x =>
      match key_to_hash h (KStr x) with
      | None => (q, Ret OPanic)
      | Some p =>
          if negb (q_set q) then (q, Ret OPanic) else
          match fget p (q_prom q) with
          | Some _ => (q, Ret OPanic)
          | None =>
              if negb (q_am q) then (q, Ret (OBool false)) else
              let pend := fdel p (q_pend q) in
              (mkQ true (q_prom q) pend true (q_miss q + 1),
               if few (q_miss q + 1) (q_prom q) pend then Ret (OBool false) else Div)
          end
      end
  | RLn => (q, Ret (OLen (size (q_pend q))))
  end.
Fixpoint q_run (h : hashes) (q : rspec) (os : list rop) : rspec :=
  match os with
  | [] => q
  | o :: os' => if rstops (snd (q_step h q o)) then q else q_run h (fst (q_step h q o)) os'
  end.
Fixpoint q_outs (h : hashes) (q : rspec) (os : list rop) : list (res rout) :=
  match os with
  | [] => []
  | o :: os' => let r := snd (q_step h q o) in
                r :: (if rstops r then [] else q_outs h (fst (q_step h q o)) os')
  end.

(** * Histories *)
Definition key_of (o : rop) : option string :=
  match o with RSet x _ | RGet x | RDel x => Some x | RLn => None end.
(** No two keys used in the history share the 64-bit hash without sharing the conflict hash. *)
Definition r_no_collision (h : hashes) (os : list rop) : Prop :=
  forall o o' x x' k c c', In o os -> In o' os -> key_of o = Some x -> key_of o' = Some x' ->
    key_to_hash h (KStr x) = Some (k, c) -> key_to_hash h (KStr x') = Some (k, c') -> c = c'.
(** The caller is told that the key is there. *)
Definition found_ok (r : res rout) : Prop := exists v, r = Ret (OVal v true) \/ r = Ret (OBox v true).
(** The call stores nothing new, or its position is no bucket boundary of the inner map (DumpBucket) and its
    hash is neither 2^63-1 nor 2^64-1. *)
Definition r_covered (h : hashes) (s : rstate) (o : rop) : Prop :=
  match o with
  | RSet x _ => forall k c, key_to_hash h (KStr x) = Some (k, c) ->
      found_ok (snd (rstep h s (RGet x))) \/
      (~ In (reverse64 k) (dump_bucket (r_dirty s)) /\ k <> 2 ^ 63 - 1 /\ k <> 2 ^ 64 - 1)
  | _ => True
  end.
Fixpoint r_all_covered (h : hashes) (s : rstate) (os : list rop) : Prop :=
  match os with
  | [] => True
  | o :: os' => r_covered h s o /\ (rstops (snd (rstep h s o)) = true \/ r_all_covered h (fst (rstep h s o)) os')
  end.
