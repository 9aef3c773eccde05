(** Specification of the default map, written without looking at buckets, lists or searches:
    a finite map from hash pairs to bindings, the type through which values are accessed, and
    a call counter. It shares with the model only the vocabulary of calls and results
    (op, out, item, gkey, gval) and the hash function. *)
From Verif Require Import Base Util MapModel.
Local Open Scope Z_scope.

Record binding := mkBd { bd_kind : ikind; bd_key : gkey; bd_val : gval }.
Definition pair_eqb (p q : Z * Z) : bool := (fst p =? fst q) && (snd p =? snd q).

Record smap := mkSM { sm_map : Z * Z -> option binding; sm_view : ikind; sm_created : Z }.
Definition sm_empty (view : ikind) : smap := mkSM (fun _ => None) view 0.
Definition sm_put (m : smap) (p : Z * Z) (b : option binding) : Z * Z -> option binding :=
  fun q => if pair_eqb p q then b else sm_map m q.

(** Key() of a binding seen through item type [view]. *)
Definition bd_view (view : ikind) (b : binding) : option gkey :=
  match view, bd_kind b with
  | KSample, KSample | KEntry, KEntry => Some (bd_key b)
  | _, _ => None
  end.

(** SetValue on an existing item: an entryHMap takes any value; a SampleItem ignores nil and
    refuses (panics on, [None]) a value whose dynamic type differs from that of the value it holds. *)
Definition same_type (a b : gval) : bool :=
  match a, b with GV t _, GV t' _ => t =? t' | _, _ => false end.
Definition assign (view : ikind) (old v : gval) : option (gval * bool) :=
  match view with
  | KEntry => Some (v, true)
  | KSample => if gval_eqb v GNil then Some (old, false)
               else if gval_eqb old GNil || same_type old v then Some (v, true) else None
  end.
Definition sm_update (m : smap) (p : Z * Z) (b : binding) (v : gval) : smap * out :=
  match assign (sm_view m) (bd_val b) v with
  | None => (m, RPanic)
  | Some (v', ok) =>
      (mkSM (sm_put m p (Some (mkBd (bd_kind b) (bd_key b) v'))) (sm_view m) (sm_created m), RBool ok)
  end.
Definition sm_get (m : smap) (p : Z * Z) : out :=
  match sm_map m p with Some b => RVal (bd_val b) true | None => RVal GNil false end.
Definition sm_load (m : smap) (p : Z * Z) : out :=
  match sm_map m p with
  | Some b => RItem (Some (bd_view (sm_view m) b, bd_val b))
  | None => RItem None
  end.

Definition sm_step (h : hashes) (m : smap) (o : op) : smap * out :=
  match o with
  | OpSet key v =>
      match key_to_hash h key with
      | None => (m, RPanic)
      | Some p =>
          match sm_map m p, key with
          | Some b, _ => sm_update m p b v
          | None, KStr _ =>
              (mkSM (sm_put m p (Some (mkBd KSample key v))) KSample (sm_created m + 1), RBool true)
          | None, _ => (m, RPanic)
          end
      end
  | OpStore i =>
      match key_to_hash h (i_key i) with
      | None => (m, RPanic)
      | Some p =>
          match sm_map m p with
          | Some b => sm_update m p b (i_val i)
          | None => (mkSM (sm_put m p (Some (mkBd (i_kind i) (i_key i) (i_val i)))) (sm_view m) (sm_created m + 1),
                     RBool true)
          end
      end
  | OpGet key => (m, match key_to_hash h key with Some p => sm_get m p | None => RPanic end)
  | OpGetByHash k c => (m, sm_get m (u64 k, u64 c))
  | OpLoad key => (m, match key_to_hash h key with Some p => sm_load m p | None => RPanic end)
  | OpLoadByHash k c => (m, sm_load m (u64 k, u64 c))
  | OpDelete key | OpPurge key =>
      match key_to_hash h key with
      | None => (m, RPanic)
      | Some p =>
          match sm_map m p with
          | Some _ => (mkSM (sm_put m p None) (sm_view m) (sm_created m), RBool true)
          | None => (m, RBool false)
          end
      end
  | OpLen => (m, RLen (sm_created m))
  end.
Fixpoint sm_run (h : hashes) (m : smap) (os : list op) : smap :=
  match os with [] => m | o :: os' => sm_run h (fst (sm_step h m o)) os' end.
Fixpoint sm_outs (h : hashes) (m : smap) (os : list op) : list out :=
  match os with [] => [] | o :: os' => snd (sm_step h m o) :: sm_outs h (fst (sm_step h m o)) os' end.

(** * Which calls the theorems cover *)

(** hash pair of the key a Set or StoreItem call is about, and the item's own position fields *)
Definition writes (h : hashes) (o : op) : option (Z * Z) :=
  match o with
  | OpSet key _ => key_to_hash h key
  | OpStore i => key_to_hash h (i_key i)
  | _ => None
  end.
(** an item as returned by NewSampleItem or NewEntryMap (no Setup(), not deleted) *)
Definition fresh_item (o : op) : Prop :=
  match o with OpStore i => i_rev i = 0 /\ i_conf i = 0 /\ i_del i = false | _ => True end.

(** The call o, made when the map holds m and the bucket boundaries are bs (DumpBucket's reverse
    column), is covered if it is not a creating call, or else: the item is fresh, the position of
    its hash is not a boundary, no other key with the same 64-bit hash is stored, and the hash is
    neither 2^63-1 nor 2^64-1. *)
Definition covered (h : hashes) (bs : list Z) (m : smap) (o : op) : Prop :=
  fresh_item o /\
  match writes h o with
  | Some (k, c) => sm_map m (k, c) <> None \/
      (~ In (reverse64 k) bs /\ (forall c', sm_map m (k, c') = None) /\ k <> 2 ^ 63 - 1 /\ k <> 2 ^ 64 - 1)
  | None => True
  end.
(** every call of the history is covered at the moment it is made *)
Fixpoint all_covered (h : hashes) (s : mstate) (m : smap) (os : list op) : Prop :=
  match os with
  | [] => True
  | o :: os' => covered h (dump_bucket s) m o /\
                all_covered h (fst (step h s o)) (fst (sm_step h m o)) os'
  end.

(** * Vocabulary of the single properties *)

(** What Range has to do with its callback on a sequence of items: call it on each in turn, stop
    after the first call that returns false. *)
Fixpoint visit {A B} (f : A -> B -> A * bool) (a : A) (l : list B) : A :=
  match l with
  | [] => a
  | x :: l' => if snd (f a x) then visit f (fst (f a x)) l' else fst (f a x)
  end.

(** The stored position is one the map can hold: the hash is neither 2^63-1 nor 2^64-1
    (respectively the position preset in a Setup() item is below 2^64-2). *)
Definition safe_op (h : hashes) (o : op) : Prop :=
  match o, writes h o with
  | OpStore i, Some (k, _) =>
      (i_rev i = 0 /\ k <> 2 ^ 63 - 1 /\ k <> 2 ^ 64 - 1) \/ 0 < i_rev i <= 2 ^ 64 - 3
  | _, Some (k, _) => k <> 2 ^ 63 - 1 /\ k <> 2 ^ 64 - 1
  | _, None => True
  end.
(** the position fields of an item are 64-bit words *)
Definition item_u64 (o : op) : Prop :=
  match o with OpStore i => 0 <= i_rev i < 2 ^ 64 | _ => True end.

(** The hash pair (k, c) is used properly by a call o made in state s: no other key with the same
    64-bit hash is written, and the pair is only written while it is readable or its position
    is no bucket boundary. *)
Definition clean_op (h : hashes) (s : mstate) (k c : Z) (o : op) : Prop :=
  forall k1 c1, writes h o = Some (k1, c1) -> k1 = k ->
    c1 = c /\ (~ In (reverse64 k) (dump_bucket s) \/
               exists v, snd (step h s (OpGetByHash k c)) = RVal v true).
Fixpoint clean (h : hashes) (s : mstate) (k c : Z) (os : list op) : Prop :=
  match os with
  | [] => True
  | o :: os' => clean_op h s k c o /\ clean h (fst (step h s o)) k c os'
  end.

(** the value a writing call stores *)
Definition written (o : op) : gval :=
  match o with OpSet _ v => v | OpStore i => i_val i | _ => GNil end.
(** the hash pair a call reads, writes or deletes *)
Definition touches (h : hashes) (o : op) : option (Z * Z) :=
  match o with
  | OpSet key _ | OpGet key | OpLoad key | OpDelete key | OpPurge key => key_to_hash h key
  | OpStore i => key_to_hash h (i_key i)
  | OpGetByHash k c | OpLoadByHash k c => Some (u64 k, u64 c)
  | OpLen => None
  end.
(** a Delete or Purge call *)
Definition is_delete (o : op) : bool :=
  match o with OpDelete _ | OpPurge _ => true | _ => false end.
(** number of Delete/Purge calls of a history that returned true *)
Fixpoint deletes (os : list op) (rs : list out) : Z :=
  match os, rs with
  | o :: os', r :: rs' =>
      (match is_delete o, r with true, RBool true => 1 | _, _ => 0 end) + deletes os' rs'
  | _, _ => 0
  end.

(** A value of dynamic type ty, or nil. *)
Definition of_type (ty : Z) (v : gval) : Prop := match v with GNil => True | GV t _ => t = ty end.
(** A call with a supported key (a string for Set) whose value, if any, has dynamic type ty. *)
Definition plain_op (ty : Z) (o : op) : Prop :=
  match o with
  | OpSet key v => (exists x, key = KStr x) /\ of_type ty v
  | OpStore i => i_key i <> KOther /\ of_type ty (i_val i)
  | OpGet key | OpLoad key | OpDelete key | OpPurge key => key <> KOther
  | _ => True
  end.
(** Every item stored is of kind kd (Set stores SampleItems). *)
Definition kind_op (kd : ikind) (o : op) : Prop :=
  match o with OpSet _ _ => kd = KSample | OpStore i => i_kind i = kd | _ => True end.
