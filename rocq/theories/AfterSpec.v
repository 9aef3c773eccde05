(** Specification of a Set of a new key into a bucket of the embedded mode in which keys were deleted (C42, C76). As in PurgeSpec.v the
    stored entries, deleted ones included, are a list by ascending position, and the bucket of a position is what no boundary of
    DumpBucket separates from it. *)
From Verif Require Import Base Util Bucket MapModel Spec PurgeSpec MixSpec.
From Coq Require Import Ascii String.
Local Open Scope Z_scope.
Local Open Scope list_scope.

Definition dead (e : ent) : Prop := e_dead e = true.
Definition alive (e : ent) : Prop := e_dead e = false.
(** the new key's position [r] lies above [e'], the last key of the bucket that is not deleted, and the entry [d] directly before
    [e'] is deleted and not the first of the bucket *)
Definition displaced (bs : list Z) (l : list ent) (r : Z) (e' : ent) : Prop :=
  exists a d b, bucket_of bs l r = a ++ d :: e' :: b /\ a <> [] /\ dead d /\ alive e' /\ Forall dead b /\ e_pos e' < r.
(** the first entry of the bucket is deleted and [r] lies below it *)
Definition under (bs : list Z) (l : list ent) (r : Z) (e' : ent) : Prop :=
  exists b, bucket_of bs l r = e' :: b /\ dead e' /\ r < e_pos e'.
(** the entries of the bucket up to position [r] and above it *)
Definition lower (bs : list Z) (l : list ent) (r : Z) : list ent := filter (fun e => e_pos e <=? r) (bucket_of bs l r).
Definition upper (bs : list Z) (l : list ent) (r : Z) : list ent := filter (fun e => r <? e_pos e) (bucket_of bs l r).
(** the deleted entry whose place a key that cannot be read takes when it is set: the one directly below it or at its own position, if
    that is not the first of the bucket and some key above is not deleted *)
Definition place (bs : list Z) (l : list ent) (r : Z) : option ent :=
  match rev (lower bs l r) with
  | d :: _ :: _ => if e_dead d && existsb (fun e => negb (e_dead e)) (upper bs l r) then Some d else None
  | _ => None
  end.
(** a Set that keeps the order of the bucket: it takes the place of a deleted entry, or nothing is stored at its position and the entry
    directly above it is not deleted, or there is none above and it displaces nothing *)
Definition calm (bs : list Z) (l : list ent) (r : Z) : Prop :=
  match place bs l r with
  | Some _ => True
  | None => (forall e, In e l -> e_pos e <> r) /\ match upper bs l r with [] => forall e, ~ displaced bs l r e | e :: _ => alive e end
  end.
(** the value it gets, and the entries after it *)
Definition given (bs : list Z) (l : list ent) (r : Z) (v : gval) : option gval :=
  match place bs l r with
  | Some d => match assign KSample (bd_val (e_bd d)) v with Some (w, _) => Some w | None => None end
  | None => Some v
  end.
Definition entered (bs : list Z) (l : list ent) (p : Z * Z) (key : gkey) (v : gval) : list ent :=
  match given bs l (pos_of p) v with
  | Some w => put (mkE p (mkBd KSample key w) false) (match place bs l (pos_of p) with Some d => without [d] l | None => l end)
  | None => l
  end.
(** the calls that may follow the Sets: Deletes, reads, Sets and StoreItems of keys that can be read, and calm Sets of string keys that
    cannot, into buckets of less than [max] entries, whose value can be assigned; no Purge. [n] counts the keys made. *)
Definition creates (h : hashes) (bs : list Z) (l : list ent) (o : op) : bool :=
  match o with
  | OpSet key _ => match key_to_hash h key with Some p => negb (present bs l p) | None => false end
  | _ => false
  end.
Definition calm_next (h : hashes) (bs : list Z) (n : Z) (l : list ent) (o : op) : list ent :=
  match o with
  | OpSet key v => match key_to_hash h key with
                   | Some p => if present bs l p then next_entries h bs n l o else entered bs l p key v
                   | None => l end
  | _ => next_entries h bs n l o
  end.
Definition calm_count (h : hashes) (bs : list Z) (n : Z) (l : list ent) (o : op) : Z := if creates h bs l o then n + 1 else n.
Fixpoint calm_run (h : hashes) (bs : list Z) (n : Z) (l : list ent) (os : list op) {struct os} : list ent :=
  match os with [] => l | o :: os' => calm_run h bs (calm_count h bs n l o) (calm_next h bs n l o) os' end.
Definition calm_call (h : hashes) (bs : list Z) (max : Z) (l : list ent) (o : op) : Prop :=
  match o with
  | OpSet key v => exists p, key_to_hash h key = Some p /\
      (present bs l p = true \/
       (exists x : string, key = KStr x) /\ calm bs l (pos_of p) /\ Z.of_nat (List.length (bucket_of bs l (pos_of p))) < max /\
       exists w, given bs l (pos_of p) v = Some w)
  | OpStore i => exists p, key_to_hash h (i_key i) = Some p /\ present bs l p = true
  | OpPurge _ => False
  | _ => True
  end.
Fixpoint calm_calls (h : hashes) (bs : list Z) (max n : Z) (l : list ent) (os : list op) {struct os} : Prop :=
  match os with
  | [] => True
  | o :: os' => calm_call h bs max l o /\ calm_calls h bs max (calm_count h bs n l o) (calm_next h bs n l o) os'
  end.
