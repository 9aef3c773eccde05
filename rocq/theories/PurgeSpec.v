(** Specification of Delete and Purge in the embedded mode, for histories in which they follow the Sets: the buckets as
    lists. Nothing here refers to the model but [op], [out] and the finite map of Spec.v. *)
From Verif Require Import Base Util Bucket MapModel Spec.
Local Open Scope Z_scope.
Local Open Scope list_scope.

(** a stored entry: hash pair, key and value, deleted mark *)
Record ent := mkE { e_hash : Z * Z; e_bd : binding; e_dead : bool }.
Definition e_pos (e : ent) : Z := reverse64 (fst (e_hash e)).
(** two positions are in one bucket: no boundary between them. [bs] is DumpBucket's reverse column; its 2^64-1 is the sentinel
    of the bucket list, not a boundary. *)
Definition together (bs : list Z) (r1 r2 : Z) : bool :=
  negb (existsb (fun b => negb (b =? 2 ^ 64 - 1) && (Z.min r1 r2 <? b) && (b <=? Z.max r1 r2)) bs).
(** the entries of the bucket of position r, in the order of [l], which lists all entries by ascending position *)
Definition bucket_of (bs : list Z) (l : list ent) (r : Z) : list ent := filter (fun e => together bs r (e_pos e)) l.
Definition same_entry (e e' : ent) : bool := pair_eqb (e_hash e) (e_hash e').
Definition is_first (bs : list Z) (l : list ent) (e : ent) : bool := match bucket_of bs l (e_pos e) with x :: _ => same_entry x e | [] => false end.
Definition is_last (bs : list Z) (l : list ent) (e : ent) : bool := match rev (bucket_of bs l (e_pos e)) with x :: _ => same_entry x e | [] => false end.

(** what can be read: the entries that are not marked, and the marked ones that are first in their bucket *)
Definition entry (l : list ent) (p : Z * Z) : option ent := find (fun e => pair_eqb (e_hash e) p) l.
Definition visible (bs : list Z) (l : list ent) (p : Z * Z) : option binding :=
  match entry l p with Some e => if negb (e_dead e) || is_first bs l e then Some (e_bd e) else None | None => None end.
Definition the_map (bs : list Z) (n : Z) (l : list ent) : smap := mkSM (visible bs l) KSample n.

Definition change (f : ent -> ent) (p : Z * Z) (l : list ent) : list ent := map (fun e => if pair_eqb (e_hash e) p then f e else e) l.
Definition kill (e : ent) : ent := mkE (e_hash e) (e_bd e) true.
Definition set_bd (b : binding) (e : ent) : ent := mkE (e_hash e) b (e_dead e).
Definition without (g l : list ent) : list ent := filter (fun e => negb (existsb (same_entry e) g)) l.
(** Purge of an entry that is not the last of its bucket marks it. The last one is removed; if then the last one is marked,
    it is removed too, and with it the one before, marked or not. *)
Definition taken_off (bs : list Z) (l : list ent) (e : ent) : list ent :=
  match rev (bucket_of bs l (e_pos e)) with
  | x :: d :: rest => if e_dead d then x :: d :: firstn 1 rest else [x]
  | g => g
  end.
Definition purged (bs : list Z) (l : list ent) (e : ent) : list ent :=
  if is_last bs l e then without (taken_off bs l e) l else change kill (e_hash e) l.

(** one call: it answers as the finite map of what can be read *)
Definition present (bs : list Z) (l : list ent) (p : Z * Z) : bool := match visible bs l p with Some _ => true | None => false end.
Definition next_entries (h : hashes) (bs : list Z) (n : Z) (l : list ent) (o : op) : list ent :=
  let updated key := match key_to_hash h key with
                     | Some p => match sm_map (fst (sm_step h (the_map bs n l) o)) p with Some b => change (set_bd b) p l | None => l end
                     | None => l end in
  match o with
  | OpSet key _ => updated key
  | OpStore i => updated (i_key i)
  | OpDelete key => match key_to_hash h key with Some p => if present bs l p then change kill p l else l | None => l end
  | OpPurge key => match key_to_hash h key with
                   | Some p => match entry l p with Some e => if present bs l p then purged bs l e else l | None => l end
                   | None => l end
  | _ => l
  end.
Fixpoint purge_outs (h : hashes) (bs : list Z) (n : Z) (l : list ent) (os : list op) : list out :=
  match os with
  | [] => []
  | o :: os' => snd (sm_step h (the_map bs n l) o) :: purge_outs h bs n (next_entries h bs n l o) os'
  end.
Fixpoint purge_run (h : hashes) (bs : list Z) (n : Z) (l : list ent) (os : list op) : list ent :=
  match os with [] => l | o :: os' => purge_run h bs n (next_entries h bs n l o) os' end.
(** no call creates an entry: Set and StoreItem only of keys that can be read *)
Fixpoint creates_none (h : hashes) (bs : list Z) (n : Z) (l : list ent) (os : list op) : Prop :=
  match os with
  | [] => True
  | o :: os' =>
      match o with
      | OpSet key _ => exists p, key_to_hash h key = Some p /\ present bs l p = true
      | OpStore i => exists p, key_to_hash h (i_key i) = Some p /\ present bs l p = true
      | _ => True
      end /\ creates_none h bs n (next_entries h bs n l o) os'
  end.
(** [l] lists what the finite map holds, by ascending position, nothing marked *)
Record lists (m : smap) (l : list ent) : Prop := {
  ls_sorted : forall i j x y, nth_error l i = Some x -> nth_error l j = Some y -> (i < j)%nat -> e_pos x < e_pos y;
  ls_in : forall k c b, 0 <= k < 2 ^ 64 -> (sm_map m (k, c) = Some b <-> In (mkE (k, c) b false) l);
  ls_ok : forall e, In e l -> e_dead e = false /\ 0 <= fst (e_hash e) < 2 ^ 64 }.
