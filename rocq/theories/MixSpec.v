(** Specification of the embedded mode for histories of Sets, reads, Deletes and Purges in any order, in which new keys go to
    buckets where nothing was deleted. As in PurgeSpec.v the stored entries are a list by ascending position; the buckets are what
    DumpBucket shows before each call. *)
From Verif Require Import Base Util Bucket MapModel Spec PurgeSpec.
Local Open Scope Z_scope.
Local Open Scope list_scope.

(** keys created so far; the entries; the positions of the keys that a Delete or Purge has found *)
Record mst := mkM { m_n : Z; m_l : list ent; m_touched : list Z }.
Definition m_empty : mst := mkM 0 [] [].
Definition pos_of (p : Z * Z) : Z := reverse64 (fst p).
Fixpoint put (e : ent) (l : list ent) : list ent :=
  match l with [] => [e] | x :: r => if e_pos e <? e_pos x then e :: l else x :: put e r end.

Definition mix_next (h : hashes) (bs : list Z) (m : mst) (o : op) : mst :=
  let kept := next_entries h bs (m_n m) (m_l m) o in
  let touch key := match key_to_hash h key with
                   | Some p => if present bs (m_l m) p then pos_of p :: m_touched m else m_touched m
                   | None => m_touched m end in
  match o with
  | OpSet key v =>
      match key_to_hash h key with
      | Some p => if present bs (m_l m) p then mkM (m_n m) kept (m_touched m)
                  else mkM (m_n m + 1) (put (mkE p (mkBd KSample key v) false) (m_l m)) (m_touched m)
      | None => m
      end
  | OpDelete key | OpPurge key => mkM (m_n m) kept (touch key)
  | _ => mkM (m_n m) kept (m_touched m)
  end.
Definition mix_out (h : hashes) (bs : list Z) (m : mst) (o : op) : out := snd (sm_step h (the_map bs (m_n m) (m_l m)) o).
(** [ds]: the dump before each call *)
Fixpoint mix_outs (h : hashes) (ds : list (list Z)) (m : mst) (os : list op) : list out :=
  match os, ds with
  | o :: os', bs :: ds' => mix_out h bs m o :: mix_outs h ds' (mix_next h bs m o) os'
  | _, _ => []
  end.
Fixpoint mix_run (h : hashes) (ds : list (list Z)) (m : mst) (os : list op) : mst :=
  match os, ds with
  | o :: os', bs :: ds' => mix_run h ds' (mix_next h bs m o) os'
  | _, _ => m
  end.

(** A new key has a string key and a position of its own, and its bucket holds no key that was deleted or purged. *)
Definition untouched (bs : list Z) (m : mst) (p : Z * Z) : Prop :=
  (forall z, In z (m_touched m) -> together bs z (pos_of p) = false) /\ (forall e, In e (m_l m) -> e_pos e <> pos_of p).
Definition mix_call (h : hashes) (bs : list Z) (m : mst) (o : op) : Prop :=
  match o with
  | OpSet key _ => exists p, key_to_hash h key = Some p /\ (present bs (m_l m) p = true \/ ((exists x, key = KStr x) /\ untouched bs m p))
  | OpStore i => exists p, key_to_hash h (i_key i) = Some p /\ present bs (m_l m) p = true
  | _ => True
  end.
Fixpoint mix_ok (h : hashes) (ds : list (list Z)) (m : mst) (os : list op) : Prop :=
  match os, ds with
  | o :: os', bs :: ds' => mix_call h bs m o /\ mix_ok h ds' (mix_next h bs m o) os'
  | _, _ => True
  end.
