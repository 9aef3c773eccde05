(** Concurrent Sets on an embedded map whose buckets are split meanwhile: Set (map.go:591-705) on many buckets, each as in
    ConcEmb.v, with makeBucket2 (map_embedded.go:61-132), small steps, any number of goroutines, any schedule. Definitions
    only.

    Simplifications, beside those of ConcEmb.v (there is no Delete here):
    - a bucket is the lower bound of its positions (bucket.reverse); the next bucket's bound is its upper bound. The lookup of
      a bucket (findBucket, map.go:1668-1764) and the search in it are one step;
    - a split is one step, from the choice of the new boundary to the linking of the new bucket. When all items are on one
      side nothing happens (the code leaves a bucket without items behind, C21). One Set splits once: the recursion
      (map_embedded.go:125-129) is only reached with more than one item over the limit, which takes such a bucket;
    - a Set of a present key that finds the lock taken looks again (map.go:598-610): here it is idle again, and may start again. *)
From Verif Require Import Base Bucket EmbModel ConcEmb.
Local Open Scope list_scope.
Local Open Scope Z_scope.

(** [m_at t]: the bucket the running Set of goroutine t was given. [m_todo t]: it has filled its slot and has not yet looked
    whether the bucket is too large. [m_done]: the positions of the slots filled. *)
Record mstate := mkM { m_bs : list (Z * lstate); m_at : nat -> option Z; m_todo : nat -> bool; m_done : list Z }.
Inductive mcall := MSet (rv : Z) | MGo.

(** map.go:1668-1764 findBucket: the bucket with the largest bound not above the position *)
Fixpoint locate (bs : list (Z * lstate)) (rv : Z) : option Z :=
  match bs with
  | [] => None
  | (lo, _) :: bs' => if lo <=? rv then match locate bs' rv with Some x => Some x | None => Some lo end else None
  end.
Fixpoint bucket_at (bs : list (Z * lstate)) (lo : Z) : option lstate :=
  match bs with [] => None | (l, x) :: bs' => if l =? lo then Some x else bucket_at bs' lo end.
Fixpoint put_bucket (bs : list (Z * lstate)) (lo : Z) (x : lstate) : list (Z * lstate) :=
  match bs with [] => [] | (l, y) :: bs' => if l =? lo then (l, x) :: bs' else (l, y) :: put_bucket bs' lo x end.
(** map_embedded.go:64-66: the bound of the next bucket; behind the last one is the sentinel at 2^64-1 *)
Definition bound_after (bs : list (Z * lstate)) : Z := match bs with (l, _) :: _ => l | [] => 2 ^ 64 - 1 end.
(** map_embedded.go:68-71 *)
Definition half_way (lo hi : Z) : Z := let r := hi / 2 + lo / 2 in if Z.odd r then r + 1 else r.
(** map_embedded.go:61-132 makeBucket2: the items from the new boundary on move to a new bucket with a lock of its own; the
    lock of the old one and the goroutines that wait for it stay where they are *)
Fixpoint split_bucket (bs : list (Z * lstate)) (lo : Z) : list (Z * lstate) :=
  match bs with
  | [] => []
  | (l, x) :: bs' =>
      if l =? lo then
        let hi := bound_after bs' in
        let mid := half_way lo hi in
        if (lo <? mid) && (mid <? hi) then
          match find_idx (l_pool x) mid with
          | None | Some O => bs
          | Some i => (l, mkL (split_lo (l_pool x) i) (l_owner x) (l_pcs x) (l_bad x) [])
                      :: (mid, mkL (split_hi (l_pool x) i) None (fun _ => LIdle) false []) :: bs'
          end
        else bs
      else (l, x) :: split_bucket bs' lo
  end.
(** bsearchBybucket, map_embedded.go:21-52: is there an item at this position? *)
Definition hits (x : lstate) (rv : Z) : bool :=
  match emb_search (l_pool x) rv with Some i => sl_rev (slot_at (l_pool x) i) =? rv | None => false end.

Definition at_ (f : nat -> option Z) (t : nat) (o : option Z) : nat -> option Z := fun u => if Nat.eqb u t then o else f u.
Definition todo_ (f : nat -> bool) (t : nat) (b : bool) : nat -> bool := fun u => if Nat.eqb u t then b else f u.

(** one step of goroutine t; [max] is maxPerBucket *)
Definition mstep (max : Z) (s : mstate) (l : nat * mcall) : option mstate :=
  let '(t, c) := l in
  match m_at s t with
  | None =>
      match c with
      | MSet rv =>                                                  (* map.go:598-610 *)
          match locate (m_bs s) rv with
          | None => None
          | Some lo =>
              match bucket_at (m_bs s) lo with
              | None => None
              | Some x =>
                  match lstep x (t, if hits x rv then CUpd else CNew rv) with
                  | None => None
                  | Some x' => Some (mkM (put_bucket (m_bs s) lo x') (at_ (m_at s) t (Some lo)) (m_todo s) (m_done s))
                  end
              end
          end
      | MGo => None
      end
  | Some lo =>
      match bucket_at (m_bs s) lo with
      | None => None
      | Some x =>
          if m_todo s t then                                        (* add2, map.go:986-1003 *)
            Some (mkM (if p_len (l_pool x) <=? max then m_bs s else split_bucket (m_bs s) lo) (m_at s) (todo_ (m_todo s) t false) (m_done s))
          else
            match l_pcs x t, l_owner x with
            | LUpd, Some _ => Some (mkM (put_bucket (m_bs s) lo (lgo x t LIdle)) (at_ (m_at s) t None) (m_todo s) (m_done s))
            | p, _ =>
                match lstep x (t, CGo) with
                | None => None
                | Some x' =>
                    Some (mkM (put_bucket (m_bs s) lo x')
                              (match p with LRet _ => at_ (m_at s) t None | _ => m_at s end)
                              (match p with LFill _ _ _ => todo_ (m_todo s) t true | _ => m_todo s end)
                              (match p with LFill _ rv _ => m_done s ++ [rv] | _ => m_done s end))
                end
            end
      end
  end.
Fixpoint mrun (max : Z) (s : mstate) (ls : list (nat * mcall)) : option mstate :=
  match ls with
  | [] => Some s
  | l :: ls' => match mstep max s l with Some s' => mrun max s' ls' | None => None end
  end.
(** a map with empty buckets at the given bounds, each with room for [room] items *)
Definition minit (los : list Z) (room : nat) : mstate := mkM (map (fun lo => (lo, linit [] room)) los) (fun _ => None) (fun _ => false) [].
(** does a Get of the item at this position find it now? *)
Definition mfinds (s : mstate) (rv : Z) : Prop := exists lo x, locate (m_bs s) rv = Some lo /\ bucket_at (m_bs s) lo = Some x /\ finds x rv.
