(** Gets in the embedded map while a Set splits their bucket (map_embedded.go:61-132 makeBucket2, 647-680 _split,
    21-52 bsearchBybucket): small steps, any number of Gets, any schedule. Definitions only.

    Simplifications:
    - one split of one bucket; the Set that splits has stored its key before (it holds the lock of the bucket, so that no
      other Set changes the items; ConcSet.v has the Sets). No item is deleted. The further splits that
      makeBucket2 may add are not followed, nor are the lists of buckets and levels, which a Get does not read;
    - the descent findBucket (map.go:1673-1760) is one step: it ends at the new bucket or one that stands for the old one
      (map_embedded.go:222-228 toBase), according to whether the level of the new bucket is set at that moment
      (map_embedded.go:196-205);
    - _split sets len and then cap of the old header (665-666): one step, because searches read only len (783).
    The items stay where they are in memory: the new bucket gets a header that points into the same array
    (map_embedded.go:826-840). *)
From Verif Require Import Base.
From Coq Require Import PeanoNat.
Local Open Scope nat_scope.
Local Open Scope list_scope.

(** [sc_items]: the positions in the array of the bucket; [sc_new]: newReverse (68-71), where the new bucket begins *)
Record scfg := mkSC { sc_items : list Z; sc_new : Z }.
(** map_embedded.go:629-641 findIdx *)
Fixpoint first_at (r : Z) (l : list Z) : option nat :=
  match l with
  | [] => None
  | x :: l' => if (r <=? x)%Z then Some 0%nat else option_map S (first_at r l')
  end.

(** the new bucket: not there; there, without a pool (before setItemPool, 94); with its pool *)
Inductive snew := NNone | NBare | NPool.
(** the Set that splits *)
Inductive sphase :=
| PhBegin               (* before bucketFromPoolEmbedded, 72 *)
| PhFind                (* before findIdx, 86 *)
| PhCut (i : nat)       (* before _split, 92 *)
| PhPool                (* before setItemPool, 94 *)
| PhDone.
(** a Get of the key at position rv. [nw]: it looks into the new bucket *)
Inductive spc :=
| SIdle
| SBucket (rv : Z)                               (* before findBucket, map_embedded.go:54-58 *)
| SPool (rv : Z) (nw : bool)                     (* before itemPool(), 23-27 *)
| SLen (rv : Z) (nw : bool)                      (* before items.Len(), 31 *)
| SSearch (rv : Z) (nw : bool) (l i j : nat)     (* sort.Search between i and j, 33-40 *)
| SVal (rv : Z) (nw : bool) (l i : nat)          (* before reverseAt, 41 *)
| SAt (rv : Z) (nw : bool) (i : nat).            (* before items._at, 42 *)
Inductive sans := Found | Missing | Crash.
Inductive sevent := SInv (t : nat) (rv : Z) | SRsp (t : nat) (rv : Z) (a : sans).
Record sstate := mkSt { s_len : nat; s_new : snew; s_cut : nat; s_ph : sphase; s_pcs : nat -> spc; s_hist : list sevent }.

Definition s_goto (s : sstate) (t : nat) (p : spc) : sstate :=
  mkSt (s_len s) (s_new s) (s_cut s) (s_ph s) (fun u => if Nat.eqb u t then p else s_pcs s u) (s_hist s).
Definition s_log (s : sstate) (e : sevent) : sstate := mkSt (s_len s) (s_new s) (s_cut s) (s_ph s) (s_pcs s) (s_hist s ++ [e]).
Definition s_ret (s : sstate) (t : nat) (rv : Z) (a : sans) : sstate := s_goto (s_log s (SRsp t rv a)) t SIdle.
(** the header a Get reads: its length, and where in the array it begins *)
Definition h_len (g : scfg) (s : sstate) (nw : bool) : nat := if nw then List.length (sc_items g) - s_cut s else s_len s.
Definition h_off (s : sstate) (nw : bool) : nat := if nw then s_cut s else 0.
(** the memory; reverseAt (890-896) does not look at len *)
Definition h_at (g : scfg) (s : sstate) (nw : bool) (i : nat) : option Z := nth_error (sc_items g) (h_off s nw + i).

(** a step of the Set that splits *)
Definition split_step (g : scfg) (s : sstate) : option sstate :=
  match s_ph s with
  | PhBegin => Some (mkSt (s_len s) NBare (s_cut s) PhFind (s_pcs s) (s_hist s))
  | PhFind => match first_at (sc_new g) (sc_items g) with
              | None | Some O => Some (mkSt (s_len s) (s_new s) (s_cut s) PhDone (s_pcs s) (s_hist s))      (* 87-89 *)
              | Some i => Some (mkSt (s_len s) (s_new s) (s_cut s) (PhCut i) (s_pcs s) (s_hist s))
              end
  | PhCut i => Some (mkSt i (s_new s) i PhPool (s_pcs s) (s_hist s))
  | PhPool => Some (mkSt (s_len s) NPool (s_cut s) PhDone (s_pcs s) (s_hist s))
  | PhDone => None
  end.
(** a step of Get number t *)
Definition get_step (g : scfg) (s : sstate) (t : nat) : option sstate :=
  match s_pcs s t with
  | SIdle => None
  | SBucket rv => Some (s_goto s t (SPool rv (match s_new s with NNone => false | _ => (sc_new g <=? rv)%Z end)))
  | SPool rv nw => match nw, s_new s with
                   | true, NPool => Some (s_goto s t (SLen rv nw))
                   | true, _ => Some s                                  (* bucket.go:122-137: itemPool() calls itself again *)
                   | false, _ => Some (s_goto s t (SLen rv nw))
                   end
  | SLen rv nw => Some (s_goto s t (SSearch rv nw (h_len g s nw) 0 (h_len g s nw)))
  | SSearch rv nw l i j =>
      if Nat.ltb i j then
        let m := Nat.div2 (i + j) in
        let up := if Nat.leb (h_len g s nw) m then true                 (* _at returns nil, 783, 35-37 *)
                  else match h_at g s nw m with Some x => (rv <=? x)%Z | None => true end in
        Some (s_goto s t (if up then SSearch rv nw l i m else SSearch rv nw l (S m) j))
      else Some (s_goto s t (SVal rv nw l i))
  | SVal rv nw l i =>
      if Nat.ltb i l && match h_at g s nw i with Some x => (x =? rv)%Z | None => false end
      then Some (s_goto s t (SAt rv nw i)) else Some (s_ret s t rv Missing)
  | SAt rv nw i =>
      (* _at returns a nil *SampleItem if len is too small; as a HMapEntry it is not nil (map.go:454), and
         map.go:460 dereferences it *)
      if Nat.leb (h_len g s nw) i then Some (s_ret s t rv Crash) else Some (s_ret s t rv Found)
  end.
(** the schedule: the split goes on; goroutine t calls Get; goroutine t goes on *)
Inductive slabel := LSplit | LGet (t : nat) (rv : Z) | LGo (t : nat).
Definition sstep (g : scfg) (s : sstate) (l : slabel) : option sstate :=
  match l with
  | LSplit => split_step g s
  | LGet t rv => match s_pcs s t with SIdle => Some (s_goto (s_log s (SInv t rv)) t (SBucket rv)) | _ => None end
  | LGo t => get_step g s t
  end.
Fixpoint srun (g : scfg) (s : sstate) (ls : list slabel) : option sstate :=
  match ls with
  | [] => Some s
  | l :: ls' => match sstep g s l with Some s' => srun g s' ls' | None => None end
  end.
Definition sinit (g : scfg) : sstate := mkSt (List.length (sc_items g)) NNone 0 PhBegin (fun _ => SIdle) [].
