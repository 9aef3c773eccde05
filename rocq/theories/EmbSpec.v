(** Specification vocabulary for the embedded mode. The expected results are those of Spec.v's finite map;
    here is only which histories are meant and how a history that never comes back is compared. *)
From Verif Require Import Base Util Bucket MapModel Spec EmbModel.
Local Open Scope Z_scope.

(** What the caller sees of a call that comes back. *)
Definition seen (r : res out) : option out :=
  match r with Ret x => Some x | Pan => Some RPanic | Div | Undef => None end.

(** The results [rs] of a history are those expected, [es], one by one; the only other possibility is that
    some call never returns (and then the history ends there). *)
Fixpoint agree (rs : list (res out)) (es : list out) : Prop :=
  match rs, es with
  | [], [] => True
  | r :: rs', e :: es' => (r = Div /\ rs' = []) \/ (seen r = Some e /\ agree rs' es')
  | _, _ => False
  end.

(** Calls that store or read: Set with a string key, Get, GetByHash, LoadItem, LoadItemByHash, Len. *)
Definition store_or_read (o : op) : Prop :=
  match o with
  | OpSet key _ => exists x, key = KStr x
  | OpStore _ | OpDelete _ | OpPurge _ => False
  | _ => True
  end.
Definition read_only (o : op) : Prop :=
  match o with
  | OpGet _ | OpGetByHash _ _ | OpLoad _ | OpLoadByHash _ _ | OpLen => True
  | _ => False
  end.

(** No two keys written in the history share the 64-bit hash without sharing the conflict hash. *)
Definition no_collision (h : hashes) (os : list op) : Prop :=
  forall o o' k c c', In o os -> In o' os -> writes h o = Some (k, c) -> writes h o' = Some (k, c') -> c = c'.

(** * Deleting *)

(** The pair (k, c) is stored (in m) and no stored key has a smaller position in the same bucket: between its
    position and any smaller stored one there is a bucket boundary. bs is DumpBucket's reverse column; its
    entry 2^64-1 is the sentinel of the bucket list, not a boundary. *)
Definition separated (bs : list Z) (r1 r2 : Z) : Prop := exists b, In b bs /\ b <> 2 ^ 64 - 1 /\ r1 < b <= r2.
Definition first_of_bucket (bs : list Z) (m : smap) (k c : Z) : Prop :=
  sm_map m (k, c) <> None /\
  forall k' c', 0 <= k' < 2 ^ 64 -> sm_map m (k', c') <> None -> reverse64 k' < reverse64 k ->
    separated bs (reverse64 k') (reverse64 k).
Definition last_of_bucket (bs : list Z) (m : smap) (k c : Z) : Prop :=
  sm_map m (k, c) <> None /\
  forall k' c', 0 <= k' < 2 ^ 64 -> sm_map m (k', c') <> None -> reverse64 k < reverse64 k' ->
    separated bs (reverse64 k) (reverse64 k').

(** The map whose Delete and Purge cannot remove the pairs marked [sticky]: they answer as if they did. *)
Definition sticky_step (sticky : Z * Z -> bool) (h : hashes) (m : smap) (o : op) : smap * out :=
  match o with
  | OpDelete key | OpPurge key =>
      match key_to_hash h key with
      | Some p => if sticky p then (m, snd (sm_step h m o)) else sm_step h m o
      | None => sm_step h m o
      end
  | _ => sm_step h m o
  end.
Fixpoint sticky_outs sticky (h : hashes) (m : smap) (os : list op) : list out :=
  match os with
  | [] => []
  | o :: os' => snd (sticky_step sticky h m o) :: sticky_outs sticky h (fst (sticky_step sticky h m o)) os'
  end.
Fixpoint sticky_run sticky (h : hashes) (m : smap) (os : list op) : smap :=
  match os with [] => m | o :: os' => sticky_run sticky h (fst (sticky_step sticky h m o)) os' end.
(** Delete of the pair p was called. *)
Definition gone (h : hashes) (os : list op) (p : Z * Z) : Prop :=
  exists key, In (OpDelete key) os /\ key_to_hash h key = Some p.
(** Reads, Deletes, and Sets of keys that are present: no call creates an entry. *)
Fixpoint no_create sticky (h : hashes) (m : smap) (os : list op) : Prop :=
  match os with
  | [] => True
  | o :: os' =>
      match o with
      | OpPurge _ => False
      | OpSet key _ => exists p, key_to_hash h key = Some p /\ sm_map m p <> None
      | OpStore i => exists p, key_to_hash h (i_key i) = Some p /\ sm_map m p <> None
      | _ => True
      end /\ no_create sticky h (fst (sticky_step sticky h m o)) os'
  end.

(** * Size of a history *)
Definition positions (h : hashes) (os : list op) : list Z :=
  flat_map (fun o => match writes h o with Some (k, _) => [reverse64 k] | None => [] end) os.
(** number of different positions written in the i-th sixteenth of the position space *)
Definition crowd (h : hashes) (os : list op) (i : Z) : Z :=
  Z.of_nat (List.length (nodup Z.eq_dec (filter (fun r => r / 2 ^ 60 =? i) (positions h os)))).

(** * Keys with equal 64-bit hashes *)

(** The map in which storing a pair first removes every other pair with the same 64-bit hash. *)
Definition evict (m : smap) (p : Z * Z) : smap :=
  mkSM (fun q => if (fst q =? fst p) && negb (snd q =? snd p) then None else sm_map m q) (sm_view m) (sm_created m).
Definition newest_step (h : hashes) (m : smap) (o : op) : smap * out :=
  match writes h o with
  | Some p => sm_step h (evict m p) o
  | None => sm_step h m o
  end.
Fixpoint newest_outs (h : hashes) (m : smap) (os : list op) : list out :=
  match os with
  | [] => []
  | o :: os' => snd (newest_step h m o) :: newest_outs h (fst (newest_step h m o)) os'
  end.
Fixpoint newest_run (h : hashes) (m : smap) (os : list op) : smap :=
  match os with [] => m | o :: os' => newest_run h (fst (newest_step h m o)) os' end.
(** positions at which a history creates entries (a pair that was removed is created again) *)
Fixpoint creations (h : hashes) (m : smap) (os : list op) : list Z :=
  match os with
  | [] => []
  | o :: os' =>
      match writes h o with
      | Some p => match sm_map m p with None => [reverse64 (fst p)] | Some _ => [] end
      | None => []
      end ++ creations h (fst (newest_step h m o)) os'
  end.
(** at most max entries are created in each block of 16 positions *)
Definition roomy (h : hashes) (max : Z) (os : list op) : Prop :=
  forall a, Z.of_nat (List.length (filter (fun r => r / 16 =? a) (creations h (sm_empty KSample) os))) <= max.
(** number of different positions written in the a-th block of 16 positions *)
Definition crowd16 (h : hashes) (os : list op) (a : Z) : Z :=
  Z.of_nat (List.length (nodup Z.eq_dec (filter (fun r => r / 16 =? a) (positions h os)))).

(** * Which lookups do not come back *)

(** the positions of P in the q-th interval of 2^m positions *)
Definition in_block (m q : Z) (P : list Z) : list Z := filter (fun r => r / 2 ^ m =? q) P.
(** that interval holds more than max different positions of P, and all of them are in one half *)
Definition lopsided (max : Z) (P : list Z) (m q : Z) : Prop :=
  1 <= m <= 60 /\ max < Z.of_nat (List.length (nodup Z.eq_dec (in_block m q P))) /\
  (in_block (m - 1) (2 * q) P = [] \/ in_block (m - 1) (2 * q + 1) P = []).
(** at no moment of the history is there such an interval *)
Definition balanced (h : hashes) (max : Z) (os : list op) : Prop :=
  forall os1 os2 m q, os = os1 ++ os2 -> ~ lopsided max (positions h os1) m q.
