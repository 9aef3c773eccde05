(** Vocabulary of the statements about concurrent calls on a default map. Definitions only. *)
From Verif Require Import Base Util Bucket MapModel ConcModel.
Local Open Scope Z_scope.
Local Open Scope list_scope.

(** states the new map can get to, under some schedule of any number of goroutines *)
Definition reachable (g : cfg) (s : cstate) : Prop := exists ls, crun g cinit ls = Some s.
(** nobody is inside a call *)
Definition quiescent (s : cstate) : Prop := forall t, pcs s t = Idle.
(** positions of the items, in list order *)
Definition pos_at (s : cstate) (i : nat) : Z := match node s i with Some n => n_rev n | None => 0 end.
Definition positions (s : cstate) : list Z := map (pos_at s) (order s).
(** an item of the list with the two hashes that is neither a sentinel nor deleted *)
Definition visible (s : cstate) (k c : Z) (i : nat) : Prop :=
  In i (order s) /\ exists n, node s i = Some n /\ n_rev n = reverse64 k /\ n_conf n = c /\ n_dum n = false /\ n_del n = false.
(** the call a goroutine is in *)
Definition pending (p : pc) : option call :=
  match p with
  | Idle => None
  | Load o | Upd o _ | Rd o _ | Mark o _ | Save o _ _ | Walk o _ _ _ | Restore o _ _ _ _ | Chk o _ _ | Ins o _ _ | Cnt o => Some o
  end.
(** the goroutine is adding an item to the list: from the end of its search to the end of its insertion *)
Definition inserting (p : pc) : bool :=
  match p with Save _ _ _ | Walk _ _ _ _ | Restore _ _ _ _ _ | Chk _ _ _ | Ins _ _ _ => true | _ => false end.
(** the goroutine is inside a find of add2 or _set: it has changed the search option and not yet restored it *)
Definition in_find (p : pc) : bool := match p with Walk _ _ _ _ | Restore _ _ _ _ _ => true | _ => false end.
(** keys are told apart by the two hashes *)
Definition key_call (o : call) : option (Z * Z) :=
  match o with CSet k c _ | CGet k c | CDel k c => Some (k, c) | CDummy _ => None end.
Definition same_pair (k c : Z) (o : call) : Prop := exists k' c', key_call o = Some (k', c') /\ reverse64 k' = reverse64 k /\ c' = c.
Definition is_delete (o : call) : bool := match o with CDel _ _ => true | _ => false end.
(** P in every state of the run from s, the first and the last included *)
Definition always (g : cfg) (s : cstate) (ls : list label) (P : cstate -> Prop) : Prop :=
  forall p q s', ls = p ++ q -> crun g s p = Some s' -> P s'.
(** items of the list that are not sentinels *)
Definition stored (s : cstate) : list nat :=
  filter (fun i => match node s i with Some n => negb (n_dum n) | None => false end) (order s).
Definition seen_items (s : cstate) : list nat :=
  filter (fun i => match node s i with Some n => negb (n_ign n) | None => false end) (order s).
(** order kept, nothing lost *)
Inductive subseq {A} : list A -> list A -> Prop :=
| sub_nil l : subseq [] l
| sub_keep x l l' : subseq l l' -> subseq (x :: l) (x :: l')
| sub_skip x l l' : subseq l l' -> subseq l (x :: l').
