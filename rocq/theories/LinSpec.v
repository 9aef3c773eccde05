(** Linearizability of a history of calls, and the ideal map the calls are compared with. Definitions only.
    Shares with the model (ConcModel.v) the vocabulary of calls, results and events; the condition [orderly] at the end
    also looks at what the goroutines are doing. *)
From Verif Require Import Base Util MapModel Spec ConcModel ConcSpec.
Local Open Scope nat_scope.
Local Open Scope list_scope.

(** The ideal map: two hashes to a value, as in Spec.v. *)
Definition lmap := Z -> Z -> option gval.
Definition lempty : lmap := fun _ _ => None.
Definition lput (m : lmap) (k c : Z) (b : option gval) : lmap :=
  fun k' c' => if ((k' =? k) && (c' =? c))%Z then b else m k' c'.
Definition lin_step (m : lmap) (o : call) : lmap * cres :=
  match o with
  | CSet k c v =>
      match m k c with
      | None => (lput m k c (Some v), CBool true)
      | Some old => match assign KSample old v with
                    | Some (v', ok) => (lput m k c (Some v'), CBool ok)
                    | None => (m, CPanic)
                    end
      end
  | CGet k c => (m, match m k c with Some v => CVal v true | None => CVal GNil false end)
  | CDel k c => match m k c with Some _ => (lput m k c None, CBool true) | None => (m, CBool false) end
  | CDummy _ => (m, CDone)      (* a bucket is split: nothing a user sees *)
  end.
Fixpoint lrun (m : lmap) (os : list call) : lmap :=
  match os with [] => m | o :: os' => lrun (fst (lin_step m o)) os' end.
Fixpoint louts (m : lmap) (os : list call) : list cres :=
  match os with [] => [] | o :: os' => snd (lin_step m o) :: louts (fst (lin_step m o)) os' end.

(** A call is named by the place of its invocation in the history. It is answered with r at place j if its
    goroutine's next event is the response r at place j. *)
Definition who (e : event) : nat := match e with Inv t _ | Rsp t _ _ => t end.
Definition answered (H : list event) (i j : nat) (r : cres) : Prop :=
  exists t o, nth_error H i = Some (Inv t o) /\ nth_error H j = Some (Rsp t o r) /\ i < j /\
    forall m e, i < m < j -> nth_error H m = Some e -> who e <> t.

Record lincall := mkLin { l_id : nat; l_call : call; l_res : cres }.
(** L puts the calls of H one after another: *)
Record linearization (H : list event) (L : list lincall) : Prop := {
  ln_once : NoDup (map l_id L);
  ln_calls : forall x, In x L -> exists t, nth_error H (l_id x) = Some (Inv t (l_call x));
  (* every answered call is there, with its answer (calls not answered yet may be there or not) *)
  ln_all : forall i j r, answered H i j r -> exists x, In x L /\ l_id x = i;
  ln_res : forall x j r, In x L -> answered H (l_id x) j r -> l_res x = r;
  (* x before y: y was not answered before x was invoked *)
  ln_order : ForallOrdPairs (fun x y => forall j r, answered H (l_id y) j r -> l_id x < j) L;
  (* the ideal map gives these answers *)
  ln_legal : louts lempty (map l_call L) = map l_res L }.
Definition linearizable (H : list event) : Prop := exists L, linearization H L.

(** keys below the largest hash *)
Definition okey (k : Z) : Prop := (0 <= k < 2 ^ 64 - 1)%Z.
Definition okcall (o : call) : Prop := match key_call o with Some (k, _) => okey k | None => True end.
(** At most one goroutine is adding an item, and no key is being deleted by two goroutines. *)
Definition orderly (s : cstate) : Prop := forall t u, t <> u ->
  (inserting (pcs s t) = true -> inserting (pcs s u) = false) /\
  (forall k c, pending (pcs s t) = Some (CDel k c) -> pending (pcs s u) <> Some (CDel k c)).
