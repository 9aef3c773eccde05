(** C74: Pool.Put (pool2.go:88-102) and samepleItemPool.Put (pool2.go:365-383). *)
From Verif Require Import Base.
Local Open Scope Z_scope.
Local Open Scope list_scope.

(** * Model *)
(** A segment of the pool (pool2.go:113-119): the length of items, the address of the last one, and the addresses of the items
    on the free list. *)
Record segm := mkSeg { sg_len : nat; sg_tail : Z; sg_free : list Z }.
(** An item handed to Put: is it a SampleItem?; its address; its position (MapHead.reverse) *)
Record pitem := mkPI { pi_sample : bool; pi_addr : Z; pi_rev : Z }.
Inductive pres := Returned | IndexPanic | Running.

(** pool2.go:365-383. The list package is not in the repository: [next h i] is the segment that Next of segment i is read as,
    whatever it does at the end of the list. [n] bounds the number of calls of Put that are followed: [Running] if it has not ended by then *)
Fixpoint seg_put (next : (nat -> segm) -> nat -> nat) (n : nat) (h : nat -> segm) (i : nat) (x : pitem) : (nat -> segm) * pres :=
  match n with
  | O => (h, Running)
  | S n' =>
      if pi_sample x then                                               (* 367-370 *)
        if (sg_len (h i) =? 0)%nat then (h, IndexPanic)                 (* 373: items[len-1] *)
        else
          let h' := if pi_addr x <=? sg_tail (h i)                      (* 377-379 *)
                    then fun j => if (j =? i)%nat then mkSeg (sg_len (h i)) (sg_tail (h i)) (sg_free (h i) ++ [pi_addr x]) else h j
                    else h in
          seg_put next n' h' (next h' i) x                                   (* 381 *)
      else (h, Returned)
  end.
(** pool2.go:88-95; [first idx] is the first segment of part idx. 16 positions of 4 bits against 8 parts (pool2.go:25) *)
Definition pool_put (next : (nat -> segm) -> nat -> nat) (n : nat) (first : Z -> nat) (h : nat -> segm) (x : pitem) : (nat -> segm) * pres :=
  let idx := Z.shiftr (pi_rev x) (4 * 15) in                            (* 90 *)
  if idx <? 8 then seg_put next n h (first idx) x else (h, IndexPanic).      (* 93 *)

(** * The claims *)
Definition word (x : Z) : Prop := 0 <= x < 2 ^ 64.
Lemma shift_bound r : word r -> (Z.shiftr r 60 <? 8) = (r <? 2 ^ 63).
Proof.
  intros [A B]. rewrite Z.shiftr_div_pow2 by lia. pose proof (Z.mul_div_le r (2 ^ 60) ltac:(lia)) as L. pose proof (Z.mul_succ_div_gt r (2 ^ 60) ltac:(lia)) as G.
  destruct (Z.ltb_spec (r / 2 ^ 60) 8), (Z.ltb_spec r (2 ^ 63)); auto; lia.
Qed.
(** The natural claim: a Put of an item returns. *)
Definition put_returns : Prop := forall next first h x, word (pi_rev x) -> exists n, snd (pool_put next n first h x) = Returned.
(** Put of a SampleItem never returns: whatever the pool holds and whatever the list package answers, however long one waits
    it is still running or has panicked. *)
Theorem C74_put_never_returns : forall next first h x, pi_sample x = true -> forall n, snd (pool_put next n first h x) <> Returned.
Proof.
  intros next first h x T n. unfold pool_put. destruct (_ <? 8); [|discriminate]. generalize (first (Z.shiftr (pi_rev x) (4 * 15))). intros i. revert h i.
  induction n as [|n IH]; intros h i; cbn [seg_put]; [discriminate|]. rewrite T. destruct (sg_len (h i) =? 0)%nat; [discriminate|]. apply IH.
Qed.
Print Assumptions C74_put_never_returns.
Theorem C74_put_returns_refuted : ~ put_returns.
Proof.
  intros H. destruct (H (fun _ i => i) (fun _ => O) (fun _ => mkSeg 1 0 []) (mkPI true 0 0) ltac:(unfold word; cbn; lia)) as [n X].
  revert X. apply C74_put_never_returns. reflexivity.
Qed.
Print Assumptions C74_put_returns_refuted.
(** It panics at once if the item's position is in the upper half, that is for every odd hash. *)
Theorem C74_put_upper_half : forall next first h x, word (pi_rev x) -> 2 ^ 63 <= pi_rev x -> forall n, pool_put next n first h x = (h, IndexPanic).
Proof. intros next first h x W U n. unfold pool_put. change (4 * 15) with 60. rewrite (shift_bound _ W). destruct (Z.ltb_spec (pi_rev x) (2 ^ 63)); [lia|]. auto. Qed.
Print Assumptions C74_put_upper_half.
(** If every segment has an item it does not even panic: the recursion has no end. *)
Theorem C74_put_endless : forall next first h x, word (pi_rev x) -> pi_rev x < 2 ^ 63 -> pi_sample x = true -> (forall i, sg_len (h i) <> 0)%nat ->
  forall n, snd (pool_put next n first h x) = Running.
Proof.
  intros next first h x W U T N n. unfold pool_put. change (4 * 15) with 60. rewrite (shift_bound _ W). destruct (Z.ltb_spec (pi_rev x) (2 ^ 63)); [|lia]. generalize (first (Z.shiftr (pi_rev x) 60)). intros i. revert h i N.
  induction n as [|n IH]; intros h i N; cbn [seg_put]; auto. rewrite T. destruct (Nat.eqb_spec (sg_len (h i)) 0) as [Z|_]; [destruct (N i Z)|]. apply IH.
  intros j. destruct (pi_addr x <=? sg_tail (h i)); auto. destruct (Nat.eqb_spec j i); cbn [sg_len]; auto.
Qed.
Print Assumptions C74_put_endless.
(** What it does to the free lists meanwhile: however far it has come, a free list has only got the address of the item, some
    number of times, and none if the segment's last item lies below it; the first segment's list has got it as soon as its
    last item does not lie below it. Nothing else of a segment changes. *)
Theorem C74_put_free_lists : forall next first h x n j,
  let h' := fst (pool_put next n first h x) in
  sg_len (h' j) = sg_len (h j) /\ sg_tail (h' j) = sg_tail (h j) /\
  exists k, sg_free (h' j) = sg_free (h j) ++ repeat (pi_addr x) k /\ (sg_tail (h j) < pi_addr x -> k = 0%nat) /\
    (word (pi_rev x) -> pi_rev x < 2 ^ 63 -> pi_sample x = true -> (0 < n)%nat -> j = first (Z.shiftr (pi_rev x) 60) -> sg_len (h j) <> 0%nat -> pi_addr x <= sg_tail (h j) -> (0 < k)%nat).
Proof.
  intros next first h x n j. cbv zeta. unfold pool_put. change (4 * 15) with 60.
  assert (G : forall n h i j, sg_len (fst (seg_put next n h i x) j) = sg_len (h j) /\ sg_tail (fst (seg_put next n h i x) j) = sg_tail (h j) /\
    exists k, sg_free (fst (seg_put next n h i x) j) = sg_free (h j) ++ repeat (pi_addr x) k /\ (sg_tail (h j) < pi_addr x -> k = 0%nat) /\
      (pi_sample x = true -> (0 < n)%nat -> j = i -> sg_len (h j) <> 0%nat -> pi_addr x <= sg_tail (h j) -> (0 < k)%nat)).
  { clear.
    induction n as [|n IH]; intros h i j; cbn [seg_put].
    - cbn [fst]. split; auto. split; auto. exists 0%nat. cbn [repeat]. rewrite app_nil_r. auto 10.
    - destruct (pi_sample x); [|cbn [fst]; split; auto; split; auto; exists 0%nat; cbn [repeat]; rewrite app_nil_r; split; [auto|]; split; [auto|]; discriminate].
      destruct (Nat.eqb_spec (sg_len (h i)) 0) as [Z|NZ].
      { cbn [fst]. split; auto. split; auto. exists 0%nat. cbn [repeat]. rewrite app_nil_r. split; [auto|]. split; [auto|]. intros _ _ -> NZ; contradiction. }
      set (h1 := if pi_addr x <=? sg_tail (h i) then _ else h).
      destruct (IH h1 (next h1 i) j) as (I1 & I2 & k & I3 & I4 & _).
      assert (H1 : sg_len (h1 j) = sg_len (h j) /\ sg_tail (h1 j) = sg_tail (h j) /\
        sg_free (h1 j) = sg_free (h j) ++ repeat (pi_addr x) (if (j =? i)%nat && (pi_addr x <=? sg_tail (h i)) then 1 else 0)).
      { unfold h1. destruct (pi_addr x <=? sg_tail (h i)); [|rewrite andb_false_r; cbn [repeat]; rewrite app_nil_r; auto].
        destruct (Nat.eqb_spec j i) as [->|]; cbn [sg_len sg_tail sg_free andb repeat]; auto. rewrite app_nil_r. auto. }
      clearbody h1. destruct H1 as (A1 & A2 & A3). split; [rewrite I1; exact A1|]. split; [rewrite I2; exact A2|].
      exists ((if (j =? i)%nat && (pi_addr x <=? sg_tail (h i))%Z then 1 else 0) + k)%nat. rewrite I3, A3, <- app_assoc, <- repeat_app. split; auto. split.
      + intros LT. rewrite A2 in I4. rewrite (I4 LT). destruct (Nat.eqb_spec j i) as [->|]; cbn [andb]; auto. destruct (Z.leb_spec (pi_addr x) (sg_tail (h i))); auto. lia.
      + intros _ _ -> _ LE. rewrite Nat.eqb_refl. destruct (Z.leb_spec (pi_addr x) (sg_tail (h i))); cbn [andb]; lia. }
  destruct (Z.ltb_spec (Z.shiftr (pi_rev x) 60) 8) as [LT|GE].
  - destruct (G n h (first (Z.shiftr (pi_rev x) 60)) j) as (G1 & G2 & k & G3 & G4 & G5). split; auto. split; auto. exists k. auto 10.
  - cbn [fst]. split; auto. split; auto. exists 0%nat. cbn [repeat]. rewrite app_nil_r. split; [auto|]. split; [auto|]. intros W U.
    pose proof (shift_bound _ W) as SB. destruct (Z.ltb_spec (Z.shiftr (pi_rev x) 60) 8), (Z.ltb_spec (pi_rev x) (2 ^ 63)); try lia; discriminate SB.
Qed.
Print Assumptions C74_put_free_lists.
(** An item of another type with a position in the lower half is ignored. *)
Theorem C74_put_other_type : forall next first h x, word (pi_rev x) -> pi_rev x < 2 ^ 63 -> pi_sample x = false -> forall n, pool_put next (S n) first h x = (h, Returned).
Proof. intros next first h x W U T n. unfold pool_put. change (4 * 15) with 60. rewrite (shift_bound _ W). destruct (Z.ltb_spec (pi_rev x) (2 ^ 63)); [|lia]. cbn [seg_put]. rewrite T. auto. Qed.
Print Assumptions C74_put_other_type.

(** A part with one segment of three items, whose Next is itself: six calls later the item of position 2^61 is six times
    on its free list. A Next that leads to the empty segment of the list's head panics. Position 2^63 panics at once. *)
Example C74_case :
  (let r := pool_put (fun _ i => i) 6 (fun _ => 0%nat) (fun _ => mkSeg 3 500 []) (mkPI true 400 (2 ^ 61)) in (List.length (sg_free (fst r 0%nat)), snd r)) = (6%nat, Running) /\
  (let r := pool_put (fun _ i => S i) 6 (fun _ => 0%nat) (fun i => if (i =? 0)%nat then mkSeg 3 500 [] else mkSeg 0 0 []) (mkPI true 400 (2 ^ 61)) in (sg_free (fst r 0%nat), snd r)) = ([400], IndexPanic) /\
  snd (pool_put (fun _ i => i) 6 (fun _ => 0%nat) (fun _ => mkSeg 3 500 []) (mkPI true 400 (2 ^ 63))) = IndexPanic /\
  snd (pool_put (fun _ i => i) 6 (fun _ => 0%nat) (fun _ => mkSeg 3 500 []) (mkPI false 400 (2 ^ 61))) = Returned.
Proof. vm_compute. repeat split. Qed.
