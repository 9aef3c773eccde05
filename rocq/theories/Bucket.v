(** Model of the bucket table: bucket.go, and from map.go / map_embedded.go the
    functions that walk or extend the tree of [downLevels] slices.
    Definitions only. *)
From Verif Require Import Base Util.
Local Open Scope Z_scope.

(** * Item pools of the embedded mode (pool2.go:113-119)
    A slot of the backing array [items] (a SampleItem). [sl_linked] says whether its ListHead is
    in a list (the main item list or the pool's free list), i.e. is not Empty(). *)
Record slot := mkS {
  sl_rev : Z; sl_conf : Z; sl_del : bool;
  sl_key : gkey; sl_val : gval; sl_linked : bool }.
(** make([]SampleItem, ..) zeroes every slot. *)
Definition zero_slot : slot := mkS 0 0 false (KStr "") GNil false.

(** [p_slots] is the backing array from the slice's data pointer on: its length
    is cap(items). [p_len] is len(items); an [int] that the code can make
    negative (map_embedded.go:721). The free list is represented by the
    [sl_linked] fields only: no code modelled here depends on its order. *)
Record pool := mkP { p_slots : list slot; p_len : Z }.
Definition p_cap (p : pool) : Z := Z.of_nat (List.length (p_slots p)).

(** * Buckets (bucket.go:19-47)
    A bucket is named by [(t, v)]: level t in the tree of downLevels and the bits
    of its position there. Top buckets h.buckets[i] are (1, i*16^15); slot i of the
    downLevels of (t, v) is (t+1, v + i*16^(15-t)). The sentinel bucket created first by
    initBeforeSet (map.go:226-246) is [bmax].
    Fields: [b_level] = _level (0: slot not initialised), [b_len] = _len,
    [b_rev] = reverse, [b_down] = len(downLevels) (0 when its capacity is 0; otherwise
    cap is 16), [b_parent] = _parent, [b_pool] = the item pool ([None]: _itemPool nil).
    cntOfActiveLevels, state and onOkFn only matter between goroutines: sequentially
    cntOfActiveLevels = len(downLevels) whenever it is read (see ConcModel.v for them). *)
Record bucket := mkB {
  b_level : Z; b_len : Z; b_rev : Z; b_down : Z;
  b_parent : option nid; b_pool : option pool }.

Definition bmax : nid := (0, 0).
Definition top (i : Z) : nid := (1, i * 16 ^ 15).
Definition child (n : nid) (i : Z) : nid := (fst n + 1, snd n + i * 16 ^ (15 - fst n)).

(** Finite map from names to buckets. *)
Definition trie := list (nid * bucket).
Fixpoint tget (t : trie) (n : nid) : option bucket :=
  match t with
  | [] => None
  | (m, b) :: t' => if nid_eqb m n then Some b else tget t' n
  end.
Fixpoint tset (t : trie) (n : nid) (b : bucket) : trie :=
  match t with
  | [] => [(n, b)]
  | (m, b') :: t' => if nid_eqb m n then (n, b) :: t' else (m, b') :: tset t' n b
  end.

(** Field reads through a pointer to a bucket; an uninitialised slot is all zero. *)
Definition zero_bucket : bucket := mkB 0 0 0 0 None None.
Definition bget (t : trie) (n : nid) : bucket :=
  match tget t n with Some b => b | None => zero_bucket end.
Definition lvl (t : trie) (n : nid) : Z := b_level (bget t n).
Definition brev (t : trie) (n : nid) : Z := b_rev (bget t n).

(** Field writes. *)
Definition set_down (b : bucket) (d : Z) : bucket :=
  mkB (b_level b) (b_len b) (b_rev b) d (b_parent b) (b_pool b).
Definition set_blen (b : bucket) (x : Z) : bucket :=
  mkB (b_level b) x (b_rev b) (b_down b) (b_parent b) (b_pool b).
Definition set_brev (b : bucket) (x : Z) : bucket :=
  mkB (b_level b) (b_len b) x (b_down b) (b_parent b) (b_pool b).
Definition set_pool (b : bucket) (p : option pool) : bucket :=
  mkB (b_level b) (b_len b) (b_rev b) (b_down b) (b_parent b) p.
Definition tupd (t : trie) (n : nid) (f : bucket -> bucket) : trie := tset t n (f (bget t n)).

(** map_embedded.go:222-228 toBase: follow _parent. The parent's level is one
    lower, so 16 rounds always reach the end (fuel). *)
Fixpoint to_base (fuel : nat) (t : trie) (n : nid) : nid :=
  match fuel with
  | O => n
  | S f => match b_parent (bget t n) with None => n | Some p => to_base f t p end
  end.
Definition base (t : trie) (n : nid) : nid := to_base 16 t n.

(** The index of [reverse] among the 16 slots of level l:
    int((reverse >> (4 * (16 - l))) & 0xf)   (map.go:1718, 1787; map_embedded.go:147) *)
Definition nib (reverse l : Z) : Z := Z.land (Z.shiftr reverse (4 * (16 - l))) 15.

(** map.go:1395-1399 / 1698: &h.buckets[reverse >> (4*15)] *)
Definition top_of (reverse : Z) : nid := top (Z.shiftr reverse (4 * 15)).

(** The loops "for i := k-1; i > -1; i--" of _findBucket (map.go:1726-1741): the
    largest initialised slot below k. *)
Fixpoint lower_slot (t : trie) (n : nid) (k : nat) : option nid :=
  match k with
  | O => None
  | S k' => let c := child n (Z.of_nat k') in
            if lvl t c =? 0 then lower_slot t n k' else Some c
  end.

(** bucket.go:315-336 largestDown(false,false): the last child that is initialised
    and whose reverse is not 0, recursively. Fuel: levels only go up to 16. *)
Fixpoint largest_slot (t : trie) (n : nid) (k : nat) : option nid :=
  match k with
  | O => None
  | S k' => let c := child n (Z.of_nat k') in
            if (lvl t c =? 0) || (brev t c =? 0) then largest_slot t n k' else Some c
  end.
Fixpoint largest_down (fuel : nat) (t : trie) (n : nid) : nid :=
  match fuel with
  | O => n
  | S f => match largest_slot t n (Z.to_nat (b_down (bget t n))) with
           | None => n
           | Some c => largest_down f t c
           end
  end.

(** map.go:1673-1762 _findBucket(reverse,false,false), loop from level l on; it runs
    for l = 2..15, hence fuel 14. The deferred function (1679-1694) only replaces b by itself
    and the final nil check (1758) cannot fire for a top bucket, so both are dropped. *)
Fixpoint find_loop (fuel : nat) (t : trie) (l : Z) (reverse : Z) (n : nid) : nid :=
  match fuel with
  | O => n
  | S f =>
      let d := b_down (bget t n) in
      if d =? 0 then n else
      let idx := nib reverse l in
      if (d <=? idx) || (lvl t (child n idx) =? 0) then
        let nidx := if d - 1 <? idx then d - 1 else idx in
        match lower_slot t n (Z.to_nat (nidx + 1)) with
        | Some c => largest_down 16 t c
        | None => n
        end
      else find_loop f t (l + 1) reverse (child n idx)
  end.
Definition find_bucket (t : trie) (reverse : Z) : nid :=
  find_loop 14 t 2 reverse (top_of reverse).

(** map.go:1774-1777: level of a bucket position = number of hex digits of its
    bit reversal. *)
Fixpoint hex_digits (fuel : nat) (cur : Z) : Z :=
  match fuel with
  | O => 0
  | S f => if cur =? 0 then 0 else 1 + hex_digits f (Z.shiftr cur 4)
  end.
Definition level_of (reverse : Z) : Z := hex_digits 16 (reverse64 reverse).

(** * Level lists (the LevelHead lists; h.levels, map.go:56, 1243-1266)
    [lv] holds the 16 lists, without their two sentinels. *)
Definition levels := list (list nid).
Definition lv_get (lv : levels) (l : Z) : list nid := nth (Z.to_nat (l - 1)) lv [].
Fixpoint upd_nth {A} (k : nat) (x : A) (l : list A) : list A :=
  match l, k with
  | [], _ => []
  | _ :: l', O => x :: l'
  | y :: l', S k' => y :: upd_nth k' x l'
  end.
Definition lv_set (lv : levels) (l : Z) (x : list nid) : levels := upd_nth (Z.to_nat (l - 1)) x lv.

(** bucket.go:215-225 NextOnLevel on a level list: the following element, or the
    bucket itself at the end. *)
Fixpoint next_on (lst : list nid) (n : nid) : nid :=
  match lst with
  | [] => n
  | x :: lst' => if nid_eqb x n then match lst' with [] => n | y :: _ => y end else next_on lst' n
  end.

(** map.go:1802-1814 (map_embedded.go:170-182): where slot 0 is put in its level
    list: before the first element with a smaller reverse, or before the last one. *)
Fixpoint ins_level0 (t : trie) (rv : Z) (x : nid) (lst : list nid) : list nid :=
  match lst with
  | [] => [x]
  | y :: lst' =>
      match lst' with
      | [] => x :: lst
      | _ => if brev t y <? rv then x :: lst else y :: ins_level0 t rv x lst'
      end
  end.

(** map.go:1211-1241 findNextLevelBucket, loop: returns the bucket at which it stops. *)
Fixpoint find_next_loop (t : trie) (rv : Z) (cnt : Z) (lst : list nid) : option nid :=
  match lst with
  | [] => None
  | y :: lst' =>
      match lst' with
      | [] => None                                    (* cur == cur.NextOnLevel() *)
      | _ => if 1000 <? cnt + 1 then Some y
             else if brev t y <? rv then Some y
             else find_next_loop t rv (cnt + 1) lst'
      end
  end.
(** [linked] tells whether a bucket is in the bucket list, i.e. its ListHead is not
    Empty (map.go:1233). On an empty level list the code reads past a sentinel; that list is
    never empty there (slot 0 of the same table was put into it before). *)
Definition find_next_level (t : trie) (linked : nid -> bool) (rv : Z) (lst : list nid) : option nid :=
  match find_next_loop t rv 0 lst with
  | Some y => Some y
  | None =>
      match lst with
      | [] => None
      | y :: lst' => if negb (linked y) then Some y
                     else match lst' with [] => Some y | z :: _ => Some z end
      end
  end.
(** insert x before / after the element y *)
Fixpoint ins_before (y x : nid) (lst : list nid) : list nid :=
  match lst with
  | [] => []
  | z :: lst' => if nid_eqb z y then x :: z :: lst' else z :: ins_before y x lst'
  end.
Fixpoint ins_after (y x : nid) (lst : list nid) : list nid :=
  match lst with
  | [] => []
  | z :: lst' => if nid_eqb z y then z :: x :: lst' else z :: ins_after y x lst'
  end.
(** map.go:868-884 (map_embedded.go:100-116): put a new bucket into its level list. *)
Definition ins_level (t : trie) (linked : nid -> bool) (x : nid) (lst : list nid) : list nid :=
  match find_next_level t linked (brev t x) lst with
  | None => lst
  | Some y => if brev t y <? brev t x then ins_before y x lst
              else if brev t y =? brev t x then lst
              else ins_after y x lst
  end.

(** * Creating buckets *)

(** Slot [idx] of the downLevels of n when it is initialised
    (map.go:1837-1838, 1898-1899; map_embedded.go:204-205). *)
Definition new_child (t : trie) (n : nid) (l idx : Z) : bucket :=
  mkB (b_level (bget t n) + 1) 0
      (Z.lor (brev t n) (Z.shiftl idx (4 * (16 - l)))) 0 None None.
(** Slot 0 (map.go:1791-1801; map_embedded.go:159-168): same reverse, _parent set. *)
Definition new_child0 (t : trie) (n : nid) : bucket :=
  mkB (b_level (bget t n) + 1) 0 (brev t n) 0 (Some n) None.

(** map.go:1789-1828: allocate downLevels with slot 0 if there is none yet. *)
Definition ensure_down (t : trie) (lv : levels) (l : Z) (n : nid) : trie * levels :=
  if b_down (bget t n) =? 0 then
    let c0 := child n 0 in
    (tset (tset t c0 (new_child0 t n)) n (set_down (bget t n) 1),
     lv_set lv l (ins_level0 t (brev t n) c0 (lv_get lv l)))
  else (t, lv).

(** map.go:1781-1930 bucketFromPool, loop from level l on (l <= level; fuel 15).
    The onOk callback (run by makeBucket before it returns) sets len(downLevels), which is
    done here at once: nothing reads it in between. *)
Fixpoint bfp_loop (fuel : nat) (t : trie) (lv : levels) (l level reverse : Z) (n : nid)
  : trie * levels * nid :=
  match fuel with
  | O => (t, lv, n)
  | S f =>
      if level <? l then (t, lv, n) else
      let idx := nib reverse l in
      let '(t1, lv1) := ensure_down t lv l n in
      let c := child n idx in
      if b_down (bget t1 n) <=? idx then           (* RETRY_SETUP, map.go:1830-1878 *)
        (tupd (tset t1 c (new_child t1 n l idx)) n (fun b => set_down b (idx + 1)), lv1, c)
      else if negb (idx =? 0) && (lvl t1 c =? 0) then (* map.go:1894-1918 *)
        (tset t1 c (new_child t1 n l idx), lv1, c)
      else bfp_loop f t1 lv1 (l + 1) level reverse c
  end.
(** map.go:1766-1951. [None] = nil bucket (reverse = 0), dereferenced at 1931. *)
Definition bucket_from_pool (t : trie) (lv : levels) (reverse : Z) : option (trie * levels * nid) :=
  let level := level_of reverse in
  if level =? 0 then None
  else Some (bfp_loop 15 t lv 2 level reverse (top_of reverse)).

(** map_embedded.go:134-220 bucketFromPoolEmbedded, loop. *)
Fixpoint bfpe_loop (fuel : nat) (t : trie) (lv : levels) (l level reverse : Z) (n : nid)
  : trie * levels * nid :=
  match fuel with
  | O => (t, lv, n)
  | S f =>
      if level <? l then (t, lv, n) else
      let idx := nib reverse l in
      let '(t1, lv1) := ensure_down t lv l n in
      let t2 := if b_down (bget t1 n) <=? idx then tupd t1 n (fun b => set_down b (idx + 1)) else t1 in
      let c := child n idx in
      if lvl t2 c =? 0 then (tset t2 c (new_child t2 n l idx), lv1, c)
      else bfpe_loop f t2 lv1 (l + 1) level reverse c
  end.
Definition bucket_from_pool_embedded (t : trie) (lv : levels) (reverse : Z)
  : option (trie * levels * nid) :=
  let level := level_of reverse in
  if level =? 0 then None
  else Some (bfpe_loop 15 t lv 2 level reverse (top_of reverse)).

(** * The bucket list (ListHead of buckets; headBucket..tailBucket), in list order,
    without sentinels: from the largest reverse ([bmax]) down to 0. *)

(** bucket.go:192-213 prevAsB: the preceding bucket, or itself at the front (or when
    it is in no list). *)
Fixpoint prev_as_b (bl : list nid) (n : nid) : nid :=
  match bl with
  | [] => n
  | x :: bl' => match bl' with
                | [] => n
                | y :: _ => if nid_eqb y n then x else prev_as_b bl' n
                end
  end.
(** the part of the list from n on *)
Fixpoint from_b (bl : list nid) (n : nid) : list nid :=
  match bl with
  | [] => []
  | x :: bl' => if nid_eqb x n then bl else from_b bl' n
  end.
(** the part of the list before n, nearest first *)
Fixpoint before_b (acc : list nid) (bl : list nid) (n : nid) : list nid :=
  match bl with
  | [] => []
  | x :: bl' => if nid_eqb x n then acc else before_b (x :: acc) bl' n
  end.
Definition in_blist (bl : list nid) (n : nid) : bool := existsb (fun x => nid_eqb x n) bl.
