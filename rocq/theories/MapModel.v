(** Model of the default (not embedded) map: map.go, item.go, maphead.go,
    sample_hmap_entry.go, util.go:108-125. One goroutine. Definitions only.

    Simplifications, beside those of Bucket.v:
    - the two list packages are not in the repository: a list is the Coq list of its elements
      between the head and tail sentinels; a position in it is a zipper
      (elements before the cursor, nearest first; elements from the cursor on);
    - an item given to StoreItem is not already linked in a map;
    - counters are unbounded integers (len int64, _len int32);
    - _itemPool of every bucket but [bmax] is nil in this mode, so head(), len() and
      searchBucket4update take their _itemPool == nil branches (bucket.go:114-121, 373-405;
      map.go:1401-1411);
    - statistics, logging and validation code has no effect. *)
From Verif Require Import Base Util Bucket.
Local Open Scope Z_scope.

(** Which of the two item types of the package: SampleItem
    (sample_hmap_entry.go:17-21) or entryHMap (item.go:14-19). *)
Inductive ikind := KSample | KEntry.

(** An element of the item list. [e_dummy = Some n]: the dummy of bucket n
    (state has mapIsDummy). [e_del]: state has mapIsDeleted (maphead.go:14-17). *)
Record entry := mkE {
  e_dummy : option nid; e_rev : Z; e_conf : Z; e_del : bool;
  e_kind : ikind; e_key : gkey; e_val : gval }.

(** maphead.go:32-34 IsIgnored: state > 0 *)
Definition ignored (e : entry) : bool :=
  match e_dummy e with Some _ => true | None => e_del e end.

(** The dummy entry of bucket n (map.go:232-235, 273-276, 1159-1162). *)
Definition dummy_of (n : nid) (rv : Z) : entry := mkE (Some n) rv 0 false KEntry KNil GNil.

(** The map (map.go:43-63). [m_view] is the type of the value ItemFn() returns. *)
Record mstate := mkM {
  m_items : list entry; m_trie : trie; m_bl : list nid; m_lv : levels;
  m_len : Z; m_view : ikind; m_max : Z; m_mode : Z; m_pool : bool }.

Definition set_items (s : mstate) (x : list entry) : mstate :=
  mkM x (m_trie s) (m_bl s) (m_lv s) (m_len s) (m_view s) (m_max s) (m_mode s) (m_pool s).
Definition set_trie (s : mstate) (x : trie) : mstate :=
  mkM (m_items s) x (m_bl s) (m_lv s) (m_len s) (m_view s) (m_max s) (m_mode s) (m_pool s).
Definition set_bl (s : mstate) (x : list nid) : mstate :=
  mkM (m_items s) (m_trie s) x (m_lv s) (m_len s) (m_view s) (m_max s) (m_mode s) (m_pool s).
Definition set_lv (s : mstate) (x : levels) : mstate :=
  mkM (m_items s) (m_trie s) (m_bl s) x (m_len s) (m_view s) (m_max s) (m_mode s) (m_pool s).
Definition set_len (s : mstate) (x : Z) : mstate :=
  mkM (m_items s) (m_trie s) (m_bl s) (m_lv s) x (m_view s) (m_max s) (m_mode s) (m_pool s).
Definition set_view (s : mstate) (x : ikind) : mstate :=
  mkM (m_items s) (m_trie s) (m_bl s) (m_lv s) (m_len s) x (m_max s) (m_mode s) (m_pool s).
Definition set_mpool (s : mstate) (x : bool) : mstate :=
  mkM (m_items s) (m_trie s) (m_bl s) (m_lv s) (m_len s) (m_view s) (m_max s) (m_mode s) x.

Definition LenearSearch : Z := 0.
Definition NestedSearch : Z := 1.
Definition CombineSearch : Z := 2.
Definition CombineSearch2 : Z := 3.
Definition CombineSearch3 : Z := 4.
Definition CombineSearch4 : Z := 5.

(** * Construction (map.go:160-193 NewHMap, 222-304 initBeforeSet) *)
Definition idx16 : list Z := [0;1;2;3;4;5;6;7;8;9;10;11;12;13;14;15].
Definition init_trie : trie :=
  (bmax, mkB 16 0 MAX64 0 None None)
  :: map (fun i => (top i, mkB 1 0 (i * 16 ^ 15) 0 None None)) idx16.
Definition init_items : list entry :=
  map (fun i => dummy_of (top i) (i * 16 ^ 15)) idx16 ++ [dummy_of bmax MAX64].
Definition init_bl : list nid := bmax :: rev (map top idx16).
Definition init_lv : levels :=
  lv_set (lv_set (repeat [] 16) 1 (rev (map top idx16))) 16 [bmax].
Definition new_map (view : ikind) (max mode : Z) (pool : bool) : mstate :=
  mkM init_items init_trie init_bl init_lv 0 view max mode pool.

(** * Positions in the item list *)
Definition zip := (list entry * list entry)%type.
Definition unzip (z : zip) : list entry := rev_append (fst z) (snd z).

(** The cursor on the dummy of bucket n: b.head() (bucket.go:373-417). *)
Fixpoint seek (n : nid) (l r : list entry) : option zip :=
  match r with
  | [] => None
  | e :: r' =>
      match e_dummy e with
      | Some m => if nid_eqb m n then Some (l, r) else seek n (e :: l) r'
      | None => seek n (e :: l) r'
      end
  end.
(** head() of a slot-0 child is its parent's (bucket.go:399-401). *)
Definition head_z (s : mstate) (n : nid) : option zip :=
  seek (base (m_trie s) n) [] (m_items s).

(** Loop of the forward search (map.go:1494-1521). *)
Fixpoint scan_fwd (rv : Z) (l r : list entry) : option zip :=
  match r with
  | [] => None
  | e :: r' =>
      if ignored e || (e_rev e <? rv) then scan_fwd rv (e :: l) r'
      else if e_rev e =? rv then Some (l, r) else None
  end.
(** Loop of the backward search (map.go:1525-1544); the head of l is the cursor. *)
Fixpoint scan_bwd (rv : Z) (l r : list entry) : option zip :=
  match l with
  | [] => None
  | e :: l' =>
      if ignored e || (rv <? e_rev e) then scan_bwd rv l' (e :: r)
      else if e_rev e =? rv then Some (l', e :: r) else None
  end.

(** map.go:1458-1547 searchBybucket / _searchBybucket with ignoreBucketEnry = true
    (every caller passes true here). A bucket without linked dummy: entry(h) is nil; the forward branch
    returns nil, the backward branch dereferences it. *)
Definition search (s : mstate) (n : nid) (rv : Z) : res (option zip) :=
  let start :=
    if (m_mode s =? CombineSearch2) && (rv <? brev (m_trie s) n)
    then next_on (lv_get (m_lv s) (lvl (m_trie s) n)) n else n in
  if brev (m_trie s) start <? rv then
    match head_z s start with
    | None => Ret None
    | Some (l, r) => Ret (scan_fwd rv l r)
    end
  else
    match head_z s start with
    | Some (l, e :: r) => Ret (scan_bwd rv (e :: l) r)
    | _ => Pan
    end.

(** The entry under the cursor has this hash pair (map.go:460-462, 497-502). *)
Definition check_pair (rv conf : Z) (z : option zip) : option zip :=
  match z with
  | Some (l, e :: r) =>
      if (e_rev e =? rv) && (e_conf e =? conf) then Some (l, e :: r) else None
  | _ => None
  end.

(** map.go:467-506 getWithBucket (not embedded): bucket = findBucket(reverse). *)
Definition load (s : mstate) (k conf : Z) : res (option zip) :=
  let rv := reverse64 k in
  z <- search s (find_bucket (m_trie s) rv) rv ;;
  Ret (check_pair rv conf z).

(** map.go:447-465 _get with searchBucket4Key4 (map.go:1426-1435): unless the mode is
    CombineSearch start from the following boundary if it is nearer. *)
Definition get (s : mstate) (k conf : Z) : res (option zip) :=
  let rv := reverse64 k in
  let b := find_bucket (m_trie s) rv in
  let p := prev_as_b (m_bl s) b in
  let b' := if negb (m_mode s =? CombineSearch)
               && negb (near (brev (m_trie s) p) (brev (m_trie s) b) rv =? brev (m_trie s) b)
            then p else b in
  z <- search s b' rv ;;
  Ret (check_pair rv conf z).

(** * Insertion *)

(** h.find(start, rev >= x) and h.find(start, rev > x) (map.go:740-769) with
    ignoreBucketEntry(false). *)
Fixpoint find_ge (x : Z) (l r : list entry) : option zip :=
  match r with
  | [] => None
  | e :: r' => if x <=? e_rev e then Some (l, r) else find_ge x (e :: l) r'
  end.
Fixpoint find_gt (x : Z) (l r : list entry) : option zip :=
  match r with
  | [] => None
  | e :: r' => if x <? e_rev e then Some (l, r) else find_gt x (e :: l) r'
  end.

(** util.go:108-125 inserBeforeWithCheck: [None] is the error. The inserted element is
    single (freshly initialised). *)
Definition checked_insert (z : zip) (e : entry) : option zip :=
  match snd z with
  | [] => None
  | r :: _ =>
      if e_rev r <? e_rev e then None
      else match fst z with
           | [] => Some (fst z, e :: snd z)
           | p :: _ => if e_rev e <? e_rev p then None else Some (fst z, e :: snd z)
           end
  end.

(** The cursor one element back; at the front it stays (map.go:398: the reverse read
    through the head sentinel is then not smaller than 0, the only key that gets there). *)
Definition back (z : zip) : zip :=
  match fst z with [] => z | p :: l => (l, p :: snd z) end.
Definition forth (z : zip) : zip :=
  match snd z with e :: ((_ :: _) as r) => (e :: fst z, r) | _ => z end.
Definition cur_rev (z : zip) : Z := match snd z with e :: _ => e_rev e | [] => 0 end.

(** map.go:389-414: where the insertion search starts. *)
Definition t_start (rk : Z) (zd : zip) : zip :=
  match find_ge rk (fst zd) (snd zd) with
  | Some z => match fst z with
              | p :: _ => if e_rev p <? rk then back z else zd
              | [] => zd
              end
  | None => zd
  end.

(** map.go:928-1034 add2 with a bucket (n; zd is the cursor on its dummy).
    The result is the position of the inserted element, [None] if the check refused it
    (the error is dropped). *)
Definition add_item (s : mstate) (n : nid) (zd zs : zip) (e : entry) : option zip :=
  match find_gt (e_rev e) (fst zs) (snd zs) with
  | Some z => checked_insert z e
  | None =>
      let z := forth zd in
      if cur_rev z <=? cur_rev zd then
        match head_z s (prev_as_b (m_bl s) n) with
        | Some z' => checked_insert z' e
        | None => None
        end
      else checked_insert z e
  end.
(** add2 without a bucket, for the dummy of a new bucket (map.go:1171; 1027-1033). *)
Definition add_dummy (items : list entry) (zs : zip) (e : entry) : option zip :=
  match find_gt (e_rev e) (fst zs) (snd zs) with
  | Some z => checked_insert z e
  | None => match rev items with
            | [] => None
            | x :: l => checked_insert (l, [x]) e
            end
  end.

(** * Splitting a bucket *)

(** map.go:520-532 searchBucket: first bucket from the top bucket of e on, going down the
    bucket list, whose reverse is smaller. *)
Fixpoint first_below (t : trie) (rv : Z) (bl : list nid) : option nid :=
  match bl with
  | [] => None
  | n :: bl' => if brev t n <? rv then Some n else first_below t rv bl'
  end.
(** map.go:783-792: walk up; [ups] are the buckets above the current [next], nearest
    first. Returns (cBucket, nextBucket). *)
Fixpoint walk_up (t : trie) (rv : Z) (c next : nid) (ups : list nid) : nid * nid :=
  match ups with
  | [] => (c, next)
  | u :: ups' =>
      if rv <? brev t next then (c, next)
      else walk_up t rv (if brev t c <? brev t next then next else c) u ups'
  end.

(** map.go:797-807 *)
Definition new_reverse (t : trie) (c next : nid) : Z :=
  if (brev t next =? MAX64) && (brev t c =? 0) then reverse64 1
  else if nid_eqb c next then brev t c / 2
  else if brev t next =? MAX64 then u64 (u64 (brev t c / 2 + MAX64 / 2) + 1)
  else half (brev t c) (brev t next).

(** map.go:851-857: number of entries from the dummy of cBucket up to and including the
    first one beyond rv. *)
Fixpoint count_upto (rv : Z) (r : list entry) : Z :=
  match r with
  | [] => 0
  | e :: r' => if rv <? e_rev e then 1 else 1 + count_upto rv r'
  end.

(** map.go:1192-1209 addBucket: the bucket before which it goes; [None]: one with equal
    reverse was met first (or the end). *)
Fixpoint bucket_below (t : trie) (rv : Z) (bl : list nid) : option nid :=
  match bl with
  | [] => None
  | n :: bl' => if brev t n =? rv then None
                else if brev t n <? rv then Some n else bucket_below t rv bl'
  end.

(** map.go:1157-1209 addBucket with _InsertBefore, for a bucket b of reverse rv. *)
Definition add_bucket (s : mstate) (b : nid) (rv : Z) : mstate :=
  match bucket_below (m_trie s) rv (m_bl s) with
  | None => s
  | Some n =>
      match head_z s n with
      | None => s     (* cannot happen: n is linked *)
      | Some z =>
          let s1 := match add_dummy (m_items s) z (dummy_of b rv) with
                    | Some z' => set_items s (unzip z')
                    | None => s
                    end in
          set_bl s1 (ins_before n b (m_bl s1))
      end
  end.

(** map.go:771-913 makeBucket; [er] is the reverse of the entry before the inserted one
    (775-778). The boolean: the call panicked. *)
Definition make_bucket (s : mstate) (er : Z) : mstate * bool :=
  let t := m_trie s in
  match first_below t er (from_b (m_bl s) (top_of er)) with
  | None => (s, false)
  | Some c0 =>
      let '(c, next) := walk_up t er c0 c0 (before_b [] (m_bl s) c0) in
      if (brev t next <? er) || (er <? brev t c) then (s, false) else
      let nr := new_reverse t c next in
      match bucket_from_pool t (m_lv s) nr with
      | None => (s, true)                               (* nil bucket, map.go:1931 *)
      | Some (t1, lv1, b) =>
          let s1 := set_lv (set_trie s t1) lv1 in
          match head_z s1 b with
          | Some _ => (s1, false)                       (* map.go:823-825 already exists *)
          | None =>
              let t2 := if brev t1 b =? nr then t1
                        else tupd t1 b (fun x => set_blen (set_brev x nr) 0) in
              if (nr =? 0) && (1 <? lvl t2 b) then (set_trie s1 t2, false) else
              let cnt := match head_z s1 c with Some (_, r) => count_upto nr r | None => 0 end in
              let bl := b_len (bget t2 b) + cnt in
              let t3 := tupd t2 b (fun x => set_blen x bl) in
              let t4 := tupd t3 c (fun x => set_blen x (b_len x - bl)) in
              let s2 := add_bucket (set_trie s1 t4) b nr in
              match head_z s2 b with
              | None => (s2, true)                      (* panic("bucket head empty") *)
              | Some _ =>
                  let lvl := lvl t4 b in
                  (set_lv s2 (lv_set (m_lv s2) lvl
                     (ins_level t4 (in_blist (m_bl s2)) b (lv_get (m_lv s2) lvl))), false)
              end
          end
      end
  end.

(** map.go:329-435 _set: link item e (hash k) starting from bucket n. The boolean: panic. *)
Definition set_ (s : mstate) (k : Z) (n : nid) (e : entry) : mstate * bool :=
  match head_z s n with
  | None => (s, true)
  | Some zd =>
      let zs := t_start (reverse64 k) zd in
      let '(items, er) :=
        match add_item s n zd zs e with
        | Some z => (unzip z, match fst z with p :: _ => e_rev p | [] => 0 end)
        | None => (m_items s, e_rev e)
        end in
      let s1 := set_len (set_items s items) (m_len s + 1) in
      let s2 := if 0 <? lvl (m_trie s1) n
                then set_trie s1 (tupd (m_trie s1) n (fun b => set_blen b (b_len b + 1))) else s1 in
      if m_max s2 <? b_len (bget (m_trie s2) n) then make_bucket s2 er else (s2, false)
  end.

(** * Items *)

(** SetValue through the type ItemFn() returns: sample_hmap_entry.go:59-65 (atomic.Value.Store
    panics on a change of dynamic type) and item.go:58-61. [None]: panic. *)
Definition set_value (view : ikind) (old v : gval) : option (gval * bool) :=
  match view with
  | KEntry => Some (v, true)
  | KSample =>
      match v with
      | GNil => Some (old, false)
      | GV ty _ => match old with
                   | GNil => Some (v, true)
                   | GV ty' _ => if ty =? ty' then Some (v, true) else None
                   end
      end
  end.
Definition set_e_val (e : entry) (v : gval) : entry :=
  mkE (e_dummy e) (e_rev e) (e_conf e) (e_del e) (e_kind e) (e_key e) v.
(** Delete(): sample_hmap_entry.go:83-85, item.go:80-83. Writing a nil interface over the
    16 bytes of a SampleItem's string makes it empty. *)
Definition del_entry (view : ikind) (e : entry) : entry :=
  mkE (e_dummy e) (e_rev e) (e_conf e) true (e_kind e)
      (match view with
       | KSample => e_key e
       | KEntry => match e_kind e with KSample => KStr "" | KEntry => KNil end
       end) (e_val e).
(** Key() through the type ItemFn() returns. [None]: the item is of the other type, its
    first 16 bytes are misread (string header as interface or vice versa). *)
Definition view_key (view : ikind) (e : entry) : option gkey :=
  match view, e_kind e with
  | KSample, KSample | KEntry, KEntry => Some (e_key e)
  | _, _ => None
  end.

(** An item prepared by the caller for StoreItem. [i_rev], [i_conf] are its MapHead fields
    (0 unless Setup() was called), [i_del] its deleted mark. *)
Record item := mkI { i_kind : ikind; i_key : gkey; i_val : gval; i_rev : Z; i_conf : Z; i_del : bool }.
(** NewSampleItem (sample_hmap_entry.go:91-95), NewEntryMap (item.go:21-26) *)
Definition new_sample (s : string) (v : gval) : item := mkI KSample (KStr s) v 0 0 false.
Definition new_entry (k : gkey) (v : gval) : item := mkI KEntry k v 0 0 false.
(** Setup (sample_hmap_entry.go:67-70): note that the reverse field gets the hash itself. *)
Definition setup (h : hashes) (i : item) : item :=
  match key_to_hash h (i_key i) with
  | Some (k, c) => mkI (i_kind i) (i_key i) (i_val i) k c (i_del i)
  | None => i
  end.
(** KeyHash: sample_hmap_entry.go:87-89 and item.go:85-87. *)
Definition item_hash (h : hashes) (i : item) : option (Z * Z) := key_to_hash h (i_key i).
(** The entry an item becomes when linked: _set (map.go:331-338) fills reverse and conflict only
    if they are 0. *)
Definition entry_of (i : item) (k conf : Z) : entry :=
  mkE None (if i_rev i =? 0 then reverse64 k else i_rev i)
      (if i_conf i =? 0 then conf else i_conf i) (i_del i) (i_kind i) (i_key i) (i_val i).

(** * API *)
Inductive op :=
| OpSet (key : gkey) (v : gval)
| OpStore (i : item)
| OpGet (key : gkey)
| OpGetByHash (k conf : Z)
| OpLoad (key : gkey)
| OpLoadByHash (k conf : Z)
| OpDelete (key : gkey)
| OpPurge (key : gkey)
| OpLen.

Inductive out :=
| RBool (b : bool)
| RVal (v : gval) (ok : bool)
| RItem (i : option (option gkey * gval))    (* item's Key() and Value(); None: not found *)
| RLen (n : Z)
| RPanic.

Definition upd_cur (z : zip) (f : entry -> entry) : list entry :=
  match snd z with e :: r => rev_append (fst z) (f e :: r) | [] => rev_append (fst z) [] end.

(** _update (map.go:306-308) *)
Definition update (s : mstate) (z : zip) (v : gval) : mstate * out :=
  match snd z with
  | e :: _ => match set_value (m_view s) (e_val e) v with
              | None => (s, RPanic)
              | Some (v', ok) => (set_items s (upd_cur z (fun e => set_e_val e v')), RBool ok)
              end
  | [] => (s, RPanic)
  end.

(** map.go:591-705 Set. A new item comes from &SampleItem{} or from the pool (h.pooler,
    see ConcModel.v): a zeroed item either way. *)
Definition set (h : hashes) (s : mstate) (key : gkey) (v : gval) : mstate * out :=
  match key_to_hash h key with
  | None => (s, RPanic)
  | Some (k, conf) =>
      match load s k conf with
      | Ret (Some z) => update s z v
      | Ret None =>
          let s1 := if negb (m_pool s) && (m_mode s =? CombineSearch4) then set_mpool s true else s in
          match key with
          | KStr _ =>
              let s2 := set_view s1 KSample in
              let n := find_bucket (m_trie s) (reverse64 k) in
              let '(s3, p) := set_ s2 k n (entry_of (mkI KSample key v 0 0 false) k conf) in
              (s3, if p then RPanic else RBool true)
          | _ => (s1, RPanic)                           (* key.(string), map.go:688 *)
          end
      | _ => (s, RPanic)
      end
  end.

(** map.go:708-717 StoreItem *)
Definition store (h : hashes) (s : mstate) (i : item) : mstate * out :=
  match item_hash h i with
  | None => (s, RPanic)
  | Some (k, conf) =>
      match load s k conf with
      | Ret (Some z) => update s z (i_val i)
      | Ret None =>
          let '(s1, p) := set_ s k (find_bucket (m_trie s) (reverse64 k)) (entry_of i k conf) in
          (s1, if p then RPanic else RBool true)
      | _ => (s, RPanic)
      end
  end.

(** map.go:535-549 Get, GetByHash: Value() reads the value (same place in both types). *)
Definition get_val (s : mstate) (r : res (option zip)) : mstate * out :=
  match r with
  | Ret (Some (_, e :: _)) => (s, RVal (e_val e) true)
  | Ret _ => (s, RVal GNil false)
  | _ => (s, RPanic)
  end.
(** map.go:552-561 LoadItem, LoadItemByHash *)
Definition get_item (s : mstate) (r : res (option zip)) : mstate * out :=
  match r with
  | Ret (Some (_, e :: _)) => (s, RItem (Some (view_key (m_view s) e, e_val e)))
  | Ret _ => (s, RItem None)
  | _ => (s, RPanic)
  end.
(** map.go:1550-1567 Delete; Purge is Delete in this mode. *)
Definition delete (h : hashes) (s : mstate) (key : gkey) : mstate * out :=
  match key_to_hash h key with
  | None => (s, RPanic)
  | Some (k, conf) =>
      match load s k conf with
      | Ret (Some z) => (set_items s (upd_cur z (del_entry (m_view s))), RBool true)
      | Ret None => (s, RBool false)
      | _ => (s, RPanic)
      end
  end.

Definition with_key (h : hashes) (s : mstate) (key : gkey) (f : Z -> Z -> mstate * out) : mstate * out :=
  match key_to_hash h key with None => (s, RPanic) | Some (k, c) => f k c end.

Definition step (h : hashes) (s : mstate) (o : op) : mstate * out :=
  match o with
  | OpSet key v => set h s key v
  | OpStore i => store h s i
  | OpGet key => with_key h s key (fun k c => get_val s (get s k c))
  | OpGetByHash k c => get_val s (get s (u64 k) (u64 c))
  | OpLoad key => with_key h s key (fun k c => get_item s (load s k c))
  | OpLoadByHash k c => get_item s (get s (u64 k) (u64 c))
  | OpDelete key | OpPurge key => delete h s key
  | OpLen => (s, RLen (m_len s))                        (* map.go:214-216 *)
  end.

(** A history of calls. *)
Fixpoint run (h : hashes) (s : mstate) (os : list op) : mstate :=
  match os with [] => s | o :: os' => run h (fst (step h s o)) os' end.
Fixpoint outs (h : hashes) (s : mstate) (os : list op) : list out :=
  match os with [] => [] | o :: os' => snd (step h s o) :: outs h (fst (step h s o)) os' end.

(** map.go:1617-1641 RangeItem / Range. The callback is any state machine: it gets its own state,
    Key() and Value() and says whether to go on. *)
Fixpoint range_loop {A} (view : ikind) (f : A -> option gkey -> gval -> A * bool) (a : A)
                    (l : list entry) : A :=
  match l with
  | [] => a
  | e :: l' =>
      if ignored e then range_loop view f a l'
      else let '(a', go) := f a (view_key view e) (e_val e) in
           if go then range_loop view f a' l' else a'
  end.
Definition range {A} (s : mstate) (f : A -> option gkey -> gval -> A * bool) (a : A) : A :=
  range_loop (m_view s) f a (m_items s).

(** map.go:1643-1651 First, Last: KeyInHmap() of the first / last element *)
Definition first_hash (s : mstate) : option Z :=
  match m_items s with e :: _ => Some (key_in_hmap (e_rev e)) | [] => None end.
Definition last_hash (s : mstate) : option Z :=
  match rev (m_items s) with e :: _ => Some (key_in_hmap (e_rev e)) | [] => None end.

(** map.go:1060-1074 DumpBucket: the boundaries (reverse column), from the largest down. *)
Definition dump_bucket (s : mstate) : list Z := map (brev (m_trie s)) (m_bl s).
