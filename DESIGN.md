# Formal model of kazu/skiplistmap — design

Everything is in `rocq/theories` (Coq 8.16.1, standard library only). Definitions of the model, specifications, proofs and
property theorems are in separate files.

## Trusted base

* Coq's kernel (8.16.1), including `vm_compute`, which evaluates the concrete cases and witnesses.
* `Print Assumptions` follows every property theorem; each prints "Closed under the global context": no axiom is used, neither
  our own nor the standard library's. (The seven `Coq.ssr.ssrunder.Under_rel` parameters a checker may list are in a standard library module
  that is merely loaded; no theorem depends on them.)
* That the model describes the code: every definition cites the lines of /repo it models and says where it simplifies. What is
  modelled and what is not is listed below.

## Files

| file | contents |
|---|---|
| `Base.v`, `BaseProofs.v` | 64-bit words, `bits.Reverse64`, Go values and keys, outcomes of calls |
| `Util.v`, `SpecUtil.v`, `UtilProofs.v`, `PropUtil.v` | util.go, hashfn.go, debug.go, error.go, options; their specification; C01–C04, C18, C41 |
| `Bucket.v`, `TrieProofs.v`, `TrieInv.v`, `TrieGrow.v` | bucket.go, the bucket table, `_findBucket`, `bucketFromPool` and the embedded variants |
| `MapModel.v` | default map, one goroutine |
| `Spec.v` | the map users expect: a partial function from hash pairs to bindings; which histories the theorems cover |
| `ItemProofs.v`, `MapInv.v`, `MapSplit.v`, `MapStep.v`, `MapInit.v`, `MapRefine.v`, `MapAny.v`, `MapSafe.v`, `MapMore.v`, `Checks.v` | invariants and refinement of the default map, decision procedures for the examples |
| `PropMap.v`, `PropCrash.v`, `PropCursor.v`, `PropType.v`, `PropSearch.v` | C05–C17; C17 exactly; C75; C19; C60, C61 |
| `EmbModel.v`, `EmbSpec.v` | embedded map, one goroutine; its specification vocabulary |
| `EmbPool.v`, `EmbTrie.v`, `EmbInv.v`, `EmbSplit.v`, `EmbRefine.v`, `EmbDel.v`, `EmbTop.v`, `EmbReuse.v`, `EmbLinked.v`, `EmbFull.v`, `EmbCol.v`, `EmbHang.v`, `EmbBal.v` | its proofs |
| `PurgeSpec.v`, `EmbPurge.v`, `PropPurge.v` | Delete and Purge after the Sets: specification, refinement, C23 |
| `ConcSet.v`, `PropConcSet.v` | Sets of the embedded map during one split: C71 |
| `ConcSplit.v`, `PropConcSplit.v` | Gets of the embedded map during one split, small steps: C70 |
| `LevelList.v`, `PropLevel.v` | lists of buckets per level: invariant, C69 |
| `MixSpec.v`, `EmbMix.v`, `PropMix.v` | Sets between Deletes and Purges: specification, simulation, C68, C42 |
| `AfterSpec.v`, `EmbAfter.v`, `EmbCalm.v`, `PropAfter.v` | a Set into a bucket with deleted keys: C42, C76 |
| `PropEmb.v`, `PropEmb2.v`, `PropReuse.v`, `PropCol.v`, `PropHang.v` | C20–C25, C42–C46 |
| `EmbList.v`, `EmbListInv.v` | the item list in the embedded mode and Range; its proofs |
| `PropReent.v` | C77 (model of a Range whose callback calls the map) |
| `EmbHandle.v` `PropEmbHandle.v` | C79 (model of kept items of the embedded map) |
| `EmbLevel.v` `PropEmbLevel.v` | level lists of the embedded map: invariant, C80 |
| `PropFind.v` | C81 |
| `PropEmbDump.v` | model of DumpEntry on the embedded map (map.go:1104-1125); C82 |
| `PropHandle.v` | C78 (model of items kept by the caller, specification as a map of objects) |
| `PropEmbRange.v`, `PropEmbRange2.v`, `PropEmbRange3.v` | C62; after Purges; after calm Sets |
| `RMapModel.v`, `RSpec.v`, `RMapProofs.v`, `RMapTop.v`, `PropRMap.v` | rmap.RMap, one goroutine; C26–C31, C47 |
| `MapDump.v`, `PropDump.v` | DumpEntry; C65 |
| `ConcModel.v`, `ConcSpec.v`, `ConcProofs.v`, `ConcMore.v`, `PropConc.v`, `PropFar.v`, `PropStep.v` | concurrent calls on the default map; C32–C35, C48, C49; C64 |
| `LinSpec.v`, `LinProofs.v`, `ConcLin.v`, `PropLin.v` | linearizability of these calls: specification, proofs; C63 |
| `ConcRange.v`, `PropRange.v` | Range beside them; C55, C56 |
| `ConcPool.v`, `PropPool.v`, `PoolMove.v` | item pool of UsePool; C36, C37, C50 |
| `ConcMgr.v`, `PropMgr.v` | the same with UseGoroutineInPool; C66 |
| `PropPut.v` | Pool.Put, model and proofs; C74 |
| `ConcMove.v`, `PropConcMove.v` | calls beside the expansion of the pool; C67 |
| `ConcTable.v`, `PropTable.v` | concurrent creation of buckets; C40, C51 |
| `ConcEmb.v`, `PropConcEmb.v`, `PropConcApp.v` | concurrent calls on one embedded bucket; C38, C39, C52–C54 |
| `ConcEmbSplit.v`, `PropConcEmbSplit.v` | concurrent Sets on many embedded buckets with splits; C73 |
| `ConcRMap.v`, `ConcRMapProofs.v`, `PropCRMap.v`, `PropCRDel.v` | concurrent Sets, Gets and Deletes on an RMap; C57–C59, C72 |

Theorem names: `Cnn_..._refuted` proves that the natural claim is false of the code (a concrete history or schedule is evaluated);
`Cnn_..._partial` proves part of a property; every other `Cnn_...` proves the property as stated in properties.jsonl. `Cnn_case` and similar examples show that the hypotheses are met.

## Modelling decisions

* `uint64` is `Z` in `[0,2^64)` with explicit `mod 2^64` where the code can wrap; `int`, `int32`, `int64` counters are unbounded `Z`.
* The list packages `elist_head` and `loncha/list_head` are not in the repository. A doubly linked list between its sentinels is the
  Coq list of its elements; `InsertBefore`, `Next`, `Prev`, `Empty`, `Init`, `MarkForDelete`, `ReplaceNext` are the corresponding
  operations on sequences. Trusted. In the concurrent models `InsertBefore` is one atomic step.
* `runtime.memhash` and `xxhash` are arbitrary functions (record `hashes`, an argument of every theorem). Nothing is assumed of them except where
  a theorem has a hypothesis such as `no_collision`.
* A call ends in `Ret` (returns), `Pan` (panic), `Div` (unbounded recursion, or waiting for itself) or `Undef` (the code leaves defined
  behaviour: index out of range in unsafe code, a linked node initialised again).
* Unbounded loops of the code are fuelled recursions; where running out of fuel is possible it stands for non-termination, elsewhere it is
  proved not to happen.
* Concurrency: small-step relations, any number of goroutines, any schedule, sequential consistency. One step is one access to shared state, except where
  the file says otherwise. Each concurrent model restricts itself to the shared state named in its header.

## What is modelled

map.go: options, NewHMap, initBeforeSet, Len, Set, StoreItem, Get, GetByHash, LoadItem, LoadItemByHash, SearchKey, Delete, Purge, Range,
RangeItem, First, Last, Next and Prev of items, DumpBucket (boundaries), _set, add2, find, makeBucket, addBucket, findNextLevelBucket, searchBybucket,
searchBucket4update, searchBucket4Key4, _findBucket, bucketFromPool, setLevel/levelBucket. map_embedded.go: everything but PushWithOrder, dup/CopyFrom
(slices are values) and the debug parts. bucket.go: buckets, pools of buckets, levels, itemPool/setItemPool, largestDown, len. pool2.go: Get, init, _expand.
item.go, maphead.go, sample_hmap_entry.go: items, Setup, KeyHash, SetValue, state bits. util.go, hashfn.go, debug.go (levels), error.go. rmap/rmap.go: all but
onNewStores (never filled). atomic_util: as atomic steps.

## What is not modelled

* Embedded mode: see the header of `EmbModel.v`. Concurrent embedded mode: Get, Set and Delete on one bucket; Sets and Gets during one split, small steps; Sets on many buckets with atomic splits; no other combination.
* pool2.go: Get from a free list that is not empty (only Put fills it, and nothing in the repository calls Put).
* The traverse mode of the list packages (WaitNoM), retries inside InsertBefore/MarkForDelete.
* The option of the list package that Range sets globally (list_head.DefaultModeTraverse). C77 is for maps without an item pool. C78 too; an item given to StoreItem under a present key stays outside the map and is not followed.
* Dump functions other than the boundaries, debug validation, statistics, signal handler, unused helpers (levelMask, toMask, toMaskR, reverse2Index,
  nearBucketFromCache).
* Concurrent RMap: the inner map is ideal, Get, Set and Delete are modelled (StoreItem and Purge are not), whether a miss promotes is nondeterministic.
* The Go memory model below atomic operations, garbage collection of relative pointers, integer overflow of counters, performance.

## Testing the theorems

`seeded/LOG.jsonl`: one line per wrong program (an edit of the model), with the theorems that no longer prove and those tightened because of it.


## Per property: model, proof, status

* **C01 Hash order is a bijection** (proved; `PropUtil.v`). Pure functions of `Util.v`/`Base.v`; algebra over `Z` for all inputs. 
* **C02 Key aliasing is exactly hash-pair equality** (proved; `PropUtil.v`). Pure functions of `Util.v`/`Base.v`; algebra over `Z` for all inputs. Exact aliasing rule proved; the natural claim (distinct keys never alias) is refuted.
* **C03 Pool growth always makes room** (proved; `PropUtil.v`). Pure functions of `Util.v`/`Base.v`; algebra over `Z` for all inputs. 
* **C04 Midpoint and nearest-bucket arithmetic** (proved; `PropUtil.v`). Pure functions of `Util.v`/`Base.v`; algebra over `Z` for all inputs. 
* **C05 Read your writes (default map)** (proved; `PropMap.v`). `MapModel.v`; state invariant (`MapInv.v`: sorted item list, sentinels, trie) preserved by every call (`MapStep.v`, `MapSplit.v`), refinement to `Spec.v` (`MapRefine.v`, `MapAny.v`, `MapMore.v`), induction over histories. 
* **C06 Which acknowledged writes are readable** (proved; `PropMap.v`). `MapModel.v`; state invariant (`MapInv.v`: sorted item list, sentinels, trie) preserved by every call (`MapStep.v`, `MapSplit.v`), refinement to `Spec.v` (`MapRefine.v`, `MapAny.v`, `MapMore.v`), induction over histories. Exact; the natural claim is refuted.
* **C07 The default map is a map** (proved; `PropMap.v`). `MapModel.v`; state invariant (`MapInv.v`: sorted item list, sentinels, trie) preserved by every call (`MapStep.v`, `MapSplit.v`), refinement to `Spec.v` (`MapRefine.v`, `MapAny.v`, `MapMore.v`), induction over histories. 
* **C08 Operations on one key do not disturb another** (proved; `PropMap.v`). `MapModel.v`; state invariant (`MapInv.v`: sorted item list, sentinels, trie) preserved by every call (`MapStep.v`, `MapSplit.v`), refinement to `Spec.v` (`MapRefine.v`, `MapAny.v`, `MapMore.v`), induction over histories. 
* **C09 Delete removes exactly one readable key** (proved; `PropMap.v`). `MapModel.v`; state invariant (`MapInv.v`: sorted item list, sentinels, trie) preserved by every call (`MapStep.v`, `MapSplit.v`), refinement to `Spec.v` (`MapRefine.v`, `MapAny.v`, `MapMore.v`), induction over histories. 
* **C10 Range visits live items once, in order** (proved; `PropMap.v`). `MapModel.v`; state invariant (`MapInv.v`: sorted item list, sentinels, trie) preserved by every call (`MapStep.v`, `MapSplit.v`), refinement to `Spec.v` (`MapRefine.v`, `MapAny.v`, `MapMore.v`), induction over histories. 
* **C11 Len law** (proved; `PropMap.v`). `MapModel.v`; state invariant (`MapInv.v`: sorted item list, sentinels, trie) preserved by every call (`MapStep.v`, `MapSplit.v`), refinement to `Spec.v` (`MapRefine.v`, `MapAny.v`, `MapMore.v`), induction over histories. Exact law; the natural claim is refuted.
* **C12 Configuration does not change results** (proved; `PropMap.v`). `MapModel.v`; state invariant (`MapInv.v`: sorted item list, sentinels, trie) preserved by every call (`MapStep.v`, `MapSplit.v`), refinement to `Spec.v` (`MapRefine.v`, `MapAny.v`, `MapMore.v`), induction over histories. 
* **C13 Sentinels stay at the ends** (proved; `PropMap.v`). `MapModel.v`; state invariant (`MapInv.v`: sorted item list, sentinels, trie) preserved by every call (`MapStep.v`, `MapSplit.v`), refinement to `Spec.v` (`MapRefine.v`, `MapAny.v`, `MapMore.v`), induction over histories. 
* **C14 Value update rules** (proved; `PropMap.v`). `MapModel.v`; state invariant (`MapInv.v`: sorted item list, sentinels, trie) preserved by every call (`MapStep.v`, `MapSplit.v`), refinement to `Spec.v` (`MapRefine.v`, `MapAny.v`, `MapMore.v`), induction over histories. 
* **C15 Unsupported keys fail cleanly** (proved; `PropMap.v`). `MapModel.v`; state invariant (`MapInv.v`: sorted item list, sentinels, trie) preserved by every call (`MapStep.v`, `MapSplit.v`), refinement to `Spec.v` (`MapRefine.v`, `MapAny.v`, `MapMore.v`), induction over histories. 
* **C16 StoreItem of a Setup() item** (proved; `PropMap.v`). `MapModel.v`; state invariant (`MapInv.v`: sorted item list, sentinels, trie) preserved by every call (`MapStep.v`, `MapSplit.v`), refinement to `Spec.v` (`MapRefine.v`, `MapAny.v`, `MapMore.v`), induction over histories. Exact for keys that are no bit palindromes; the natural claim is refuted; items without Setup() are C05.
* **C17 Default map calls do not crash** (proved; `PropCrash.v`, `PropMap.v`). `MapModel.v`; state invariant (`MapInv.v`: sorted item list, sentinels, trie) preserved by every call (`MapStep.v`, `MapSplit.v`), refinement to `Spec.v` (`MapRefine.v`, `MapAny.v`, `MapMore.v`), induction over histories. Exact for histories whose stored hashes avoid 2^63-1 and 2^64-1; the unconditional claim is refuted.
* **C18 Options and their undo** (proved; `PropUtil.v`). Option functions on the configuration record (`Util.v`); induction over the list of options. Proved for the options for which it holds; refuted for the others.
* **C19 Items are read back with their own type** (proved; `PropMap.v`, `PropType.v`). `PropType.v`: the law of the reading type by induction on the history (`view_law`), with the refinement of C07/C10. Exact: the key of a stored item is shown iff its type is the type the map reads with (the type it was made with, SampleItem once a Set created a key); the natural claim is refuted.
* **C20 The embedded map is a map for Set/Get** (proved; `PropCol.v`, `PropEmb.v`). `EmbModel.v`; pool invariant (`EmbPool.v`), tree of pools (`EmbInv.v`, `EmbTrie.v`, `EmbSplit.v`), refinement (`EmbRefine.v`, `EmbDel.v`), induction over histories. For MaxPefBucket >= 16 without condition; for smaller values with at most MaxPefBucket different keys per block of 16 positions (refuted without that bound).
* **C21 When an embedded lookup does not come back** (proved; `PropEmb.v`, `PropHang.v`). `EmbHang.v`: one call of makeBucket2 before its recursion, and which positions route to a bucket without pool; `EmbBal.v`: invariant relating the buckets to the positions stored (every bucket is an aligned interval whose parent is crowded); `PropHang.v`: induction over histories, both directions. Exact: for MaxPefBucket >= 16, histories of Set and reads on string keys with distinct positions below 2^64-1: every lookup returns at every moment exactly if no dyadic interval (2^1..2^60 positions) ever holds more than MaxPefBucket positions all in one half; at the first such moment exactly the lookups in the upper half of one such interval do not come back. The unconditional claim is refuted..
* **C22 Embedded Delete, exactly** (proved; `PropEmb.v`). `EmbModel.v`; pool invariant (`EmbPool.v`), tree of pools (`EmbInv.v`, `EmbTrie.v`, `EmbSplit.v`), refinement (`EmbRefine.v`, `EmbDel.v`), induction over histories. Exact; the natural claim is refuted.
* **C23 Embedded Delete and Purge: what they remove** (proved; `PropEmb.v`, `PropPurge.v`). `PurgeSpec.v` (buckets as lists) refined by `EmbPurge.v`: a relation between each bucket's list and the used part of its pool, kept by every call; the part behind the length, which the code leaves dirty, is ignored by comparing with a clean state. `PropPurge.v`. Exact law (PurgeSpec.v) for every sequence of Deletes, Purges, reads and updates after every history of Sets; C23_lost says from it when another key is lost; the natural claim is refuted with a witness.
* **C24 Embedded Set after Purge** (proved; `PropEmb.v`, `PropReuse.v`). `EmbModel.v`; one reused slot followed through the refinement of C20 (`EmbReuse.v`, `EmbLinked.v`); a full bucket with a dead slot is split in step with the bucket without it (`EmbFull.v`). Exact law over every history of Sets and reads without full-hash collisions that returned; the natural claim (Set after Purge is readable) is refuted with a witness, and the law says exactly for which keys it fails.
* **C25 Embedded bucket pools are sorted and within capacity** (proved; `PropEmb.v`). `EmbModel.v`; pool invariant (`EmbPool.v`), tree of pools (`EmbInv.v`, `EmbTrie.v`, `EmbSplit.v`), refinement (`EmbRefine.v`, `EmbDel.v`), induction over histories. 
* **C26 RMap never loses a key** (proved; `PropRMap.v`). `RMapModel.v` on top of `MapModel.v`; simulation with `RSpec.v` (`RMapProofs.v`), induction over histories. 
* **C27 RMap: which Set wins** (proved; `PropRMap.v`). `RMapModel.v` on top of `MapModel.v`; simulation with `RSpec.v` (`RMapProofs.v`), induction over histories. Exact; the natural claim is refuted.
* **C28 RMap: Get of a missing key** (proved; `PropRMap.v`). `RMapModel.v` on top of `MapModel.v`; simulation with `RSpec.v` (`RMapProofs.v`), induction over histories. Exact; the natural claim is refuted.
* **C29 RMap: Delete** (proved; `PropRMap.v`). `RMapModel.v` on top of `MapModel.v`; simulation with `RSpec.v` (`RMapProofs.v`), induction over histories. Exact; the natural claim is refuted.
* **C30 RMap: Get returns the value or its holder** (proved; `PropRMap.v`). `RMapModel.v` on top of `MapModel.v`; simulation with `RSpec.v` (`RMapProofs.v`), induction over histories. Exact up to the holder; the natural claim is refuted.
* **C31 RMap: Len** (proved; `PropRMap.v`). `RMapModel.v` on top of `MapModel.v`; simulation with `RSpec.v` (`RMapProofs.v`), induction over histories. Exact; the natural claim is refuted.
* **C32 Concurrent Sets of different keys all take effect** (partial; `PropConc.v`). `ConcModel.v`; inductive invariants over all schedules (`ConcProofs.v`, `ConcMore.v`), refutations by explicit schedules. The claim is false even if order check and insertion were one step; proved for a Set during which nobody else adds an item, whatever else runs.
* **C33 Order and persistence under every schedule** (proved; `PropConc.v`). `ConcModel.v`; inductive invariants over all schedules (`ConcProofs.v`, `ConcMore.v`), refutations by explicit schedules. Persistence and values for every granularity; order with the check and the insertion as one step, as the property says, refuted when they are two.
* **C34 Concurrent Sets of the same key store one entry** (partial; `PropConc.v`). `ConcModel.v`; inductive invariants over all schedules (`ConcProofs.v`, `ConcMore.v`), refutations by explicit schedules. The claim is false; proved as long as no two goroutines are adding the same key at once.
* **C35 Search options do not leak** (proved; `PropConc.v`). `ConcModel.v`; inductive invariants over all schedules (`ConcProofs.v`, `ConcMore.v`), refutations by explicit schedules. True for sequential histories and whenever finds do not overlap; refuted for overlapping ones, and then it stays changed for ever.
* **C36 Pool slots are handed out once under every schedule** (proved; `PropPool.v`). `ConcPool.v`; invariants over all schedules. Slots are handed out once from every segment that is set up (all schedules); refuted while two goroutines set it up; the length bound holds for all schedules of at most as many calls as slots, and for every number of slots one call more can break it and crash.
* **C37 Pool allocation cannot deadlock** (proved; `PropPool.v`). `ConcPool.v`; invariants over all schedules. The natural claim is false: refuted, and the deadlock is shown permanent; the exact bound is proved: all schedules of at most as many calls as slots are wait-free with a bound on the steps, and for every number of slots there is a schedule of one call more that deadlocks.
* **C38 Embedded Get during Sets of other keys finds present keys** (partial; `PropConcApp.v`, `PropConcEmb.v`). `ConcEmb.v`; invariants over all schedules. The claim is false: refuted; proved for all schedules without Deletes in which a Set of a key above the largest item runs alone, whenever no slot is half filled, and at every moment for keys above the one being filled in (one bucket, no split meanwhile).
* **C39 Embedded Set releases its bucket lock** (partial; `PropConcApp.v`, `PropConcEmb.v`). `ConcEmb.v`; invariants over all schedules. The claim is false: refuted, and the leak is permanent; proved for calls one after another and for all schedules in which appending Sets run alone.
* **C40 Child tables are initialised once under every schedule** (partial; `PropTable.v`). `ConcTable.v`; invariants over all schedules. Table: proved for all schedules; children: refuted in general, proved when all goroutines want the same child and for calls one after another.
* **C41 Log levels** (proved; `PropUtil.v`). Pure functions of `Util.v`/`Base.v`; algebra over `Z` for all inputs. Exact; the natural claim is refuted.
* **C42 Embedded Set after Delete keeps other keys** (partial; `PropAfter.v`, `PropEmb2.v`, `PropMix.v`). `EmbModel.v`; pool invariant (`EmbPool.v`), tree of pools (`EmbInv.v`, `EmbTrie.v`, `EmbSplit.v`), refinement (`EmbRefine.v`, `EmbDel.v`), induction over histories. False after a Delete; proved for histories without Delete/Purge, and for histories with them in which new keys go to buckets where nothing was deleted; for new keys put into buckets below their maximum where keys were deleted: any number of calm Sets change no other key, and after them exactly which key one more Set hides; missing: what follows a Set that is not calm, splits of such a bucket, and a Purge among calm Sets.
* **C43 Embedded Set that panics** (proved; `PropEmb2.v`). `EmbModel.v`; pool invariant (`EmbPool.v`), tree of pools (`EmbInv.v`, `EmbTrie.v`, `EmbSplit.v`), refinement (`EmbRefine.v`, `EmbDel.v`), induction over histories. Exact; the natural claim is refuted.
* **C44 Embedded StoreItem** (proved; `PropEmb2.v`). `EmbModel.v`; pool invariant (`EmbPool.v`), tree of pools (`EmbInv.v`, `EmbTrie.v`, `EmbSplit.v`), refinement (`EmbRefine.v`, `EmbDel.v`), induction over histories. Exact; the natural claim is refuted.
* **C45 Embedded Set after Delete** (proved; `PropEmb2.v`, `PropReuse.v`). `EmbModel.v`; one reused slot followed through the refinement of C20 (`EmbReuse.v`, `EmbLinked.v`); a full bucket with a dead slot is split in step with the bucket without it (`EmbFull.v`). Exact law for Delete then Set, in full buckets too (where the Set splits the bucket); the natural claims (Set of an absent key stores the given value; with MaxPerBucket 16, other keys survive) are refuted with witnesses.
* **C46 Embedded keys with equal 64-bit hash: the newest wins** (proved; `PropCol.v`, `PropEmb2.v`). `EmbModel.v`; the invariants of C20 with non-strict order (`einvb false`), the list of all entries in order, of which the first at each position is the visible one (`EmbCol.v`), against `newest_outs` in `EmbSpec.v`. Coexistence is refuted; the exact behaviour is proved for every history of Sets and reads in which no block of 16 positions gets more than MaxPefBucket entries (refuted without that bound).
* **C47 RMap: reads promote** (proved; `PropRMap.v`). `RMapModel.v` on top of `MapModel.v`; simulation with `RSpec.v` (`RMapProofs.v`), induction over histories. 
* **C48 Concurrent Sets far apart do not disturb each other** (partial; `PropConc.v`, `PropFar.v`). `ConcModel.v`, `PropFar.v`: refutation by a schedule; the positive part by the invariant of the lone Set (`lone`), kept by a step of another goroutine because a sentinel lies between the two positions (`far_before`, `lone_far`). The claim is false: refuted with a witness. Positive part: Sets in other sixteenths of the position space (or not after the key) do no harm as long as nobody is inside a find at the same time; missing: overlapping finds, where it is false in general.
* **C49 Len under concurrency** (proved; `PropConc.v`). `ConcModel.v`; inductive invariants over all schedules (`ConcProofs.v`, `ConcMore.v`), refutations by explicit schedules. 
* **C50 Items obtained with UsePool** (proved; `PoolMove.v`). `PoolMove.v`; invariant over allocations. Exact; the natural claim is refuted.
* **C51 Creating a bucket ends** (partial; `PropTable.v`). `ConcTable.v`; invariants over all schedules. The claim is false: refuted, the hang is permanent; true for calls made one after another, and for all schedules of calls that want the same child (no state from which a call cannot return).
* **C52 Embedded bucket lock is exclusive** (partial; `PropConcEmb.v`). `ConcEmb.v`; invariants over all schedules. False after a Delete; proved for all schedules without Deletes.
* **C53 Embedded concurrent Sets are all readable** (partial; `PropConcApp.v`, `PropConcEmb.v`). `ConcEmb.v`; invariants over all schedules. False when a Set appends beside another Set (two refutations); proved for all schedules without Deletes in which appending Sets run alone.
* **C54 Embedded concurrent Sets of one key store one item** (partial; `PropConcEmb.v`). `ConcEmb.v`; invariants over all schedules. The claim is false: refuted; one item per Set, none lost, for all schedules without Deletes; a Delete makes the key absent if the Sets were of different keys.
* **C55 Range beside concurrent calls** (proved; `PropRange.v`). `ConcRange.v` (a Range beside `ConcModel.v`); invariants over all schedules. All schedules of ConcModel with a Range; default map without UsePool.
* **C56 Range beside concurrent calls: keys, order, deletions** (partial; `PropRange.v`). `ConcRange.v` (a Range beside `ConcModel.v`); invariants over all schedules. Each sub-claim is false: refuted; the conditions under which the first two hold are proved.
* **C57 RMap: concurrent Sets are not lost** (partial; `PropCRMap.v`). `ConcRMap.v`; invariants over all schedules (`ConcRMapProofs.v`). False for overlapping Sets and promotions (two refutations); proved for all schedules with one writer at a time and any number of Gets; Deletes of other keys allowed; dirty map ideal, no hash collisions.
* **C58 RMap: concurrent Gets** (proved; `PropCRMap.v`). `ConcRMap.v`; invariants over all schedules (`ConcRMapProofs.v`). Every schedule of Gets, from every reachable quiet map (whatever Sets, Gets and Deletes made it); no hash collisions, ideal dirty map.
* **C59 RMap: values come from Sets** (proved; `PropCRMap.v`). `ConcRMap.v`; invariants over all schedules (`ConcRMapProofs.v`). All schedules of Sets, Gets and Deletes; dirty map ideal.
* **C60 SearchKey** (proved; `PropSearch.v`). `api_search_key` on `MapModel.v`/`EmbModel.v`; from the refinements of C07 and C20. Default map: all histories; embedded: Set/read histories; refuted after an embedded Delete.
* **C61 Sizing helpers and error codes** (proved; `PropSearch.v`). Pure functions of `Util.v`/`Base.v`; algebra over `Z` for all inputs. 
* **C62 Range in the embedded map** (partial; `PropEmbRange.v`, `PropEmbRange2.v`, `PropEmbRange3.v`). `EmbList.v` (the item list beside `EmbModel.v`); the list is the concatenation of the buckets' pools (`EmbListInv.v`), then C20's refinement; with Purges the list is that one without some marked elements (`PropEmbRange2.v`), beside C23's refinement; with calm Sets each new slot is linked at its place (`PropEmbRange3.v`), beside C42's. All such histories; positions that are bucket boundaries are excluded (there the effect depends on the list package, which is not in the repository); StoreItem of a new key, new keys after Purges and Sets after Deletes that are not calm are not followed.
* **C63 Linearizability of concurrent calls** (proved; `PropLin.v`). `LinSpec.v` (ideal map, linearization of a history), `ConcLin.v`: invariant with a linearization so far; a call takes effect at its last access, a Set or Get at an item deleted meanwhile right before that Delete (`li_before`). Refutations by schedules. Any number of goroutines, any schedule; with both the one-step and the two-step insertion. The conditions are sufficient and neither can be dropped; C48 shows some overlapping insertions that do no harm. In ConcModel the bucket search finds what is in the list (the sequential proof of that is C05).
* **C64 No call on the default map waits for another** (proved; `PropStep.v`). `PropStep.v`: enabledness of each pc from the invariant `cinv`; a measure of the steps left (`left_`) that own steps decrease and other steps raise by no more than the list grows. All schedules, any number of goroutines. A step of ConcModel is one access to the shared state: the mutex around the one store in conf.Options (map.go:1364-1373) and the waits inside the list package are not represented.
* **C65 DumpEntry shows the item list** (proved; `PropDump.v`). `MapDump.v` on `MapModel.v`; the invariants of C07 and a count of items by induction over histories (`PropDump.v`). All histories; the order also for items prepared by the caller; the pointer columns are left out.
* **C66 Pool items handed over by managing goroutines** (proved; `PropMgr.v`). `ConcMgr.v`: callers and the managing goroutine of one pool part as small steps, the latter running `ConcPool.v`; an invariant with a rank that falls with every step of the manager (`PropMgr.v`). One part of the pool (the eight parts share nothing); inside Get the model of C36/C37, run by the managing goroutine; the expansion is one step. Progress is by the steps of the managing goroutine and the caller: the send on an unbuffered channel may be overtaken by other senders.
* **C67 UsePool: calls overtaken by an expansion of the pool** (proved; `PropConcMove.v`). `ConcMove.v`: items with addresses (segment, index), goroutines that find, store, allocate and link as small steps; the specification `viewed` (a fold over what happened) is matched by an invariant over every run (`PropConcMove.v`). The natural claim (a Set or Delete that returned true took effect) is refuted, the exact law proved; lookup, linking and the expansion are one step each, in favour of the code; RepaireSliceAfterCopy is an external library, taken to do what it is for.
* **C68 Embedded Sets between Deletes and Purges** (proved; `PropMix.v`). `MixSpec.v` adds new entries to the lists of PurgeSpec.v; `EmbMix.v` simulates the map by one whose slots behind the ends of the touched buckets are forgotten (relation `drel`), through splits (`make_sim`); induction over the history in `PropMix.v`. C68_mixed: new keys go to untouched buckets (condition read off the dump before each call); C68_sixteenths: a condition on the calls alone that implies it. What happens to new keys in a bucket with deleted keys is C24, C42 and C45.
* **C69 DumpBucketPerLevel lists every bucket of a level once** (proved; `PropLevel.v`). `LevelList.v`: insertion into a level list is a permutation of adding the bucket; the invariant `sinv` of the default map now says that the list of level l holds exactly the existing buckets of level l, once each (`lvok`, kept by every split: `lvok_grow`). `PropLevel.v` reads the statement off. The sorted-list claim is refuted by three splits; what is listed is proved for every history without keys at the two top positions.
* **C70 Gets of the embedded map while a Set splits their bucket** (proved; `PropConcSplit.v`). `ConcSplit.v`: makeBucket2 as five stores, a Get as one step per read of shared memory; any number of Gets. `PropConcSplit.v`: an invariant says what each Get knows (the bounds of its binary search enclose the first position not below its key, or the items have been divided under it); the two refutations are schedules of four keys, found by running the model. The claim that every Get finds its stored key is refuted twice (missed key, crash); who is safe is proved for every schedule of one split.
* **C71 Sets of the embedded map overtaken by a split** (proved; `PropConcSet.v`). `ConcSet.v`: the split as stores, a Set as lookup and, once the lock is free, getWithFn of `EmbModel.v` and the filling of the slot. `PropConcSet.v`: an invariant gives the exact contents of both buckets in every reachable state (`winv`), from the sequential lemmas about pools (`EmbPool.v`); the lost Set is a schedule of four items. The claim that every returned Set is found is refuted; which Sets are found is characterised exactly, for every schedule of one split. getWithFn under the lock is one step here: what two Sets do to each other inside it is C39, C52-C54.
* **C72 RMap: concurrent Deletes** (proved; `PropCRDel.v`). Delete as small steps in `ConcRMap.v`, with the mutex; the self-deadlock is not built in: the second Lock is the same step as everybody's and is never enabled (`lkinv`: who is inside holds the mutex). `PropCRDel.v`: an invariant over the frozen read map; explicit runs of a Set; an invariant `xinv` beside that of C57 for keys that are gone; a schedule for the refutation. The dirty map is ideal; that the promoted keys stay and that Deletes do not return assumes that no first Set is still about to store the empty read map; C72_deleted and finding the key assume no hash collisions; whether a miss rebuilds is chosen by the schedule.
* **C73 Embedded Sets beside bucket splits** (partial; `PropConcEmbSplit.v`). `ConcEmbSplit.v`: a list of buckets, each a bucket of `ConcEmb.v`, with lookup, insertion and split. `PropConcEmbSplit.v`: an invariant gives each bucket one of the stages of C38/C53 (empty, first key, inserting, appending; `stage`), each kept by a step of one bucket (`stage_step`) and handed to both halves by a split (`split_spec`); the two refutations are one schedule. The claim is false: refuted; proved under the condition given in the property, on every state of the run. The lookup and the split are one step each (C70 and C71 follow their stores); a split that moves nothing leaves no empty bucket behind in this model.
* **C74 Pool.Put does not return** (proved; `PropPut.v`). `PropPut.v`: Put as a fuelled recursion over segments, Next an arbitrary function; induction on the fuel. The natural claim is refuted; UseGoroutineInPool off.
* **C75 Next and Prev of an item** (proved; `PropCursor.v`). `PropCursor.v`: an item is a place in the item list of `MapModel.v`; the bindings in order of C10 are split at the place LoadItem finds. While the map is not changed between the calls; covered histories as in C07.
* **C76 Embedded Set is found by Get** (partial; `PropAfter.v`). `PropAfter.v`, as C42; calm Sets keep the pool in order (`EmbCalm.v`): which slot the new key takes in a pool with deleted slots (`taken` of `EmbAfter.v`), and what the search sees afterwards; refuted by evaluation in general. Natural claim refuted; exact for a new key put into a bucket below its maximum where keys were deleted, after any number of calm Sets, if it displaces no key; what every key reads after such a history; missing: what follows a Set that is not calm, splits of such a bucket, and the displacing Sets.
* **C77 Range whose callback changes the map** (proved; `PropReent.v`). `PropReent.v`: Range's place in the item list is followed through the calls of a callback program (`exec`, `step_at`: an element put before it moves it up); specification `ranges` over the abstract map of Spec.v. Invariant `standing`: the present items at or behind the place are those of position at least `from`; one call keeps the followed item, its position and whether it is live (`step_cursor`). Termination by the bound on positions. The callback is any well-founded program of calls. The item Range stands on is followed through every call by its place in the item list. Natural claim (no key is shown twice) refuted; exact law proved. Without item pool (UsePool(false) and a BucketMode other than CombineSearch4, which is what the cases where items move need)..
* **C78 Items the caller keeps** (proved; `PropHandle.v`). `PropHandle.v`: a kept item is a type and a place in the item list, moved by calls like the place of Range in C77 (`step_at`); specification: Spec.v's map with a heap of objects (`om_step`, `ostep`). Simulation `hrel`: every object has its own element of the item list (an injective `pos`) with its value, key and deletion mark, and is the object of exactly the code that element carries while present. A call of the map keeps this (`obj_step`, from `step_cursor` of C77: the followed element is unchanged, deleted or assigned), a new binding gets the element `bound_code` finds; the caller's item of a StoreItem is the element `add_item` links, moved by a sentinel perhaps (`set_put`); SetValue and Delete through a kept item replace one element (`upd_rel`, `holds_replace`, `holds_dead`). C78_kept_items: all answers equal the map-of-objects specification's, for every covered history. C78_live and C78_gone_stays: what that means for a kept item that is, or is no longer, its key's item. C78_stays_attached_refuted: the natural claim that a kept item keeps reading what Get answers fails after Delete and Set of the key. The caller's item of a StoreItem whose key is present is not linked into the map and not followed; item pools and embedded maps are not part of this property..
* **C79 Kept items of the embedded map** (proved; `PropEmbHandle.v`). `EmbHandle.v`, `PropEmbHandle.v`: a kept item is a bucket and an index, or the number of a slot that is out of use; `moves` says, from the state before a Set, where each kept item is after it: `new_array` follows getWithFn and tells whether the array is copied (then all kept items of the bucket go to slots out of use), `split_place` follows the rounds of makeBucket2 with _split sharing the array. Proof: `set_new_place` shows that a kept item still in the map is at a slot with its key's hash pair after the Set (through `split_place_ok`, by induction on the rounds, and `same_array`), or is out of use, and is out of use when a key above the new one is in the bucket (`new_array_below`). Invariant `Inv` (refinement `erel` of EmbRefine.v, and every kept item is at its pair's slot or out of use) over all histories; C79_current_or_orphan, C79_stays_current and C79_shoved_out read off it; C79_calls_keep compares the slots before and after, with `moves_out` for the slots of an array that goes out of use. The refutations are concrete runs. C79_current_or_orphan: the law. C79_stays_current and C79_shoved_out: when an item is one or the other. C79_calls_keep: what it shows through the calls of the map, in particular the one that takes it out. Which of the two holds after a Set that stores a new key last in the bucket depends on the array's capacity, which no call shows; the theorems leave it open, as the property does. C79_kept_item_refuted and C79_recycled_refuted: the two natural claims fail in the model..
* **C80 DumpBucketPerLevel in the embedded mode** (proved; `PropEmbLevel.v`). `EmbLevel.v`: a bucket is *shown* if it exists and has a link to the level list or is in the bucket list; invariant `el`: the list of level l is a permutation of the shown buckets of level l, and the first child of every shown bucket is shown. A round of makeBucket2 either makes a bucket that is not linked (`ext_dead`) or links it and adds it to its list (`elv_link`, over `round_first` of EmbHandle.v); bucketFromPoolEmbedded adds what it makes on the way (`bfpe_lv`). `PropEmbLevel.v` reads the statement off, with the tree invariant of `EmbInv.v` for the boundaries. What is listed is proved for every history of Sets of string keys without collisions and reads; the sorted-list claim is refuted by a history of sixty Sets.
* **C81 FindBucket** (proved; `PropFind.v`). `PropFind.v`: from the tree invariant (`trie_ok`), by induction over the levels `_findBucket` goes down (`find_loop_max`, `find_bucket_near` of EmbTrie.v): no boundary that is a multiple of 16, or lies in another block of 16 than the position, is passed over; where the last level is not searched, the block's own boundary is in the list. Embedded mode: the list with the buckets that are not linked (`ext`), and the pool of the bucket a position is routed to. The natural claim is refuted by eighty Sets of consecutive positions; what holds instead is proved for both modes, as the property says in brackets.
* **C82 DumpEntry in the embedded mode** (partial; `PropEmbDump.v`). `PropEmbDump.v`: the list is `flat` (C62): for each bucket its sentinel, then its slots; the lines by induction over the bucket list (`flat_sentinels`, `flat_items`, `flat_sorted`); the items are the finite map by `erel`, and the number of its keys is Len() by induction over the history (`counts_run`). Deletes and updates: no column depends on the deleted mark or the value (`eline_upd`), for any list. The first sentence is proved for Sets of string keys without hash collisions that return and write no position that is a bucket boundary at the end (as C62; C62_boundary_case shows that the model does not follow the list otherwise); StoreItem and Purge are missing. That Deletes, reads and Sets of keys that are found leave the output as it is is proved for every state; that a deleted item be not listed is refuted.
