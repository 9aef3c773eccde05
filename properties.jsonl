{"id": "C01", "title": "Hash order is a bijection", "statement": "The position an item gets in the map (its bit-reversed hash) determines the hash and vice versa: for every 64-bit hash k the item's KeyInHmap() equals k, and two different hashes never get the same position.", "quantifier": "every 64-bit hash value / every pair of hash values", "why_tests_cant": "2^64 values (2^128 pairs) cannot be enumerated", "anchors": ["maphead.go:KeyInHmap", "map.go:_set (bits.Reverse64)"]}
{"id": "C02", "title": "Key aliasing is exactly hash-pair equality", "statement": "Get/Set/Delete identify keys only through KeyToHash: integer keys of one Go type never alias each other, two integer keys of different types alias exactly when their 64-bit patterns agree, nil aliases integer 0, strings and byte slices alias exactly when both of their 64-bit hashes agree, and unsupported key types panic. (The natural claim 'different Go keys are different map keys' is false.)", "quantifier": "all keys of all supported types", "why_tests_cant": "needs all pairs of keys over all types", "anchors": ["hashfn.go:KeyToHash"]}
{"id": "C03", "title": "Pool growth always makes room", "statement": "PoolCap(n) is strictly larger than n for every n >= 0, never smaller than for a smaller n, and never more than 2n+2 (no runaway allocation).", "quantifier": "every non-negative length", "why_tests_cant": "the function is piecewise with a loop and integer division; the test samples 12 lengths", "anchors": ["util.go:PoolCap", "util.go:intPow", "map.go:conf"]}
{"id": "C04", "title": "Midpoint and nearest-bucket arithmetic", "statement": "halfUint64(a,b) never wraps, lies between its arguments, is symmetric and splits the interval into parts that differ by at most one; nearUint64(a,b,d) always returns the one of a,b at the smaller distance from d (a on ties); absDiffUint64 is the true distance.", "quantifier": "all 64-bit triples", "why_tests_cant": "boundary and wrap cases over 2^192 triples", "anchors": ["util.go:halfUint64", "util.go:nearUint64", "util.go:absDiffUint64"]}
{"id": "C05", "title": "Read your writes (default map)", "statement": "In a map created without UseEmbeddedPool, after Set(k,v) or StoreItem(item) returns true for a key whose reversed hash is not currently listed as a bucket boundary by DumpBucket (and whose hash is not 2^63-1 or 2^64-1), Get(k), GetByHash and LoadItem return that value, whatever operations came before and whichever search mode and MaxPefBucket are configured.", "quantifier": "every history of calls whose stored items are fresh and whose stored hashes are not 2^63-1 or 2^64-1, every key (hash pair) that is not written while absent at a bucket boundary and has no 64-bit collision with another written key, every value, search mode and bucket size", "why_tests_cant": "must hold after every history, including every bucket-split pattern", "anchors": ["map.go:Set", "map.go:StoreItem", "map.go:_set", "map.go:Get", "map.go:_searchBybucket", "map.go:makeBucket"]}
{"id": "C06", "title": "Which acknowledged writes are readable", "statement": "On the default map, after Set or StoreItem of a new key returned true, Get finds it with the written value exactly if the bit-reversed hash of the key was no bucket boundary (DumpBucket) at that moment; a key on a boundary is found by no Get or LoadItem and Delete reports false. (The natural claim, that every acknowledged write is readable, is false and refuted: it already fails for key 1 on a new map.)", "quantifier": "every history of the default map, every new key with a hash below 2^60, every configuration", "why_tests_cant": "the failing keys are 1 in 2^60 for random hashes but include the integer keys 0..15", "anchors": ["map.go:_searchBybucket (equal branch)", "map.go:add2", "map.go:initBeforeSet"]}
{"id": "C07", "title": "The default map is a map", "statement": "For every history of Set, StoreItem, Get, GetByHash, LoadItem, Delete and Purge on a map without UseEmbeddedPool, over keys without 64-bit hash collisions and away from bucket boundaries at insertion time, every return value equals that of an abstract key/value map.", "quantifier": "every finite history of API calls, every configuration", "why_tests_cant": "histories are unbounded and splits depend on the whole history", "anchors": ["map.go:Set", "map.go:StoreItem", "map.go:Get", "map.go:Delete", "map.go:Purge", "map.go:LoadItem"]}
{"id": "C08", "title": "Operations on one key do not disturb another", "statement": "Set, StoreItem, Delete or Purge of one key never changes what Get returns for another key with a different hash - even if the call stores a boundary key, a key that collides with a third one, or splits buckets.", "quantifier": "every history of calls (stored items fresh, stored hashes not 2^63-1 or 2^64-1), every operation, every other key that was itself written without collision and away from boundaries", "why_tests_cant": "quantifies over all states and all other keys", "anchors": ["map.go:_set", "map.go:makeBucket", "map.go:Delete"]}
{"id": "C09", "title": "Delete removes exactly one readable key", "statement": "In the default map Delete(k)/Purge(k) returns true exactly when Get(k) would find k; afterwards (without hash collisions) Get(k) reports not found and a second Delete(k) returns false; Delete of an absent key changes nothing.", "quantifier": "every history of calls (as for C05), every key written without collision and away from boundaries", "why_tests_cant": "over all histories", "anchors": ["map.go:Delete", "map.go:Purge", "map.go:LoadItem"]}
{"id": "C10", "title": "Range visits live items once, in order", "statement": "Range/RangeItem call f once for each stored, not deleted item, in non-decreasing order of reversed hash, and stop exactly after the first call that returns false.", "quantifier": "every reachable state of the default map, every callback", "why_tests_cant": "order and exactly-once over all histories and split patterns", "anchors": ["map.go:RangeItem", "map.go:Range"]}
{"id": "C11", "title": "Len law", "statement": "On the default map Len() is the number of items Range reports plus the number of Deletes and Purges that returned true; so without deletions it is the number of stored items. (The natural claim, that Len() is the number of keys, is false and refuted: Delete never decreases it.)", "quantifier": "every history of calls on the default map, every configuration", "why_tests_cant": "counts over arbitrary histories", "anchors": ["map.go:Len", "map.go:_set", "map.go:Delete"]}
{"id": "C12", "title": "Configuration does not change results", "statement": "Two default maps that differ only in MaxPefBucket, BucketMode or UsePool give the same results for the same history (away from boundaries and collisions); in particular splitting a bucket is invisible to Get and Range.", "quantifier": "every pair of configurations and every history", "why_tests_cant": "pairs of runs over all histories", "anchors": ["map.go:makeBucket", "map.go:bucketFromPool", "map.go:searchBucket4Key4", "map.go:_findBucket"]}
{"id": "C13", "title": "Sentinels stay at the ends", "statement": "First() is always the sentinel with hash 0 and Last() always the sentinel with hash 2^64-1, for every history.", "quantifier": "every reachable state", "why_tests_cant": "over all histories, the test checks one", "anchors": ["map.go:First", "map.go:Last", "map.go:initBeforeSet"]}
{"id": "C14", "title": "Value update rules", "statement": "Set on an existing item holding a SampleItem: with nil returns false and leaves the value; with a value of the stored dynamic type replaces it; with another dynamic type panics leaving the map unchanged. The value read back is never a value that was not stored for that key.", "quantifier": "every reachable state, key, value", "why_tests_cant": "all states and dynamic types", "anchors": ["sample_hmap_entry.go:SetValue", "map.go:_update", "map.go:Set"]}
{"id": "C15", "title": "Unsupported keys fail cleanly", "statement": "On a default map, Set of a new non-string key panics, and any operation with an unsupported key type panics; the map contents (Get, Range, Len) are unchanged by the failed call.", "quantifier": "every reachable state and key", "why_tests_cant": "all states", "anchors": ["map.go:Set (key.(string))", "hashfn.go:KeyToHash"]}
{"id": "C16", "title": "StoreItem of a Setup() item", "statement": "On the default map StoreItem of NewSampleItem(k,v).Setup() under a key that is not found returns true, and Get(k) still does not find it, unless the hash of k is a bit palindrome; without Setup() it is found (C05). (The natural claim, that any prepared item can be stored and read back, is false and refuted: Setup records the unreversed hash as position.)", "quantifier": "every history of the default map, every key, value and configuration", "why_tests_cant": "depends on the hash of the key", "anchors": ["sample_hmap_entry.go:Setup", "map.go:_set (CompareAndSwap of reverse)"]}
{"id": "C17", "title": "Default map calls do not crash", "statement": "After every history on the default map whose stored hashes avoid 2^63-1 and 2^64-1 a call panics exactly if its key is of no supported type, or it is a Set that would create a key that is not a string, or it writes a present key with a value of another dynamic type than the one stored while the map reads its items as SampleItems (it was made so, or a Set has created a key). Without the restriction calls with supported keys and values of one type can crash: the key math.MaxInt64 after repeated StoreItem/Delete.", "quantifier": "every history, every call", "why_tests_cant": "needs thousands of operations on chosen keys", "anchors": ["map.go:makeBucket (panic bucket head empty)", "map.go:addBucket"]}
{"id": "C18", "title": "Options and their undo", "statement": "The options returned by Options() restore the previous configuration when applied last first, and also in the order returned if none is repeated, for MaxPefBucket, BucketMode and ItemFn. (The natural claim, that this holds for every list of options, is false and refuted for UsePool, UseEmbeddedPool and repeated options.)", "quantifier": "every list of these options and every configuration", "why_tests_cant": "all combinations of options", "anchors": ["map.go:Options", "map.go:UsePool", "map.go:UseEmbeddedPool", "map.go:ItemFn"]}
{"id": "C19", "title": "Items are read back with their own type", "statement": "LoadItem and Range show a stored item with its own key exactly if the item's type is the type the map reads with, and otherwise show its value with no key. The map reads with the type given by ItemFn (entryHMap for New()) until a Set creates a key, and with SampleItem from then on. (So the natural claim, that items keep their key, is false, e.g. for the README's StoreItem(&SampleItem{}) on New().)", "quantifier": "every covered history of calls, every key, every Range callback", "why_tests_cant": "all mixes of item kinds and moments", "anchors": ["map.go:ItemFn", "map.go:RangeItem", "maphead.go:fromMapHead", "bucket.go:entry"]}
{"id": "C20", "title": "The embedded map is a map for Set/Get", "statement": "In a map created with UseEmbeddedPool(true) and MaxPefBucket >= 16, for every history of Set (string keys), Get, GetByHash, LoadItem, LoadItemByHash and Len over keys without 64-bit hash collisions, every call that returns gives the answer of an abstract map. For smaller MaxPefBucket the same holds as long as no block of 16 consecutive positions (bit-reversed hashes with the same upper 60 bits) is written with more than MaxPefBucket different keys. (False without that bound: a bucket of 16 positions is then asked to split and its keys are lost.)", "quantifier": "every history of Set/Get, every bucket size", "why_tests_cant": "unbounded histories of inserts, pool growth and splits", "anchors": ["map.go:Set", "map_embedded.go:getWithFn", "map_embedded.go:insertToPool", "map_embedded.go:expand", "map_embedded.go:makeBucket2", "map_embedded.go:_split", "map_embedded.go:bsearchBybucket"]}
{"id": "C21", "title": "When an embedded lookup does not come back", "statement": "In the embedded map every lookup returns, after every part of a history of Set and reads, exactly if the history is balanced: no aligned interval of 2^m hash positions (m at most 60) ever holds more keys than MaxPefBucket with all of them in one half. At the first moment that fails, the Set itself returns, and exactly the lookups in the upper half of such an interval never return. (The unconditional claim that every Get returns is false.)", "quantifier": "every history of Set and reads of string keys with pairwise different hashes, every bucket size from 16, every later lookup", "why_tests_cant": "needs skewed hashes (probability 2^-32 for the default size)", "anchors": ["map_embedded.go:makeBucket2", "bucket.go:itemPool"]}
{"id": "C22", "title": "Embedded Delete, exactly", "statement": "In the embedded map Delete(k) of a stored key returns true, and k is then absent unless it is the first key of its bucket, in which case nothing observable changes; every other key is as before. After several Deletes, reads and updates the map is the one without the deleted keys that were not first of their bucket. (The natural claim, that Delete hides the key, is false and refuted.)", "quantifier": "every history of Sets and reads without hash collisions, followed by any Deletes, reads and updates", "why_tests_cant": "depends on the position in the bucket", "anchors": ["map_embedded.go:_at", "map_embedded.go:bsearchBybucket", "map.go:Delete"]}
{"id": "C23", "title": "Embedded Delete and Purge: what they remove", "statement": "In the embedded map, after any history of Sets and reads, every sequence of Delete and Purge calls, reads and Sets of readable keys behaves exactly as follows, buckets being lists of entries by position. A key can be read if its entry is not marked or is the first of its bucket. Delete, and Purge of an entry that is not the last of its bucket, mark the entry; Purge of the last entry removes it and, if the one before is marked, that one and also the one before that, marked or not. (The natural claim, that Purge leaves every other key readable, is false and refuted; it fails exactly in that last case.)", "quantifier": "every history of Sets and reads without hash collisions followed by every sequence of Deletes, Purges, reads and Sets of readable keys, as far as the calls return", "why_tests_cant": "needs a particular purge order", "anchors": ["map_embedded.go:shrinkLen", "map.go:purgeInEmbedded"]}
{"id": "C24", "title": "Embedded Set after Purge", "statement": "In the embedded map, Purge(k) of a stored key answers true; a following Set(k,v) then behaves exactly so: if k is the first but not the last key of its bucket, the Purge had no effect and the Set is an update; if k is the last but not the first, the Set answers true and k stays absent for every later read; otherwise k is readable again and v was assigned over the value k had before the Purge (so nil leaves the old value, another type panics). The natural claim, that Set after Purge makes k readable with v, is false and refuted.", "quantifier": "every history of Sets and reads without hash collisions, every key, value and following reads", "why_tests_cant": "needs a particular history and position in the bucket", "anchors": ["map_embedded.go:appendLast", "map.go:Set", "map.go:purgeInEmbedded"]}
{"id": "C25", "title": "Embedded bucket pools are sorted and within capacity", "statement": "For every Set/Get history on the embedded map each bucket's items are sorted strictly by reversed hash, lie in the bucket's hash interval, and their number never exceeds the allocated capacity; no slot is handed out twice.", "quantifier": "every reachable state", "why_tests_cant": "invariant over all histories", "anchors": ["map_embedded.go:getWithFn", "map_embedded.go:_split", "map_embedded.go:expand"]}
{"id": "C26", "title": "RMap never loses a key", "statement": "For every history of Set and Get calls on an RMap over keys without collisions and away from bucket boundaries, Get of every key that was Set reports ok (does not panic).", "quantifier": "every history", "why_tests_cant": "promotion from dirty to read depends on the whole history", "anchors": ["rmap/rmap.go:Set2", "rmap/rmap.go:Get2", "rmap/rmap.go:storeReadFromDirty", "rmap/rmap.go:missLocked"]}
{"id": "C27", "title": "RMap: which Set wins", "statement": "In an RMap an acknowledged Set(k,v) with v not nil is what the next Get(k) returns, unless Get already returned k as a promoted key; the value of a promoted key never changes again, whatever Sets follow, though they answer true. (The natural claim, that the last Set wins, is false and refuted.)", "quantifier": "every history of an RMap without hash collisions and boundary keys in which no call blocked", "why_tests_cant": "depends on promotion history", "anchors": ["rmap/rmap.go:store2"]}
{"id": "C28", "title": "RMap: Get of a missing key", "statement": "In an RMap Get of a key that was never set changes nothing and either panics or returns (nil,false); it panics as long as Len() is not 0 and as long as nothing was ever set. (The natural claim, that it returns ok=false, is false and refuted; with a colliding hash it even reports ok=true.)", "quantifier": "every history of an RMap without hash collisions and boundary keys in which no call blocked", "why_tests_cant": "depends on hidden state", "anchors": ["rmap/rmap.go:getDirty", "rmap/rmap.go:Get2"]}
{"id": "C29", "title": "RMap: Delete", "statement": "RMap.Delete never returns true, in any state. For a promoted key it panics and changes nothing. For a key that is not promoted it returns false or never returns, and never returns if it is the only such key; if it returns, the next Get of the key panics and Len() is one less. (The natural claim, that Delete of a present key returns true and removes it, is false and refuted.)", "quantifier": "every state, resp. every history of an RMap without hash collisions and boundary keys in which no call blocked", "why_tests_cant": "every state", "anchors": ["rmap/rmap.go:Delete", "rmap/rmap.go:missLocked"]}
{"id": "C30", "title": "RMap: Get returns the value or its holder", "statement": "In an RMap, Get of a key to which only v was Set and which was not deleted returns ok=true and either v or the atomic.Value holder of v. (The natural claim, that it returns v, is false and refuted: a promoted key returns the holder.)", "quantifier": "every history of an RMap without hash collisions and boundary keys in which no call blocked", "why_tests_cant": "depends on promotion history", "anchors": ["rmap/rmap.go:Get2"]}
{"id": "C31", "title": "RMap: Len", "statement": "RMap.Len() is the number of different keys that Get finds and returns without holder. (The natural claim, that it is the number of keys, is false and refuted: promotion replaces the counted map by an empty one.)", "quantifier": "every history of an RMap without hash collisions and boundary keys in which no call blocked", "why_tests_cant": "depends on promotion", "anchors": ["rmap/rmap.go:Len", "rmap/rmap.go:storeReadFromDirty"]}
{"id": "C32", "title": "Concurrent Sets of different keys all take effect", "statement": "If several goroutines Set different new keys concurrently on a default map and all return true, every key is readable afterwards. (False: an insert whose position check fails because of a neighbour inserted meanwhile is silently dropped.)", "quantifier": "every schedule", "why_tests_cant": "interleavings", "anchors": ["map.go:add2", "util.go:inserBeforeWithCheck"]}
{"id": "C33", "title": "Order and persistence under every schedule", "statement": "For every number of goroutines and every interleaving of their Set/Get/Delete steps on a default map (list insertion with its order check being one step), the item sequence stays sorted, an inserted item never disappears, and a Get never returns a value that was not stored for a key with the same hash pair.", "quantifier": "every schedule, any number of goroutines", "why_tests_cant": "unbounded interleavings", "anchors": ["map.go:_set", "map.go:add2", "util.go:inserBeforeWithCheck"]}
{"id": "C34", "title": "Concurrent Sets of the same key store one entry", "statement": "Two concurrent Sets of one new key leave one entry, so one Delete makes it absent. (False: both can insert, and the other copy survives the Delete.)", "quantifier": "every schedule", "why_tests_cant": "interleavings", "anchors": ["map.go:Set", "map.go:_set"]}
{"id": "C35", "title": "Search options do not leak", "statement": "Internal search options are restored: after any sequential history the global ignore-sentinels option has its initial value. (Under concurrency this is false: two overlapping inserts can leave it changed for ever.)", "quantifier": "every history; every schedule", "why_tests_cant": "interleavings of the option save/restore", "anchors": ["map.go:find", "map.go:ignoreBucketEntry", "map.go:Options (searchOpt)"]}
{"id": "C36", "title": "Pool slots are handed out once under every schedule", "statement": "With UsePool, for every interleaving of concurrent allocations from one pool segment no slot is handed to two callers and the length never exceeds the capacity. (Slots are handed out once after the segment was set up; false while two goroutines set it up at once. The length can pass the capacity, and then an allocation crashes: for every number of slots n some schedule of n+1 allocations does so, and no schedule of at most n.)", "quantifier": "every schedule, any number of goroutines", "why_tests_cant": "unbounded interleavings", "anchors": ["pool2.go:Get", "pool2.go:init"]}
{"id": "C37", "title": "Pool allocation cannot deadlock", "statement": "With UsePool concurrent Sets always make progress. (False: two goroutines racing for the last slot of a segment can leave one waiting for the mutex it holds itself. True for allocations made one after another, and, whatever the schedule, for at most as many allocations as the segment has slots: then nobody ever waits and c allocations take at most 8c+6c^2 steps together; with one allocation more there is always a schedule that deadlocks.)", "quantifier": "every schedule", "why_tests_cant": "needs one precise interleaving", "anchors": ["pool2.go:Get", "pool2.go:_expand"]}
{"id": "C38", "title": "Embedded Get during Sets of other keys finds present keys", "statement": "In the embedded map a Get concurrent with Sets of other keys finds every key that was stored before it started. (False, even without a split: while another Set has inserted its slot and not yet filled it, the binary search can miss a neighbour. True for every schedule of Sets, without Deletes, in which a Set of a key above all keys of the bucket runs alone, whenever no Set is between these two steps, and at every moment for keys above the one that is being stored.)", "quantifier": "every schedule, any number of goroutines", "why_tests_cant": "interleavings", "anchors": ["map_embedded.go:bsearchBybucket", "map_embedded.go:insertToPool", "map.go:Set"]}
{"id": "C39", "title": "Embedded Set releases its bucket lock", "statement": "In the embedded map every Set that returns has released the bucket lock. (False: if the bucket fills between the state check and the append, the lock is kept for ever, and from then on no Set of a key of this bucket, new or present, returns. True for calls made one after another, and for every schedule of Sets in which a Set of a key above all keys of the bucket runs alone.)", "quantifier": "every schedule, any number of goroutines", "why_tests_cant": "interleavings", "anchors": ["map_embedded.go:getWithFn", "map_embedded.go:appendLast", "map.go:Set"]}
{"id": "C40", "title": "Child tables are initialised once under every schedule", "statement": "However many goroutines create buckets below the same bucket concurrently, its child table is allocated by at most one of them and every child is initialised by exactly one of them. (The table: true. A child: true if all want the same child of an empty table, or the calls are made one after another; false in general.)", "quantifier": "every schedule, any number of goroutines", "why_tests_cant": "unbounded interleavings", "anchors": ["map.go:bucketFromPool", "map.go:makeBucket"]}
{"id": "C41", "title": "Log levels", "statement": "With log level Info, a message is written exactly if its level is Debug or Info; Warn and Error messages are not written; a Fatal message panics. (The natural claim, that Warn and Error are written, is false and refuted: the comparison is inverted.)", "quantifier": "every level", "why_tests_cant": "small finite domain, but no test captures the writer", "anchors": ["debug.go:Log"]}
{"id": "C42", "title": "Embedded Set after Delete keeps other keys", "statement": "In the embedded map Set of one key never changes what Get returns for another key. (False after a Delete: inserting behind a deleted slot breaks the order of the bucket and hides a neighbour; true when no Delete or Purge came before. Sets and reads may be followed by Deletes, reads, Sets of readable keys and calm Sets of unreadable keys into buckets below their maximum: those that take the place of the deleted entry directly below or at their own position, or whose next entry above is not deleted, or that have none above and displace nothing. Calm Sets change no other key, however often they come. A Set of a new key that is not calm hides exactly this one key: the last key of the bucket that is not deleted, if the new key lies above it and the entry directly before it is deleted and not the first of the bucket. That the new key lies below a readable key of its bucket is not enough.)", "quantifier": "every history", "why_tests_cant": "depends on the position of the deleted slot", "anchors": ["map_embedded.go:insertToPool", "map_embedded.go:getWithFn", "map.go:Set"]}
{"id": "C43", "title": "Embedded Set that panics", "statement": "In the embedded map Set of a new key that is not a string panics, and afterwards Get of that key reports it as present with the value nil. (The natural claim, that a failed Set leaves no trace, is false and refuted.)", "quantifier": "every history of Sets and reads without hash collisions that returned, every key and value", "why_tests_cant": "every state", "anchors": ["map.go:Set", "map_embedded.go:getWithFn"]}
{"id": "C44", "title": "Embedded StoreItem", "statement": "In the embedded map, after StoreItem of a key that is not stored returned true, Get of the key does not find it. (The natural claim, that it is found, is false and refuted: the item is linked in the list, but no pool search finds it.)", "quantifier": "every history of Sets and reads without hash collisions that returned, every item", "why_tests_cant": "every state", "anchors": ["map.go:StoreItem", "map.go:_set", "map_embedded.go:bsearchBybucket"]}
{"id": "C45", "title": "Embedded Set after Delete", "statement": "In the embedded map, Delete(k) of a stored key answers true; a following Set(k,v) then behaves exactly so: if k is the first key of its bucket it was not removed and the Set is an update; if k is neither first nor last, k is readable again and v was assigned over the deleted value (Set(k,nil) brings the deleted value back); if k is the last but not the first, k is stored with v and nothing else changes, whether or not the Set splits the bucket; with MaxPerBucket 16 this last case needs that no sixteen neighbouring positions are all taken or that the bucket is not full (otherwise other keys are lost: refuted). The natural claim, that Set of an absent key stores v, is false and refuted.", "quantifier": "every history of Sets and reads without hash collisions, every key, value and following reads", "why_tests_cant": "needs a reused slot", "anchors": ["map.go:Set", "sample_hmap_entry.go:SetValue", "map_embedded.go:insertToPool"]}
{"id": "C46", "title": "Embedded keys with equal 64-bit hash: the newest wins", "statement": "In the embedded map two keys with the same 64-bit hash and different conflict hashes do not coexist: at each 64-bit hash exactly the pair stored last can be read; storing another pair there makes the older one unreadable and counts as a new entry in Len, and storing the older one again brings it back as a new entry. This for every history of Set and reads in which no block of 16 consecutive positions gets more than MaxPefBucket entries. (The claim that both keys can be read is false; without the bound the law itself is false.)", "quantifier": "every history of Set and reads, every bucket size", "why_tests_cant": "needs a 64-bit collision", "anchors": ["map_embedded.go:bsearchBybucket", "map_embedded.go:getWithFn"]}
{"id": "C47", "title": "RMap: reads promote", "statement": "Reading one not yet promoted key of an RMap Len() times promotes every key: Len() is then 0 and every key that was found is found with the same value, from then on in its holder.", "quantifier": "every history over keys without collisions and away from bucket boundaries, every such key", "why_tests_cant": "the threshold depends on the whole history", "anchors": ["rmap/rmap.go:missLocked", "rmap/rmap.go:isNotRestoreRead", "rmap/rmap.go:storeReadFromDirty"]}
{"id": "C48", "title": "Concurrent Sets far apart do not disturb each other", "statement": "Two goroutines that Set two new keys whose positions are in different top-level buckets both succeed: both keys are readable afterwards. (False: a Set can be lost because of a concurrent Set anywhere in the map, through the global search option.)", "quantifier": "every schedule", "why_tests_cant": "needs one precise interleaving of unrelated calls", "anchors": ["map.go:find", "map.go:ignoreBucketEntry", "util.go:inserBeforeWithCheck"]}
{"id": "C49", "title": "Len under concurrency", "statement": "Whenever no call is running, Len() is at least the number of items that were stored and are still linked, deleted ones included, for every history of concurrent calls. (It is not exact: a Set that was dropped is counted.)", "quantifier": "every schedule, any number of goroutines", "why_tests_cant": "unbounded interleavings", "anchors": ["map.go:_set", "map.go:Len"]}
{"id": "C50", "title": "Items obtained with UsePool", "statement": "With UsePool an item returned by LoadItem stays the item of its key in the map exactly until a Set replaces the full pool segment that holds it; the first replacement is at the 65th item. (The natural claim, that it stays until the key is deleted, is false and refuted.)", "quantifier": "every history of allocations of a pool segment", "why_tests_cant": "needs more than 64 items and a retained pointer", "anchors": ["pool2.go:_expand", "pool2.go:Get"]}
{"id": "C51", "title": "Creating a bucket ends", "statement": "A Set that creates a bucket returns, whatever other Sets ran before or run at the same time. (False: two Sets creating different children of one bucket can leave its count behind its length, and then every Set that needs a child beyond that length never returns. True for Sets made one after another; and if all want the same child of an empty table, every call can return from every state of every schedule.)", "quantifier": "every schedule, any number of goroutines", "why_tests_cant": "needs one precise interleaving; the effect is a later endless loop", "anchors": ["map.go:bucketFromPool", "map.go:makeBucket"]}
{"id": "C52", "title": "Embedded bucket lock is exclusive", "statement": "In the embedded map only the goroutine that holds a bucket's lock changes its items, and only it releases the lock. (False after a Delete: a Set that reuses a deleted slot while another Set holds the lock goes on without it and releases it all the same. True without Deletes.)", "quantifier": "every schedule, any number of goroutines", "why_tests_cant": "interleavings", "anchors": ["map_embedded.go:getWithFn", "map_embedded.go:lazyUnlock"]}
{"id": "C53", "title": "Embedded concurrent Sets are all readable", "statement": "In the embedded map, after concurrent Sets of different new keys have returned true, a Get finds each of them. (False: two Sets that both decide to append can append in the wrong order, and then one is not found; this can happen as soon as one of them is of a key above all keys of the bucket, whatever the other's key. True for every schedule, without Deletes, in which such a Set runs alone.)", "quantifier": "every schedule, any number of goroutines", "why_tests_cant": "interleavings", "anchors": ["map_embedded.go:state4get", "map_embedded.go:appendLast", "map_embedded.go:insertToPool", "map.go:Set"]}
{"id": "C54", "title": "Embedded concurrent Sets of one key store one item", "statement": "In the embedded map, after concurrent Sets of the same new key have returned, a Delete of it makes it absent. (False: both store an item, and the second is found after the Delete of the first. For every schedule without Deletes each Set that found its key absent stores exactly one item and no item is lost or overwritten; so if these Sets were of different keys, a Delete of any item but the first of the bucket makes it absent.)", "quantifier": "every schedule, any number of goroutines", "why_tests_cant": "interleavings", "anchors": ["map.go:Set", "map_embedded.go:insertToPool"]}
{"id": "C55", "title": "Range beside concurrent calls", "statement": "A Range that runs while other goroutines (or its callback) call Set, Get and Delete calls f at most once per item and in the order of the item list; if f never stops it, it reports every item that was in the map when it was called and is not deleted when it ends; every item it reports was in the map at some moment of the Range, with the value reported being its value at some moment of the Range and the argument of a Set of that key; an item deleted before the call is never reported.", "quantifier": "every schedule, any number of goroutines, every callback", "why_tests_cant": "interleavings of a traversal with insertions; unbounded", "anchors": ["map.go:RangeItem", "map.go:Range", "maphead.go:IsIgnored"]}
{"id": "C56", "title": "Range beside concurrent calls: keys, order, deletions", "statement": "A Range beside concurrent calls reports no key twice, in ascending order of the bit-reversed hash, and never an item whose Delete has returned. (Each is false: concurrent Sets of one new key leave two items and both are reported; an insertion between another one's order check and its linking leaves the list out of order; a Delete between the test and the call of f is missed. The first holds for all schedules without Deletes and without simultaneous additions of the same key, the second if check and insertion are one step.)", "quantifier": "every schedule, any number of goroutines", "why_tests_cant": "interleavings", "anchors": ["map.go:RangeItem", "map.go:Range", "util.go:inserBeforeWithCheck"]}
{"id": "C57", "title": "RMap: concurrent Sets are not lost", "statement": "After Set(k,v) on an RMap has returned, a Get of k finds k, with a value that was Set for it, whatever Sets and Gets other goroutines run, and until a Delete of k is called. (False: of two first Sets one can overwrite the read map that holds the other's key; a Set that holds the dirty map while a Get promotes and replaces it stores into the replaced map. True, at every moment and whatever Gets run, if at most one goroutine at a time is inside a Set, a Delete or a promotion.)", "quantifier": "every schedule, any number of goroutines, every key and value", "why_tests_cant": "the losing interleavings are a few steps wide", "anchors": ["rmap/rmap.go:Set2", "rmap/rmap.go:storeReadFromDirty", "rmap/rmap.go:initDirty"]}
{"id": "C58", "title": "RMap: concurrent Gets", "statement": "While only Gets run on an RMap, in any number and any schedule, no key is lost: what a Get found before is found at every later moment by a Get that runs alone, and a key that was Set once keeps its value. A Get beside other Gets answers, for such a key, a value that was Set for it, or (nil, true), or it panics; never not-found. (The natural claim, that it answers the value, is false and refuted: while another Get promotes, it can panic on a nil item or answer (nil, true).)", "quantifier": "every reachable quiet map, every schedule of Gets", "why_tests_cant": "interleavings of promotions", "anchors": ["rmap/rmap.go:Get2", "rmap/rmap.go:missLocked", "rmap/rmap.go:storeReadFromDirty"]}
{"id": "C59", "title": "RMap: values come from Sets", "statement": "A value that a Get on an RMap reports, as a value or in its holder, was the argument of a Set of that very key called before the Get returned.", "quantifier": "every schedule, any number of goroutines", "why_tests_cant": "interleavings; unbounded histories", "anchors": ["rmap/rmap.go:Get2", "rmap/rmap.go:Set2"]}
{"id": "C60", "title": "SearchKey", "statement": "On the default map SearchKey(k) returns the item of the key whose 64-bit hash is k if that key is in the map, and nil otherwise; it does not panic; and GetByHash(k,c) finds v exactly when SearchKey(k) returns an item with conflict code c and value v. In the embedded map the first sentence holds for histories of Sets and reads in which every call returned. (The natural claim for all embedded histories is false and refuted: after a Delete of the first key of a bucket SearchKey still returns the deleted item.)", "quantifier": "every history of the default map covered by C07 (the second half: every history); every history of Sets and reads of the embedded map without hash collisions", "why_tests_cant": "every state of the bucket tree", "anchors": ["map.go:SearchKey", "map.go:searchKey", "map.go:searchBucket4Key4", "map_embedded.go:searchKeyFromEmbeddedPool"]}
{"id": "C61", "title": "Sizing helpers and error codes", "statement": "The helper that takes the maximum returns the greatest of its arguments (0 without arguments); the capacity chosen for n elements is more than n and at most 2n; the error numbers are different and fit in 16 bits.", "quantifier": "all integers in range", "why_tests_cant": "infinite domain", "anchors": ["util.go:maxInts", "util.go:calcCap", "error.go:NewError"]}
{"id": "C62", "title": "Range in the embedded map", "statement": "In the embedded map, after Sets and reads that returned, Range calls f for exactly the stored keys, each with its last value, in strictly ascending order of the bit-reversed hash, until f returns false; after Deletes it passes over every key that Delete was called for, also over the first key of a bucket, which Get still finds (C22); after Deletes and Purges in any order it calls f for exactly the stored keys that no Delete or Purge has found since, in the same order, and a key that a Purge of another key takes out of Get's reach (C23) it still reports; after Deletes and calm Sets of new keys (C42) it calls f for exactly the entries that are not deleted. Stored positions that are bucket boundaries are excluded.", "quantifier": "every history of Sets and reads without hash collisions that returned and wrote no position that DumpBucket shows as a boundary, then every history of Deletes, Purges, reads and updates; every callback", "why_tests_cant": "splits, array growth and relinking depend on the whole history", "anchors": ["map.go:Range", "map.go:RangeItem", "map.go:add2", "map_embedded.go:getWithFn", "map_embedded.go:makeBucket2"]}
{"id": "C63", "title": "Linearizability of concurrent calls", "statement": "Concurrent Set, Get and Delete calls of SampleItems on one default map are linearizable: their answers are those of some sequential run of an ideal map in which every answered call appears once, with its answer, and no call appears before one that was answered before it began. This holds if at any moment at most one goroutine is adding an item or a bucket sentinel and no key is being deleted by two goroutines; with either condition dropped it does not (two overlapping Deletes of a key both return true; a Set is lost).", "quantifier": "every schedule of any number of goroutines; every history of calls on keys whose hash is below 2^64-1, calls still running included", "why_tests_cant": "the order of the effects has to exist for every interleaving; tests see a few", "anchors": ["map.go:Set", "map.go:Get", "map.go:Delete", "map.go:_set", "map.go:add2", "util.go:inserBeforeWithCheck", "sample_hmap_entry.go:SetValue", "sample_hmap_entry.go:Delete"]}
{"id": "C64", "title": "No call on the default map waits for another", "statement": "A goroutine inside Set, Get or Delete of a default map (or adding a bucket sentinel) can always make its next step, wherever the other goroutines are stopped; it is answered after at most 9 plus N of its own steps, N the number of nodes the list has by then; Get and Delete after two.", "quantifier": "every reachable state, every schedule, any number of goroutines stopped anywhere", "why_tests_cant": "every place where another goroutine may stop", "anchors": ["map.go:Set", "map.go:Get", "map.go:Delete", "map.go:_set", "map.go:find", "map.go:add2", "util.go:inserBeforeWithCheck"]}
{"id": "C65", "title": "DumpEntry shows the item list", "statement": "On the default map DumpEntry prints its lines in ascending order of the reverse column, starting with the sentinel at 0 and ending with the one at 2^64-1; the sentinel lines are the buckets DumpBucket prints, in opposite order; the number of item lines is Len(), which is the number of items Range visits plus the number of Deletes that returned true; and a line, once there, stays, in the same order, whatever is stored or deleted later (so deleted items are never released; the natural claim that they are not listed is refuted).", "quantifier": "every history of calls whose items have storable positions", "why_tests_cant": "unbounded histories and bucket layouts", "anchors": ["map.go:DumpEntry", "map.go:DumpBucket", "maphead.go:fromMapHead", "map.go:Delete"]}
{"id": "C66", "title": "Pool items handed over by managing goroutines", "statement": "With UseGoroutineInPool on when UsePool(true) is applied, every Set of a new key gets an item no other Set got: the k-th item handed over by a part of the pool is the one with index k. No Set waits for ever: one that asks for an item gets it after at most 25 steps of the managing goroutine and itself, whatever the others do. If UseGoroutineInPool is turned on only after UsePool(true), a Set of a new key never returns.", "quantifier": "every number of goroutines, every schedule", "why_tests_cant": "the handover depends on the interleaving of the callers with the managing goroutine and on where the pool expands", "anchors": ["pool2.go:UseGoroutineInPool", "pool2.go:startMgr", "pool2.go:Get", "pool2.go:idxMaagement", "pool2.go:_expand", "map.go:Set", "map.go:UsePool"]}
{"id": "C67", "title": "UsePool: calls overtaken by an expansion of the pool", "statement": "With UsePool (or CombineSearch4) a Set of a present key or a Delete that finds its item and then stores into it takes effect exactly if the pool did not expand in between, or if the item's own first Set was overtaken by an expansion; otherwise it returns true and has no effect: the old value stays, the deleted key stays readable. Nothing is lost while a part of the pool has had at most 64 items. No call disturbs another item. The Set that takes the last item of a segment is never overtaken, and a deleted item stays deleted, whatever Set found it before.", "quantifier": "every number of goroutines, every schedule, every number of expansions", "why_tests_cant": "the loss needs one step of another goroutine between two adjacent statements, at the moment a pool segment fills", "anchors": ["pool2.go:_expand", "pool2.go:Get", "map.go:Set", "map.go:_update", "map.go:Delete", "sample_hmap_entry.go:SetValue", "sample_hmap_entry.go:Delete"]}
{"id": "C68", "title": "Embedded Sets between Deletes and Purges", "statement": "In the embedded map every history of Sets, reads, Deletes and Purges in any order, in which every new key goes to a bucket where no key was deleted or purged before, behaves exactly as the bucket lists of C23 do, a new key being put at its position in the list, whatever buckets split on the way. This covers every history in which no Set comes after a Delete or Purge of a key in the same sixteenth of the positions.", "quantifier": "every such history, of any length, as far as the calls return", "why_tests_cant": "depends on the positions and on which buckets have split", "anchors": ["map.go:Set", "map.go:makeBucket2", "map_embedded.go:getWithFn", "map_embedded.go:split", "map.go:purgeInEmbedded"]}
{"id": "C69", "title": "DumpBucketPerLevel lists every bucket of a level once", "statement": "In the default map DumpBucketPerLevel shows, for every level, no bucket twice, every bucket DumpBucket shows with that level, and only buckets whose reverse DumpBucket shows and which are boundaries of blocks of that level; the block of the level above which contains a listed bucket is listed at its level, and its first block at this one. The list of a level is not in order of the reverses, in contrast to DumpBucket.", "quantifier": "every history without keys at the two top positions, every maximum, search mode and pool setting, every level", "why_tests_cant": "the level lists are built by a search that starts from links which may point into the middle", "anchors": ["map.go:DumpBucketPerLevel", "map.go:DumpBucket", "map.go:addBucket", "map.go:bucketFromPool", "map.go:findNextLevelBucket"]}
{"id": "C70", "title": "Gets of the embedded map while a Set splits their bucket", "statement": "While a Set of the embedded map splits a bucket, a Get of a key which is not stored never reports one; a key below the boundary of the split is found by every Get, however it overlaps the split; every key is found by every Get which has returned before the items are divided and by every Get which begins after the new bucket has become visible (it waits for the items). It is not true that every Get of a stored key finds it: a Get that has looked up its bucket before the split began and searches it afterwards can report that the key is absent, or crash. A Get ends after at most n+6 steps of its own (n the number of items in the bucket) unless the new bucket has no items yet; if the split leaves it without items, Gets of positions from the boundary on never return.", "quantifier": "every bucket of the embedded map with its items in order, every boundary, any number of Gets of any keys, every schedule of the Gets and the split", "why_tests_cant": "the window between two stores of the split is a few instructions wide; a stress test hits it by luck and cannot show that all other schedules are good", "anchors": ["map_embedded.go:makeBucket2", "map_embedded.go:_split", "map_embedded.go:bsearchBybucket", "map_embedded.go:bucketFromPoolEmbedded", "bucket.go:itemPool", "map.go:Get"]}
{"id": "C71", "title": "Sets of the embedded map overtaken by a split", "statement": "While one Set of the embedded map splits a bucket, other Sets of new keys into it all return, and Gets afterwards find exactly: the keys stored before; the new keys below the boundary of the split; and the new keys from the boundary on whose Set looked up its bucket after the new bucket had become visible, in particular those of all Sets that began after that. It is not true that every Set that returned is found: a Set of a key from the boundary on that looked up its bucket before the split and stores after it puts the key into the old bucket, where no Get looks; it returns true, and the key stays lost as long as it is not Set again.", "quantifier": "every bucket of the embedded map with its items in order, every boundary, any number of Sets of different new keys, every schedule of the Sets and the split", "why_tests_cant": "the loss needs a Set to be suspended between its lookup and the lock while another one splits the bucket; nothing fails at that moment", "anchors": ["map.go:Set", "map.go:getWithBucket", "map_embedded.go:makeBucket2", "map_embedded.go:getWithFn", "map_embedded.go:_split"]}
{"id": "C72", "title": "RMap: concurrent Deletes", "statement": "In every schedule a Delete on an RMap answers false or panics, never true. A Delete that goes on to rebuild the read map never returns, because it already holds the mutex; from then on no call that waits for the mutex returns either, the set of promoted keys stays as it is for ever, and the only Deletes that return are those of promoted keys, which panic; a Set of any key still returns true within five steps of its own, and its key is then found. As long as at most one goroutine at a time is inside a Set, a Delete or a promotion, a key whose Delete answered false is not found by Gets until it is Set again; without this condition that is false: the Delete may answer false and leave the key where it is.", "quantifier": "every schedule of Sets, Gets and Deletes, any number of goroutines, every key and value", "why_tests_cant": "the deadlock needs the miss counter to be at its limit, the lost Delete a Get that promotes between two loads", "anchors": ["rmap/rmap.go:Delete", "rmap/rmap.go:missLocked", "rmap/rmap.go:storeReadFromDirty", "rmap/rmap.go:Set2"]}
{"id": "C73", "title": "Embedded Sets beside bucket splits", "statement": "On an embedded map with any number of buckets, once concurrent Sets of new keys have returned a Get finds each of them and every bucket's lock is free, however many buckets were split meanwhile. (False: a Set that waits for a bucket's lock while another Set splits the bucket stores its key in the lower half even if it belongs to the upper one; Get does not find it, and a lock stays taken for ever. True for every schedule without Deletes in which, at every moment, the key of a running Set still belongs to the bucket the Set was given, and a Set of a key above all keys of its bucket is the only one in it; then every key is found whenever no Set is between taking its slot and filling it, and only the holder of a lock releases it.)", "quantifier": "every list of buckets, room and limit per bucket, every schedule of Sets, any number of goroutines, every key", "why_tests_cant": "a particular Set has to wait for the lock of a bucket that is split at that moment", "anchors": ["map.go:Set", "map.go:add2", "map_embedded.go:makeBucket2", "map_embedded.go:bsearchBybucket", "map.go:findBucket"]}
{"id": "C74", "title": "Pool.Put does not return", "statement": "Pool.Put of an item returns. (False: Put of a SampleItem never returns, whatever the pool holds and whatever the list package answers; it panics at once if the item's position is in the upper half, and does not even panic if every segment has an item. Meanwhile free lists get copies of the item's address and nothing else changes. An item of another type with a position in the lower half is ignored.)", "quantifier": "every item, every state of the pool, every behaviour of Next, any number of steps", "why_tests_cant": "non-termination; nothing in the repository calls it", "anchors": ["pool2.go:Pool.Put", "pool2.go:samepleItemPool.Put"]}
{"id": "C75", "title": "Next and Prev of an item", "statement": "On the default map repeated Next from the item of a stored key passes over exactly the stored keys of larger bit-reversed hash, in ascending order, and repeated Prev over exactly those of smaller one, in descending order, if items that are ignored (sentinels, deleted items) are left out; from First, Next passes over every stored key. Next and Prev of an item undo each other. (That Next of an item is itself an item that is present is false: it may be a sentinel.)", "quantifier": "every covered history (as in C07), every stored key", "why_tests_cant": "position of the key among deleted items and sentinels of any bucket structure", "anchors": ["sample_hmap_entry.go:Next", "sample_hmap_entry.go:Prev", "item.go:Next", "item.go:Prev", "map.go:First"]}
{"id": "C76", "title": "Embedded Set is found by Get", "statement": "In the embedded map a Set of a new key that returned true is found by the next Get of that key. (False after a Delete: a new key that lies below a deleted key which is the first of its bucket is not found. After a history as in C42, a new key put into a bucket below its maximum that displaces no key is not found in exactly that case; where it is found it has the value given, or the value given as assigned over that of a deleted key. Throughout such a history, calm Sets included, Get of every key returns what the entries, kept in order of position, say.)", "quantifier": "every such history, key and value", "why_tests_cant": "depends on where the deleted keys of the bucket lie", "anchors": ["map.go:Set", "map_embedded.go:getWithFn", "map_embedded.go:insertToPool", "map_embedded.go:bsearchBybucket"]}
{"id": "C77", "title": "Range whose callback changes the map", "statement": "On the default map without item pool the callback of Range/RangeItem may call the map. Each time it is shown the present key of least bit-reversed hash above that of the key shown last, in the map as it is at that moment; the hash of the key shown last counts again if its callback deleted that key and left a key of the same hash in the map. Range ends when there is none, or with the first callback that returns false, and leaves the map the callbacks' calls make. So keys stored ahead are shown and keys stored behind are not; a key that is in the map from the start and is never deleted is not missed; positions never go back; unless a callback deletes the shown key and stores that hash again, no key is shown twice and Range ends; and Range with a callback that deletes each shown key shows every key once and leaves the map empty. (That no key is ever shown twice is false: a callback that deletes and re-Sets its key is called again for it, each time.)", "quantifier": "every covered history (as in C07), every terminating callback program whose calls are covered, every number of steps", "why_tests_cant": "the callback may insert elements or sentinels before or behind the item Range stands on, in any state of the buckets", "anchors": ["map.go:RangeItem", "map.go:Range", "map.go:Set", "map.go:StoreItem", "map.go:Delete", "map.go:addBucket"]}
{"id": "C78", "title": "Items the caller keeps", "statement": "On a default map without an item pool and without CombineSearch4, whose items are kept by the caller when LoadItem or LoadItemByHash hands them out or when StoreItem takes the caller's own item for an absent key, every call of the map and every later Value, Key, IsDeleted, SetValue and Delete of a kept item answers as a map from keys to objects does: a key that is stored anew gets a new object, Set of a present key changes the object's value, and the object stays the key's object until the key is deleted, through the map or through a kept item. So while a kept item does not report itself deleted, its Value is what Get of the key it was given for answers, a value assigned through it is what Get answers next, its Delete makes that key, and only that key, absent; once it reports itself deleted it does so forever, and nothing done to it is seen by any Get - not even when its key is stored again.", "quantifier": "every history, of any length, of calls of the map (each covered when it is made), of LoadItem, LoadItemByHash and StoreItem whose items are kept, and of calls of the kept items in any order; every hash function, item type and search mode but CombineSearch4", "why_tests_cant": "A test keeps an item over a few calls; how it relates to the map after arbitrary splits, deletions and re-insertions of its key is not settled by any number of tests.", "anchors": ["map.go: (*Map).LoadItem, (*Map).LoadItemByHash, (*Map).StoreItem, (*Map)._get", "sample_hmap_entry.go: (*SampleItem).Value, (*SampleItem).SetValue, (*SampleItem).Delete", "item.go: (*entryHMap).Value, (*entryHMap).SetValue, (*entryHMap).Delete", "maphead.go: (*MapHead).IsDeleted"]}
{"id": "C79", "title": "Kept items of the embedded map", "statement": "An item that LoadItem hands out in the embedded mode, while only Set with string keys without hash collisions, reads, and Value, Key, IsDeleted and SetValue of kept items happen, is at every later moment one of two things. Either it is the item in the map: it is not deleted, Get of the key answers its Value, a SetValue that answers true is what Get answers next, one that answers false changes nothing, and its Delete does to the map what Delete of the key does. Or it is an orphan: nothing it does changes any later answer of the map, and no call of the map changes its Value, Key or IsDeleted. It is the item in the map as long as no Set stores a new key in the bucket of its key; once a Set stores a new key in that bucket before a key stored there (the new slot is put into a copy of the bucket's array) it is an orphan for ever, whatever calls follow, Delete, Purge and StoreItem included. No call of the map changes Key or IsDeleted of a kept item, and none but Set of its key changes its Value; in particular the Set that takes it out of the map does not. So the natural claim that a kept item stays the key's item fails although the key is never deleted; and with Delete a kept item can become the item of another key, because Set reuses the slot.", "quantifier": "every history, of any length, of those calls before and after the LoadItem, every item, every hash function and every bucket size of at least 16; calls that do not return (C34) end the history", "why_tests_cant": "Whether a bucket's array is copied depends on the positions, the lengths and the capacities that the history has produced; a test that keeps an item sees one such history.", "anchors": ["map_embedded.go: (*samepleItemPool).getWithFn, (*samepleItemPool).insertToPool, (*samepleItemPool).expand, (*samepleItemPool)._split, (*Map).makeBucket2", "map.go: (*Map).LoadItem, (*Map)._set", "sample_hmap_entry.go: (*SampleItem).Value, (*SampleItem).SetValue, (*SampleItem).Delete"]}
{"id": "C80", "title": "DumpBucketPerLevel in the embedded mode", "statement": "In the embedded mode DumpBucketPerLevel shows, for every level, no bucket twice, every bucket DumpBucket shows with that level, and only buckets whose reverse DumpBucket shows too; such a reverse is the boundary of a block of that level, and the block of the level above which contains it is listed at its level, and its first block at this one. So a bucket that a split made and then could not use is in neither dump. The list of a level is not in order of the reverses, in contrast to DumpBucket.", "quantifier": "every history of Sets of string keys without hash collisions and reads, every hash function, every maximum of at least 16 items per bucket, every level", "why_tests_cant": "Which buckets exist, which are linked and where the search for a place in a level list starts depend on the whole history of splits.", "anchors": ["map.go: DumpBucketPerLevel, DumpBucket, isEmptyBylevel, (*Map).findNextLevelBucket", "map_embedded.go: (*Map).makeBucket2, (*Map).bucketFromPoolEmbedded"]}
{"id": "C81", "title": "FindBucket", "statement": "FindBucket returns the nearest bucket at or below the position it is given: the one with the greatest reverse, of those DumpBucket shows, that is not greater than the position. (False in the default mode: boundaries that differ from the position in the last four bits only are missed. True up to that: the reverse r of the bucket is in DumpBucket, not greater than the position, and any boundary between the two has the same upper sixty bits as both. In the embedded mode r may be missing from DumpBucket; that is so exactly if a lookup of the position does not come back; otherwise the natural claim holds. The last bucket, of reverse 2^64-1, is left out.)", "quantifier": "default mode: every history without keys at the two top positions, every maximum, search mode and pool setting; embedded mode: every history of Sets of string keys without hash collisions and reads, every maximum of at least 16; every position", "why_tests_cant": "The bucket is reached through tables of sixteen entries with gaps, on up to fifteen levels; which entries exist depends on the history of splits.", "anchors": ["map.go: (*Map).FindBucket, (*Map)._findBucket, DumpBucket", "bucket.go: (*bucket).largestDown"]}
{"id": "C82", "title": "DumpEntry in the embedded mode", "statement": "In the embedded mode DumpEntry prints its lines in strictly increasing order of the reverse column, the hash column is the bit reversal of it, its sentinel lines are the lines of DumpBucket from the bottom up, the first and the last line (the elements First and Last return) are the sentinels at 0 and 2^64-1, its item lines are exactly the stored items (key, hash, conflict hash) and number Len(). Deletes, reads and Sets of keys that Get finds do not change the output.", "quantifier": "every history of Sets and reads from the empty map, every hash assignment, every maximum of at least 16; for the last sentence every state and every history of those calls", "why_tests_cant": "The list is built by Sets that insert slots, move whole arrays and split them between buckets; where a slot and a bucket's sentinel end up depends on the order of all of them.", "anchors": ["map.go: (*Map).DumpEntry, (*Map).DumpBucket, (*Map).Len, (*Map).First, (*Map).Last", "maphead.go: fromMapHead", "map_embedded.go: (*samepleItemPool).getWithFn, (*samepleItemPool)._split"]}
