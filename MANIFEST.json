{
 "claims": [
  {
   "property": "C01",
   "status": "proved",
   "theorems": [
    "C01_position_roundtrip",
    "C01_position_injective",
    "C01_position_bits"
   ],
   "note": ""
  },
  {
   "property": "C02",
   "status": "proved",
   "theorems": [
    "C02_integer_keys_alias_iff",
    "C02_same_type_integers_distinct",
    "C02_string_keys_alias_iff",
    "C02_string_integer_alias_iff",
    "C02_panics_iff_unsupported",
    "C02_distinct_keys_distinct_hashes_refuted"
   ],
   "note": "exact aliasing rule proved; the natural claim (distinct keys never alias) is refuted"
  },
  {
   "property": "C03",
   "status": "proved",
   "theorems": [
    "C03_pool_cap_grows",
    "C03_pool_cap_monotone"
   ],
   "note": ""
  },
  {
   "property": "C04",
   "status": "proved",
   "theorems": [
    "C04_half",
    "C04_near",
    "C04_abs_diff"
   ],
   "note": ""
  },
  {
   "property": "C05",
   "status": "proved",
   "theorems": [
    "C05_read_your_writes"
   ],
   "note": ""
  },
  {
   "property": "C06",
   "status": "proved",
   "theorems": [
    "C06_new_key_readable_iff",
    "C06_acknowledged_writes_are_readable_refuted",
    "C06_boundary_keys_are_lost"
   ],
   "note": "exact; the natural claim is refuted"
  },
  {
   "property": "C07",
   "status": "proved",
   "theorems": [
    "C07_default_map_is_a_map"
   ],
   "note": ""
  },
  {
   "property": "C08",
   "status": "proved",
   "theorems": [
    "C08_other_keys_untouched"
   ],
   "note": ""
  },
  {
   "property": "C09",
   "status": "proved",
   "theorems": [
    "C09_delete"
   ],
   "note": ""
  },
  {
   "property": "C10",
   "status": "proved",
   "theorems": [
    "C10_range_any_history",
    "C10_range_is_the_map"
   ],
   "note": ""
  },
  {
   "property": "C11",
   "status": "proved",
   "theorems": [
    "C11_len_refuted",
    "C11_len_law",
    "C11_len_counts_without_deletes"
   ],
   "note": "exact law; the natural claim is refuted"
  },
  {
   "property": "C12",
   "status": "proved",
   "theorems": [
    "C12_configuration_invisible",
    "C12_pool_invisible"
   ],
   "note": ""
  },
  {
   "property": "C13",
   "status": "proved",
   "theorems": [
    "C13_sentinels"
   ],
   "note": ""
  },
  {
   "property": "C14",
   "status": "proved",
   "theorems": [
    "C14_update_sample",
    "C14_update_entry",
    "C14_no_invented_values"
   ],
   "note": ""
  },
  {
   "property": "C15",
   "status": "proved",
   "theorems": [
    "C15_unsupported_key",
    "C15_new_nonstring_key"
   ],
   "note": ""
  },
  {
   "property": "C16",
   "status": "proved",
   "theorems": [
    "C16_prepared_items_refuted",
    "C16_setup_item_unreadable"
   ],
   "note": "exact for keys that are no bit palindromes; the natural claim is refuted; items without Setup() are C05"
  },
  {
   "property": "C17",
   "status": "proved",
   "theorems": [
    "C17_calls_do_not_crash_refuted",
    "C17_panics_iff"
   ],
   "note": "exact for histories whose stored hashes avoid 2^63-1 and 2^64-1; the unconditional claim is refuted"
  },
  {
   "property": "C18",
   "status": "proved",
   "theorems": [
    "C18_undo_last_first",
    "C18_undo_in_order",
    "C18_undo_use_pool_refuted",
    "C18_undo_embedded_refuted",
    "C18_undo_repeated_refuted"
   ],
   "note": "proved for the options for which it holds; refuted for the others"
  },
  {
   "property": "C19",
   "status": "proved",
   "theorems": [
    "C19_own_type_iff",
    "C19_own_type",
    "C19_items_keep_their_key_refuted"
   ],
   "note": "exact: the key of a stored item is shown iff its type is the type the map reads with (the type it was made with, SampleItem once a Set created a key); the natural claim is refuted"
  },
  {
   "property": "C20",
   "status": "proved",
   "theorems": [
    "C20_embedded_map_is_a_map",
    "C20_every_bucket_size",
    "C20_small_buckets_refuted"
   ],
   "note": "for MaxPefBucket >= 16 without condition; for smaller values with at most MaxPefBucket different keys per block of 16 positions (refuted without that bound)"
  },
  {
   "property": "C21",
   "status": "proved",
   "theorems": [
    "C21_lookups_return_iff_balanced",
    "C21_balanced_histories_return",
    "C21_first_lopsided_moment",
    "C21_every_get_returns_refuted",
    "C21_small_histories_return"
   ],
   "note": "exact: for MaxPefBucket >= 16, histories of Set and reads on string keys with distinct positions below 2^64-1: every lookup returns at every moment exactly if no dyadic interval (2^1..2^60 positions) ever holds more than MaxPefBucket positions all in one half; at the first such moment exactly the lookups in the upper half of one such interval do not come back. The unconditional claim is refuted."
  },
  {
   "property": "C22",
   "status": "proved",
   "theorems": [
    "C22_delete_hides_refuted",
    "C22_delete_exact",
    "C22_delete_one"
   ],
   "note": "exact; the natural claim is refuted"
  },
  {
   "property": "C23",
   "status": "proved",
   "theorems": [
    "C23_purges",
    "C23_lost",
    "C23_listed",
    "C23_purge_keeps_others_refuted",
    "C23_first_purge_partial"
   ],
   "note": "exact law (PurgeSpec.v) for every sequence of Deletes, Purges, reads and updates after every history of Sets; C23_lost says from it when another key is lost; the natural claim is refuted with a witness"
  },
  {
   "property": "C24",
   "status": "proved",
   "theorems": [
    "C24_purge_set",
    "C24_set_after_purge_refuted"
   ],
   "note": "exact law over every history of Sets and reads without full-hash collisions that returned; the natural claim (Set after Purge is readable) is refuted with a witness, and the law says exactly for which keys it fails"
  },
  {
   "property": "C25",
   "status": "proved",
   "theorems": [
    "C25_pools"
   ],
   "note": ""
  },
  {
   "property": "C42",
   "status": "partial",
   "theorems": [
    "C42_set_keeps_others_refuted",
    "C42_set_keeps_others_partial",
    "C42_set_keeps_others_mixed_partial",
    "C42_displaced_only_partial",
    "C42_calm_set_partial",
    "C42_below_readable_refuted"
   ],
   "note": "false after a Delete; proved for histories without Delete/Purge, and for histories with them in which new keys go to buckets where nothing was deleted; for new keys put into buckets below their maximum where keys were deleted: any number of calm Sets change no other key, and after them exactly which key one more Set hides; missing: what follows a Set that is not calm, splits of such a bucket, and a Purge among calm Sets"
  },
  {
   "property": "C43",
   "status": "proved",
   "theorems": [
    "C43_failed_set_refuted",
    "C43_phantom"
   ],
   "note": "exact; the natural claim is refuted"
  },
  {
   "property": "C44",
   "status": "proved",
   "theorems": [
    "C44_store_item_refuted",
    "C44_store_item_unreadable"
   ],
   "note": "exact; the natural claim is refuted"
  },
  {
   "property": "C45",
   "status": "proved",
   "theorems": [
    "C45_delete_set",
    "C45_full_block_refuted",
    "C45_set_nil_refuted"
   ],
   "note": "exact law for Delete then Set, in full buckets too (where the Set splits the bucket); the natural claims (Set of an absent key stores the given value; with MaxPerBucket 16, other keys survive) are refuted with witnesses"
  },
  {
   "property": "C46",
   "status": "proved",
   "theorems": [
    "C46_newest_pair_wins",
    "C46_older_key_unreadable",
    "C46_colliding_keys_refuted",
    "C46_packed_block_refuted"
   ],
   "note": "coexistence is refuted; the exact behaviour is proved for every history of Sets and reads in which no block of 16 positions gets more than MaxPefBucket entries (refuted without that bound)"
  },
  {
   "property": "C41",
   "status": "proved",
   "theorems": [
    "C41_written_levels",
    "C41_warn_written_refuted"
   ],
   "note": "exact; the natural claim is refuted"
  },
  {
   "property": "C26",
   "status": "proved",
   "theorems": [
    "C26_rmap_exact",
    "C26_never_loses"
   ],
   "note": ""
  },
  {
   "property": "C27",
   "status": "proved",
   "theorems": [
    "C27_last_set_refuted",
    "C27_promoted_is_frozen",
    "C27_last_set"
   ],
   "note": "exact; the natural claim is refuted"
  },
  {
   "property": "C28",
   "status": "proved",
   "theorems": [
    "C28_missing_refuted",
    "C28_missing",
    "C28_collision_reports_found"
   ],
   "note": "exact; the natural claim is refuted"
  },
  {
   "property": "C29",
   "status": "proved",
   "theorems": [
    "C29_delete_refuted",
    "C29_delete_never_true",
    "C29_promoted_panics",
    "C29_pending"
   ],
   "note": "exact; the natural claim is refuted"
  },
  {
   "property": "C30",
   "status": "proved",
   "theorems": [
    "C30_value_refuted",
    "C30_value"
   ],
   "note": "exact up to the holder; the natural claim is refuted"
  },
  {
   "property": "C31",
   "status": "proved",
   "theorems": [
    "C31_len_refuted",
    "C31_len_exact"
   ],
   "note": "exact; the natural claim is refuted"
  },
  {
   "property": "C47",
   "status": "proved",
   "theorems": [
    "C47_reads_promote"
   ],
   "note": ""
  },
  {
   "property": "C32",
   "status": "partial",
   "theorems": [
    "C32_sets_take_effect_refuted",
    "C32_lone_set_partial"
   ],
   "note": "the claim is false even if order check and insertion were one step; proved for a Set during which nobody else adds an item, whatever else runs"
  },
  {
   "property": "C33",
   "status": "proved",
   "theorems": [
    "C33_sorted_one_step",
    "C33_persistence",
    "C33_no_invented_values",
    "C33_sorted_refuted"
   ],
   "note": "persistence and values for every granularity; order with the check and the insertion as one step, as the property says, refuted when they are two"
  },
  {
   "property": "C34",
   "status": "partial",
   "theorems": [
    "C34_one_entry_refuted",
    "C34_delete_leaves_key",
    "C34_one_entry_partial",
    "C34_delete_partial"
   ],
   "note": "the claim is false; proved as long as no two goroutines are adding the same key at once"
  },
  {
   "property": "C35",
   "status": "proved",
   "theorems": [
    "C35_sequential",
    "C35_option_restored_partial",
    "C35_option_restored_refuted",
    "C35_leak_is_permanent"
   ],
   "note": "true for sequential histories and whenever finds do not overlap; refuted for overlapping ones, and then it stays changed for ever"
  },
  {
   "property": "C48",
   "status": "partial",
   "theorems": [
    "C48_far_sets_refuted",
    "C48_far_sets_partial",
    "C48_far_sets_sorted_partial"
   ],
   "note": "the claim is false: refuted with a witness. Positive part: Sets in other sixteenths of the position space (or not after the key) do no harm as long as nobody is inside a find at the same time; missing: overlapping finds, where it is false in general"
  },
  {
   "property": "C49",
   "status": "proved",
   "theorems": [
    "C49_len_lower_bound",
    "C49_len_exact_refuted"
   ],
   "note": ""
  },
  {
   "property": "C36",
   "status": "proved",
   "theorems": [
    "C36_slots_once_after_setup",
    "C36_slots_once_refuted",
    "C36_len_up_to_capacity",
    "C36_len_refuted",
    "C36_one_more_overruns"
   ],
   "note": "slots are handed out once from every segment that is set up (all schedules); refuted while two goroutines set it up; the length bound holds for all schedules of at most as many calls as slots, and for every number of slots one call more can break it and crash"
  },
  {
   "property": "C37",
   "status": "proved",
   "theorems": [
    "C37_progress_refuted",
    "C37_deadlock_is_permanent",
    "C37_sequential",
    "C37_up_to_capacity",
    "C37_one_more_deadlocks"
   ],
   "note": "the natural claim is false: refuted, and the deadlock is shown permanent; the exact bound is proved: all schedules of at most as many calls as slots are wait-free with a bound on the steps, and for every number of slots there is a schedule of one call more that deadlocks"
  },
  {
   "property": "C40",
   "status": "partial",
   "theorems": [
    "C40_table_once",
    "C40_slot_once_refuted",
    "C40_claim_once_refuted",
    "C40_same_child_partial",
    "C40_sequential_partial"
   ],
   "note": "table: proved for all schedules; children: refuted in general, proved when all goroutines want the same child and for calls one after another"
  },
  {
   "property": "C50",
   "status": "proved",
   "theorems": [
    "C50_items_stay_refuted",
    "C50_until_expansion",
    "C50_first_expansion"
   ],
   "note": "exact; the natural claim is refuted"
  },
  {
   "property": "C51",
   "status": "partial",
   "theorems": [
    "C51_returns_refuted",
    "C51_hang_is_permanent",
    "C51_sequential_partial",
    "C51_same_child_partial"
   ],
   "note": "the claim is false: refuted, the hang is permanent; true for calls made one after another, and for all schedules of calls that want the same child (no state from which a call cannot return)"
  },
  {
   "property": "C38",
   "status": "partial",
   "theorems": [
    "C38_get_finds_refuted",
    "C38_get_finds_partial",
    "C38_above_partial",
    "C38_top_alone_partial"
   ],
   "note": "the claim is false: refuted; proved for all schedules without Deletes in which a Set of a key above the largest item runs alone, whenever no slot is half filled, and at every moment for keys above the one being filled in (one bucket, no split meanwhile)"
  },
  {
   "property": "C39",
   "status": "partial",
   "theorems": [
    "C39_lock_released_refuted",
    "C39_leak_is_permanent",
    "C39_sequential_partial",
    "C39_insert_partial",
    "C39_top_alone_partial"
   ],
   "note": "the claim is false: refuted, and the leak is permanent; proved for calls one after another and for all schedules in which appending Sets run alone"
  },
  {
   "property": "C52",
   "status": "partial",
   "theorems": [
    "C52_exclusive_refuted",
    "C52_exclusive_partial"
   ],
   "note": "false after a Delete; proved for all schedules without Deletes"
  },
  {
   "property": "C53",
   "status": "partial",
   "theorems": [
    "C53_set_found_refuted",
    "C53_one_top_refuted",
    "C53_insert_partial",
    "C53_top_alone_partial"
   ],
   "note": "false when a Set appends beside another Set (two refutations); proved for all schedules without Deletes in which appending Sets run alone"
  },
  {
   "property": "C54",
   "status": "partial",
   "theorems": [
    "C54_stored_once_refuted",
    "C54_one_item_each",
    "C54_stored_once_partial"
   ],
   "note": "the claim is false: refuted; one item per Set, none lost, for all schedules without Deletes; a Delete makes the key absent if the Sets were of different keys"
  },
  {
   "property": "C55",
   "status": "proved",
   "theorems": [
    "C55_each_once",
    "C55_complete",
    "C55_sound",
    "C55_values",
    "C55_not_deleted"
   ],
   "note": "all schedules of ConcModel with a Range; default map without UsePool"
  },
  {
   "property": "C56",
   "status": "partial",
   "theorems": [
    "C56_keys_once_refuted",
    "C56_keys_once_partial",
    "C56_sorted_refuted",
    "C56_sorted_one_step",
    "C56_live_refuted"
   ],
   "note": "each sub-claim is false: refuted; the conditions under which the first two hold are proved"
  },
  {
   "property": "C57",
   "status": "partial",
   "theorems": [
    "C57_first_sets_refuted",
    "C57_promotion_refuted",
    "C57_one_writer_partial",
    "C57_one_writer_value_partial"
   ],
   "note": "false for overlapping Sets and promotions (two refutations); proved for all schedules with one writer at a time and any number of Gets; Deletes of other keys allowed; dirty map ideal, no hash collisions"
  },
  {
   "property": "C58",
   "status": "proved",
   "theorems": [
    "C58_gets_keep_keys",
    "C58_gets_keep_value",
    "C58_answers",
    "C58_panic_refuted",
    "C58_nil_refuted"
   ],
   "note": "every schedule of Gets, from every reachable quiet map (whatever Sets, Gets and Deletes made it); no hash collisions, ideal dirty map"
  },
  {
   "property": "C59",
   "status": "proved",
   "theorems": [
    "C59_values"
   ],
   "note": "all schedules of Sets, Gets and Deletes; dirty map ideal"
  },
  {
   "property": "C60",
   "status": "proved",
   "theorems": [
    "C60_search_key",
    "C60_search_any_history",
    "C60_embedded_search_key",
    "C60_embedded_after_delete_refuted"
   ],
   "note": "default map: all histories; embedded: Set/read histories; refuted after an embedded Delete"
  },
  {
   "property": "C61",
   "status": "proved",
   "theorems": [
    "C61_max_ints",
    "C61_calc_cap",
    "C61_error_codes"
   ],
   "note": ""
  },
  {
   "property": "C62",
   "status": "partial",
   "theorems": [
    "C62_range_is_the_map_partial",
    "C62_range_after_delete_partial",
    "C62_range_after_purge_partial",
    "C62_range_calm_partial"
   ],
   "note": "all such histories; positions that are bucket boundaries are excluded (there the effect depends on the list package, which is not in the repository); StoreItem of a new key, new keys after Purges and Sets after Deletes that are not calm are not followed"
  },
  {
   "property": "C63",
   "status": "proved",
   "theorems": [
    "C63_linearizable",
    "C63_linearizable_two",
    "C63_linearizable_refuted"
   ],
   "note": "any number of goroutines, any schedule; with both the one-step and the two-step insertion. The conditions are sufficient and neither can be dropped; C48 shows some overlapping insertions that do no harm. In ConcModel the bucket search finds what is in the list (the sequential proof of that is C05)"
  },
  {
   "property": "C64",
   "status": "proved",
   "theorems": [
    "C64_can_go_on",
    "C64_steps",
    "C64_read_steps"
   ],
   "note": "all schedules, any number of goroutines. A step of ConcModel is one access to the shared state: the mutex around the one store in conf.Options (map.go:1364-1373) and the waits inside the list package are not represented"
  },
  {
   "property": "C65",
   "status": "proved",
   "theorems": [
    "C65_lines_in_order",
    "C65_lines_counted",
    "C65_lines_stay",
    "C65_deleted_items_refuted"
   ],
   "note": "all histories; the order also for items prepared by the caller; the pointer columns are left out"
  },
  {
   "property": "C66",
   "status": "proved",
   "theorems": [
    "C66_items_once",
    "C66_progress",
    "C66_without_manager"
   ],
   "note": "one part of the pool (the eight parts share nothing); inside Get the model of C36/C37, run by the managing goroutine; the expansion is one step. Progress is by the steps of the managing goroutine and the caller: the send on an unbuffered channel may be overtaken by other senders"
  },
  {
   "property": "C67",
   "status": "proved",
   "theorems": [
    "C67_law",
    "C67_one_call",
    "C67_first_64",
    "C67_last_item",
    "C67_stays_deleted",
    "C67_set_lost_refuted",
    "C67_delete_lost_refuted"
   ],
   "note": "the natural claim (a Set or Delete that returned true took effect) is refuted, the exact law proved; lookup, linking and the expansion are one step each, in favour of the code; RepaireSliceAfterCopy is an external library, taken to do what it is for"
  },
  {
   "property": "C68",
   "status": "proved",
   "theorems": [
    "C68_mixed",
    "C68_sixteenths"
   ],
   "note": "C68_mixed: new keys go to untouched buckets (condition read off the dump before each call); C68_sixteenths: a condition on the calls alone that implies it. What happens to new keys in a bucket with deleted keys is C24, C42 and C45"
  },
  {
   "property": "C69",
   "status": "proved",
   "theorems": [
    "C69_level_lists",
    "C69_level_lists_descend_refuted"
   ],
   "note": "the sorted-list claim is refuted by three splits; what is listed is proved for every history without keys at the two top positions"
  },
  {
   "property": "C70",
   "status": "proved",
   "theorems": [
    "C70_absent",
    "C70_below",
    "C70_before",
    "C70_after",
    "C70_found_refuted",
    "C70_crash_refuted",
    "C70_returns",
    "C70_waits_for_ever"
   ],
   "note": "the claim that every Get finds its stored key is refuted twice (missed key, crash); who is safe is proved for every schedule of one split"
  },
  {
   "property": "C71",
   "status": "proved",
   "theorems": [
    "C71_items",
    "C71_only",
    "C71_exact",
    "C71_below",
    "C71_late",
    "C71_lost_for_ever",
    "C71_returns",
    "C71_sets_found_refuted"
   ],
   "note": "the claim that every returned Set is found is refuted; which Sets are found is characterised exactly, for every schedule of one split. getWithFn under the lock is one step here: what two Sets do to each other inside it is C39, C52-C54"
  },
  {
   "property": "C72",
   "status": "proved",
   "theorems": [
    "C72_answers",
    "C72_rebuilding_never_returns",
    "C72_waiters_never_return",
    "C72_frozen",
    "C72_sets_return",
    "C72_deleted",
    "C72_deleted_refuted"
   ],
   "note": "the dirty map is ideal; that the promoted keys stay and that Deletes do not return assumes that no first Set is still about to store the empty read map; C72_deleted and finding the key assume no hash collisions; whether a miss rebuilds is chosen by the schedule"
  },
  {
   "property": "C73",
   "status": "partial",
   "theorems": [
    "C73_sets_found_refuted",
    "C73_locks_free_refuted",
    "C73_sets_found_partial",
    "C73_locks_free_partial"
   ],
   "note": "the claim is false: refuted; proved under the condition given in the property, on every state of the run. The lookup and the split are one step each (C70 and C71 follow their stores); a split that moves nothing leaves no empty bucket behind in this model"
  },
  {
   "property": "C74",
   "status": "proved",
   "theorems": [
    "C74_put_returns_refuted",
    "C74_put_never_returns",
    "C74_put_upper_half",
    "C74_put_endless",
    "C74_put_free_lists",
    "C74_put_other_type"
   ],
   "note": "the natural claim is refuted; UseGoroutineInPool off"
  },
  {
   "property": "C75",
   "status": "proved",
   "theorems": [
    "C75_next_prev",
    "C75_there_and_back",
    "C75_next_is_present_refuted"
   ],
   "note": "while the map is not changed between the calls; covered histories as in C07"
  },
  {
   "property": "C76",
   "status": "partial",
   "theorems": [
    "C76_set_is_found_refuted",
    "C76_found_unless_under_partial",
    "C76_reads_partial",
    "C42_calm_set_partial"
   ],
   "note": "natural claim refuted; exact for a new key put into a bucket below its maximum where keys were deleted, after any number of calm Sets, if it displaces no key; what every key reads after such a history; missing: what follows a Set that is not calm, splits of such a bucket, and the displacing Sets"
  },
  {
   "property": "C77",
   "status": "proved",
   "theorems": [
    "C77_range_law",
    "C77_never_back",
    "C77_not_missed",
    "C77_once",
    "C77_ends",
    "C77_pure",
    "C77_sweep",
    "C77_shown_once_refuted"
   ],
   "note": "The callback is any well-founded program of calls. The item Range stands on is followed through every call by its place in the item list. Natural claim (no key is shown twice) refuted; exact law proved. Without item pool (UsePool(false) and a BucketMode other than CombineSearch4, which is what the cases where items move need)."
  },
  {
   "property": "C78",
   "status": "proved",
   "theorems": [
    "C78_kept_items",
    "C78_live",
    "C78_gone_stays",
    "C78_stays_attached_refuted"
   ],
   "note": "C78_kept_items: all answers equal the map-of-objects specification's, for every covered history. C78_live and C78_gone_stays: what that means for a kept item that is, or is no longer, its key's item. C78_stays_attached_refuted: the natural claim that a kept item keeps reading what Get answers fails after Delete and Set of the key. The caller's item of a StoreItem whose key is present is not linked into the map and not followed; item pools and embedded maps are not part of this property."
  },
  {
   "property": "C79",
   "status": "proved",
   "theorems": [
    "C79_current_or_orphan",
    "C79_stays_current",
    "C79_shoved_out",
    "C79_calls_keep",
    "C79_kept_item_refuted",
    "C79_recycled_refuted"
   ],
   "note": "C79_current_or_orphan: the law. C79_stays_current and C79_shoved_out: when an item is one or the other. C79_calls_keep: what it shows through the calls of the map, in particular the one that takes it out. Which of the two holds after a Set that stores a new key last in the bucket depends on the array's capacity, which no call shows; the theorems leave it open, as the property does. C79_kept_item_refuted and C79_recycled_refuted: the two natural claims fail in the model."
  },
  {
   "property": "C80",
   "status": "proved",
   "theorems": [
    "C80_level_lists",
    "C80_level_lists_descend_refuted"
   ],
   "note": "what is listed is proved for every history of Sets of string keys without collisions and reads; the sorted-list claim is refuted by a history of sixty Sets"
  },
  {
   "property": "C81",
   "status": "proved",
   "theorems": [
    "C81_find_bucket",
    "C81_find_nearest_refuted",
    "C81_find_bucket_embedded"
   ],
   "note": "the natural claim is refuted by eighty Sets of consecutive positions; what holds instead is proved for both modes, as the property says in brackets"
  },
  {
   "property": "C82",
   "status": "partial",
   "theorems": [
    "C82_lines_partial",
    "C82_ends_partial",
    "C82_deletes_keep_lines",
    "C82_deleted_items_refuted"
   ],
   "note": "the first sentence is proved for Sets of string keys without hash collisions that return and write no position that is a bucket boundary at the end (as C62; C62_boundary_case shows that the model does not follow the list otherwise); StoreItem and Purge are missing. That Deletes, reads and Sets of keys that are found leave the output as it is is proved for every state; that a deleted item be not listed is refuted"
  }
 ]
}