{
 "claims": [
  {
   "property": "C01",
   "status": "proved",
   "theorems": [
    "c01_queue_is_fifo",
    "c01_contents_unique",
    "c01_pop",
    "c01_peek",
    "c01_push"
   ],
   "note": "every history refines the list specification QSpec.v; contents observed by iterating"
  },
  {
   "property": "C02",
   "status": "proved",
   "theorems": [
    "c02_refused_push",
    "c02_item_too_big"
   ],
   "note": "any reachable state, also after power failures"
  },
  {
   "property": "C03",
   "status": "proved",
   "theorems": [
    "c03_overwrite_drops_oldest",
    "c03_overwrite_only_if_needed"
   ],
   "note": "dropped items fit in one page; overwriting flag irrelevant when the push succeeds without it; never FullStorage"
  },
  {
   "property": "C04",
   "status": "proved",
   "theorems": [
    "c04_iterate_and_remove"
   ],
   "note": "any selection of removed entries; arbitrary scripts with small buffers are covered by c01_queue_is_fifo"
  },
  {
   "property": "C05",
   "status": "proved",
   "theorems": [
    "c05_every_history",
    "c05_one_call",
    "c05_cut_push",
    "c05_cut_pop"
   ],
   "note": "any number of power failures at any byte; hypotheses: words of 8 bytes or untorn headers, two pages or untorn erases, no CRC-32 collision of torn items"
  },
  {
   "property": "C06",
   "status": "proved",
   "theorems": [
    "c06_last_value",
    "c06_map_is_function",
    "c06_no_other_errors",
    "c06_contents_unique",
    "c06_fetch",
    "c06_store"
   ],
   "note": "every history without power failures; the per-call theorems also hold after power failures"
  },
  {
   "property": "C07",
   "status": "proved",
   "theorems": [
    "c07_refused_store",
    "c07_item_too_big"
   ],
   "note": "any reachable state, also after power failures admitted by m_reached"
  },
  {
   "property": "C08",
   "status": "proved",
   "theorems": [
    "c08_enough_room",
    "c08_exact_bound",
    "c08_beyond_bound_refuted"
   ],
   "note": "also with power failures in the history; a slightly better bound (one word more per page) is proved and shown to be exact by a full state that meets it with equality"
  },
  {
   "property": "C09",
   "status": "partial",
   "theorems": [
    "c09_remove_partial",
    "c09_remove_all_partial",
    "c09_remove",
    "c09_remove_all",
    "c09_stays_removed_partial",
    "c09_torn_erase_refuted"
   ],
   "note": "proved in full without power failures (c09_remove, c09_remove_all) and for all admitted histories with them; with torn erases a removed key can come back (c09_torn_erase_refuted), and a removal straight after a failed call with the same cache object can be wrong (c18_map_refuted)"
  },
  {
   "property": "C10",
   "status": "partial",
   "theorems": [
    "c10_iteration_partial",
    "c10_iteration",
    "c10_after_failure_refuted"
   ],
   "note": "proved in full without power failures (c10_iteration); with them, on a flash with atomic erases with a new cache object or one that a completed call has used, and on one with torn erases also once a store or removal was completed; with torn erases the iteration right after a power failure can report corruption (c10_after_failure_refuted)"
  },
  {
   "property": "C11",
   "status": "partial",
   "theorems": [
    "c11_cut_store_partial",
    "c11_every_history_partial",
    "c11_one_call_partial",
    "c11_torn_cut_store_partial",
    "c11_torn_history_partial",
    "c11_torn_one_call_partial"
   ],
   "note": "all histories of stores and fetches, cut anywhere, with atomic or torn erases; with torn erases a store that repairs an earlier cut store may be cut again only if the words have 8 bytes and the items are quiet, i.e. no word of an item passes for a header (c11_torn_...); without that the statement is false (c13_torn_erase_refuted: a value that contains the bytes of an item). Missing: with torn erases, removals while a cut store is not completed and cut themselves"
  },
  {
   "property": "C12",
   "status": "partial",
   "theorems": [
    "c12_cut_remove_partial",
    "c12_cut_remove_all_partial",
    "c12_stable_refuted"
   ],
   "note": "after any admitted history; missing: a removal straight after a failed call with the same cache object, and histories that continue after a removal cut on top of an unfinished store (c12_stable_refuted)"
  },
  {
   "property": "C13",
   "status": "partial",
   "theorems": [
    "c13_completed_store_kept_partial",
    "c13_any_failures_admitted_partial",
    "c13_torn_erase_refuted",
    "c13_torn_kept_partial",
    "c13_torn_admitted_partial"
   ],
   "note": "any number of failures at any byte, with atomic erases, and with torn erases for words of 8 bytes and quiet items (c13_torn_kept_partial, c13_torn_admitted_partial); for other items with torn erases only failures that do not hit a repair; the full statement is refuted (c13_torn_erase_refuted)"
  },
  {
   "property": "C14",
   "status": "proved",
   "theorems": [
    "c14_map_wear",
    "c14_queue_wear"
   ],
   "note": "queue and map, every history without power failures"
  },
  {
   "property": "C15",
   "status": "proved",
   "theorems": [
    "c15_reads_logged",
    "c15_writes_logged",
    "c15_erases_logged",
    "c15_queue",
    "c15_map",
    "c15_queue_iterator",
    "c15_map_iterator",
    "c15_erase_all"
   ],
   "note": "any flash contents, histories with power failures, iterators used after errors, erase_all; the model logs every access that the driver would refuse"
  },
  {
   "property": "C16",
   "status": "proved",
   "theorems": [
    "c16_map_writes",
    "c16_queue_writes"
   ],
   "note": "queue and map, every history without power failures"
  },
  {
   "property": "C17",
   "status": "partial",
   "theorems": [
    "c17_map_caches_partial",
    "c17_map_no_failures",
    "c17_map_refuted",
    "c17_queue_caches"
   ],
   "note": "queue: every history with power failures; map: in full for histories without power failures, and for every admitted history with them; a removal straight after a failed call with the same cache object makes a difference (c17_map_refuted)"
  },
  {
   "property": "C18",
   "status": "partial",
   "theorems": [
    "c18_map_failed_call_partial",
    "c18_map_later_failures_partial",
    "c18_map_refuted",
    "c18_queue_failed_call"
   ],
   "note": "queue proved; map: every later admitted history, with further failures (c18_map_later_failures_partial); refuted for removals straight after a failed call (c18_map_refuted)"
  },
  {
   "property": "C19",
   "status": "proved",
   "theorems": [
    "c19_items_read_back"
   ],
   "note": "any contents, lengths, word sizes; scanning is repeated item_next"
  },
  {
   "property": "C20",
   "status": "proved",
   "theorems": [
    "c20_checksum_special",
    "c20_one_byte_detected",
    "c20_burst_changes_crc32",
    "c20_length_byte_detected",
    "c20_damage_isolated"
   ],
   "note": "isolation of data damage on any page contents; checksum and length-field theorems"
  },
  {
   "property": "C21",
   "status": "proved",
   "theorems": [
    "c21_torn_write",
    "c21_torn_removal",
    "c21_torn_removal_any_page"
   ],
   "note": "hypotheses: words of 8 bytes or untorn headers, no CRC-32 collision of the torn data; finding 11 of DESIGN.md shows the first is needed"
  },
  {
   "property": "C22",
   "status": "proved",
   "theorems": [
    "c22_key_numbers",
    "c22_key_signed",
    "c22_key_arrays",
    "c22_key_unit",
    "c22_key_vec",
    "c22_key_string",
    "c22_key_prefixed",
    "c22_val_numbers",
    "c22_val_signed",
    "c22_val_bool",
    "c22_val_option",
    "c22_val_slice",
    "c22_val_vec",
    "c22_val_string",
    "c22_text_only",
    "c22_val_array"
   ],
   "note": "all built-in key and value types; postcard values are not modelled"
  },
  {
   "property": "C23",
   "status": "proved",
   "theorems": [
    "c23_ring_is_bounded_fifo",
    "c23_eviction_is_minimal"
   ],
   "note": "refinement to a bounded FIFO for every history, including the reported length, free bytes, emptiness and oldest length"
  },
  {
   "property": "C24",
   "status": "proved",
   "theorems": [
    "c24_every_history",
    "c24_fifo",
    "c24_after_failure_refuted",
    "c24_at_least_once"
   ],
   "note": "every history without power failures; with failures every history follows the two-list specification; a drain that is cut may repeat an item (c24_after_failure_refuted) but nothing is lost as long as the RAM contents survive and no pop is cut (c24_at_least_once)"
  },
  {
   "property": "C25",
   "status": "partial",
   "theorems": [
    "c25_rejecting",
    "c25_order",
    "c25_discarding_refuted",
    "c25_losses"
   ],
   "note": "rejecting policy: exactly the accepted items, for every schedule; any policy: nothing duplicated or reordered, and (drains that do not overwrite) not more items missing than were evicted (c25_losses), for every schedule; that only evicted items are missing with the discarding policy is refuted (c25_discarding_refuted)"
  },
  {
   "property": "C26",
   "status": "partial",
   "theorems": [
    "c26_max_fit_partial",
    "c26_full_refuted"
   ],
   "note": "full statement refuted (c26_full_refuted): a push of the reported size can be refused as ItemTooBig; everything else proved"
  },
  {
   "property": "C27",
   "status": "proved",
   "theorems": [
    "c27_space_left",
    "c27_space_left_new",
    "c27_space_left_total",
    "c27_free_and_held",
    "c27_never_lowered_by_reading",
    "c27_empty_queue"
   ],
   "note": "for every reachable state; space_left always answers; bounds from above (what is held) and from below (empty queue), monotone under removal"
  },
  {
   "property": "C28",
   "status": "partial",
   "theorems": [
    "c28_accepted_partial",
    "c28_accepted_is_usable",
    "c28_release_refuted"
   ],
   "note": "proved for overflow-checked builds and for ranges that are not reversed; a reversed range is accepted by release builds (c28_release_refuted)"
  },
  {
   "property": "C29",
   "status": "partial",
   "theorems": [
    "c29_queue",
    "c29_queue_iterator",
    "c29_map_partial",
    "c29_map_only_short_partial",
    "c29_map_iterator_partial",
    "c29_map_refuted"
   ],
   "note": "queue proved for any flash contents; map: everything terminates and the only panic is in fetch or iteration on an item shorter than its key, which is a real panic (c29_map_refuted)"
  },
  {
   "property": "C30",
   "status": "proved",
   "theorems": [
    "c30_calculated_states"
   ],
   "note": "every legal evolution of page states incl. torn erases, every order of queries"
  },
  {
   "property": "C31",
   "status": "proved",
   "theorems": [
    "c31_lookup_true",
    "c31_lookup_kept",
    "c31_lru",
    "c31_no_places_refuted"
   ],
   "note": "every history, any capacity of at least 1; capacity 0 panics (c31_no_places_refuted)"
  },
  {
   "property": "C32",
   "status": "partial",
   "theorems": [
    "c32_succeeds",
    "c32_erased",
    "c32_queue_partial",
    "c32_map_partial",
    "c32_queue_cache_refuted",
    "c32_map_cache_refuted"
   ],
   "note": "proved for any contents with a new cache object or none; refuted for a storage object that keeps its cache (queue and map)"
  },
  {
   "property": "C33",
   "status": "proved",
   "theorems": [
    "c33_erased_run_checksum"
   ],
   "note": "all n up to 65535"
  },
  {
   "property": "C34",
   "status": "proved",
   "theorems": [
    "c34_no_lost_wakeup",
    "c34_no_empty_wakeup",
    "c34_given_up_refuted",
    "c34_failed_drain_refuted",
    "c34_calls"
   ],
   "note": "every schedule, with adding the item and signalling as two steps; a task whose drain fails or is given up after the wait can sleep on items (c34_given_up_refuted, c34_failed_drain_refuted)"
  },
  {
   "property": "C35",
   "status": "proved",
   "theorems": [
    "c35_enough_room",
    "c35_beyond_bound_refuted",
    "c35_out_of_order_refuted"
   ],
   "note": "the proved bound is slightly better than the claim (one word more per page and one header) and is shown to be exact; removing items through an iterator voids it (c35_out_of_order_refuted)"
  },
  {
   "property": "C36",
   "status": "proved",
   "theorems": [
    "c36_queue_queries",
    "c36_queue_reading",
    "c36_map_reading",
    "c36_map_fetch"
   ],
   "note": "queue: untouched for the two queries, only page erases for peek and iteration, also after power failures; map: untouched without power failures, at most one page erase for fetch after them"
  },
  {
   "property": "C37",
   "status": "proved",
   "theorems": [
    "c37_erases_amortised"
   ],
   "note": "histories without power failures"
  },
  {
   "property": "C38",
   "status": "proved",
   "theorems": [
    "c38_erases_amortised"
   ],
   "note": "histories without power failures; the inequality is stated without subtraction of R so that it says nothing false when R exceeds the reserve"
  },
  {
   "property": "C39",
   "status": "proved",
   "theorems": [
    "c39_queue",
    "c39_map"
   ],
   "note": "the reader of FormatSpec.v has its own checksums (bit-serial), fields and rules; padding bytes are not constrained"
  },
  {
   "property": "C40",
   "status": "proved",
   "theorems": [
    "c40_queue",
    "c40_map"
   ],
   "note": "images without half-written items; for maps one page must be free, and more than one only if the used pages start at page 0, which is how the library leaves them"
  },
  {
   "property": "C41",
   "status": "proved",
   "theorems": [
    "c41_flow",
    "c41_answers"
   ],
   "note": "interrupts come in between critical sections, each enqueue is one step; futures are not dropped"
  },
  {
   "property": "C42",
   "status": "proved",
   "theorems": [
    "c42_store",
    "c42_kept",
    "c42_refused",
    "c42_fetch",
    "c42_contents",
    "c42_iteration"
   ],
   "note": "power failures as in C11/C13: the cut calls that calm admits; a refused value is covered where some bytes could have been stored under the key"
  },
  {
   "property": "C43",
   "status": "proved",
   "theorems": [
    "c43_queue",
    "c43_map",
    "c43_clean_queue",
    "c43_clean_map",
    "c43_four_bits_refuted"
   ],
   "note": "four wrong bits in one marker word can lose a value: c43_four_bits_refuted"
  },
  {
   "property": "C44",
   "status": "proved",
   "theorems": [
    "c44_queue",
    "c44_map",
    "c44_other_keys",
    "c44_slight",
    "c44_three_bits_refuted",
    "c44_burst_refuted",
    "c44_length_refuted",
    "c44_interrupted_refuted"
   ],
   "note": "damage outside length fields; for the map between completed stores and with a restart after the damage unless no key pointers are cached. What is not claimed is refuted: three wrong bits (c44_three_bits_refuted), a burst of four bytes (c44_burst_refuted), a wrong bit in a length field (c44_length_refuted), damage while a migration is interrupted (c44_interrupted_refuted)"
  },
  {
   "property": "C45",
   "status": "proved",
   "theorems": [
    "c45_queue",
    "c45_map",
    "c45_typed",
    "c45_checksum_bit_refuted",
    "c45_migration_refuted",
    "c45_ones_refuted"
   ],
   "note": "for reads that are seen to be wrong and followed by a right one. What is not claimed is refuted: a wrong bit in one read of the data checksum (c45_checksum_bit_refuted, c45_migration_refuted), one read of only ones (c45_ones_refuted)"
  },
  {
   "property": "C46",
   "status": "proved",
   "theorems": [
    "c46_queue",
    "c46_map",
    "c46_queue_any",
    "c46_map_any",
    "c46_typed_any",
    "c46_buffered",
    "c46_shared"
   ],
   "note": "queue: the same object goes on being used. Map: with a new cache object after a call dropped at a read, within the histories of C09-C13 (a dropped call counts as one that was cut, but not in an erase); with the same object it is refuted (c18_map_refuted). Typed stores: any state. Buffered queue: the same object goes on being used. Shared ring: likewise, enqueues at any moment"
  },
  {
   "property": "C47",
   "status": "proved",
   "theorems": [
    "c47_working_set",
    "c47_after_store"
   ],
   "note": "for stored keys (fetching an absent key searches every time) and states without a half-erased page; c47_too_many shows that the working set must fit"
  },
  {
   "property": "C48",
   "status": "proved",
   "theorems": [
    "c48_queue",
    "c48_map",
    "c48_typed",
    "c48_queue_keeps",
    "c48_map_keeps",
    "c48_queue_and_map",
    "c48_two_queues",
    "c48_two_maps",
    "c48_overlap_refuted"
   ],
   "note": "the device of the model refuses accesses outside of the range; that none is made is C15, and the log of refused accesses is part of `alike`. c48_overlap_refuted: disjointness is needed"
  },
  {
   "property": "C49",
   "status": "proved",
   "theorems": [
    "c49_any",
    "c49_history",
    "c49_keys"
   ],
   "note": "with a new cache object after the complaint (with the same object see c18_map_refuted), within the histories of C09-C13; such a call counts as one that was cut, but not in an erase, so that without power failures stores and fetches with small buffers may come at any time"
  },
  {
   "property": "C50",
   "status": "proved",
   "theorems": [
    "c50_queue",
    "c50_map",
    "c50_queue_any",
    "c50_map_any",
    "c50_typed_any",
    "c50_queue_writes",
    "c50_map_writes",
    "c50_typed_writes",
    "c50_iteration_refuted"
   ],
   "note": "queue: the same object goes on being used. Map: with a new cache object after the error, within the histories of C09-C13 (a call that handed on the error counts as one that was cut, but not in an erase). Reads fail only while no page is half erased or half marked (or erases are atomic). For map iterations it is refuted: c50_iteration_refuted"
  },
  {
   "property": "C51",
   "status": "proved",
   "theorems": [
    "c51_queue",
    "c51_map"
   ],
   "note": "upper bounds, not tight; reads and erases only (accesses that the device refuses are counted as reads)"
  },
  {
   "property": "C52",
   "status": "proved",
   "theorems": [
    "c52_push",
    "c52_store"
   ],
   "note": "pushes and stores; pops after a restart are not as cheap, see the example c52_pops and finding 38"
  },
  {
   "property": "C53",
   "status": "proved",
   "theorems": [
    "c53_push",
    "c53_query"
   ],
   "note": "pushes and the two questions about space; a pop may give back several pages, see the example c53_pop"
  },
  {
   "property": "C54",
   "status": "proved",
   "theorems": [
    "c54_queue",
    "c54_map"
   ],
   "note": "without power failures; overwriting pushes, the questions about space and the order of a map iteration do depend on the geometry and are excluded"
  },
  {
   "property": "C55",
   "status": "partial",
   "theorems": [
    "c55_scan_partial",
    "c55_header_partial",
    "c55_item_partial",
    "c55_items_partial",
    "c55_top_refuted",
    "c55_undamaged"
   ],
   "note": "proved if what is scanned ends at least 65567 bytes below 2^32, and up to 8 bytes below it for pages without damage (c55_undamaged); the full statement is refuted (c55_top_refuted): closer to the top a damaged length makes a debug build panic and a release build leave its range"
  }
 ]
}