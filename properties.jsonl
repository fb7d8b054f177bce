{"id": "C01", "title": "The queue is a FIFO", "statement": "Starting from an erased flash region, any finished sequence of push, peek, pop and iterate calls behaves like an ideal first-in-first-out list of byte strings: every accepted push appends exactly its bytes, every pop returns and removes the oldest byte string, every peek returns it without removing it, and pop/peek return nothing exactly when the list is empty.", "quantifier": "all finite histories of queue calls, all item contents and lengths, all geometries (word sizes, page sizes, page counts), all supported cache kinds", "why_tests_cant": "Tests run a handful of histories on two fixed geometries; page wrap-around, page reuse and popped-page reclamation interact differently for every history.", "anchors": ["src/queue/mod.rs: push, push_inner, peek, pop, QueueIterator::next_inner, QueueIteratorEntry::pop", "src/item.rs: Item::write_new, ItemHeader::read_new"]}
{"id": "C02", "title": "A refused push changes nothing", "statement": "If push returns FullStorage or ItemTooBig then the queue holds exactly the same items in the same order as before. A push with overwriting disabled never removes an item. ItemTooBig is returned exactly when the data is longer than 65535 bytes or than page size minus two words minus the item header.", "quantifier": "all queue states reachable by any history, all data, both overwrite settings", "why_tests_cant": "The refused push still writes page markers and may close pages; only a statement over all states shows no stored item is lost by that.", "anchors": ["src/queue/mod.rs: push_inner"]}
{"id": "C03", "title": "An overwriting push drops only the oldest items", "statement": "If push with overwriting enabled succeeds, the new queue is a suffix of the old queue followed by the new item; if nothing had to be dropped because the item fits without overwriting, nothing is dropped; on a queue of two or more pages it never returns FullStorage.", "quantifier": "all reachable queue states, all data, all geometries", "why_tests_cant": "Whether the dropped page really is the oldest one depends on page rotation over an unbounded history.", "anchors": ["src/queue/mod.rs: push_inner"]}
{"id": "C04", "title": "Iterating a queue visits every item once, in order, and pops only what is asked", "statement": "Iterating from start to end yields precisely the queue contents oldest to newest. Popping an arbitrary subset of the visited entries removes precisely those entries, keeps the rest in order, and never skips or repeats later entries even though fully popped pages are erased during the iteration.", "quantifier": "all reachable queue states and all choices of which visited entries to pop", "why_tests_cant": "The subset of popped entries is exponential in the queue length and page reclamation depends on it.", "anchors": ["src/queue/mod.rs: QueueIterator::next, next_inner, QueueIteratorEntry::pop"]}
{"id": "C05", "title": "Queue operations are atomic under power failure", "statement": "If power is lost at any byte of any flash write or erase during a queue call, then after restart the queue holds either the contents before the call or the contents after it (for an overwriting push also the contents with the oldest page dropped), all other items are intact and in order, no call reports corruption, and this stays true for any number of consecutive failures, including failures during recovery.", "quantifier": "all histories of calls, all crash points in each call, repeated crashes, queues with at least two pages, items whose torn prefixes do not collide in CRC-32", "why_tests_cant": "The crash point is a byte index in an unbounded write stream; tests sample it randomly.", "anchors": ["src/queue/mod.rs: push_inner, next_inner, try_repair", "src/lib.rs: try_general_repair, open_page, close_page, partial_close_page", "src/mock_flash.rs: check_shutoff"]}
{"id": "C06", "title": "The map returns the last stored value", "statement": "Starting from an erased flash region, after any finished sequence of store and remove calls a fetch of a key returns the value of the last accepted store of that key, unless it was removed later, and None if there is none; no call reports corruption.", "quantifier": "all finite histories of map calls, all keys and values, all geometries with at least two pages, all supported cache kinds, any key type with a lawful codec", "why_tests_cant": "Migration moves items between pages at moments that depend on the entire history.", "anchors": ["src/map.rs: fetch_item, store_item, fetch_item_with_location, store_item_inner, migrate_items"]}
{"id": "C07", "title": "A refused store changes nothing", "statement": "If store_item returns FullStorage or ItemTooBig, every key still has the value it had before. ItemTooBig is returned exactly when the serialized key and value are longer than 65535 bytes or than page size minus two words minus the item header.", "quantifier": "all reachable map states, keys and values", "why_tests_cant": "A store that ends in FullStorage has closed, migrated and erased every page once; only a universally quantified statement shows nothing was lost.", "anchors": ["src/map.rs: store_item_inner, migrate_items"]}
{"id": "C08", "title": "A store succeeds when some page has room after compaction", "statement": "A store of an item of total size s (header and padding included) succeeds whenever the current values of all keys, with header and padding, take at most (pages - 1) * (page capacity - s) bytes.", "quantifier": "all reachable map states and all items", "why_tests_cant": "It is a pigeonhole argument over arbitrary distributions of live data over pages.", "anchors": ["src/map.rs: store_item_inner, migrate_items"]}
{"id": "C09", "title": "Removing keys", "statement": "After remove_item(k) fetch(k) returns None until k is stored again, whatever older copies of k were still in flash, and every other key is unaffected; after remove_all_items every fetch returns None.", "quantifier": "all reachable map states, all keys, all later histories", "why_tests_cant": "Old copies may sit on any page and may be migrated later.", "anchors": ["src/map.rs: remove_item, remove_all_items, remove_item_inner"]}
{"id": "C10", "title": "Iterating the map", "statement": "fetch_all_items yields only stored pairs, yields every present key, and for every key the last pair yielded carries the value fetch_item would return.", "quantifier": "all reachable map states", "why_tests_cant": "Order across pages depends on rotation.", "anchors": ["src/map.rs: fetch_all_items, MapItemIter::next"]}
{"id": "C11", "title": "Storing is atomic under power failure", "statement": "If power is lost at any byte of any flash write or erase during store_item(k, v), then after restart fetch(k) returns the old or the new value, every other key returns what it returned before, and all later operations work.", "quantifier": "all reachable map states, keys, values, all crash points, items whose torn prefixes do not collide in CRC-32, word size at least 8 bytes or untorn headers", "why_tests_cant": "Crash points inside migration, page erase and repair are too many to enumerate.", "anchors": ["src/map.rs: store_item_inner, migrate_items, try_repair"]}
{"id": "C12", "title": "An interrupted remove never resurrects an old value", "statement": "If power is lost at any point of remove_item(k), after restart fetch(k) returns either the value it had before the call or None, never an older value, and other keys are unaffected.", "quantifier": "all reachable map states, keys, crash points", "why_tests_cant": "Depends on the order in which copies on all pages are destroyed.", "anchors": ["src/map.rs: remove_item_inner"]}
{"id": "C13", "title": "Recovery itself can be interrupted", "statement": "With any number of power failures at arbitrary points, including during the automatic repair, the map never loses a completed store and never reports corruption.", "quantifier": "all histories of store/fetch with a crash at any point of any call, any number of times", "why_tests_cant": "Unbounded nesting of crashes.", "anchors": ["src/map.rs: try_repair, migrate_items", "src/lib.rs: try_general_repair"]}
{"id": "C14", "title": "Wear levelling", "statement": "In any history without power failure the pages are erased in cyclic order, so the erase counts of any two pages differ by at most one (after the first round).", "quantifier": "all finite histories of map calls or queue calls", "why_tests_cant": "It is a statement about erase counts over unbounded time.", "anchors": ["src/lib.rs: open_page", "README.md: Equal wear-levelling"]}
{"id": "C15", "title": "Flash accesses stay inside the configured range and are aligned", "statement": "Whatever the flash contains, every read, write and erase issued by any call lies inside the configured flash range, has non-zero length and is aligned to the read/write/erase size; bytes outside the range are never changed.", "quantifier": "all flash contents including arbitrary garbage, all calls and arguments, all geometries", "why_tests_cant": "Lengths in garbage headers are attacker-like inputs; tests use well-formed flash.", "anchors": ["src/item.rs: ItemHeader::read_new, read_item", "src/lib.rs: open_page, close_page, get_page_state"]}
{"id": "C16", "title": "Write-once discipline", "statement": "In any history without power failure, push, store and fetch program every flash byte at most once between erases; pop and remove program only the header of the item concerned a second time; no byte is ever programmed more than twice.", "quantifier": "all histories of calls without power failure", "why_tests_cant": "NOR flash without multi-write silently corrupts; it must hold at every step of every history.", "anchors": ["src/item.rs: write_raw, erase_data", "src/lib.rs: close_page, partial_close_page"]}
{"id": "C17", "title": "Caches are transparent", "statement": "For every history, the results of all calls and the flash contents are the same whether page states, page pointers and key pointers are cached (any cache size) or not.", "quantifier": "all histories, all cache kinds and capacities", "why_tests_cant": "Cache hits depend on history; stale entries only show in rare sequences.", "anchors": ["src/cache/mod.rs", "src/cache/page_states.rs", "src/cache/page_pointers.rs", "src/cache/key_pointers.rs"]}
{"id": "C18", "title": "A failed call does not poison the cache", "statement": "If a flash error interrupts a call and the same storage object (with its cache) is used afterwards, later calls give the same results as with a fresh cache.", "quantifier": "all histories with flash errors at arbitrary points, all later calls", "why_tests_cant": "Needs a failing call followed by every other kind of call.", "anchors": ["src/cache/mod.rs: DirtTracker", "src/map.rs: remove_item_inner, fetch_all_items", "src/queue/mod.rs"]}
{"id": "C19", "title": "A written item reads back", "statement": "An item written to erased flash is read back with exactly the same bytes for any content and length up to the page limit, its header is never confused with erased flash or with a removed item, and following items are found right after it.", "quantifier": "all item contents, lengths, addresses, word sizes", "why_tests_cant": "All byte strings of all lengths.", "anchors": ["src/item.rs: Item::write_new, ItemHeader::write, read_new, read_item, crc16, adapted_crc32"]}
{"id": "C20", "title": "Damage to one item does not affect the others", "statement": "If data bytes of one stored item change, every other item on the page is still found; an error confined to four adjacent bytes always changes the raw CRC-32; a changed length field with one damaged byte is always detected.", "quantifier": "all page contents, all damage patterns", "why_tests_cant": "All error patterns.", "anchors": ["src/item.rs: traverse, ItemIter::next, crc32, crc16"]}
{"id": "C21", "title": "A torn item write is never misread", "statement": "If power is lost while an item is being written, the partial item is read as absent, or as the complete item, never as something else, provided the torn data does not collide in CRC-32; removal that is torn leaves the item either intact or gone.", "quantifier": "all items, all tear points", "why_tests_cant": "Tear point times contents.", "anchors": ["src/item.rs: write_raw, erase_data, adapted_crc32, crc16"]}
{"id": "C22", "title": "Key and value encodings round-trip", "statement": "For every provided key and value type, deserializing the serialized bytes (followed by arbitrary bytes for keys) gives back the same value and length; serializing into a buffer that is too small returns an error and never panics.", "quantifier": "all values of all provided types, all buffer sizes", "why_tests_cant": "Value spaces up to 2^128 and arbitrary strings.", "anchors": ["src/map.rs: impl_key_num, impl_map_item_num, Key for [u8; N], Value for Option", "src/alloc_impl.rs", "src/heapless_impl.rs", "src/arrayvec_impl.rs"]}
{"id": "C23", "title": "The RAM ring is a bounded FIFO", "statement": "For every sequence of enqueue, peek and discard calls, the RAM ring holds exactly the FIFO list of accepted and not yet removed items, the bytes used equal the sum of item lengths plus two each and never exceed the capacity; rejecting happens exactly when the item does not fit; the discard-oldest policy drops the shortest prefix that makes room.", "quantifier": "all capacities, all histories, all item contents", "why_tests_cant": "Wrap-around positions depend on history.", "anchors": ["src/queue/buffered.rs: RamRing"]}
{"id": "C24", "title": "The buffered queue is a FIFO over RAM and flash", "statement": "Items come out of pop in the order they were enqueued, whatever the interleaving of enqueue, drain_one, drain_all, pop and peek; no item is lost or duplicated unless the overflow policy or an overwriting drain dropped it. A drain that a power failure cuts off (or whose future is dropped) loses nothing: it may only repeat the item it was at.", "quantifier": "all histories of BufferedQueue calls", "why_tests_cant": "Unbounded interleavings of two stores.", "anchors": ["src/queue/buffered.rs: BufferedQueue"]}
{"id": "C25", "title": "The shared ring under interrupts", "statement": "With enqueue calls interleaved at any point of a drain, every accepted item reaches flash exactly once in order when the rejecting policy is used. With the discard-oldest policy only evicted items are missing.", "quantifier": "all interleavings of interrupt-context enqueues with drain steps", "why_tests_cant": "Schedules.", "anchors": ["src/queue/buffered.rs: SharedRamRing::enqueue, drain_one"]}
{"id": "C26", "title": "find_max_fit", "statement": "A push without overwriting whose data is not longer than the reported size does not fail, and every push that succeeds without overwriting is not longer than the reported size; None means nothing fits.", "quantifier": "all reachable queue states and data lengths", "why_tests_cant": "Depends on page layout.", "anchors": ["src/queue/mod.rs: find_max_fit, find_max_fit_inner"]}
{"id": "C27", "title": "space_left", "statement": "space_left never exceeds the raw capacity and never understates: if a push without overwriting succeeds, its total item size was at most the reported space; on an empty erased queue it is the whole capacity. The reported space and the bytes that the items take together never exceed the capacity; popping, peeking and iterating never lower it; without power failures an empty queue reports at least the capacity of all pages but one.", "quantifier": "all reachable queue states", "why_tests_cant": "Depends on page layout.", "anchors": ["src/queue/mod.rs: space_left, space_left_inner"]}
{"id": "C28", "title": "Configurations are validated", "statement": "A configuration is accepted exactly when the range starts and ends on page boundaries, is not reversed, holds at least two pages (map) or one page (queue), the page can hold its two markers, one item header and one word, and the word size is at most 32.", "quantifier": "all ranges and geometries", "why_tests_cant": "Four integers of 32 bits or more.", "anchors": ["src/map.rs: MapConfig::try_new", "src/queue/mod.rs: QueueConfig::try_new"]}
{"id": "C29", "title": "Every call terminates without panicking on any flash contents", "statement": "Whatever the flash contains, every queue call and every map call terminates and does not panic.", "quantifier": "all flash contents, all arguments", "why_tests_cant": "The contents of the flash are an arbitrary byte array.", "anchors": ["src/item.rs: traverse", "src/queue/mod.rs: next_inner", "src/map.rs: fetch_item_with_location"]}
{"id": "C30", "title": "The calculated page-state cache never lies", "statement": "For every legal evolution of page states, whatever the order in which states are discovered, the calculated cache returns either nothing or the true state of the page, and never hits an unreachable branch.", "quantifier": "all page counts, all legal page-state histories, all query orders", "why_tests_cant": "State space of histories and page counts.", "anchors": ["src/cache/page_states.rs: CalculatedPageStates"]}
{"id": "C31", "title": "The key cache is a faithful LRU", "statement": "A key lookup returns the address last noted for the key or nothing; noting a key evicts only the least recently used entry; erased keys are forgotten.", "quantifier": "all capacities, all histories of notes", "why_tests_cant": "Histories.", "anchors": ["src/cache/key_pointers.rs: TrackedKeyPointers"]}
{"id": "C32", "title": "erase_all gives a fresh store", "statement": "After erase_all succeeds the store behaves like a newly created one on erased flash.", "quantifier": "all reachable states, all cache kinds, all later histories", "why_tests_cant": "Needs every cache kind times every history.", "anchors": ["src/lib.rs: erase_all"]}
{"id": "C33", "title": "Runs of erased bytes are never a valid item", "statement": "The checksum of n erased bytes is not the erased checksum, for every n up to the maximum item length.", "quantifier": "all n from 0 to 65535", "why_tests_cant": "The repository tests only lengths below 1024 and says the rest takes too long.", "anchors": ["src/item.rs: crc32, tests::crc32_all_ones_resistant"]}
{"id": "C34", "title": "The drain task never sleeps on pending items", "statement": "When a task that drains until the ring is empty waits for the signal, the signal is not set and no enqueue is about to set it, the ring holds no item, whatever enqueues interrupted the drain and however late they signalled. Nor is the task woken for nothing: between two completed waits an enqueue was accepted.", "quantifier": "all interleavings of enqueues with the steps of the drain task", "why_tests_cant": "A lost wake-up needs an exact schedule and shows only as an item that stays in RAM.", "anchors": ["src/queue/buffered.rs: SharedRamRing::enqueue, wait, drain_one"]}
{"id": "C35", "title": "A queue used in order takes what its size promises", "statement": "In a queue of at least two pages whose items leave only by pop or by being overwritten, when no accepted item ever took more than M bytes, a push of an item of s bytes without overwriting succeeds whenever the items in the queue take at most (pages - 2) * (page capacity - M) + (page capacity - s) bytes.", "quantifier": "all geometries, all histories of pushes, pops, peeks and read-only iterations without power failures, all items", "why_tests_cant": "Fragmentation depends on the whole history of sizes; tests fill a queue with equal items.", "anchors": ["src/queue/mod.rs: push, pop, next"]}
{"id": "C36", "title": "Reading leaves the flash alone", "statement": "space_left and find_max_fit on a queue, and fetch and iteration on a map, program and erase nothing as long as no power failure happened. With power failures and for peek and iteration of a queue nothing is ever programmed, and nothing changes but whole pages that are erased; a fetch erases at most one.", "quantifier": "all reachable states, all arguments", "why_tests_cant": "The effect on flash depends on the page states; a stray write shows only as wear.", "anchors": ["src/queue/mod.rs: space_left, find_max_fit, peek, iter", "src/map.rs: fetch_item, fetch_all_items"]}
{"id": "C37", "title": "What is pushed pays for the erases of a queue", "statement": "After any history without power failures in which no accepted item takes more than M bytes, the number of page erases times (page capacity + one word - M) is at most the bytes of all accepted items.", "quantifier": "all geometries, all histories without power failures, all items", "why_tests_cant": "Amortised over the whole history.", "anchors": ["src/queue/mod.rs: push, pop, next"]}
{"id": "C38", "title": "What is stored pays for the erases of a map", "statement": "After any history without power failures in which no stored item takes more than M bytes and the current values never take more than R bytes together, erasing k pages needs that k * ((pages - 1) * (page capacity + one word - M) - R) is at most (pages - 1) times the bytes of all stored items and R: moving current values at a migration costs no more than their share of the pages.", "quantifier": "all geometries, all histories of stores, fetches, removals and iterations without power failures, all key types", "why_tests_cant": "Amortised over the whole history; depends on which values are current in the page being reclaimed.", "anchors": ["src/map.rs: store_item, migrate_items"]}
{"id": "C39", "title": "The flash holds the contents in the documented representation", "statement": "At any moment, also after power failures, a reader that knows only the documented layout (little-endian header of data checksum, length and length checksum, both checksums given bit by bit; word-aligned data; start and end markers; pages in ring order, erased pages wholly 0xFF) finds in flash exactly the items of the queue in order, respectively for every key of the map its current value.", "quantifier": "all geometries, histories, caches, with and without power failures as in C01-C12", "why_tests_cant": "A change of byte order, polynomial or layout that is applied to writing and reading alike passes every round-trip test but makes existing devices lose their data.", "anchors": ["src/item.rs: ItemHeader, crc16, adapted_crc32", "src/lib.rs: get_page_state", "README.md"]}
{"id": "C40", "title": "Data in the documented representation is understood, whoever wrote it", "statement": "Flash that was filled by an earlier release or another tool according to the documented layout is read as exactly the queue or map it represents, and every further history behaves as if it had started with these contents.", "quantifier": "all images in the layout (any items, removed items, any start page), all geometries, caches and later histories, with and without power failures", "why_tests_cant": "Tests only read flash that the same code has written.", "anchors": ["src/item.rs: ItemHeader::read_new", "src/lib.rs: get_page_state, find_first_page", "src/queue/mod.rs", "src/map.rs"]}
{"id": "C41", "title": "The calls of the shared ring's drain task under interrupts", "statement": "After any calls of drain_one, drain_all, wait_and_drain_all, pop and peek on a shared ring, with enqueues coming in from interrupts at any point, what was popped, then the queue on flash, then the ring are the accepted items in order and nothing twice; nothing is missing if all enqueues reject when full and no call overwrites. drain_all returns normally only when the ring is empty or its oldest item is longer than the scratch buffer; pop and peek give the oldest pending item; they give none only if nothing was pending, or the oldest pending item is longer than the buffer; the calls fail only with FullStorage, ItemTooBig or BufferTooSmall and drain_all ends unless interrupts keep coming.", "quantifier": "all geometries, ring capacities, calls, buffers, interrupt schedules and items, no power failures", "why_tests_cant": "Schedules: tests run without preemption.", "anchors": ["src/queue/buffered.rs: SharedRamRing::drain_one, drain_all, wait_and_drain_all, pop, peek"]}
{"id": "C42", "title": "A map gives back the values, of whatever types, that were stored", "statement": "A completed store_item of a value of any type with a correct codec makes every later fetch_item with that type return that very value, until the key is stored or removed again, whatever values of other types other keys get; a value its codec refuses leaves the map as it was and the codec's own error is reported; a fetch with another type's codec changes nothing; iterating over a map with values of one type yields pairs that were stored and, for every key, its value last.", "quantifier": "all value types and codecs that decode what they encode, key types, geometries, caches, histories with stores of many types, with and without power failures as in C06-C13", "why_tests_cant": "Codec and storage are generic parameters of each other's calls; tests fix a few types.", "anchors": ["src/map.rs: store_item, fetch_item, MapItemIter::next, trait Value"]}
{"id": "C43", "title": "Wrong bits in page markers change nothing", "statement": "As long as each of the two marker words of each page has at most three wrong bits, compared with what a perfect flash would hold, every call of queue and map answers the same, erases the same pages and leaves the same data as on a perfect flash, in histories with power failures and restarts; the wrong bits may differ from moment to moment.", "quantifier": "all geometries, caches, histories, flash contents whose marker bytes are 00 or FF (kept by the library itself), changes of marker bits between any two calls", "why_tests_cant": "Tests run on a mock flash without bit errors; the threshold in get_page_state is never exercised, and its interplay with partial marker writes and torn erases even less.", "anchors": ["src/lib.rs: get_page_state, HALF_MARKER_BITS, partial_close_page, close_page"]}
{"id": "C44", "title": "Damaged item data is noticed and costs only that item", "statement": "When bytes of the data or of the data checksum of stored items change by themselves, the damaged items are never returned and all other items are: the queue goes on as a queue that lost exactly the damaged items, and a key of the map has the last of its values whose item is intact; in particular keys none of whose items is damaged keep their values. Up to two wrong bits per item, any change within one byte and any change of the checksum alone are always noticed.", "quantifier": "all geometries, item contents and sizes, caches, histories with power failures and restarts, damage of any number of items between any two calls (map: after completed stores, with no key pointers cached across the damage)", "why_tests_cant": "A unit test flips a few chosen bits in a chosen item; which errors the adapted checksum lets through, and what the scan does behind a damaged item in every layout, is beyond enumeration.", "anchors": ["src/item.rs: ItemHeader::read_item, adapted_crc32, crc32_with_initial", "src/map.rs: fetch_item_with_location", "src/queue/mod.rs: QueueIterator::next"]}
{"id": "C45", "title": "Wrong reads that are noticed change nothing", "statement": "When single reads deliver wrong bytes although the flash stores the right ones (an error on the bus), and each wrong read is one the format can notice - the length of a header does not match its checksum, the data of an intact item does not match its checksum, a page marker still counts as what it is - and the next read is right, then all calls of queue and map give the same answers and leave the same flash, cache and iterators as with perfect reads.", "quantifier": "all geometries, flash contents (also garbage), caches, histories with power failures and restarts, all sequences of such wrong reads, any key and value type", "why_tests_cant": "A unit test would inject a wrong read at chosen places; which of all reads in all histories are covered by a retry, and which are not, cannot be enumerated.", "anchors": ["src/item.rs: ItemHeader::read_new 54-121, ItemHeader::read_item 123-173", "src/lib.rs: get_page_state", "CHANGELOG.md: Retry reading flash when CRCs are not equal"]}
{"id": "C46", "title": "A call can be given up wherever it waits", "statement": "When the future of a call is dropped while it waits for a read, while it waits for a write or an erase, or after its last write, the queue object can go on being used: all later answers are those of a FIFO in which each dropped call has run or stopped where a power failure could have stopped it. The same holds for a map that is opened anew after the dropped call. The buffered queue and the shared ring lose nothing in dropped drains; the item a drain was at may come out twice. In any state at all, a call dropped at a read leaves the flash as a power failure in the same call does.", "quantifier": "all geometries, caches, histories with power failures, restarts and any number of dropped calls, every point where a call can be dropped, any key and value type; the last sentence for all flash contents and caches", "why_tests_cant": "Async cancellation can hit any of the await points of a call, in any state; which cache fields and flash words are then out of step with each other is a matter of each point.", "anchors": ["src/queue/mod.rs: push, pop, peek, iter, QueueIterator::next", "src/map.rs: store_item, fetch_item, remove_item", "src/cache/mod.rs: mark_dirty, unmark_dirty, invalidate_cache_state", "src/lib.rs: run_with_auto_repair!", "README.md 69-70"]}
{"id": "C47", "title": "The key pointer cache makes fetches cheap", "statement": "With a key pointer cache, fetching keys of a working set that has no more keys than the cache has places reads exactly one item per fetch (its header and its data, nothing else), with at most one exception per key, in whatever order and however often the keys are fetched. Straight after a completed store, fetching the stored key reads exactly one item.", "quantifier": "All reachable map states (any history of calls, restarts and power failures without a half-erased page left), all key cache sizes, all working sets of stored keys, all sequences of fetches.", "why_tests_cant": "The README's numbers are averages of one pseudo-random test run; that no sequence of fetches makes the cache thrash while the keys fit is a statement about all sequences and all earlier cache contents.", "anchors": ["README.md: Caching (83-110)", "src/cache/key_pointers.rs: key_location, notice_key_location, insert_front, move_to_front", "src/map.rs: fetch_item_with_location, store_item_inner", "src/cache/mod.rs: notice_key_location"]}
{"id": "C48", "title": "Storages on disjoint parts of a chip do not disturb each other", "statement": "A queue or a map answers every call as if it were alone on the chip, whatever other software or other storages do to the flash outside of its range between the calls; it never changes a byte outside of its range. Two storages whose ranges have no address in common can be used in turn, with power failures and restarts: each answers as on a chip of its own, and the rest of the chip stays as it was.", "quantifier": "All states and histories (calls, power failures at any point, restarts), all changes by others outside of the range between the events, all interleavings of two storages, all geometries and key types.", "why_tests_cant": "Tests put one storage on a mock chip of its own; independence of everything outside of the range is a statement about pairs of executions and all neighbours.", "anchors": ["src/lib.rs: GenericStorage.flash_range (46-51), calculate_page_address, calculate_page_end_address", "src/queue/mod.rs: QueueConfig::new (flash_range)", "src/map.rs: MapConfig::new (flash_range)"]}
{"id": "C49", "title": "A data buffer that is too small costs nothing but the call", "statement": "A map call whose data buffer is too small for what it has to read or write, answered by BufferTooSmall or a serialization error, destroys nothing: after a store, a fetch or an iteration every key has the value it had (also if the store had begun to move items to another page), a removal has removed nothing but what it was asked to. A call that is answered without that complaint is answered exactly as with a larger buffer. In any state at all, a call that ends for its buffer leaves the flash as a power failure in the same call with a larger buffer does.", "quantifier": "all geometries, histories with power failures, restarts and any number of calls with buffers of any size, a new cache object after the complaint; all keys whose code reads a prefix (all those of the library); the last sentence for all flash contents and caches", "why_tests_cant": "A store needs the buffer for other keys' items only when a page has to be moved, so whether a buffer is large enough depends on the whole history; tests use generous buffers.", "anchors": ["src/map.rs: store_item_inner (data_buffer), migrate_items, fetch_item_with_location, remove_item_inner", "src/item.rs: ItemHeader::read_item 123-173 (BufferTooSmall)", "src/lib.rs: Error::BufferTooSmall", "src/map.rs: Key, SerializationError"]}
{"id": "C50", "title": "A device error costs nothing but the call", "statement": "If the device answers any of the reads of a call with an error, the call hands that error on, or it is answered as if the reads had worked; nothing is lost, invented or reordered: the operation has happened, or it has not, or it has stopped where a power failure could have stopped it. The queue object can go on being used at once; the answers of later calls are right. In any state, a call that hands on the error leaves the flash as a power failure in the same call does (no error of a read is taken for an erased or corrupted page, for example). A call in which a write or an erase fails, having done any part of its work, hands on that error, and what C05 and C11 say of a power failure holds of it with the object going on being used.", "quantifier": "all histories of queue and map calls with power failures and restarts in which any calls have any set of failing reads, while no page is half erased; map: a new cache object after the error, no failing reads in iterations (for those refuted); the last sentence for all flash contents and caches in which no page is half marked", "why_tests_cant": "The number of the read that fails and the state it fails in range over everything; the mock flash of the tests has no failing reads, and an error is only handed on correctly if every place that handles errors tells it from the others.", "anchors": ["src/lib.rs: get_page_state, try_general_repair, run_with_auto_repair!", "src/item.rs: read_item_header, ItemIter, NextPageReader", "src/queue/mod.rs: push, pop, peek, iter", "src/map.rs: store_item, fetch_item, remove_item, MapItemIter::next 1067-1125"]}
{"id": "C51", "title": "The work of one call is bounded by the geometry", "statement": "Every call of a queue or a map ends after a bounded number of reads and of erases. The bounds depend only on the number of pages and the words of a page (and, for an iteration, on how often it is advanced), and not on what is stored, on how long the storage has been used, or on the bytes that were on the chip before.", "quantifier": "all geometries, all flash contents (also garbage), all histories of queue calls with power failures and restarts, any cache; map: any state at all; all calls and all power failures in them", "why_tests_cant": "The worst case over all flash contents cannot be tried out; the loops (page scans, item scans with their second reads, compaction that searches every key, the repair macro's second run) nest, and an item chain that does not advance would loop only on contents that no test writes.", "anchors": ["src/lib.rs: find_first_page, find_last_page, try_general_repair, run_with_auto_repair!", "src/item.rs: ItemIter::traverse, NextPageReader, find_next_free_item_spot", "src/queue/mod.rs: push, pop, peek, iter, find_max_fit, space_left", "src/map.rs: store_item_inner, fetch_item_with_location, migrate_items, remove_item_inner, MapItemIter::next"]}
{"id": "C52", "title": "Pushes in a row read nothing, and so do stores", "statement": "If the cache has a place for the state and for the pointers of each page, a push straight after a completed push makes no reads at all, unless it moves on to another page (closes one or erases one). The same holds for a store straight after a completed store in a map, with any keys and with or without a key cache. This needs no warm-up other than the first push or store: it also holds after a restart or a power failure.", "quantifier": "all geometries, all reachable states (also after power failures and restarts) whose cache has the page states and page pointers, all items, overwriting allowed or not, all kinds of keys, all keys and values", "why_tests_cant": "A cache that has stopped working, or has become cold after some error or restart, changes no answer: every test still passes, only slower. That reads are saved in every state, whatever happened before, is not visible in any finite set of read counts.", "anchors": ["src/cache/page_pointers.rs: notice_item_written, first_item_after_written", "src/cache/page_states.rs: notice_page_state, get_page_state", "src/cache/mod.rs: is_dirty, unmark_dirty", "src/lib.rs: find_first_page, get_page_state", "src/item.rs: find_next_free_item_spot", "src/queue/mod.rs: push", "src/map.rs: store_item, store_item_inner"]}
{"id": "C53", "title": "A push erases at most one page", "statement": "A push erases at most one page of the flash, whether it succeeds, overwrites the oldest items, answers with an error or is cut short by a power failure, and also if it has to repair what an earlier power failure left. The questions about space (find_max_fit, space_left) erase at most one page, too: the one that a power failure left half erased.", "quantifier": "all geometries, all reachable states (also after power failures and restarts, with erases that stop half way), all items, overwriting allowed or not, all power failures in the call", "why_tests_cant": "Erasing one page too many loses no item that the caller can tell from an allowed overwrite, costs only wear and time, and would show only in the rare states in which a repair and a move to the next page meet in one call.", "anchors": ["src/queue/mod.rs: push, find_max_fit, space_left, try_repair", "src/lib.rs: open_page, try_general_repair, run_with_auto_repair!"]}
{"id": "C54", "title": "The geometry does not show in the answers", "statement": "Two queues given the same calls (pushes without overwriting, pops, peeks, iterations) give the same answers and end with the same contents whenever they accept the same pushes, however different their word sizes, page sizes, numbers of pages, caches and restarts are. The same holds for two maps given the same stores, fetches and removals if they accept the same stores. So code that works with one flash keeps working after a move to another one that is large enough.", "quantifier": "all pairs of geometries, all caches and restarts on either side, all histories without power failures, all items, keys and values, buffers of at least a page", "why_tests_cant": "A test runs one geometry at a time; the number of pairs of geometries and histories is unbounded, and errors in rounding to words or in page arithmetic show only with some sizes.", "anchors": ["src/queue/mod.rs: push, pop, peek, iter", "src/map.rs: store_item, fetch_item, remove_item, remove_all_items", "src/lib.rs: calculate_page_address, calculate_page_end_address, round_up_to_alignment, NorFlashExt"]}
{"id": "C55", "title": "Address arithmetic does not overflow", "statement": "Looking for items in a page, whatever the flash holds there, computes no address that does not fit in 32 bits: debug builds do not panic and release builds do not wrap around and go on outside the range they were given.", "quantifier": "all geometries, all places of the range in the 32-bit address space, all flash contents, all pages and positions in them, with and without overflow checks", "why_tests_cant": "It takes a range close to the top of the address space and a header with a wrong length whose 16-bit checksum is right; no test has both, and in release builds a wrapped address looks like any other.", "anchors": ["src/item.rs: ItemHeader::read_new, read_item, data_address, next_item_address, ItemHeaderIter::traverse"]}
