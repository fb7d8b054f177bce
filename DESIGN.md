# A formal model of sequential-storage

Prover: Coq 8.16.1 with its standard library and nothing else. Sources: `rocq/theories`, namespace `Verif`.
The claims are in `properties.jsonl`, the theorems that cover each claim in `MANIFEST.json`, the
wrong programs that were tried against the theorems in `seeded/LOG.jsonl`.
Build: `cd rocq && coq_makefile -f _CoqProject -o Makefile && make -j4` (about 25 minutes).

1. [Trusted base](#1-trusted-base)
2. [What is modelled](#2-what-is-modelled)
3. [What is not modelled, and simplifications](#3-what-is-not-modelled-and-simplifications)
4. [Vocabulary of the statements](#4-vocabulary-of-the-statements)
5. [How the proofs work](#5-how-the-proofs-work)
6. [Property by property](#6-property-by-property)
7. [Findings: where the code falls short](#7-findings-where-the-code-falls-short)
8. [Validation of the model](#8-validation-of-the-model)
9. [Wrong programs](#9-wrong-programs)

## 1. Trusted base

* The Coq kernel. No kernel check is switched off, there is no plugin, no native code.
* Axioms: none. Every property theorem is followed by `Print Assumptions`, and every one of them prints
  `Closed under the global context`. (`coqchk` on the whole library additionally lists seven parameters of
  `Coq.ssr.ssrunder`, a standard library module that is loaded with `lia`'s dependencies; no theorem uses them.)
* That the Gallina definitions say what the Rust code does. Every model definition cites file and lines.
  Section 2 lists what is covered, section 3 what is not. Section 8 says how the reading was tested.
* That the specification files (`QSpec`, `MSpec`, `BSpec`, `CapSpec`, `WearSpec`, `SafeSpec`, `FormatSpec`, the
  first parts of `QObs`, `MObs`, `SharedCallP`) say what the English claims say. They are short and use no helper of the
  implementation model other than the types of calls and answers and the flash geometry.

## 2. What is modelled

Total computable functions in a state and error monad (`State.v`: `M K A := st K -> res A * st K`).
A Rust panic (underflow, slice out of range, `unwrap` of `None`, `unreachable!`) is the error value `EPanic`.
A loop without an evident bound takes fuel; running out is the error value `EFuel`, and the theorems exclude it.

| File | Code | Contents |
|------|------|----------|
| `Base.v` | - | bytes, little-endian numbers, small list functions |
| `Crc.v` | `src/item.rs` 428-480 | `crc16`, `crc32`, `adapted_crc32` |
| `Flash.v` | `src/mock_flash.rs`, traits of `embedded-storage` | the flash device (see below), geometry, addresses (`src/lib.rs` 455-480, 546-680) |
| `Cache.v` | `src/cache/*.rs` | dirty flag; page states: none, array, calculated; page pointers: none, array; key pointers: none, array |
| `State.v` | `src/lib.rs` 507-543 | errors, monad, primitive reads, writes, erases, cache notices |
| `Item.v` | `src/item.rs` | headers, reading and writing items, `ItemHeaderIter`, `ItemIter`, `find_next_free_item_spot` |
| `Generic.v` | `src/lib.rs` 54-455 | page search, page states, open/close/partial close, `try_repair`, `erase_all`, `run_with_auto_repair` |
| `Queue.v` | `src/queue/mod.rs` | `push`, `pop`, `peek`, `iter`, `next`, entry `pop`, `find_max_fit`, `space_left`, repair |
| `Map.v` | `src/map.rs` 40-1130 | `fetch_item`, `store_item`, `remove_item`, `remove_all_items`, `fetch_all_items`, the iterator, `migrate_items`, repair; generic in the key codec |
| `TMap.v` | `src/map.rs` 187-211, 397-575, 1068-1123 | `store_item`, `fetch_item` and the iterator with values of any type (`Map.v` has values as bytes); the serialization in the middle of the store loop |
| `Buffered.v` | `src/queue/buffered.rs` 1-380 | `RamRing`, `BufferedQueue`, and `SharedRamRing` as atomic steps that can be interleaved freely |
| `Shared.v` | `src/queue/buffered.rs` 382-534 | the task calls of `SharedRamRing`, with interrupts between critical sections |
| `Codec.v` | `src/map.rs` 1134-1430, `alloc_impl.rs`, `heapless_impl.rs` (`heapless_09_impl.rs` is the same code), `arrayvec_impl.rs` | key and value codecs of all built-in types |
| `Config.v` | `src/map.rs` 40-82, `src/queue/mod.rs` 34-75 | `try_new`, with and without overflow checks |
| `Addr32.v` | `src/item.rs` 54-173, 212-220, 583-604, 632-658 | the scan for items with sums in 32 bits |

**The flash device.** Memory is a function from addresses to bytes. `read`, `write`, `erase` check alignment and range
as the mock flash does. A write clears bits (AND), an erase sets bytes to 0xFF. The device has a power budget in bytes
(`f_fuel`, as in `mock_flash.rs`): a write or erase that exceeds it is done up to that byte and fails with
`SShutoff`; operations after that would work again, but no call goes on after a failed write or erase (`c50_queue_writes`, `c50_map_writes`). Two switches describe better hardware:
`f_ae`: an erase is done wholly or not at all; `f_aw`: writes up to that length are done wholly or not at all.
Ghost state, never read by the code: programming counts per byte (`f_wc`), the log of erases (`f_er`), and the log of
accesses that the driver would refuse (`f_bad`; with `garbled` reads it also counts the reads).

**Generic parameters.** The geometry `g` (`READ_SIZE`, `WRITE_SIZE`, `ERASE_SIZE`, start, number of pages), the cache
object, and for maps the key type with its codec are arbitrary. `geom_ok g` is what `try_new` accepts
(C28 proves that). The word size is at most 32, as the library demands.

## 3. What is not modelled, and simplifications

* The compiler, the executor, `embedded-storage`, the chip. Reads are reliable, except in C45, C46 and C50, where they are a parameter of the
  model (class `reader` in `State.v`; the instance `steady` is the mock flash, `garbled` a device with wrong reads, `dropping` one whose read never comes back, `failing` one whose reads return errors, `counted` one that lists its reads; `on_result` says what
  the repair macro sees). The code's second reads are modelled.
* Overflow of 32-bit addresses and of `usize`: numbers are unbounded, the region is assumed to lie below 2^32.
  Exceptions: `Addr32.v` has the scan for items (`src/item.rs` 54-220, 583-604, 632-658) with sums in 32 bits, and C55 says where that makes no difference; `Config.v` models overflow of the range subtraction; the ring model checks subtractions; the code's
  16-bit length field is modelled. (`ERASE_SIZE as u32 * 2` in `try_new` could overflow for erase sizes of 2 GiB.)
* Dropping a future half way is in C46: at a read (reader `dropping`), at a write or an erase (a power budget; the same object goes on), after the last write (`DLate`).
  The buffered queue (`BDrops.v`) and the steps of the shared ring (`SDrops.v`) are included. Not covered: map objects used on after a dropped call beyond what C09-C13 and C18 say.
* `postcard` values; `print_items`; `flash()`, `destroy`, `into_storage`, getters without effect; formatting of errors.
* What a failed or finished call leaves in the caller's buffer, except where it is returned.
* In the calls of the shared ring (`Shared.v`, C41), `enqueue` is one step: there it comes from an interrupt, which the task cannot interrupt. In the schedules of C25 and C34
  (`Buffered.v`) adding the item under the lock and signalling are two steps.
* `MapItemIter::next` and the queue iterator are modelled as scripts of `next` calls on one iterator; after an error
  the iterator can be used again (covered by C15/C29), mixing an iterator with other calls is excluded by Rust's borrows.

## 4. Vocabulary of the statements

* A *history* is a list of events: calls with an optional power budget, and restarts with a cache object as its
  constructor returns it (`Client.v`, `MClient.v`). `q_run`, `m_run` run it; the answers are returned as a list.
* `q_reached pf g evs l s`: state `s` is reached on erased flash by the history `evs` with answers `l`; `pf = true` admits
  power failures. `m_reached` is the same for maps. Side conditions in these definitions:
  * `setting`/`msetting`: `geom_ok`; with power failures, words of at least 8 bytes *or* untorn header writes (finding 11
    shows that this is needed), and for queues two pages or untorn erases; for maps always two pages.
  * items that are written while failures can happen have no CRC-32 collision with one of their own torn prefixes (`no_collision`). A 1 in 2^32 event
    for each prefix; without it a half-written item is taken for complete (finding 12).
  * for maps with failures: `calm`, a predicate on the history. It tracks three facts with `mode`: `sure` (no interrupted store awaits completion),
    `fresh` (the cache object was not used in a failed call since it was made), `whole` (a store or removal was completed
    since the last failure). `covered`: a store on top of an unfinished one must not be cut again unless erases are atomic; removals and
    iterations need `fresh`, iterations also `whole`. The refuted theorems show what goes wrong otherwise.
  * `torn_reached` (`MTornObs.v`) replaces the restriction on stores by one on the data: stored items are `quiet` (`TornSpec.v`), that is, no word of
    an item and no torn rest of its header passes for a header (each is a 1 in 2^16 event; `quietb` decides it). Words have at least 8 bytes. Then any
    call may be cut, also the erase that repairs an earlier cut store, any number of times.
* `q_holds g s q`: iterating over the queue in state `s` yields exactly `q`. `m_holds`: fetching each legal key yields the
  value the function gives. `ram_holds`: peeking and discarding yields the list. The contents are *observed through the API*,
  and `c01_contents_unique`, `c06_contents_unique` show that they are determined.
* `bad_markers k`, `few_bad`, `real_run` (`NoiseSpec.v`): histories in which marker bits change by themselves, against the same calls on a perfect flash.
* `placed`, `hurt`, `slightly_hurt`, `survivors`, `htrace`, `mhtrace` (`HurtSpec.v`): where the stored items are, changed bytes of data or data checksums, the items
  that are left. `hurt` asks that no changed item has a matching checksum; `c44_slight` shows that this is so for up to two wrong bits or one wrong byte per item.
* `prefix_codec`, `m_small`, `wide`, `m_srun`, `mstrace`, `left_over` (`Short.v`): map calls with buffers of any size and what one that is too small may leave.
* `failing`, `fail_at`, `half_marked`, `q_frun`, `qftrace`, `m_frun`, `mftrace`, `calm_f` (`Fails.v`): calls in which reads fail and what may come of them.
* `erases_between`, `q_work`, `m_work` (`Work.v`): the work of a call and its bounds.
* `page_caches`, `moved_on` (`Cheap.v`): the caches that save reads; a push that needs another page.
* `among`, `alike`, `two_run`, `unharmed` (`Parts.v`): histories of a storage while others change the rest of the chip; two storages on one chip.
* `fetches`, `one_item` (`Cost.v`): the reads that fetches make, counted with a device that logs them.
* `garbled`, `harmless`, `same_but_log` (`Reads.v`): devices whose reads deliver wrong bytes that can be noticed.
* `b_drun`, `bdtrace` (`BDrops.v`), `repeats` (`BSpec.v`): the buffered queue with dropped calls; items repeated on the spot.
* `q_drun`, `qdtrace`, `m_drun`, `mdtrace` (`Drops.v`): histories with dropped calls and what they may do.
* `QSpec.qdo`, `MSpec.mdo`, `BSpec.bdo`: what one call may answer and how the contents change; `qtrace`, `mtrace`, `btrace`: histories.

## 5. How the proofs work

1. *Bytes and scanning* (`BaseP`, `CrcP`, `GeomP`, `ScanP`, `ItemP`, `CodecP`, `RingP`, `ItemSpecP`). CRC facts by linearity and finite checks
   lifted by induction; what scanning a page yields, as a function of the page's bytes, for any bytes.
2. *Weakest preconditions* (`WpP`): `wp m P Q` with a separate postcondition for power cuts, one rule per primitive.
   Proofs about calls are proofs about all cut points at once.
3. *Layout* (`PageP`, `WorldP`, `LayP`): a page is a list of slots (live, erased, torn, end of data); a world is a ring of
   pages with states. The invariant describes the region between oldest and youngest page, possibly with one half-erased page
   and torn last slots. Cache coherence is relative to the world: any coherent cache gives the same answers.
4. *Queue* (`QPushP`..`QHistP`): each operation moves from world to world; contents = concatenation of live slots. `QPropsP`,
   `QCapP` (fragmentation), `QSpaceP`, `QWearP`, `QMiscP` derive the claims.
5. *Map* (`KeyP`, `MLogP`, `MFetchP`, `MMigP`, `MStoreP`, `MCallP`, `MRemP`, `MRmvP`, `MIterP`, `MExecP`, `MHistP`): contents = last entry of a key in the log of all live items.
   Migration is the delicate part: a cut migration leaves copies; the reason that repairs work is that a re-migration rewrites the same bytes
   at the same addresses, which is the invariant. `MTwinP`, `MCacheP`: two runs with different caches side by side. `MRmCutP`: cut removals.
   `TornP`, `MTornP`, `MTornHistP`, `MTornPropsP`: pages left by a torn erase and then marked again, and histories through them.
   `TMapP`, `TPropsP`: typed values; a store of a value does what the store of its bytes does.
   `MWearP`, `MAmoP`, `MReadP`, `MCapP`: wear, amortised erases, read-only calls, capacity.
6. *Any memory* (`SafeP`, `SafeQP`, `SafeMP`, `SafeRunP`): for C15 and C29 nothing is assumed about the flash or, page-state-wise, the cache;
   the calls stay in range and end. The same induction compares two runs whose memories differ in markers only (`NoiseP`, `rok`): for C43 (`NoiseSpec`,
   `NoiseRunP`). The relation speaks of every suffix of a marker word, so that it survives half-written markers and half-erased pages.
   Damaged items (`HurtP`, `HurtMP`, `HurtCase`) need no new induction over calls: a slot with a wrong item is a slot of the layout that the scan steps over, so the
   damaged flash again satisfies the invariants of 4 and 5, with fewer items. `BitsP`: two wrong bits never cancel in `adapted_crc32`, since the order of x
   modulo the polynomial exceeds the length of an item and the changed low byte keeps the parity.
   Wrong reads (`ProgP`, `ReadsP`, `ReadsCase`): `prog` is an inductive class of programs made of the primitive steps of the library; every call is shown to be in it once,
   for all readers. What the steps keep, a run with a wrong reader keeps, by one induction on `prog`.
   Dropped calls (`DropP`, `DropQP`, `DropMP`, `DropBP`, `SDropP`): by another induction on `prog`, a run that stops at a read leaves the flash of a run whose power ended at some point before; for the
   queue, an invariant of the cache says that whenever a call waits, the cache is right or marked dirty.
   A read that does not come back or a buffer that is too small does not tear an erase: such a call is followed as if erases were atomic (`AeP`).
   Small buffers (`ShortP`, `ShortSP`, `ShortMP`): a call and the same call with longer buffers run alike up to the point where the short buffer is noticed; there the flash is that of a
   run whose power ended. For a store, which never complains after it has written its item, the run is one that stops before that.
   Failing reads (`FailsP`, `FailsHP`): a call with failing reads runs as without, or as one that is dropped at a read that failed, or its repair skips a half-marked page.
   Failing writes (`FailsWP`): the device of the model works again after the operation that the power did not suffice for, so that a cut call is one with a failing write.
   Work (`WorkP`, `WorkMP`): a cost logic (`ct`) in which reads are paid in bytes, so that a scan over a page costs a fixed number of reads per word advanced.
   Cheap pushes (`CheapP`): what a completed push leaves in the page caches, from any cache; together with the layout this is all that the next push asks for. For stores (`CheapMP`) the same by relations that every step of a store keeps.
   One erase (`OneEraseP`): the flash operations of a push, from its layout specification; after a repair there is an open page, so moving on needs no erase.
   Two geometries (`PortP`): a history determines its answers once it is known which pushes or stores were accepted; from the specifications of C01 and C06 only.
   Addresses (`Addr32P`): the scan with sums in 32 bits takes the same steps as the one with unbounded sums; in an undamaged page also at the top of the address space (`Addr32Q`).
   Neighbours (`PartsP`): by a third induction on `prog`, two runs that start with the same range, cache, buffer and iterators go on alike and leave the rest alone.
   Costs (`CostP`): what a fetch does to the key cache is read off the program; the answers come from 5, and the log of the counting device from the reads of 6.
7. *Format* (`FormatSpec`, `FormatP`, `ImageP`): an independent reader of the documented layout, sound for every reachable state; and states
   that represent a queue or map are start states.
8. *Buffered* (`BufP`, `SharedP`, `SharedCallP`) on top of the queue theorems only.

`Props*.v` contain the property theorems, each proved by `exact` of a lemma, each followed by an example that meets its hypotheses with a concrete,
non-trivial state (a `vm_compute` run of the model), and by `Print Assumptions`.

## 6. Property by property

Status and missing parts are in `MANIFEST.json`; in short:

* Proved as stated: C01-C08, C14-C16, C19-C24, C27, C30, C31, C33-C54.
* False as first stated, with the true part proved:
  C09/C11/C13 (torn erase during a repair), C10 (iteration directly after a failure), C12, C17, C18 (the cache object used after a failed call),
  C25 (discarding policy), C26 (size reported for the next page), C28 (reversed range in release builds), C29 (map item shorter than its key), C32 (stale cache), C55 (ranges at the top of the address space).
  Each has a `..._refuted` theorem with a witness computed by the model.
* `..._partial` theorems carry the restriction in their hypotheses (`m_reached` with its `calm` history).

## 7. Findings: where the code falls short

Numbers are referred to from the sources. R: proved as a `..._refuted` theorem. The others were found while proving.

1. R `c26_full_refuted`: `find_max_fit` overstates by the header size when the next page is free: a push of the reported size fails with `ItemTooBig`.
2. Single-page queue: `find_max_fit` answers `Corrupted` once the page is in use; after popping everything from a full page, `push(.., false)` says
   `FullStorage` while `space_left` reports free space; a torn erase of the only page leaves it "open with garbage" (hence the two-page condition).
3. R `c32_queue_cache_refuted`, `c32_map_cache_refuted`: `erase_all` does not reset the cache; the storage object then works on stale page states and pointers.
4. R `c18_map_refuted`, `c17_map_refuted`: `remove_item`, `remove_all_items` and `fetch_all_items` do not look at the dirty flag of the cache.
   After a failed call with the same object they can miss items.
5. R `c10_after_failure_refuted`: `fetch_all_items` returns `Corrupted` when a page is half erased, where `fetch_item` repairs.
   Only torn erases do this: with atomic erases the iteration is right straight after a failure (`c10_iteration_partial`, `c10_atomic_case`).
6. `MapItemIter::next` treats an error of the page state as "not this page".
7. Draining, popping or peeking with a buffer that is too small for the RAM item reports "nothing there" (`BufferedQueue` and `SharedRamRing`).
8. R `c25_discarding_refuted`: `SharedRamRing::drain_one` discards the oldest item after the flash write, but an `enqueue(.., DiscardOldest)`
   during the write may already have evicted that item: the next one, never written, is discarded.
9. R `c28_release_refuted`: `try_new` accepts a range with end < start in release builds; debug builds panic instead of returning the error.
10. R `c31_no_places_refuted`: a key cache with 0 places panics on the first notice.
11. Words below 8 bytes: a torn header write can produce a header that looks complete (the 8 header bytes are several words), and an item stored
    after it with answer `Ok` is skipped by the scan and lost.
12. A torn item whose prefix has the CRC-32 of the whole is taken for complete; hence `no_collision`.
13. R `c13_torn_erase_refuted`, `c09_torn_erase_refuted`: the repair of an interrupted migration erases a partially open page; a torn erase of it can
    leave a page that looks open but holds garbage. A stored value that itself contains the bytes of an item can then surface as an item; removed keys can return.
    With data of which no word passes for a header the map is right again (`c11_torn_...`, `c13_torn_...` in `PropsTorn.v`).
14. R `c12_stable_refuted`: a removal that is cut while an earlier migration is unfinished can leave a value that is there at first and vanishes later.
15. R `c29_map_refuted`: fetching or iterating over an item shorter than its key panics (slice out of range) instead of returning an error. Needs foreign or damaged flash.
16. A torn header of which some words are still erased is programmed a second time; with WRITE_SIZE > READ_SIZE a torn end marker is written twice. (C16 excludes failures.)
17. A store that fails with `ItemTooBig` on new flash still writes a page marker.
18. The calculated page state cache computes the places behind the anchor one short when wrapping. It only forgets something it knew (C30 holds).
19. After a torn push, `pop` and `peek` may answer `BufferTooSmall` for a torn item larger than the buffer although the item due would fit.
20. After a torn push a page does not count as empty, so a push without overwriting may be refused though the queue is empty.
21. See C17: with failures the map theorem is for admitted histories.
22. `MapItemIter::next` called again after it returned `None` starts over.
23. R `c24_after_failure_refuted`: a drain cut after the item was written leaves the item in both places; going on with the same object pops it twice.
24. `ERASE_SIZE as u32 * 2` in `try_new` may overflow.
25. A store that answers `FullStorage` may have erased and migrated several pages before. The contents stay (C07).
26. Iterating over or peeking into a queue can erase pages whose items were all popped; never programs (C36).
27. The capacity bounds of C08 and C35 are exact; removing through an iterator fragments a queue (R `c35_out_of_order_refuted`).
28. The padding bytes of items are whatever the code leaves there; the format theorems do not constrain them, and a start marker is only known to have four zero bits.
29. CRC-16 of a length never is 0; the adapted CRC-32 can miss some damage of two adjacent bytes that the plain one detects.
30. R `c44_three_bits_refuted`, `c44_burst_refuted`: because `adapted_crc32` folds one value of the checksum onto another, three wrong bits in a long item or a burst of
    four bytes can go unnoticed; plain CRC-32 notices both.
31. R `c44_length_refuted`: one wrong bit in a length field can hide a later item, or bring up bytes of the item's data as an item of their own.
32. A damaged newest value of a key is skipped silently: the fetch answers with the older value, not with an error (C44).
33. R `c44_interrupted_refuted`: the repair of an interrupted migration copies anew from the source page and erases the copies, also if the source item was damaged meanwhile.
34. R `c45_checksum_bit_refuted`, `c45_migration_refuted`: the second read of a header happens only if the *length* checksum is wrong. One wrong bit in one read of the
    data-checksum field is never read again (both reads of the data are compared with the wrong checksum): the item is passed over, a queue changes its order, and in a migration
    the value is lost for good though all calls answer `Ok`.
35. R `c45_ones_refuted`: one read of a header that delivers only ones makes a push write over a stored item; both are lost.
36. R `c50_iteration_refuted`: `MapItemIter::next` (`src/map.rs` 1092-1114) ignores an error of the read of a page's state and leaves the page out: the iteration ends normally without
    keys that are stored. `try_general_repair` (`src/lib.rs` 77-93) ignores such errors as well; the repair is then left undone and the call is tried again (C50 excludes failing reads
    while there is a half-erased page).
37. R `c34_given_up_refuted`, `c34_failed_drain_refuted`: `wait_and_drain_all` takes the signal before it drains. If the drain then fails or its future is dropped, the items
    stay in the ring with no signal set: the documented loop, when called again, sleeps on them until the next enqueue.
38. Example `c52_pops`: `notice_item_erased` (`src/cache/page_pointers.rs` 240-259) moves the pointer of a page on only from the page's first item. After a restart with the first
    items of a page removed, the pointer is never learned for this page, and each pop passes over all its removed items again: the page pointer cache is of no use for pops there. Nothing
    is lost; it costs reads.
39. R `c55_top_refuted`: `next_item_address` (`src/item.rs` 217-220) adds a length of up to 65535 to an address before it is compared with the end of the page. If the range ends within 64 KiB of
    2^32, a damaged length with a right checksum overflows: a debug build panics, a release build accepts the header and goes on at the bottom of the address space.
    Without damage nothing overflows there (`c55_undamaged`).

## 8. Validation of the model

The definitions were extracted to OCaml in a scratch directory and run on the scenarios of `src/cache/tests.rs`: all twelve statistics
(number of reads, bytes read, writes, erases; for three page-state caches, page pointers, key pointers, queue and map) are reproduced exactly.
Random histories with power failures at random bytes were run against the specifications, with all caches side by side and on garbage flash;
findings 3, 4, 5, 13 and 14 came up there first and were then proved. These are tests; no claim rests on them.

## 9. Wrong programs

`seeded/LOG.jsonl` has one line per wrong program: the definition edited, the edit, the claim it breaks, the theorems that fail, and the
theorems that were tightened because they did not fail. Edits that survive break no claim; the line says why.
Where claims were found not to be pinned down, theorems were added: among others C39/C40 (a format change applied to reader and writer alike),
C36-C38 (wasteful but correct programs), `c27_*` (free space reports), `c35_*` (a push that refuses too early).
