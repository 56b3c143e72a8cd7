# Formal model of PerconaFT: design

Target: `percona/PerconaFT` (sources in `/repo`, read as text). Prover: Rocq/Coq 8.16.1.
Everything is in `rocq/theories`. No C++ is executed; the models are hand transcriptions,
function by function, each definition citing file and lines.

## Conventions

* `*Model.v`: definitions only. `*Spec.v`: small specifications that do not mention the
  model's data structures. `Props*.v`: the property theorems, each followed by
  `Print Assumptions`, with a concrete case (`Example …_case`) that meets the hypotheses.
  All other files: lemmas.
* `invariant`/`assert`/`abort`, reads outside a buffer and other undefined behaviour are a distinct
  outcome (`None` or an error constructor), never a default value. "Never aborts" theorems
  say that this outcome is not reached.
* Sizes, ids, MSNs and LSNs are unbounded integers where the code's type cannot overflow within
  the stated premises; wrap-around is explicit where it can (`u64`, `u32`, int lengths).
* Theorem names: `Cnn_…` proves (part of) property Cnn; `…_partial` proves the part that holds,
  with what is missing said in the comment above it and in `MANIFEST.json`; `…_refuted` proves
  that the full statement is false of the code, with a legal reachable execution as witness.
* All quantification is unbounded: over all histories, interleavings, sizes, byte strings.
  `vm_compute` is used only for witnesses and examples.

## Trusted base

* Coq 8.16.1's kernel, including its VM for witnesses (`coqchk` rechecks everything without the VM).
* `Print Assumptions` says "Closed under the global context" for every theorem named in
  `MANIFEST.json` (281 of 281): no axiom is used, neither own nor library.
  (`coqchk` lists seven constants `Coq.ssr.ssrunder.*`. They are parameters of a module type in
  Coq's own ssreflect library, loaded with `lia`'s dependencies; no theorem uses them.)
* The transcription from C++ to Gallina. The citations make it checkable by reading.
* What is not modelled (per area, below).

## The areas: what is modelled, what is not

| area (properties) | files | code modelled | not modelled / simplified |
|---|---|---|---|
| leaf entries, MVCC (C01–C07, C35, C37, C38) | `UleModel`, `LeCodecModel`, `MvccModel`, `Ule*`, `Le*`, `Mvcc*`, `UpdBcastModel`; specs `UleSpec`, `MvccSpec` | `ft/ule.cc` (message application, promotion, both collectors, packing, accessors, `le_iterate_*`), the transactions around it (`ft/txn/txn.cc` begin/commit/abort, oldest-referenced ids, GC info), `do_update`/`setval_fun` | one row at a time; row locks are taken as exclusive (proved for the lock tree in C10); READ_UNCOMMITTED; leaf entries older than layout version 13 |
| transaction manager (C09) | `MgrModel`, `MgrSpec`, `MgrProofs` | `ft/txn/txn_manager.cc`: ids, live list, snapshots, referenced xids, child snapshots | the global mutex makes each call one step; the ordered lists are values |
| row counts (C08) | `RowCount*`, `PropsCount` | the deltas of `ule_apply_*` and when they are added | |
| row locks (C10–C14, C39, C40) | `LtTreeModel`, `LtModel`, `RangeBufModel`, `WfgModel`, `LtSysModel`, `Lt*`; spec `LtSpec` | `locktree/*.cc`: treenode, concurrent tree, locktree, range buffer on bytes, wfg, lock requests, retry, escalation, memory accounting; all interleavings of all users of one dictionary | rebalancing hints are part of the tree model; timeouts are a step; wait cycles across dictionaries; key comparison is any total preorder |
| disk space and block table (C15–C19, C41) | `MhsModel`, `BlkAllocModel`, `BlkTableModel`, `TransCodecModel`, `FtDiskModel`, …; specs `BlkSpec`, `FtDiskSpec` | `rbtree_mhs.cc`, `block_allocator.cc`, `block_table.cc`, the header slots and checkpoint steps of `ft.cc`/`ft-serialize.cc`, crash at any step, torn headers | the file system: writes before an fsync may or may not have happened; content of nodes is opaque bytes; header serialization itself |
| checksum (C30) | `X1764*` | `util/x1764.cc`, all three versions | |
| log records, cursor, torn tails (C24, C25, C42) | `LogModel`, `LogCursor`, `LogTorn`, …; spec `LogSpec` | the code generated by `logformat.cc` for every record type (writer, forward and backward reader), `logcursor.cc`, repair | log versions before the current one |
| logger (C26, C27) | `LgrModel`, …; spec `LgrSpec` | `logger.cc` group commit with in/out buffers, rotation, `logfilemgr.cc` trimming, interleavings at mutex granularity | the record bytes (see C24) |
| rollback logs (C29, C43) | `RbModel`, `RbCodecModel`, …; spec `RbSpec` | `rollback.cc`, `rollback-apply.cc`, `rollback_log_node_cache.cc`, rollinclude, node codec | compression; entries are opaque to the log machinery |
| fractal tree (C20–C23) | `FtModel`, `PivotModel`, `Ft*`; spec `FtSpec` | injection with promotion, `toku_apply_ancestors_messages_to_node`, flushes, splits, merges, rebalances, eviction and fetch of partitions, stale marking, rightmost shortcut, child selection | a leaf entry and what a message does to it are parameters (any); `unpack`/cache details; node ids are values of a finite map; locks: one tree operation is one step unless said otherwise (C23 race) |
| cursors and searches (C44–C46) | `CurModel`, `CurProofs`, `CurTree`, `CurRun`; spec `CurSpec` | `toku_ft_search` with its attempts and saved bound, `ft_search_node`, `ft_search_basement_node`, bulk fetch, range restriction, the operations of `cursor.cc`, on the trees of `FtModel` with anything between two attempts | prefetching; the interrupt callback; leaf mode; the dmt's binary search is a linear one; what a callback does is arbitrary except that it does not itself return TOKUDB_FOUND_BUT_REJECTED |
| a whole dictionary (C47) | `OrkModel`, `OrkProofs`, `DbModel`, `DbProj`, `DbInv`, `DbReplay`, `DbRun`; spec `DbSpec` | the clients of `MvccModel` over all keys, sending their messages into the tree of `FtModel` whose leaf entries are those of `UleModel`; `oldest_referenced_xid_known` of every node through injection, flush, split, merge, rebalance and new root; which bounds and clones each tree action uses | a rollback entry and its message, and a message and its injection, are one step; a tree action clones the transaction manager's state at the moment of the action; broadcast messages other than optimize are not sent; one dictionary |
| cursors over a whole dictionary (C48) | `DbCurModel`, `DbCurProofs`, `DbCurStay`; spec `DbSpec`, `CurSpec` | the searches of `CurModel` in the system of `DbModel`: each attempt uses the garbage collection information of the leaf it comes to; `le_val_is_del` and `le_extract_val` for the cursor's transaction; clients, tree and other searches run between any two attempts | as for C44 and C47; the scanning transaction itself does nothing else during the scan; row locks of the scan are C46 |
| writes to several dictionaries (C49) | `MulModel`, `MulProofs`, `MulUpd`, `MulTop`, `MulPut`; spec `MulSpec` | `env_put_multiple_internal`, `env_del_multiple`, `env_update_multiple` with the in-place merge loop (indices, swaps, skips), the checks and row locks before any write, `do_put_multiple`, `do_del_multiple`, `log_del_multiple`'s choice between one record and single ones (32-bit sums), `log_put_multiple`, and recovery of the three kinds of records | a dictionary is what the calling transaction sees (a function up to the comparator); no hot index; other transactions only as locks not granted; recovery with all files open and none checkpointed since; callbacks are functions, the callback asked for keys only gives the same keys |
| hot indexer, one row (C50) | `HotModel`, `HotProofs`, `HotRow`, `HotTop`, `HotAll`; spec `HotSpec` | `indexer_undo_do_committed`, `indexer_undo_do_provisional`, `indexer_find_prev_xr`, `release_txns`, one turn of `build_index` with the pins of `indexer_fill_prov_info`; the messages are applied with the leaf entry model `UleModel`. Not modelled: row locks taken for provisional messages, logical row count, full disk, garbage collection while the messages arrive (C02, C03, C44). The snapshot hypothesis `in_order` (nothing of a row is seen without everything older) holds for every reader that may open the new dictionary: `toku_ft_cursor_create` (ft/cursor.cc:49-55) refuses snapshots older than its creation, so they see all versions committed when the row was indexed. |
| building an index with concurrent writers (C51) | `BldModel`, `BldProofs`, `BldInv`; spec `BldSpec` | the loop of `build_index`, the cursor position of `ft/le-cursor.cc`, `toku_indexer_should_insert_key`, `toku_indexer_may_insert` and the position estimate, the lock of the indexer, and `do_put_multiple` / `do_del_multiple` / `update_multiple` as threads interleaved at single writes. Simplified: every write is final (open transactions on one row are C50), keys that compare equal are equal, callbacks do not fail, the merge loop of an update is replaced by the sets it computes (C49). Row locks are a guard: two running calls have no source key in common. |
| fair reader/writer lock (C52) | `FrwModel`, `FrwProofs`, `FrwTop`, `FrwSnap`; spec `FrwSpec` | all of `util/frwlock.cc`: the two lock calls cut at `cond_wait`, the try calls, both unlocks with the hand-over, the counters, the expensive flags; the paranoid invariants are part of the model. Not modelled: wrap of the counters, instrumentation ids |
| bulk loader, up to the rows for the writer (C53) | `LdrModel`, `LdrSort`, `LdrHeap`, `LdrMerge`; spec `LdrSpec` | `ft/loader/loader.cc`: cutting the generated rows into rowsets, merge sort with its parallel split and binary search, appending to the run before, merge in passes; all of `ft/loader/pqueue.cc` but its capacity. Not modelled: temporary files as bytes, threads and queues, memory, cancelling by the poll function, several destinations |
| bulk loader, writer of the tree (C54) | `LdrtModel`, `LdrtProofs`; spec `LdrtSpec` | `toku_loader_write_ft_from_q` and `write_nonleaves`: cutting the rows into leaves, the pivots files, levels of nodes. A block number is the subtree written there; when a leaf is full is an arbitrary function. Not modelled: basement nodes, sizes, header and translation table, `used_estimate == total_disksize_estimate` |
| bounded queue (C55) | `QueModel` | all of `util/queue.cc` but `toku_queue_destroy`: the calls cut at `toku_cond_wait`, signals to one arbitrary sleeper, spurious wake-ups. Not modelled: wrap of the sum of weights, out of memory |
| hot optimize (C56, C57) | `HopModel`, `HopSpec`, `HopProofs` | `ft/ft-hot-flusher.cc` (picking the child, the keys kept between descents, the loop and its end), `toku_ft_flush_some_child` and `toku_bnc_flush_to_child` as far as they move messages, `toku_ftnode_hot_next_child`, `toku_ftnode_which_child`; `toku_ft_note_hot_begin/complete`. Not modelled: broadcasts, splits and merges inside a descent (between descents anything may happen), the percentage, the times |
| readers/writers lock under an outer mutex (C58) | `RwlModel` | `util/rwlock.h` (and so `util/nb_mutex.h`): the calls cut at `toku_cond_wait`, signals to one arbitrary sleeper, broadcasts, spurious wake-ups, waiting for the users to go. Not modelled: instrumentation, `rwlock_destroy` |
| partitioned counters (C59) | `PctModel` | `util/partitioned_counter.cc` (the version for other systems than Apple): creating, destroying, incrementing, reading, the end of a thread, the array of keys in use. Each call is one step, except reading, which is cut between any two parts with increments of existing parts between. Not modelled: overflow of 64 bits (the header requires none), the doubly linked list and `GrowableArray` as memory, torn or reordered machine reads |
| worker pool (C60) | `KibModel` | `util/kibbutz.cc`: creating, enqueueing, the workers' loop cut where the mutex is given up, signals to one arbitrary sleeper, spurious wake-ups, shutting down. The doubly linked list is a list; jobs are opaque; the status counters are left out |
| periodic calls (C61) | `CronModel` | `util/minicron.cc` and the check of the time in `pthread_cond_timedwait`: seconds and nanoseconds as the code adds them, all three branches on the period, changing it, shutting down. The clock only goes forward |
| sub-blocks (C62) | `SubModel` | `ft/serialize/sub_block.cc`: choosing and setting the sizes (32 bit overflow is undefined behaviour), finding the block of an offset, compressing in any order into one buffer, squeezing out the holes with `memmove`, decompressing. Compressor, its bound and checksum are parameters |
| shared set of work (C63) | `WksModel` | `ft/serialize/workset.h` and its use in `sub_block.cc`: references added after the workers are started, taking and releasing, joining. How many workers the thread pool gives is arbitrary; the pool itself is C64 |
| thread pool (C64) | `TplModel` | `util/threadpool.cc`: getting a thread, adding one, running, the loop of a thread; a step is what happens under the lock; signals wake any sleeper; creation may fail. Destroying the pool is left out |
| background jobs (C65) | `BjmModel` | `ft/cachetable/background_job_manager.cc`, every function; a step is what happens under the lock. The 32-bit count is unbounded |
| memory arenas (C66) | `ArnModel` | `util/memarena.cc`: create, malloc_from_arena, move_memory, destroy, for several arenas. Sizes are unbounded; the allocator returns memory never used before; totals and chunk_iterator are left out |
| message buffers (C33), xids (C32), pivots (C34) | `MsgBufModel`, `XidsModel`, `PkModel`, … | `msg_buffer.cc`, `msg.cc`, `xids.cc`, `pivotkeys.cc` on byte memory, partition codec | compression of partitions |
| order maintenance tree (C31) | `Omt*` | `util/omt.cc` | node indices are replaced by tree values; counts below 2^30 |
| crash recovery (C28) | `RecModel`, `Rec*`; spec `RecSpec` | `recover.cc` backward scan, forward replay, prepared transactions, aborting live ones, final checkpoint; the running system that writes log, dictionaries and rollback file; fuzzy checkpoints; recovery again | a crash inside recovery before its last checkpoint is done; creation and deletion of dictionaries; recovery is assumed to regain the row locks of prepared transactions (finding 34); flushing and eviction of nodes between checkpoints is C17/C20's business |
| checkpoint capture (C36) | `CtModel`, `Ct*`; spec `CtSpec` | `cachetable.cc`: pin, unpin, put, remove, pending bits, cloning, evictor, checkpoint thread; every interleaving at lock granularity | read pins; partial fetch and partial eviction; several cachefiles; closing a file. The multi-operation lock is taken as the code uses it: user operations hold it, background threads do not |

## Property by property

The status and theorem names are in `MANIFEST.json`; each theorem's comment says what is missing
if it is partial. Method of proof:

| id | method |
|----|--------|
| C01, C04, C05 | refinement of `MvccSpec` (what users did) by rows that absorb messages in any order the code allows; any number of copies of a row |
| C02, C03 | all copies of a row read alike whatever collection and promotion they went through |
| C06, C07, C19, C24, C32, C33, C34, C43 | byte-level round trips; accessors equal the decoder |
| C08, C37, C38, C41, C45 | refuted by witness, plus the exact positive part |
| C09 | invariant over histories; lists equal what the history defines |
| C10–C13, C39, C40 | invariant over all interleavings; the locked points as a function from keys to owners |
| C14 | byte-level read back; three refutations |
| C15, C16 | invariant: holes are the complement of the extents; labelled red-black tree |
| C17, C18 | refinement to a map of blocks with snapshots, under crash |
| C20, C21, C23 | invariant over tree operations: for each key the unapplied messages on its path, applied to the stored row, give the specification's row |
| C22 | sortedness of pivots, any total preorder |
| C25, C26, C27, C42 | invariants over interleavings or over byte prefixes |
| C28 | simulation between the replay and an ideal execution, invariant of the running system |
| C29 | refinement to lists |
| C30 | algebra modulo 2^64 |
| C31 | refinement to sequences |
| C35 | refinement to `MvccSpec` |
| C44, C46 | the tree invariant of C20 at every attempt; a search's saved bound separates the keys it has already looked at; induction over attempts and over the steps of a scan |
| C47 | two invariants proved apart and joined: the tree shows for each key a course of messages and collections whose information was gathered in time (C20 with timing), the nodes' bounds are older than every message above them; a course is replayed as a run of the one-row system of C01–C05, each key of the dictionary being such a run by itself. This discharges for the tree the assumption of `MvccModel` (`sel_legal`) about which bounds are used |
| C48 | the law of one attempt (`attempt_law`, CurTree) is proved for any notion of what may be stored, with C47's timing it gives what a search learns about each key at each attempt (`dsearch_ok`); what a snapshot means does not change while others work (`qsteps_stays`, `frozen_stays`); both together give the scan. Computed example: rows overwritten, deleted and inserted by others during the scan |
| C49 | invariant of the merge loop: the old keys seen are the deleted and the matched ones, the new rows seen are the put and the skipped ones (permutations, arrays compacted in place); a law for lists of writes; deletes and puts between what the loop chose and everything give the same rows, which covers the live call and both forms of the log |
| C50 | invariant over both loops: after each source record the hot row has, for each level of the id chain, the value belonging to the source level, for every hot key at once by projection of the messages; readers then by cases. Refuted for two or more new dictionaries and for failing callbacks (pins). |
| C51 | invariant over all interleavings: for each index key, its value after what the running call on its source key and the indexer still have to write is what the source row then asks for, if the cursor has reached the source key, and nothing otherwise; the estimate is never left of the cursor. Refuted for calls with another source and for index keys shared by source rows. |
| C52 | invariant tying each counter to the number of threads in a state and the queue to the threads asleep; the readers' item is never first while no writer has the lock; nobody granted means nobody asleep. Order of service by cases on the step; draining by a measure on the threads; a second invariant for the flag kept when the first reader sleeps. Spurious wake-ups are a parameter of the model, off in the theorems and on in the refutation |
| C53 | merge sort by induction on fuel shown enough; heap as an array: order holds except at the hole, while a node moves up or down, unless a duplicate was flagged; the root is then strictly first. Merge invariant: every row still in a source has a smaller row of the same source in the heap. A load that fails with all callbacks good has a key twice. The answer to a duplicate is partial: proved for merges of two, refuted for wider ones |
| C54 | each level: all subtrees not empty and of one height, pivots are the greatest keys of all subtrees but the last; each level at most half as long as the one below. Lookup by induction on the height |
| C55 | invariants by induction over steps: history for any threads; for one producer and one consumer a case analysis of their two states. Two producers: a run of ten steps after which all sleep |
| C56 | one descent by induction on the height with the bounds of the subtree; a run by induction over its descents with "nothing old waits between `left` and the key reached"; the end by the number of pivots above the key reached. Inclusive `left` and the recorded MSN of a range: witnesses |
| C57 | invariants by induction over begins and ends; after a crash: the invariant up to the first reset, and a run of six calls after which the count has wrapped |
| C58 | one invariant by induction over steps, on the numbers of threads in each state; starvation: loops of three and six steps that lead back to the same state |
| C59 | refinement to a map from counters to numbers: an invariant (keys of live counters distinct and in use; a thread is on a counter's list exactly if its array has a part of it; parts and dead sum add up) by induction over calls; reading by induction over the events |
| C60 | one invariant by induction over steps; the end of shutting down by a measure on queue and workers |
| C61 | one invariant by induction over steps (for periods of whole seconds or at most one second); runs that refute the rest |
| C62 | arithmetic for the sizes; induction over the blocks for the memory, with the regions shown disjoint; for all compressors that keep to their bound and can be undone |
| C63 | one invariant by induction over steps: references against workers not gone, work against where it is |
| C64 | one invariant by induction over steps, sums over the calls and the threads: free or held at most once, jobs, free threads against woken calls and threads about to begin |
| C65 | invariants by induction over steps: count against jobs, sleeping waits against the count; witness for resets during a wait |
| C66 | one invariant by induction over calls: chunks owned once, pieces within the used part of their chunk, pieces apart; witness for a request of 0 bytes |
| C36 | per-page invariant, then a homomorphism argument for the consistent cut |

## Findings

Places where the code does not do what the property says. Those with a theorem are marked.

1. Row count drifts: deleting an absent row, nested aborts, updates that delete or do nothing (C08, refuted).
2. `range_buffer`: an empty right key and a key of 65536 bytes are not read back; order is lost across arena chunks (C14, refuted).
3. `txn_manager.cc:517-575`: a child begun with TXN_COPIES_SNAPSHOT shares its parent's `live_root_txn_list` pointer.
4. `lock_request::retry` aborts on TOKUDB_OUT_OF_LOCKS (C39, refuted).
5. `toku_ft_maybe_insert` passes FT_INSERT to the rightmost-leaf shortcut even for insert-no-overwrite (C23, refuted).
6. `ft_leaf_get_relative_key_pos` looks into the wrong basement node when the last is empty: an insert is lost (C23, refuted).
7. The shortcut races with a broadcast between score check and leaf lock (C23, refuted).
8. `block_table`: offset and free-list link share a union, so `_translation_prevents_freeing` can take a link for an offset; the end of a checkpoint may abort (C18, refuted).
9. `MhsRbTree::Predecessor` calls `SuccessorHelper` (dead code).
10. `toku_logger_fsync` may return before earlier records are on disk (C26, refuted).
11. A torn log whose last bytes look like a record (inside a logged comment): the last record read was never logged; a crafted length makes the opener read outside its buffer (C25, refuted).
12. `lc_fix_bad_logfile` truncates and reopens the last file even when the cursor has moved to an earlier one.
13. The `frename` record is marked IGNORE_LOG_BEGIN although it carries an xid.
14. READ_COMMITTED_ALWAYS does not see committed values (C37, refuted): an older transaction that is still running hides what a younger one committed, and a reader that is also read-only misses every row still stored as provisional even when nobody else is running (its list of running transactions is empty). What it does read is exactly delimited: its own write, or a value that was committed, with the changes of at most one transaction missing.
15. A message without transaction on a row whose top committed id is not 0 aborts.
16. `toku_ft_optimize` may make the value of an aborted transaction permanent (C38, refuted).
17. `update_broadcast` also calls the function for deleted rows still stored (C35, refuted part).
18. Wait cycles are missed when another request is queued between the conflict check and the wait, and after escalation (C13, refuted).
19. `toku_ft_maybe_update` adjusts the row count although the message is skipped in recovery.
20. `CreateFromBlockPairs` reads `pairs[0]` when there are no blocks.
21. `UnusedStatistics` counts the endless last hole: count one too high, sum one too low, largest always 2^64-1 (C41, refuted).
22. `x1764_memory` takes an int length: translations from 2^27 block numbers on are rejected when read (C19, refuted).
23. After a torn header write the count of the other slot plus one may be found on disk (benign, part of the C17 model).
24. `logcursor`: first→prev and last→next report an LSN error instead of "not found" (C42, refuted).
25. XA formatID is truncated to 32 bits in the log (C24, refuted).
26. `make_space_in_inbuf` asserts that a record is below 2^29 bytes.
27. Rollback nodes of layout version 28 abort the reader (C43, refuted).
28. `ftleaf_split` leaves a surplus trailing pivot (benign).
29. `pivotkeys`: a zero-length pivot key aborts (C34, refuted).
30. `message_buffer` aborts above 2^30 bytes (premise of C33).
31. `omt`: `clone`/`merge` test marks before `init`; clone drops the source's marks; `iterate_and_mark_range` with left > right sets bits without marks (benign).
32. `recover_abort_all_live_txns`: the comment says descending id order, the code goes ascending.
33. Recovery closes dictionaries stamped with the last LSN although they already contain abort messages logged after it; recovering again sends them again (harmless, they are idempotent).
34. Recovery does not take the row locks of prepared transactions again.
35. After recovery `last_xid` may be lower than that of an incomplete checkpoint's begin record (benign).
36. A page that a background flusher has pinned when a checkpoint begins may be captured with later content (C36, refuted as worded; the cut is consistent).
37. `toku_ft_cursor_shortcut` moves the cursor's key to a row before it is given to the callback. If the callback refuses it (lock not granted), `c_getf_next` waits and goes on behind it: the row is never delivered (C45, refuted).
38. The same at the end of a restricted range: the cursor rests on the row outside, prev returns the last row again (C45, refuted).
39. `put_multiple` with DB_NOOVERWRITE that fails on a later row or dictionary leaves the earlier rows put and logs nothing: if the transaction commits, the rows are there until a crash and gone afterwards (C49, refuted).
40. `update_multiple` skips a row whose key stays and whose new value is empty without looking at the old value: the row keeps it although 0 is returned, and after a crash it may be empty (C49, refuted; a comment in the code assumes otherwise).
41. The hot indexer pins the open transactions of a row once (`indexer_fill_prov_info`) but unpins them after each new dictionary (`release_txns` in `indexer_undo_do_provisional`): an indexer with two or more dictionaries hits `assert(num_pin > 0)` at the first row with an open transaction (C50, `C50_two_dictionaries_refuted`). The tests use one dictionary.
42. If a row callback fails on a committed version, `indexer_undo_do` returns before `release_txns`: the open transactions of the row stay pinned and wait for ever in commit or abort (C50, `C50_error_pins_refuted`).
43. A `put_multiple`, `del_multiple` or `update_multiple` whose source is not the source of the indexer takes no indexer lock but asks for the cursor position all the same: if the index stands before the source in db_array, the cursor can pass between the question and the write of the source row, and the new index misses the row for good (C51, `C51_other_source_refuted`; a comment says of the case "we should just make this an invariant").
44. `update_multiple` skips an index row whose key stays and whose value is empty without regard to the indexer: if the source key moves from before the cursor to behind it, nobody ever writes that row (C51, `C51_shared_key_refuted`; only with index keys that do not contain the source key).
45. `frwlock` calls `toku_cond_wait` once and not in a loop (frwlock.cc:152, 220). POSIX lets it return without a signal; a writer that wakes so takes the lock beside the one that has it, and its item stays in the queue pointing into a stack frame that is gone (C52, `C52_spurious_refuted`). The other C52 theorems assume no such wake-up.
46. A bulk load with a key twice may stop the process instead of answering `DB_KEYEXIST`: `pqueue_insert` compares only along the path to the root, so equal keys in two branches of the heap first meet in `pqueue_pop`, and the caller has `invariant(0)` there (loader.cc:1834-1838). Three runs whose first keys are 1, 5, 5 do it (C53, `C53_dup_answer_refuted`). With at most two runs in a merge the answer is always `DB_KEYEXIST` (`C53_dup_answer_partial`).
47. `queue.h` asks only for a single consumer, but with two producers the queue can stop for ever: one condition variable serves both sides, `toku_cond_signal` of an enqueue may wake the other producer instead of the consumer, and that one goes back to sleep; then all sleep with an item in the queue (C55, `C55_two_producers_refuted`). The loader has one producer for each queue.
48. `ft-flusher.h` says of hot optimize that all messages between `left` and `right` "(inclusive)" are pushed; when `left` is a pivot, the messages for `left` itself are in the child before the one the first descent goes to, and stay in the buffer (C56, `C56_left_inclusive_refuted`).
49. `msn_at_start_of_last_completed_optimize` ("all messages before this msn have been applied to leaf nodes") is also set after a hot optimize of a part of the dictionary, when older messages still wait elsewhere (C56, `C56_recorded_refuted`). The field is stored in the header and not read otherwise.
50. After a crash during a hot optimize, `count_of_optimize_in_progress_read_from_disk` is never cleared: once the count was set right, a success that leaves as many running as were running at the crash sets it to 0 again, and the next end makes it 4294967295 (C57, `C57_after_crash_refuted`).
51. The overview of `util/rwlock.h` says "we want to guarantee nonstarvation" and describes a list of requesters served oldest first; the code below it has two counters and two condition variables instead. Readers wait for ever while two writers alternate, and a waiting writer can be overtaken any number of times by one that asks afresh (C58, `C58_reader_starves_refuted`, `C58_writer_overtaken_refuted`).
52. `minicron_do` (`util/minicron.cc` l.95-97) adds the milliseconds of the period to `tv_nsec` without carrying into `tv_sec`. With a period above one second that is not a whole number of seconds, `pthread_cond_timedwait` is given an invalid time, returns EINVAL and the assert of l.106 aborts the process; or the comparison is wrong and the function is called early. `DB_ENV->change_fsync_log_period` takes milliseconds, so a period of 1500 does it (C61, `C61_periodic_refuted`, `C61_early_refuted`).
53. `util/minicron.h` says the period is measured from when the previous call finishes; the code measures it from its begin. And after a change from a period of at most a second to a longer one the function is called at once, since the short periods do not set `time_of_last_call_to_f` (C61, `C61_from_finish_refuted`, `C61_change_refuted`).
54. `choose_sub_block_size` multiplies ints: for sizes just below 2^31 the product overflows (C62, `C62_sizes_refuted`). Rollback log nodes stay far below.
55. A call of `toku_thread_pool_get_one` that adds a thread then sleeps although that thread is free, whatever `dowait` says, until the thread begins (or another call adds one); by then another call may have taken the thread (C64, `c64_ex`). Nothing is lost: the sleep ends (`C64_nowait`).
56. `bjm_reset` during a wait: the wait can be left asleep with no job in, because `bjm_remove_background_job` broadcasts only while no jobs are accepted (C65, `C65_reset_refuted`). The one caller of `bjm_reset`, the start of a checkpoint, and the wait at its end follow one another, so this does not happen today.
57. `malloc_from_arena(0)` on an arena without memory makes a chunk of size 0, because `round_to_page(0)` wraps to 0; the next request fails `invariant(_current_chunk.size > 0)` (C66, `C66_zero_refuted`; where malloc(0) is not null). Whether a caller ever makes such a first request was not established.

## Tests of the theorems

`seeded/LOG.jsonl`: each line is an edit of the model like a realistic bug, with the theorems that
no longer prove. Where a wrong model still satisfied a theorem, the theorem was tightened, or the
line says why the edit is equivalent.
