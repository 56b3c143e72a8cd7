{
 "claims": [
  {
   "property": "C01",
   "status": "proved",
   "theorems": [
    "C01_snapshot_read",
    "C01_frozen_at_begin",
    "C01_repeatable_read",
    "mvcc_no_abort"
   ],
   "note": "One row under any number of root transactions with nested children; reads through C_READ_SNAPSHOT (le_read) on any copy that has absorbed all messages. Row locks are exclusive (reads under serializable isolation take them too); READ_UNCOMMITTED is not covered."
  },
  {
   "property": "C02",
   "status": "proved",
   "theorems": [
    "C02_copies_read_alike",
    "C02_collection_invisible"
   ],
   "note": "Full collector (le_garbage_collect) and simple collection inside message application, for every reachable row state and every legal look at the transaction manager."
  },
  {
   "property": "C03",
   "status": "proved",
   "theorems": [
    "C03_promotion_invisible",
    "C02_copies_read_alike"
   ],
   "note": "Implicit promotion inside message application under any legal bound."
  },
  {
   "property": "C04",
   "status": "proved",
   "theorems": [
    "C04_child_abort",
    "C04_root_abort"
   ],
   "note": "Reads after an abort equal reads in the history with the aborted transaction erased; nested to any depth."
  },
  {
   "property": "C05",
   "status": "proved",
   "theorems": [
    "C05_locked_read",
    "C05_unlocked_read",
    "C05_spec_child_commit",
    "C05_spec_commit",
    "C01_snapshot_read"
   ],
   "note": "The specification (MvccSpec.v) is the nested-atomic-block semantics; every copy of the row follows it."
  },
  {
   "property": "C06",
   "status": "proved",
   "theorems": [
    "C06_pack_unpack",
    "C06_dropped_iff_no_insert",
    "C06_pack_injective",
    "C06_reachable_rows_well_formed",
    "C06_history_on_bytes"
   ],
   "note": "For rows with fewer than 2^32 committed versions (num_cuxrs is a uint32_t)."
  },
  {
   "property": "C07",
   "status": "proved",
   "theorems": [
    "C07_accessors",
    "C07_has_xids",
    "C07_readers",
    "C07_memsize_of_packed",
    "C07_is_clean"
   ],
   "note": ""
  },
  {
   "property": "C08",
   "status": "partial",
   "theorems": [
    "C08_row_count_partial",
    "C08_delete_absent_refuted",
    "C08_nested_abort_refuted",
    "C08_abort_refuted",
    "C08_update_delete_refuted",
    "C08_update_nothing_refuted"
   ],
   "note": "The claim is false as stated: four kinds of history make the count drift (refutation theorems). Proved for all other histories."
  },
  {
   "property": "C09",
   "status": "proved",
   "theorems": [
    "C09_never_aborts",
    "C09_live_list",
    "C09_snapshots",
    "C09_ids_fresh",
    "C09_referenced",
    "C09_youngest_snapshot",
    "C09_oldest_referenced",
    "C09_snapshot_reads"
   ],
   "note": "every history of begins (any isolation except READ_COMMITTED_ALWAYS), child snapshots, writes and finishes"
  },
  {
   "property": "C10",
   "status": "proved",
   "theorems": [
    "C10_locks_exclusive",
    "C10_request_answered",
    "C10_granted_exactly",
    "C10_granted_iff_no_point_locked",
    "C10_point_locked_once",
    "C10_retry_answered"
   ],
   "note": "All interleavings of all lock users of a dictionary, any comparison function."
  },
  {
   "property": "C11",
   "status": "proved",
   "theorems": [
    "C11_granted_stays_locked",
    "C11_released_holds_nothing",
    "C11_release_leaves_others"
   ],
   "note": "Includes the single-transaction optimisation and escalation."
  },
  {
   "property": "C12",
   "status": "proved",
   "theorems": [
    "C12_escalation",
    "C12_escalation_exclusive"
   ],
   "note": ""
  },
  {
   "property": "C13",
   "status": "partial",
   "theorems": [
    "C13_deadlock_reported",
    "C13_no_cycle_partial",
    "C13_missed_deadlock_refuted",
    "C13_escalation_deadlock_refuted"
   ],
   "note": "Soundness holds for every interleaving; completeness holds when a refused request is queued at once and locks are not escalated, and is refuted otherwise. Cycles across dictionaries are not modelled."
  },
  {
   "property": "C14",
   "status": "partial",
   "theorems": [
    "C14_read_back_partial",
    "C14_read_back_each_once",
    "C14_short_list_in_order",
    "C14_empty_right_key_refuted",
    "C14_longest_key_refuted",
    "C14_order_refuted"
   ],
   "note": "Refuted for an empty right key, for a key of 65536 bytes, and for the order when more than one chunk of memory is used."
  },
  {
   "property": "C15",
   "status": "proved",
   "theorems": [
    "C15_extents_disjoint",
    "C15_free_succeeds",
    "C15_limit"
   ],
   "note": "extents of any reachable allocator are disjoint, aligned, past the reserve; freeing a held extent succeeds; allocated and free bytes partition the file"
  },
  {
   "property": "C16",
   "status": "proved",
   "theorems": [
    "C16_hole_tree",
    "C16_first_fit"
   ],
   "note": "tree of holes stays sorted, coalesced, labelled and red-black; allocation returns the lowest aligned fit"
  },
  {
   "property": "C17",
   "status": "proved",
   "theorems": [
    "C17_checkpoint_crash_refinement",
    "C17_crash_always_reopens",
    "C17_no_reuse"
   ],
   "note": "refinement of block table, header slots and disk to snapshots; crash at any step"
  },
  {
   "property": "C18",
   "status": "partial",
   "theorems": [
    "C18_no_abort_partial",
    "C18_end_checkpoint_never_aborts_refuted"
   ],
   "note": "proved for files with at most 8192 block numbers; beyond that the union of offset and free link makes the claim false, with a legal run as witness"
  },
  {
   "property": "C19",
   "status": "partial",
   "theorems": [
    "C19_round_trip_partial",
    "C19_bad_checksum_rejected_partial",
    "C19_round_trip_refuted"
   ],
   "note": "round trip below 2^27-1 block numbers; from 2^27 on the int length of the checksum makes the reader reject what was written"
  },
  {
   "property": "C20",
   "status": "proved",
   "theorems": [
    "C20_lookup",
    "C20_no_assertion_fails",
    "C20_lookup_answered",
    "C20_dictionary",
    "C20_dictionary_up_to"
   ],
   "note": "Invariant over every interleaving of injection (with promotion), query with ancestor messages, flush, split, merge, rebalance, write, eviction, fetch, stale marking; leaf entries and transaction manager abstract."
  },
  {
   "property": "C21",
   "status": "proved",
   "theorems": [
    "C21_exactly_once",
    "C21_never_twice"
   ],
   "note": "Instance of C20 with rows that log each application."
  },
  {
   "property": "C22",
   "status": "proved",
   "theorems": [
    "C22_point_child_is_the_unique_interval",
    "C22_hot_next_child_is_where_greater_keys_begin",
    "C22_forward_search_child",
    "C22_backward_search_child"
   ],
   "note": "All child-selection functions over strictly increasing pivots: the point search, the hot optimizer's next child, and the forward and backward search with its bounds. Any key comparison that is a total preorder; any number of pivots."
  },
  {
   "property": "C23",
   "status": "partial",
   "theorems": [
    "C23_insert_partial",
    "C23_lookup_partial",
    "C23_unique_partial",
    "C23_no_assertion_fails_partial",
    "C23_no_overwrite_refuted",
    "C23_insert_refuted",
    "C23_race_refuted"
   ],
   "note": "Equivalence proved for plain inserts whenever the first and last basement node of the rightmost leaf have rows, in any interleaving of tree operations, with the score read and the leaf locked in one step. The full claim is false, with counterexamples: insert-no-overwrite overwrites; an insert is lost when the last basement node is empty; a broadcast injected between the score check and the leaf lock is missed."
  },
  {
   "property": "C24",
   "status": "partial",
   "theorems": [
    "C24_log_round_trip_partial",
    "C24_one_record_partial",
    "C24_round_trip_refuted"
   ],
   "note": "Missing: XA identifiers whose formatID does not fit 32 bits are truncated (witness C24_round_trip_refuted); all other records of every type are read back, forwards and backwards, over any number of files."
  },
  {
   "property": "C25",
   "status": "partial",
   "theorems": [
    "C25_torn_log_partial",
    "C25_repair_keeps_complete_records",
    "C25_last_record_was_logged_refuted",
    "C25_open_is_memory_safe_refuted"
   ],
   "note": "Repair half proved for every cut. Last-record half proved when the torn bytes do not end in bytes that read as a record; false in general: both witnesses are record texts inside a logged comment."
  },
  {
   "property": "C26",
   "status": "partial",
   "theorems": [
    "C26_sync_commit_is_durable",
    "C26_durable_for_ever",
    "C26_crash_leaves_a_prefix",
    "C26_reopen",
    "C26_flush_is_durable_partial",
    "C26_flush_is_durable_refuted",
    "C26_no_assertion_fails_partial"
   ],
   "note": "Synchronous commits are durable in every interleaving and a crash leaves a gap-free prefix containing them. The log_flush half is false: a flush that runs while another thread is writing the swapped-out buffer returns before earlier records are on disk (counterexample); it holds when the in-buffer is non-empty or output is idle. No assertion fails for records below 2^29 bytes."
  },
  {
   "property": "C27",
   "status": "proved",
   "theorems": [
    "C27_trim_keeps_what_recovery_needs",
    "C27_checkpoint_start_is_stable",
    "C27_checkpoint_never_moves_back",
    "C27_recovery_finds_the_checkpoint"
   ],
   "note": "Every interleaving of the logger's threads."
  },
  {
   "property": "C28",
   "status": "partial",
   "theorems": [
    "C28_recovery_succeeds_partial",
    "C28_exactly_committed_partial",
    "C28_in_doubt_partial",
    "C28_running_partial",
    "C28_recover_again_partial"
   ],
   "note": "Every history of nested and prepared transactions, opens, closes and fuzzy checkpoints, every crash prefix that holds the flushed log: recovery succeeds, every row reads the value of the log restricted to committed transactions, exactly the prepared undecided transactions stay, recovering again reads the same. Missing: a crash inside recovery before its final checkpoint ends; dictionary create/delete; row locks of prepared transactions (assumed regained)."
  },
  {
   "property": "C29",
   "status": "proved",
   "theorems": [
    "C29_processed_once_newest_first",
    "C29_nothing_else_is_processed",
    "C29_refines_the_lists",
    "C29_no_assertion_fails",
    "C29_no_node_leaks"
   ],
   "note": "All interleavings of begins, saves, spills, child commits, root commits and aborts; any spill limit and cache size. Concrete case: C29_case."
  },
  {
   "property": "C30",
   "status": "proved",
   "theorems": [
    "C30_incremental_checksum",
    "C30_pieces_irrelevant",
    "C30_one_shot",
    "C30_simple_one_shot"
   ],
   "note": "x1764 incremental, unrolled and simple versions all equal an independent polynomial specification"
  },
  {
   "property": "C31",
   "status": "proved",
   "theorems": [
    "C31_size_and_fetch",
    "C31_changes_succeed",
    "C31_marks_forbid_changes",
    "C31_merge_and_clone",
    "C31_iteration",
    "C31_iteration_with_changes",
    "C31_marks",
    "C31_searches",
    "C31_insert_in_order"
   ],
   "note": "All of util/omt.cc except memory_size, verify_marks_consistent and destroy: after any history of operations the object is the sequence expected, in both representations; nodes are values instead of indices, counts do not wrap (fewer than 2^30 values)."
  },
  {
   "property": "C32",
   "status": "proved",
   "theorems": [
    "C32_child_appends_one_id_or_is_refused",
    "C32_all_stacks_up_to_the_limit_exist",
    "C32_stack_is_read_as_given",
    "C32_stack_round_trip",
    "C32_begin_transaction"
   ],
   "note": "Stacks built from the root by any number of toku_xids_create_child calls; limit 253, EINVAL, accessors, wire format round trip."
  },
  {
   "property": "C33",
   "status": "proved",
   "theorems": [
    "C33_operations_do_not_fail",
    "C33_iteration_gives_the_messages",
    "C33_written_and_read_back",
    "C33_older_versions_rebuild_the_same_trees"
   ],
   "note": "Any history of inserting, applying, moving to stale, writing and reading back a nonleaf partition. Premises: message numbers are new to the buffer, at most 2^30 bytes (message_buffer's growth asserts beyond that)."
  },
  {
   "property": "C34",
   "status": "partial",
   "theorems": [
    "C34_operations_succeed_partial",
    "C34_out_of_range_is_refused",
    "C34_pivots_are_the_list_partial",
    "C34_round_trip_partial",
    "C34_empty_pivot_key_refuted"
   ],
   "note": "ft/pivotkeys.cc function by function on byte memory with arbitrary contents of fresh allocations, both storage formats and every conversion between them. All operations agree with the plain list and never abort, for keys that are not empty. Missing: zero-length keys, for which the claim is false (refuted: insert_at into an empty array and serialize_to_wbuf abort)."
  },
  {
   "property": "C35",
   "status": "proved",
   "theorems": [
    "C35_update_sees_own_value",
    "C35_update_latest",
    "C35_broadcast_rows",
    "C35_broadcast_absent",
    "C35_broadcast_ghost_refuted"
   ],
   "note": "FT_UPDATE and FT_UPDATE_BROADCAST_ALL: the function gets the latest value, which is the one visible to the updating transaction, and the row becomes what it says. Finding (refutation theorem): a broadcast also calls the function for deleted rows that are still stored, so its effect depends on garbage collection when the function stores a value for an absent row."
  },
  {
   "property": "C36",
   "status": "partial",
   "theorems": [
    "C36_unpinned_page_partial",
    "C36_quiet_begin",
    "C36_consistent_cut",
    "C36_can_finish",
    "C36_pinned_page_refuted"
   ],
   "note": "Every interleaving of user operations, background flushers, cleaner, evictor, clone writers and checkpoint thread, at the granularity of the code's locks. Pages nobody has write-pinned at begin are captured exactly as they were at begin; a page a background thread has pinned at begin may be captured with later content (refuted as worded), but the checkpoint as a whole means what the pages meant at begin (consistent cut) if background threads preserve meaning and pass held pages as dependents. Not modelled: read pins, partial fetch/eviction, several cachefiles, cachefile close."
  },
  {
   "property": "C37",
   "status": "partial",
   "theorems": [
    "C37_read_committed_always_partial",
    "C37_older_writers_partial",
    "C37_read_committed_always_refuted",
    "C37_read_only_alone_refuted"
   ],
   "note": "The property is false of the code: refuted with two witnesses (finding 14). Proved instead, for every history: the reader finds its own write, or a value that was committed, missing the changes of at most one transaction that is not older than all running when the reader began; it finds the committed value when all other writers of the row are older than those."
  },
  {
   "property": "C38",
   "status": "partial",
   "theorems": [
    "C38_optimize_race_refuted",
    "C01_snapshot_read"
   ],
   "note": "False with the race (refuted by a witness); when no message is sent between the look and FT_OPTIMIZE, or a transaction was living at the look, C01-C05 hold with optimize among the operations."
  },
  {
   "property": "C39",
   "status": "partial",
   "theorems": [
    "C39_never_stuck_partial",
    "C39_retry_out_of_memory_refuted"
   ],
   "note": "Every legal step succeeds except a retry that runs out of lock memory, which stops the process (refuted)."
  },
  {
   "property": "C40",
   "status": "proved",
   "theorems": [
    "C40_memory_returns_to_zero",
    "C39_never_stuck_partial"
   ],
   "note": "The subtraction of released memory is guarded in the model; C39 shows the guard holds."
  },
  {
   "property": "C41",
   "status": "partial",
   "theorems": [
    "C41_report_partial",
    "C41_unused_figures_refuted"
   ],
   "note": "The report always succeeds and its data and checkpoint figures are exact (up to 8192 block numbers); the three figures about unused space are never right, because the endless region behind the last extent is counted as a region of 2^64-1 bytes: proved exactly, and refuted."
  },
  {
   "property": "C42",
   "status": "partial",
   "theorems": [
    "C42_cursor_walks_log_partial",
    "C42_cursor_walks_log_refuted"
   ],
   "note": "Proved for walks that start with a move from an unused cursor and do not turn round directly at first/last; those turns return an LSN error in the code (witness)."
  },
  {
   "property": "C43",
   "status": "partial",
   "theorems": [
    "C43_rollback_node_round_trip",
    "C43_every_node_can_be_written",
    "C43_older_versions_are_read_refuted"
   ],
   "note": "Round trip proved for the current version, and that every node of a reachable state can be written; the part about older versions is false: version 28 nodes abort the reader. Compression is not modelled. Concrete case: C43_case."
  },
  {
   "property": "C44",
   "status": "proved",
   "theorems": [
    "C44_rows",
    "C44_moments",
    "C44_nothing",
    "C44_nothing_in_range",
    "C44_no_assertion_fails",
    "C44_progress",
    "C44_scan",
    "C44_scan_view",
    "C44_scan_moments",
    "C44_scan_dictionary"
   ],
   "note": "Cursor operations and whole scans over every reachable tree, with anything happening between the attempts of a search. Refused rows of bulk fetches are the subject of C45."
  },
  {
   "property": "C45",
   "status": "partial",
   "theorems": [
    "C45_refused_row_is_lost_refuted",
    "C45_prev_repeats_row_refuted",
    "C45_one_row_at_a_time"
   ],
   "note": "False as stated: a row refused in a bulk fetch is skipped by the retry, and prev after the end of a restricted range repeats a row. True for callbacks that take one row at a time."
  },
  {
   "property": "C46",
   "status": "proved",
   "theorems": [
    "C46_rows",
    "C46_nothing",
    "C46_scan"
   ],
   "note": "Parametric in which callback answers are possible at which time; the lock table itself is C10-C12."
  },
  {
   "property": "C47",
   "status": "proved",
   "theorems": [
    "C47_no_abort",
    "C47_snapshot_read",
    "C47_locked_read",
    "C47_unlocked_read",
    "C47_frozen_at_begin",
    "C47_snapshot_stays",
    "C47_promotion_bound"
   ],
   "note": "End to end: clients, rollback, messages, tree, leaf entries, garbage collection. A query may have to wait for a locked node (Block); then it returns nothing."
  },
  {
   "property": "C48",
   "status": "proved",
   "theorems": [
    "C48_no_abort",
    "C48_snapshot_scan",
    "C48_snapshot_rows",
    "C48_snapshot_nothing"
   ],
   "note": "Scans and single operations through a snapshot over the whole dictionary of C47, with any steps of others in between. The scanning transaction does nothing else during the scan; scans by C_READ_ANY under range locks are C46 (tree level), not joined with the transactions."
  },
  {
   "property": "C49",
   "status": "partial",
   "theorems": [
    "C49_update",
    "C49_update_error",
    "C49_update_recovered",
    "C49_put",
    "C49_put_error_partial",
    "C49_put_recovered",
    "C49_del",
    "C49_del_error",
    "C49_del_recovered",
    "C49_locks",
    "C49_put_error_refuted",
    "C49_update_empty_value_refuted"
   ],
   "note": "All parts proved for callbacks that make no two equal keys per dictionary. Partial because two parts are false of the code: a put_multiple with DB_NOOVERWRITE that fails midway keeps earlier rows unlogged (C49_put_error_refuted; all-or-nothing proved when no flag is given), and update_multiple skips rows with unchanged key and empty new value, so C49_update and C49_update_recovered ask that such rows are empty already (C49_update_empty_value_refuted)."
  },
  {
   "property": "C50",
   "status": "partial",
   "theorems": [
    "C50_row",
    "C50_two_dictionaries_refuted",
    "C50_error_pins_refuted"
   ],
   "note": "C50_row is the claim for one new dictionary, or for any number when no transaction on the row is open. For two or more with an open transaction the claim is false (the assert on the pin count fails), and a failing callback leaves transactions pinned; both are proved as refutations."
  },
  {
   "property": "C51",
   "status": "partial",
   "theorems": [
    "C51_while_building",
    "C51_built",
    "C51_cursor",
    "C51_other_source_refuted",
    "C51_shared_key_refuted"
   ],
   "note": "Proved for calls with the indexer's source and index keys that tell the source key; refuted for calls with another source (finding 43) and for shared index keys (finding 44)."
  },
  {
   "property": "C52",
   "status": "partial",
   "theorems": [
    "C52_exclusion",
    "C52_no_assert",
    "C52_fcfs",
    "C52_drains",
    "C52_accounting",
    "C52_cheap_read",
    "C52_spurious_refuted"
   ],
   "note": "Full for runs in which cond_wait returns only after a signal. With the spurious wake-ups POSIX allows exclusion is false: C52_spurious_refuted."
  },
  {
   "property": "C53",
   "status": "partial",
   "theorems": [
    "C53_sort",
    "C53_load",
    "C53_complete",
    "C53_same",
    "C53_dup_answer_partial",
    "C53_dup_answer_refuted"
   ],
   "note": "Everything but the answer to a duplicate is proved in full; that a duplicate is answered with DB_KEYEXIST is proved for merges of at most two runs and refuted for wider ones (the process stops, finding 46)."
  },
  {
   "property": "C54",
   "status": "proved",
   "theorems": [
    "C54_tree",
    "C54_depth",
    "C54_lookup",
    "C54_loaded"
   ],
   "note": "Writer of the loader at the level of rows, leaves, pivots and nodes; bytes, basement nodes and block numbers are not modelled here."
  },
  {
   "property": "C55",
   "status": "partial",
   "theorems": [
    "C55_fifo",
    "C55_no_lost_wakeup",
    "C55_bounded",
    "C55_deq",
    "C55_two_producers_refuted"
   ],
   "note": "Proved in full for one producer and one consumer; order and contents for any number of threads; that several producers and one consumer always go on is refuted (finding 47)."
  },
  {
   "property": "C56",
   "status": "partial",
   "theorems": [
    "C56_round",
    "C56_range",
    "C56_ends",
    "C56_recorded",
    "C56_left_inclusive_refuted",
    "C56_recorded_refuted"
   ],
   "note": "Proved for keys above left and up to right, and in full for the whole dictionary; that left itself is included, and that the recorded MSN is right after a run over a part, are refuted (findings 48, 49). Splits and merges inside a descent are not modelled."
  },
  {
   "property": "C57",
   "status": "partial",
   "theorems": [
    "C57_count",
    "C57_after_crash_partial",
    "C57_after_crash_refuted"
   ],
   "note": "Proved when nothing ran at the crash, and after a crash up to the first reset; that it is right from then on is refuted (finding 50)."
  },
  {
   "property": "C58",
   "status": "partial",
   "theorems": [
    "C58_exclusion",
    "C58_no_lost_wakeup",
    "C58_no_bug",
    "C58_writers_first",
    "C58_reader_starves_refuted",
    "C58_writer_overtaken_refuted"
   ],
   "note": "All proved for any number of threads but that nobody starves, which is refuted for readers and for writers (finding 51)."
  },
  {
   "property": "C59",
   "status": "proved",
   "theorems": [
    "C59_sum",
    "C59_read_between"
   ],
   "note": "Refinement to a map from counters to numbers over all call sequences; one reading interleaved with increments."
  },
  {
   "property": "C60",
   "status": "proved",
   "theorems": [
    "C60_fifo_once",
    "C60_no_lost_wakeup",
    "C60_shutdown",
    "C60_shutdown_ends"
   ],
   "note": "Invariant over all steps; termination of shutdown by a measure."
  },
  {
   "property": "C61",
   "status": "partial",
   "theorems": [
    "C61_periodic_partial",
    "C61_periodic_refuted",
    "C61_early_refuted",
    "C61_from_finish_refuted",
    "C61_change_refuted",
    "C61_shutdown"
   ],
   "note": "Holds for periods of whole seconds or at most one second, measured from begin to begin; refuted for other periods (abort or early call) and for the header's account of the period (findings 52, 53)."
  },
  {
   "property": "C62",
   "status": "partial",
   "theorems": [
    "C62_sizes",
    "C62_sizes_refuted",
    "C62_index",
    "C62_round_trip"
   ],
   "note": "Everything for sizes below 2^31 minus 64 per sub-block allowed; refuted at 2^31-1, where an int overflows (finding 54)."
  },
  {
   "property": "C63",
   "status": "proved",
   "theorems": [
    "C63_join",
    "C63_progress"
   ],
   "note": "Invariant over all interleavings."
  },
  {
   "property": "C64",
   "status": "proved",
   "theorems": [
    "C64_jobs",
    "C64_no_lost_wakeup",
    "C64_nowait"
   ],
   "note": "Any maximum, number of calls and jobs, creation failures, spurious wake-ups. toku_thread_pool_destroy is left out. C64_nowait is for calls without dowait only, which is how the library calls the pool."
  },
  {
   "property": "C65",
   "status": "partial",
   "theorems": [
    "C65_count",
    "C65_drained",
    "C65_wait_ends",
    "C65_reset_refuted"
   ],
   "note": "For any number of jobs and waits. C65_drained and C65_wait_ends assume that bjm_reset is not called while a wait is under way; without that they are false (C65_reset_refuted). num_jobs is unbounded in the model."
  },
  {
   "property": "C66",
   "status": "partial",
   "theorems": [
    "C66_memory",
    "C66_met",
    "C66_zero_refuted"
   ],
   "note": "For any number of arenas and any sequence of calls. C66_met assumes requests of at least one byte; with a request of 0 bytes to an arena without memory it is false (C66_zero_refuted). Sizes are unbounded in the model; the totals and chunk_iterator are left out."
  }
 ]
}