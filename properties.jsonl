{"id": "C01", "title": "Snapshot readers see exactly the committed prefix plus their own writes", "statement": "A transaction started with snapshot isolation that reads a key obtains the value written by its own transaction family if that family has an uncommitted write on the key, otherwise the value (or absence) left by the last transaction on that key that had committed when the snapshot was taken; later commits by others never change what it reads.", "quantifier": "every history of begin/commit/abort of root transactions, every sequence of writes they send to a key, and every snapshot reader alive at any point of the history", "why_tests_cant": "the set of interleavings of transaction starts, commits and writes is unbounded; a test fixes one schedule", "anchors": ["ft/ule.cc: le_iterate_get_accepted_index, le_iterate_val, le_extract_val", "ft/txn/txn.cc: toku_txn_reads_txnid", "ft/txn/txn_manager.cc: toku_txn_manager_start_txn, toku_txn_manager_finish_txn"]}
{"id": "C02", "title": "Garbage collection is invisible to every reader", "statement": "Running the simple or the full garbage collector on a row never changes the value (or absence) that any live snapshot reader, any read-committed reader or any future reader obtains for that row.", "quantifier": "every committed stack, every set of live transactions and live snapshots reachable by any history, every point at which collection is run", "why_tests_cant": "an incorrect choice of record to drop only shows up for particular combinations of live lists, snapshot ids and commit order", "anchors": ["ft/ule.cc: ule_garbage_collect, ule_simple_garbage_collection, xid_reads_committed_xid, get_next_older_txnid", "ft/txn/txn_manager.cc: toku_get_youngest_live_list_txnid_for"]}
{"id": "C03", "title": "Implicit promotion of finished transactions is invisible", "statement": "Turning the provisional records of a transaction that is known to be finished into a committed record (when a newer message arrives, or because the transaction is older than the oldest referenced id) does not change what any reader obtains for the row.", "quantifier": "every leaf entry, every xid stack of the incoming message and every reader", "why_tests_cant": "depends on all relative orders of transaction ids in the stacks", "anchors": ["ft/ule.cc: ule_do_implicit_promotions, ule_try_promote_provisional_outermost, ule_promote_provisional_innermost_to_index"]}
{"id": "C04", "title": "Abort restores the row exactly", "statement": "After a (possibly nested) transaction wrote a row any number of times and its abort message is applied, every reader (its parents, its siblings, other transactions) obtains for that row what it would have obtained had the aborted transaction never touched the row.", "quantifier": "every leaf entry, every nesting depth, every sequence of inserts/deletes by the aborted transaction and its committed descendants", "why_tests_cant": "nesting depth and number of writes are unbounded", "anchors": ["ft/ule.cc: ule_apply_abort, ule_remove_innermost_uxr, ule_remove_innermost_placeholders, ule_prepare_for_new_uxr"]}
{"id": "C05", "title": "Nested transactions behave like nested atomic blocks", "statement": "Writes of a child become part of its parent on child commit and vanish on child abort; writes of a root transaction become the committed value on commit; the visible value for the innermost running transaction is always its own newest write or else the one inherited from the nearest enclosing transaction or the committed value.", "quantifier": "every well-bracketed history of nested begin, insert, delete, commit and abort on a row (within the 253-level limit)", "why_tests_cant": "all nesting patterns; the representation merges, promotes and drops placeholder records along the way", "anchors": ["ft/ule.cc: msg_modify_ule, ule_apply_insert, ule_apply_delete, ule_apply_commit, ule_apply_abort", "ft/txn/xids.cc"]}
{"id": "C06", "title": "Leaf entries survive packing", "statement": "Packing a row's transaction history to its on-disk form and unpacking it gives back the same history (values, deletes, placeholders, transaction ids, order), and a history with no insert in it packs to nothing.", "quantifier": "every well-formed history of up to 2^32-1 committed and 253 provisional records, every value length below 2^31", "why_tests_cant": "the format interleaves ids, lengths and data in stack dependent order", "anchors": ["ft/ule.cc: le_pack, le_unpack, uxr_pack_*, uxr_unpack_*", "ft/leafentry.h"]}
{"id": "C07", "title": "Fast-path readers agree with the full decoder", "statement": "Every accessor that peeks into the packed bytes of a row (latest value, latest length, is-latest-a-delete, is-clean, outermost uncommitted id, has-ids test, packed size, snapshot lookup) returns what decoding the whole row and inspecting it would return.", "quantifier": "every packed row", "why_tests_cant": "each accessor has its own hand-written offset arithmetic", "anchors": ["ft/ule.cc: le_latest_val_and_len, le_latest_vallen, le_latest_is_del, le_has_xids, le_outermost_uncommitted_xid, leafentry_memsize, le_iterate_val, le_iterate_is_del"]}
{"id": "C08", "title": "Logical row count follows inserts, deletes and aborts", "statement": "The row-count delta reported when a message is applied keeps the dictionary's logical row count equal to the number of rows whose latest version is a value.", "quantifier": "every leaf entry and every message (insert, delete, abort, commit)", "why_tests_cant": "a counter that drifts only for special stacks passes typical tests", "anchors": ["ft/ule.cc: ule_apply_insert, ule_apply_delete, ule_apply_abort, toku_le_apply_msg"]}
{"id": "C09", "title": "The transaction manager's live lists and id bookkeeping are exact", "statement": "The set of live root transactions, the ordered list of snapshots, and the records of finished-but-still-referenced transactions always equal what the history of begin/commit/abort defines; in particular looking up the youngest snapshot that cannot see a committed transaction returns exactly that snapshot.", "quantifier": "every history of begin and finish of root transactions with any isolation level", "why_tests_cant": "reference counts are maintained incrementally by two different algorithms", "anchors": ["ft/txn/txn_manager.cc: toku_txn_manager_start_txn, toku_txn_manager_finish_txn, toku_get_youngest_live_list_txnid_for, txn_manager_create_snapshot_unlocked, txn_manager_remove_snapshot_unlocked"]}
{"id": "C10", "title": "Two transactions never hold conflicting row locks", "statement": "At every moment the key ranges locked by different transactions in a dictionary are disjoint, and a lock request is granted exactly when the requested range overlaps no range held by another transaction.", "quantifier": "every sequence of acquire and release requests by any transactions over any totally ordered key space including unbounded ranges", "why_tests_cant": "overlap cases and the single-transaction fast path multiply; state space unbounded", "anchors": ["locktree/locktree.cc: try_acquire_lock, acquire_lock, acquire_lock_consolidated, sto_try_acquire, sto_migrate_buffer_ranges_to_tree, release_locks", "locktree/treenode.cc", "locktree/concurrent_tree.cc"]}
{"id": "C11", "title": "A granted lock stays held until its owner releases it, and release removes everything", "statement": "Once granted, every key of a requested range stays covered by a lock of its owner until that owner releases its locks, whatever other transactions do and however locks are merged; after release the owner holds nothing and other owners' locks are unchanged.", "quantifier": "every history of acquire and release", "why_tests_cant": "consolidation removes and re-inserts nodes of a rotating tree", "anchors": ["locktree/locktree.cc: iterate_and_get_overlapping_row_locks, remove_row_lock_from_tree, remove_overlapping_locks_for_txnid, release_locks", "locktree/treenode.cc: remove, remove_root_of_subtree, maybe_rebalance"]}
{"id": "C12", "title": "Lock escalation only widens a transaction's own locks", "statement": "Escalation keeps every locked key locked by the same transaction and never creates a lock that overlaps another transaction's lock.", "quantifier": "every set of held locks, every batch boundary", "why_tests_cant": "depends on how owners interleave in key order and on the batch size", "anchors": ["locktree/locktree.cc: escalate, extract_first_n_row_locks"]}
{"id": "C13", "title": "Deadlock detection is sound and complete", "statement": "A lock request is refused as a deadlock exactly when the waits-for relation reachable from the requester contains a cycle through it; an acyclic wait is never refused and a cyclic one never missed.", "quantifier": "every waits-for graph", "why_tests_cant": "graph shape unbounded", "anchors": ["locktree/wfg.cc: cycle_exists_from_txnid, node traversal", "locktree/lock_request.cc: deadlock_exists, build_wait_graph"]}
{"id": "C14", "title": "The list of ranges a transaction holds is remembered exactly", "statement": "Every key range appended to a transaction's lock bookkeeping buffer is read back unchanged, in order; so release releases exactly what was acquired.", "quantifier": "every sequence of ranges with every combination of finite and infinite endpoints", "why_tests_cant": "compact encoding with special cases for infinities and point ranges", "anchors": ["locktree/range_buffer.cc", "src/ydb_row_lock.cc"]}
{"id": "C15", "title": "Disk extents handed out never overlap", "statement": "At all times the extents allocated in a dictionary file are pairwise disjoint, aligned, and disjoint from the reserved header area; freeing returns exactly the extent; the space accounting equals allocated plus free.", "quantifier": "every sequence of allocate and free requests of any sizes", "why_tests_cant": "allocation reuses holes and coalesces neighbours", "anchors": ["ft/serialize/block_allocator.cc: AllocBlock, FreeBlock, CreateFromBlockPairs", "ft/serialize/rbtree_mhs.cc: Insert, Remove, SearchFirstFitBySize"]}
{"id": "C16", "title": "The hole index is a faithful search tree", "statement": "The tree that indexes free holes stays sorted, non-overlapping, non-adjacent (fully coalesced) with correct largest-hole labels, so the first-fit search finds the leftmost hole that can hold the request whenever one exists.", "quantifier": "every sequence of insertions, removals and rotations", "why_tests_cant": "rebalancing is history dependent", "anchors": ["ft/serialize/rbtree_mhs.cc: RecalculateMhs, LeftRotate, RightRotate, SearchFirstFitBySizeHelper, TryMerge paths"]}
{"id": "C17", "title": "A crash never finds the last complete checkpoint damaged", "statement": "From the moment a checkpoint completes until the next one completes, no disk extent referenced by the completed checkpoint is handed out for new data, and neither is one of the checkpoint in progress; hence a crash at any point can reopen the completed checkpoint.", "quantifier": "every interleaving of block writes, frees, checkpoint begin/end/abandon and client activity", "why_tests_cant": "crash points and interleavings cannot be enumerated", "anchors": ["ft/serialize/block_table.cc: note_start_checkpoint_unlocked, note_end_checkpoint, note_skipped_checkpoint, _realloc_on_disk_internal, _free_blocknum_unlocked, _translation_prevents_freeing"]}
{"id": "C18", "title": "Completing a checkpoint never aborts the process", "statement": "Ending a checkpoint of a consistent dictionary file never trips an internal assertion.", "quantifier": "every reachable block table state", "why_tests_cant": "needs a coincidence between a disk offset and a free-list link", "anchors": ["ft/serialize/block_table.cc: note_end_checkpoint, _translation_prevents_freeing, _free_blocknum_in_translation"]}
{"id": "C19", "title": "The block translation survives serialization", "statement": "Writing the block translation to disk and reading it back yields the same translation; a file whose translation checksum does not match is rejected.", "quantifier": "every translation", "why_tests_cant": "all table shapes", "anchors": ["ft/serialize/block_table.cc: serialize_translation_to_wbuf, _translation_deserialize_from_buffer, create_from_buffer"]}
{"id": "C20", "title": "The fractal tree is a dictionary", "statement": "Whatever sequence of inserts/deletes/updates/broadcasts has been injected, and whatever flushes, node splits, merges, leaf rebalances, partial evictions and query-time ancestor message applications happened, a point lookup returns the result of applying the injected messages for that key in injection order.", "quantifier": "every history of message injections interleaved with every tree maintenance action, any fanout and node size", "why_tests_cant": "maintenance runs in background at arbitrary times; shapes unbounded", "anchors": ["ft/ft-ops.cc: inject_message_in_locked_node, push_something_in_subtree, ft_search_node", "ft/node.cc: toku_ft_leaf_apply_msg, toku_apply_ancestors_messages_to_node, bnc_apply_messages_to_basement_node, ft_nonleaf_put_msg, toku_ftnode_leaf_rebalance", "ft/ft-flusher.cc"]}
{"id": "C21", "title": "Each message takes effect exactly once per row", "statement": "A message that has been applied to part of a leaf while answering a query is not applied a second time when it is later flushed to that leaf, and none is skipped.", "quantifier": "every order of queries, evictions and flushes", "why_tests_cant": "double application is harmless for plain inserts, visible for updates and nested transactions only", "anchors": ["ft/node.cc: do_bn_apply_msg, apply_ancestors_messages_to_bn, toku_ft_leaf_apply_msg (MSN checks)"]}
{"id": "C22", "title": "Child selection follows the pivots", "statement": "The binary searches used to route a key to a child or basement node pick the unique child whose key interval contains the key, for point operations, searches in both directions and optimize scans.", "quantifier": "every sorted pivot list and key", "why_tests_cant": "off-by-one errors appear only for particular positions", "anchors": ["ft/node.cc: toku_ftnode_which_child, toku_ftnode_hot_next_child", "ft/ft-ops.cc: toku_ft_search_which_child"]}
{"id": "C23", "title": "The rightmost-leaf shortcut is equivalent to the normal insert path", "statement": "Inserting through the cached rightmost leaf has the same effect as inserting through the root, for every operation type the API offers.", "quantifier": "every tree and every operation", "why_tests_cant": "the shortcut only engages after 100 sequential inserts and on particular leaf shapes", "anchors": ["ft/ft-ops.cc: ft_maybe_insert_into_rightmost_leaf, ft_leaf_get_relative_key_pos, toku_ft_maybe_insert"]}
{"id": "C24", "title": "Log records survive the log", "statement": "Every log record written is read back identical by a forward scan and by a backward scan, with consecutive sequence numbers, and any sequence of records is read back in order (reverse order backwards).", "quantifier": "every record type, field values and number of records", "why_tests_cant": "variable-length fields", "anchors": ["ft/logger/logformat.cc: generate_log_writer, generate_log_reader", "ft/logger/logger.cc: toku_fread_*", "ft/logger/logcursor.cc"]}
{"id": "C25", "title": "A torn log tail is cut back to the last complete record", "statement": "If a crash leaves an arbitrary byte prefix of the log, repair keeps exactly the records that are completely contained in it, and the last record reported is one that was really logged.", "quantifier": "every log contents and every crash byte position", "why_tests_cant": "number of crash positions times contents", "anchors": ["ft/logger/logcursor.cc: toku_logcursor_last, lc_fix_bad_logfile", "ft/logger/logformat.cc: toku_log_fread_backward"]}
{"id": "C26", "title": "Commit returns only after its log record is durable", "statement": "When a synchronous commit returns, its log record and all earlier records are on stable storage, for any number of concurrent committers sharing the group-commit buffers; when an explicit log flush returns, everything logged before the call is durable.", "quantifier": "every interleaving of any number of logging threads", "why_tests_cant": "schedules", "anchors": ["ft/logger/logger.cc: toku_logger_maybe_fsync, toku_logger_make_space_in_inbuf, toku_logger_fsync, write_outbuf_to_logfile"]}
{"id": "C27", "title": "Log trimming keeps everything recovery needs", "statement": "Trimming log files after a checkpoint never removes a record with sequence number at or after the begin of the last completed checkpoint.", "quantifier": "every sequence of logging, file rotations and checkpoints", "why_tests_cant": "file boundaries arbitrary", "anchors": ["ft/logger/logger.cc: toku_logger_maybe_trim_log, close_and_open_logfile", "ft/logger/logfilemgr.cc"]}
{"id": "C28", "title": "Recovery restores exactly the committed work", "statement": "After a crash at any point, recovery from the last complete checkpoint and the durable log yields a database containing exactly the effects of transactions whose commit record is durable; effects of others are undone; running recovery again gives the same result.", "quantifier": "every history of transactions and checkpoints and every crash point", "why_tests_cant": "crash points", "anchors": ["ft/logger/recover.cc: do_recovery, toku_recover_*", "ft/ft-ops.cc: toku_ft_maybe_insert (oplsn check)", "ft/txn/roll.cc: do_insertion"]}
{"id": "C29", "title": "Undo entries are processed exactly once in reverse order", "statement": "On abort (and on commit of a root transaction) every rollback entry recorded by the transaction and its committed descendants is processed exactly once, newest first, whether or not entries were spilled to disk.", "quantifier": "every sequence of saves, spills, nested begins, child commits and aborts", "why_tests_cant": "spill boundaries and nesting unbounded", "anchors": ["ft/txn/rollback-apply.cc: apply_txn, toku_rollback_commit", "ft/txn/roll.cc: toku_apply_rollinclude", "ft/txn/rollback.cc: toku_maybe_spill_rollbacks"]}
{"id": "C30", "title": "The incremental checksum equals the one-shot checksum", "statement": "Feeding a byte string to the checksum in arbitrary pieces gives the same 32-bit value as checksumming it in one call, and the unrolled one-shot implementation equals the simple definition.", "quantifier": "every byte string and every way to cut it into pieces", "why_tests_cant": "all lengths, alignments and cuts", "anchors": ["util/x1764.cc: toku_x1764_add, toku_x1764_finish, toku_x1764_memory, toku_x1764_memory_simple"]}
{"id": "C31", "title": "The order-maintenance tree is a sequence", "statement": "insert_at, set_at, delete_at, fetch, iterate, split_at, merge, clone behave as on a plain sequence and out-of-range indices are refused, regardless of the internal array/tree representation; searches with a monotone predicate return the leftmost/rightmost matching index.", "quantifier": "every sequence of operations and every monotone predicate", "why_tests_cant": "representation switches and rebalancing are history dependent", "anchors": ["util/omt.cc"]}
{"id": "C32", "title": "Transaction id stacks survive serialization and respect the nesting limit", "statement": "The id stack of a transaction is read back unchanged; creating a child beyond the nesting limit is refused with an error and otherwise appends exactly one id.", "quantifier": "every stack", "why_tests_cant": "253-deep boundary", "anchors": ["ft/txn/xids.cc"]}
{"id": "C33", "title": "Buffered messages survive serialization", "statement": "A message buffer written to disk and read back contains the same messages in the same order with the same freshness classification.", "quantifier": "every buffer", "why_tests_cant": "variable-size records", "anchors": ["ft/msg_buffer.cc", "ft/msg.cc"]}
{"id": "C34", "title": "Pivot key arrays behave as sequences in both storage formats", "statement": "insert, append, replace, delete, split, serialize of pivot keys act as on a plain list of byte strings, whichever of the two internal formats is in use, and the recorded total size equals the sum of sizes.", "quantifier": "every sequence of operations", "why_tests_cant": "format conversions depend on history", "anchors": ["ft/pivotkeys.cc"]}
{"id": "C35", "title": "Updates through callbacks see the right old value", "statement": "An update message calls the user function with the value visible to the updating transaction (or absence) and stores or deletes as the function says.", "quantifier": "every leaf entry, every function", "why_tests_cant": "depends on all provisional stacks", "anchors": ["ft/node.cc: do_update, setval_fun"]}
{"id": "C36", "title": "Checkpoint writes the state as of its begin", "statement": "A checkpoint captures for every cached page the content it had at begin-checkpoint, even though clients keep modifying pages while the checkpoint runs.", "quantifier": "every interleaving of clients with the checkpoint thread", "why_tests_cant": "schedules", "anchors": ["ft/cachetable/cachetable.cc: begin_checkpoint, checkpoint_pending, write_locked_pair_for_checkpoint, checkpoint_cloned_pair"]}
{"id": "C37", "title": "DB_READ_COMMITTED_ALWAYS sees what was committed before", "statement": "A transaction begun with DB_READ_COMMITTED_ALWAYS that reads a row no other transaction is writing obtains the committed value of the row.", "quantifier": "every history of transactions on the row, every such reader", "why_tests_cant": "Whether the value is seen depends on which older transaction happens to be running and on whether the leaf entry has been promoted or collected yet; a test sees one interleaving.", "anchors": ["src/ydb_cursor.cc:850-858 (C_READ_COMMITTED)", "ft/txn/txn_manager.cc toku_txn_manager_start_txn (TXN_COPIES_SNAPSHOT)", "ft/txn/txn.cc toku_txn_reads_txnid", "ft/ule.cc le_iterate_val"]}
{"id": "C38", "title": "DB->optimize never makes an uncommitted write permanent", "statement": "Running DB->optimize at any time, concurrently with transactions that begin, write and abort, never makes the value of an aborted transaction visible.", "quantifier": "every interleaving of optimize with begin, write, commit and abort of any transactions", "why_tests_cant": "The window between reading the oldest living transaction id and enqueueing the FT_OPTIMIZE message is a few instructions; tests almost never hit it.", "anchors": ["ft/ft-ops.cc toku_ft_optimize", "ft/txn/txn_manager.cc toku_txn_manager_get_oldest_living_xid", "ft/ule.cc ule_optimize", "ft/node.cc toku_ft_bn_apply_msg (FT_OPTIMIZE)"]}
{"id": "C39", "title": "No lock operation stops the process", "statement": "Requesting, waiting for, retrying, giving up, noting and releasing row locks, and lock escalation, never fail an internal assertion, whatever other transactions do at the same time and whatever the lock memory limit.", "quantifier": "every interleaving of the steps of any number of transactions, every lock memory limit", "why_tests_cant": "depends on memory pressure and on interleavings", "anchors": ["locktree/lock_request.cc: start, wait, retry", "locktree/manager.cc: check_current_lock_constraints", "src/ydb_row_lock.cc"]}
{"id": "C40", "title": "Lock memory is given back", "statement": "The accounted lock memory never goes below zero, and once every transaction has released its locks it is zero and every request is granted again.", "quantifier": "every history of requests, escalations and releases", "why_tests_cant": "memory is accounted in three places (tree, single-transaction buffer, per-transaction lists) that escalation moves between", "anchors": ["locktree/manager.cc: note_mem_used, note_mem_released", "locktree/locktree.cc: escalate, sto_end", "src/ydb_row_lock.cc: db_txn_note_row_lock, toku_db_release_lt_key_ranges"]}
{"id": "C41", "title": "The fragmentation report is truthful", "statement": "The fragmentation report of a dictionary file gives the number and total size of the unused regions of the file and the size of the largest of them.", "quantifier": "every allocator state", "why_tests_cant": "holes of every size and position; one region of the free list is unbounded and is not part of the file", "anchors": ["ft/serialize/block_allocator.cc: BlockAllocator::UnusedStatistics", "ft/serialize/block_table.cc: block_table::get_fragmentation", "ft/serialize/rbtree_mhs.cc"]}
{"id": "C42", "title": "The log cursor walks the log", "statement": "Moving a log cursor with first, next, previous and last visits the records of the whole log in order, across log file boundaries, one record per move, and reports 'not found' exactly at the ends.", "quantifier": "every log contents, every division into files and every sequence of moves", "why_tests_cant": "sequences of moves and file boundaries are unbounded", "anchors": ["ft/logger/logcursor.cc: toku_logcursor_first, toku_logcursor_next, toku_logcursor_prev, toku_logcursor_last, lc_log_read, lc_log_read_backward"]}
{"id": "C43", "title": "Rollback log nodes survive being written and read back", "statement": "A rollback log node written to disk and read back is the same node: the same entries in the same order with the same fields, the same owner, sequence number and link. Nodes written by every layout version from 25 on can be read.", "quantifier": "every node with any entries of any type whose fields hold values of their C types; every supported version", "why_tests_cant": "entry types, counts and field lengths unbounded; upgrade from each version with spilled nodes is not exercised", "anchors": ["ft/serialize/ft_node-serialize.cc: serialize_rollback_log_node_to_buf, deserialize_rollback_log_from_rbuf", "ft/logger/logformat.cc: generate_rollbacks"]}
{"id": "C44", "title": "Cursors find the visible rows in order", "statement": "A cursor operation (first, last, next, prev, set, set_range, set_range_reverse, current) returns rows that the reader sees, in key order and all of them rows the operation asks for; a key it passes over without returning was not visible at some moment during the operation; 'not found' means that no row asked for was visible. A scan with next (or prev) from any position to the end returns each key at most once, in order, and exactly the rows of a reader for whom nothing changes meanwhile, whatever flushes, splits, merges, inserts and other searches happen between its steps.", "quantifier": "every tree reachable by any interleaving of tree operations, every cursor position, every number of attempts of a search, anything happening between attempts and between operations, every callback behaviour", "why_tests_cant": "a search that leaves a subtree empty-handed restarts from the root with a saved bound; what happens between the attempts is unbounded", "anchors": ["ft/ft-ops.cc: toku_ft_search, ft_search_node, ft_search_child, ft_search_basement_node, maybe_search_save_bound, search_try_again, toku_ft_search_which_child", "ft/cursor.cc: toku_ft_cursor_first, toku_ft_cursor_last, toku_ft_cursor_next, toku_ft_cursor_prev, toku_ft_cursor_set, toku_ft_cursor_set_range, toku_ft_cursor_set_range_reverse, toku_ft_cursor_current, toku_ft_cursor_shortcut, toku_ft_cursor_check_restricted_range"]}
{"id": "C45", "title": "A bulk fetch that stops leaves the cursor on the last row it delivered", "statement": "When a bulk fetch stops, because the callback refuses a row (for instance because its lock is not granted) or because a row is out of the cursor's range, the cursor rests on the last row delivered: repeating next delivers the refused row, and prev delivers the row before the last one delivered.", "quantifier": "every tree, cursor position, range and callback", "why_tests_cant": "needs a lock conflict in the middle of a bulk fetch, with the rows in one basement node", "anchors": ["ft/cursor.cc: toku_ft_cursor_shortcut", "ft/ft-ops.cc: ft_search_basement_node", "src/ydb_cursor.cc: c_getf_next, c_getf_prev"]}
{"id": "C46", "title": "What a locking scan reports is covered by locks taken while reading", "statement": "Every row a cursor operation returns was read at a moment when the callback, which takes the row locks, agreed to it; and every key it passes over, up to the last row returned or to the end if it finds nothing, was found invisible at a moment when the callback agreed to a range reaching over that key. So no key can be inserted unlocked into a gap a locking scan has reported empty.", "quantifier": "every reachable tree, every operation and scan, any number of attempts, any interleaving with other operations, any behaviour of the callback over time", "why_tests_cant": "the lock on a gap is taken piecewise, pivot by pivot, over several attempts between which anything may happen", "anchors": ["ft/ft-ops.cc: ft_search_node (getf with lock_only at a pivot), ft_search_basement_node, toku_ft_search", "ft/cursor.cc: ft_cursor_search_eq_k_x_getf, ft_cursor_current_getf", "src/ydb_cursor.cc: c_getf_next_callback, c_getf_first_callback, c_getf_set_callback"]}
{"id": "C47", "title": "A dictionary under transactions: reads through the tree return what the transactions mean", "statement": "Clients run any number of nested transactions over any keys of one dictionary; their insert, delete, update, commit, abort and optimize messages travel through the tree, which flushes, splits, merges, collects garbage and promotes provisional values implicitly on the way. Whatever the tree does and whenever, reading a key through it returns: for a transaction with a snapshot, its own innermost write, else what was committed when the snapshot was taken; for the holder of the key's row lock, its own innermost write, else what is committed; for a key nobody has locked, what is committed. No assertion fails. In particular the bound for implicit promotion that each node carries (oldest_referenced_xid_known) was read before any message still above the node was sent.", "quantifier": "every history of clients and of the tree, every key order, every depth of nesting and shape of the tree", "why_tests_cant": "the value of a row depends on which messages have been applied where, on which bound each node carried then, and on which transactions were running when the bound was read; the wrong combinations are narrow", "anchors": ["ft/ft-ops.cc: inject_message_in_locked_node, toku_ft_root_put_msg, ft_init_new_root", "ft/ft-flusher.cc: toku_bnc_flush_to_child, ftnode_finalize_split, flush_this_child", "ft/node.cc: toku_apply_ancestors_messages_to_node, toku_ftnode_leaf_run_gc", "ft/node.h: oldest_referenced_xid_known", "ft/ule.cc: toku_le_apply_msg", "ft/txn/txn_manager.cc"]}
{"id": "C48", "title": "Cursor scans of a dictionary under transactions see exactly the snapshot", "statement": "A transaction that reads from its snapshot moves a cursor through a dictionary while other transactions write, commit and abort and while the tree flushes, splits, merges, collects garbage and promotes. Scanning with next or prev gives, in key order and each once, exactly the rows whose value to this transaction (its own innermost write, else what was committed when the snapshot was taken) exists, each with that value: no row is missed because it was deleted or rewritten by others during the scan, none is added. A single operation (first, last, next, prev, set, set_range, set_range_reverse, current) gives visible rows only and passes over none; one that finds nothing has nothing to find. No assertion fails.", "quantifier": "every history of clients, of the tree and of searches, before and during the scan; every key order, callback, range restriction, shape of the tree and nesting of transactions", "why_tests_cant": "a scan is many searches, each of which may bring other leaves up to date and apply messages sent after the snapshot; whether each leaf entry still holds the reader's version depends on when and with which bounds it was collected", "anchors": ["ft/cursor.cc: toku_ft_cursor_next, toku_ft_cursor_prev, toku_ft_cursor_set_range", "ft/ft-ops.cc: toku_ft_search, ft_search_node, ft_search_basement_node", "ft/ule.cc: le_val_is_del, le_extract_val, le_iterate_val", "ft/node.cc: toku_apply_ancestors_messages_to_node", "ft/txn/txn.cc: toku_txn_reads_txnid"]}
{"id": "C49", "title": "Writes to several dictionaries: all of them change as the callback says, recovery agrees, and what changed was locked", "statement": "When DB_ENV->put_multiple, del_multiple or update_multiple returns 0, every dictionary of the call has the rows that the row callback makes of the new source row in place of the rows it makes of the old source row, every other row of every dictionary is as before, and replaying the log records of the call over the state before it gives the same rows. When update_multiple or del_multiple returns an error nothing has changed and nothing is logged. Every row that changed belongs to a dictionary of the call and the transaction holds a write lock on its key, unless the caller passed DB_PRELOCKED_WRITE.", "quantifier": "for all comparators, callbacks, numbers of dictionaries and of rows the callback makes per dictionary, flags, states, and lock outcomes", "why_tests_cant": "the loop that merges old and new keys compacts two arrays in place with indices that depend on how the two key sets interleave, and the log names only source rows, so live and recovered states agree only if the loop's choice of deletes, puts and skips fits what recovery regenerates; the interleavings and callbacks are unbounded", "anchors": ["src/ydb_write.cc: env_put_multiple_internal, env_del_multiple, env_update_multiple, do_put_multiple, do_del_multiple, log_del_multiple, log_put_multiple", "ft/logger/recover.cc: toku_recover_enq_insert_multiple, toku_recover_enq_delete_multiple"]}
{"id": "C50", "title": "Hot indexing: a row of the new index reads, for every reader, as what that reader sees of the source row", "statement": "When DB_INDEXER->build processes a source row, whatever committed versions and open nested transactions the row has, each row of the new dictionary afterwards gives every reader the value that the row callback makes of what the same reader sees in the source row (and no row where the callback makes none): for snapshot readers old and new, for readers of the newest committed value, for uncommitted reads and for the transactions that have the row open; this stays so when any of the open nested transactions aborts. No assert fails and no transaction stays pinned.", "quantifier": "for all source rows (any number of committed versions, any nesting depth, any states of the nested transactions), callbacks, comparators, hot keys and readers", "why_tests_cant": "the builder replays the whole version history with undo and do messages whose ids depend on which nested transactions are live, committing, retired or aborting; the combinations of histories, states and readers are unbounded and most arise only from races with commits", "anchors": ["src/indexer-undo-do.cc: indexer_undo_do_committed, indexer_undo_do_provisional, indexer_find_prev_xr, release_txns", "src/indexer.cc: build_index, indexer_fill_prov_info", "ft/txn/txn.cc: toku_txn_unpin_live_txn"]}
{"id": "C51", "title": "Building an index while others write: no row is missed, none is stale", "statement": "While DB_INDEXER->build runs, any number of threads may call put_multiple, del_multiple and update_multiple with the indexer's source. Whenever no call is running and the indexer is between two rows, each new dictionary holds exactly the rows the callback makes of the source rows at or behind the cursor; when the build has ended it holds exactly the rows of all source rows, and stays so under further calls until the indexer is closed. The cursor only moves one way, and each of its moves leaves fewer source rows before it.", "quantifier": "for all source dictionaries, callbacks whose index keys tell the source key, comparators, numbers of new dictionaries and threads, calls, orders of db_array, and interleavings of single row writes", "why_tests_cant": "whether a writer or the indexer is responsible for a row is decided by a position that moves meanwhile, with a shortcut that reads a stale estimate without the lock; only particular interleavings of several threads lose or duplicate a row", "anchors": ["src/indexer.cc: build_index, toku_indexer_should_insert_key, toku_indexer_may_insert, toku_indexer_update_estimate", "ft/le-cursor.cc: toku_le_cursor_next, toku_le_cursor_is_key_greater_or_equal, toku_le_cursor_update_estimate", "src/ydb_write.cc: do_put_multiple, do_del_multiple, env_update_multiple, get_indexer_if_exists"]}
{"id": "C52", "title": "The fair reader/writer lock: exclusive, first come first served, no lost wake-up", "statement": "While a thread has the write lock of a frwlock no other thread has it in any way. Threads are served in the order they come, all sleeping readers together in the place of the first of them; nobody gets the lock past a thread that sleeps. When holders give the lock back and nobody new comes, every sleeping thread gets the lock and leaves, within three steps a thread. users, blocked_users, readers and writers are the numbers of threads in those states; a read said to be cheap waits for no expensive writer. No invariant of the lock fails.", "quantifier": "for all numbers of threads, all sequences of lock, try-lock, unlock and wake-up steps, and all reachable states", "why_tests_cant": "a lost wake-up or an overtaking needs a particular order of arrivals, signals and resumptions of several threads; no test runs all of them", "anchors": ["util/frwlock.cc: write_lock, try_write_lock, read_lock, try_read_lock, read_unlock, write_unlock, maybe_signal_next_writer, maybe_signal_or_broadcast_next, enq_item, deq_item, read_lock_is_expensive, write_lock_is_expensive, users, blocked_users", "util/frwlock.h"]}
{"id": "C53", "title": "Bulk load: exactly the rows put, sorted, each key once, whatever the memory", "statement": "When a DB_LOADER load of a dictionary succeeds up to the writer, the rows handed to the writer are exactly the rows the row callback made of all puts, in key order, no key twice. A load of rows with different keys succeeds; one with a key twice, or whose callback failed, does not. The memory given to the loader, the sizes and number of its temporary runs, its merge limits and the order of the puts do not show in the result. A load with a key twice answers DB_KEYEXIST.", "quantifier": "for all sequences of puts, callbacks, comparators, ways to cut the rows into rowsets, split thresholds and merge limits", "why_tests_cant": "sorting in pieces, appending a run to the one before it, merging in passes and the heap each have boundary cases that depend on the sizes and the relative order of all rows; tests see a few", "anchors": ["ft/loader/loader.cc: process_primary_rows_internal, sort_and_write_rows, mergesort_row_array, merge_row_arrays, merge_row_arrays_base, binary_search, toku_merge_some_files_using_dbufio, merge_some_files, merge_files", "ft/loader/pqueue.cc: pqueue_insert, pqueue_pop, pqueue_bubble_up, pqueue_percolate_down, pqueue_maxchild, pqueue_compare"]}
{"id": "C54", "title": "Bulk load: the tree written is whole, balanced and readable by its pivots", "statement": "From any rows the writer of the loader makes one tree that holds them in their order; no invariant fails; all leaves are at one depth; each node has 2 to 15 children (8 to 15 below the root), none of them empty, and one pivot less than children. If the rows are in key order, a reader who goes down by the pivots finds each row and nothing else. So after a whole load each row the callback made, and nothing else, is found in the new dictionary.", "quantifier": "for all lists of rows, any rule that says when a leaf is full, all comparators and all keys looked up", "why_tests_cant": "which pivot goes to which level depends on the number of leaves at every level; an error of one shows only for particular counts", "anchors": ["ft/loader/loader.cc: toku_loader_write_ft_from_q, write_nonleaves, setup_nonleaf_block, write_nonleaf_node, read_some_pivots", "ft/node.cc: toku_ftnode_which_child"]}
{"id": "C55", "title": "The bounded queue: first in first out, bounded, no lost wake-up", "statement": "What toku_queue_deq hands out, followed by what is in the queue, is what toku_queue_enq put in, in order; EOF is answered only after toku_queue_eof and when everything was handed out. With one producer and one consumer: whoever sleeps has reason to (the contents are over the limit; the queue is empty and the end was not announced), they never both sleep, and the one awake can go on; the contents never weigh more than the limit and the last item. The queue works with any number of producers and one consumer.", "quantifier": "for all sequences of calls, weights, limits, orders in which threads get the mutex, choices of the thread a signal wakes, and wake-ups without signal", "why_tests_cant": "one condition variable serves both sides and wakes one thread; whether the right one is woken depends on who sleeps at that moment", "anchors": ["util/queue.cc: toku_queue_create, toku_queue_enq, toku_queue_eof, toku_queue_deq", "util/queue.h"]}
{"id": "C56", "title": "Hot optimize pushes every pending message of the range to the leaves", "statement": "When hot_optimize returns 0, no message that was in the dictionary when it began waits in a buffer for a key of the range (all keys, when left and right are NULL), whatever other threads did meanwhile between its descents; it loses and doubles no message; every descent gets further to the right, so on a tree left alone it ends after at most one descent more than there are pivots. After success over the whole dictionary the MSN recorded in the header is one up to which everything is in the leaves; failure leaves it alone.", "quantifier": "for all key orders, trees of any height and fan-out, contents of buffers, ranges, answers of the progress callback, and changes by others between descents", "why_tests_cant": "whether a message is left behind depends on where its key lies relative to the pivots of every level at the time of each descent", "anchors": ["ft/ft-hot-flusher.cc: toku_ft_hot_optimize, hot_just_pick_child, hot_update_flusher_keys, hot_set_highest_key", "ft/ft-flusher.cc: toku_ft_flush_some_child, toku_bnc_flush_to_child", "ft/node.cc: toku_ftnode_hot_next_child", "ft/ft-flusher.h: toku_ft_hot_optimize", "ft/ft.cc: toku_ft_note_hot_complete"]}
{"id": "C57", "title": "The count of hot optimizes in progress", "statement": "count_of_optimize_in_progress is the number of hot optimizes running on the dictionary; after a crash with some running it is put right by the next success that leaves none running, and is right from then on.", "quantifier": "for all sequences of begins, successes and failures, any number at the same time, and any number running at the crash", "why_tests_cant": "needs a crash in the middle of one and then several that overlap", "anchors": ["ft/ft.cc: toku_ft_note_hot_begin, toku_ft_note_hot_complete", "ft/ft-internal.h: count_of_optimize_in_progress_read_from_disk", "ft/serialize/ft-serialize.cc: deserialize_ft_versioned"]}
{"id": "C58", "title": "The readers/writers lock under an outer mutex: exclusion, no lost wake-up, priority of writers", "statement": "Readers and writers exclude each other, writers one another, and the counters the code tests are the numbers of threads that have or want the lock. When nobody has the lock and somebody wants it, a thread is awake that takes it: a writer if one waits, else every waiting reader. A reader is let in only when no writer waits. Whoever waits for the users to go is awake once they are gone. No invariant of the code fails unless the lock is asked for while somebody waits for its users to go. Nobody starves.", "quantifier": "for any number of threads, all interleavings of calls, all choices of the thread a signal wakes, and wake-ups without signal", "why_tests_cant": "a lost wake-up needs a particular order of a release, a fresh request and the awakening of the one signalled", "anchors": ["util/rwlock.h: rwlock_read_lock, rwlock_read_unlock, rwlock_write_lock, rwlock_write_unlock, rwlock_wait_for_users, rwlock_users", "util/nb_mutex.h"]}
{"id": "C59", "title": "A partitioned counter reads as the sum of its increments", "statement": "However counters are made and destroyed, their keys reused, threads begin to increment them and end: no dangling pointer is followed, no assert fails, and a counter reads as the sum of all increments made to it since it was made, and of no other. What is read while others increment is at least the value when reading began and at most the value when it ended.", "quantifier": "for all sequences of creating, destroying, incrementing by any thread and ends of threads, any number of counters and threads; for all interleavings of one reading with increments", "why_tests_cant": "the parts of threads that ended, keys used again and counters destroyed while threads still have a part of them meet in unboundedly many orders", "anchors": ["util/partitioned_counter.cc: create_partitioned_counter, destroy_partitioned_counter, increment_partitioned_counter, read_partitioned_counter, get_or_alloc_thread_local_counter, destroy_thread_local_part_of_partitioned_counters, allocate_counter, free_counter"]}
{"id": "C60", "title": "The worker pool does every job once, in order, and shuts down", "statement": "Jobs given to a kibbutz are begun in the order in which they were enqueued, each by exactly one worker, exactly once. While a job is queued a worker is on its way to it or none sleeps. Shutting down does all the jobs first, never gets stuck and ends: when the workers have been joined every job enqueued is finished.", "quantifier": "for any number of workers and jobs, all interleavings, all choices of the worker a signal wakes, and wake-ups without signal", "why_tests_cant": "a lost wake-up needs a particular order of enqueueing, falling asleep and signals passed from worker to worker", "anchors": ["util/kibbutz.cc: toku_kibbutz_create, work_on_kibbutz, toku_kibbutz_enq, toku_kibbutz_destroy"]}
{"id": "C61", "title": "Periodic calls: when they happen, changing the period, shutting down", "statement": "The function of a minicron is called when the period has passed since the previous call, not earlier; a new period counts at once; whatever period is set, the thread does not abort; shutdown is not lost, no call is begun after it and the thread ends after the call or the sleep of at most a second it is in.", "quantifier": "for all periods in milliseconds, all times of day, all lengths of the calls, and all interleavings with changes of the period and shutdown", "why_tests_cant": "whether the sum of nanoseconds overflows depends on the fraction of the second at which the call began", "anchors": ["util/minicron.cc: minicron_do, toku_minicron_setup, toku_minicron_change_period, toku_minicron_shutdown, timespec_compare", "util/minicron.h", "src/ydb.cc: env_change_fsync_log_period"]}
{"id": "C62", "title": "Sub-blocks: sizes, finding a byte, and the round trip through compression", "statement": "A rollback log node is cut into at most max_sub_blocks sub-blocks, none empty, which together are the node; if there are several, all but the last have the target size. The sub-block found for an offset contains it. Compressed by any number of threads in any order, squeezed together and decompressed, the bytes are what they were.", "quantifier": "for all sizes and limits, all contents, all orders in which the workers take the blocks, all compressors that keep to their bound and can be undone", "why_tests_cant": "moving the compressed blocks together in one buffer must not overwrite one not yet moved, for every combination of sizes", "anchors": ["ft/serialize/sub_block.cc: choose_sub_block_size, set_all_sub_block_sizes, get_sub_block_index, compress_all_sub_blocks, decompress_all_sub_blocks", "ft/serialize/ft_node-serialize.cc: toku_serialize_rollback_log_to_memory_uncompressed"]}
{"id": "C63", "title": "Threads that share a set of work: all of it done once, and nobody touches it after", "statement": "When workset_join returns every piece of work has been done exactly once and no worker touches the set any more, although the references of the workers are added only after they have been started and may have finished. The caller is never left asleep.", "quantifier": "for any number of pieces of work and workers, all interleavings, wake-ups without signal", "why_tests_cant": "a worker that finishes before its reference is added makes the count 0 or negative for a moment; needs a particular order", "anchors": ["ft/serialize/workset.h: workset_get, workset_add_ref, workset_release_ref, workset_join", "ft/serialize/sub_block.cc: compress_all_sub_blocks, compress_worker, decompress_worker"]}
{"id": "C64", "title": "Thread pool: no thread handed out twice, every job done once, no call left asleep", "statement": "A thread is held by at most one caller and never while it is free or has a job. Every job given to a thread is done exactly once or is still with a thread that is not asleep. While a thread is free and a call sleeps, another call is awake or a new thread is about to begin and signal. When all calls are made without dowait, one sleeps only while a new thread is about to begin.", "quantifier": "for any maximum, number of calls and jobs, all interleavings, failures to create a thread, wake-ups without signal", "why_tests_cant": "a job given before its thread first looks, or a thread taken by another call between signal and wake-up, needs a particular order", "anchors": ["util/threadpool.cc: toku_thread_pool_get_one, toku_thread_pool_add, toku_thread_run, toku_thread_run_internal"]}
{"id": "C65", "title": "Waiting for background jobs: it returns when all are gone, and none comes after", "statement": "num_jobs is the number of jobs added and not removed, and its assertion in bjm_remove_background_job never fails. When bjm_wait_for_jobs_to_finish returns no job is in, and until the next bjm_reset every new one is refused. A wait sleeps only while a job is in. The last two hold if bjm_reset is not called while a wait is under way, and are false otherwise.", "quantifier": "for any number of jobs, waits and resets, all interleavings, wake-ups without signal", "why_tests_cant": "closing a cachefile under running background evictions, or a job that comes between a wake-up and the lock, needs a particular order", "anchors": ["ft/cachetable/background_job_manager.cc: bjm_add_background_job, bjm_remove_background_job, bjm_wait_for_jobs_to_finish, bjm_reset", "ft/cachetable/cachetable.cc: toku_cachefile_close, checkpointer::begin_checkpoint, checkpointer::end_checkpoint"]}
{"id": "C66", "title": "Memory arenas: pieces never overlap, and live as long as the arena they belong to", "statement": "Two pieces of memory given out by memarenas never overlap. A piece lies within a chunk of the arena it belongs to, also after move_memory, and the chunk is not freed before that arena is destroyed. No chunk is freed twice. Requests of at least one byte are always met; a request of 0 bytes to an arena without memory makes the next one abort.", "quantifier": "for any number of arenas, all sequences of create, malloc_from_arena, move_memory and destroy, all sizes", "why_tests_cant": "overlap and double frees depend on how sizes, chunk ends and moves combine", "anchors": ["util/memarena.cc: malloc_from_arena, move_memory, destroy, round_to_page"]}
