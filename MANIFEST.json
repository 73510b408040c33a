{
 "claims": [
  {
   "property": "C01",
   "status": "partial",
   "theorems": [
    "C01_scan_newest_visible_partial",
    "C01_newer_pages",
    "C01_scan_newest_visible_refuted"
   ],
   "note": "Proved for every run and read timestamp except where an immutable segment holds a visible tombstone but only rows newer than the read timestamp: the code skips that segment, so the full statement is refuted by a concrete run."
  },
  {
   "property": "C02",
   "status": "partial",
   "theorems": [
    "C02_latest_read_partial",
    "C02_latest_read_refuted"
   ],
   "note": "Proved for every run without null keys in ingest, without one key both written and deleted by one ingest_with_tombstones, and with compaction inputs whose rows and deletes each fit one reader batch. Refuted beyond: compacting a file with 1025 rows and a delete loses a row."
  },
  {
   "property": "C03",
   "status": "partial",
   "theorems": [
    "C03_seal_keeps_reads_partial",
    "C03_seal_keeps_reads_refuted"
   ],
   "note": "Same restriction on read timestamps as C01; refuted for older snapshots."
  },
  {
   "property": "C04",
   "status": "partial",
   "theorems": [
    "C04_flush_keeps_reads_partial",
    "C04_flush_keeps_reads_refuted"
   ],
   "note": "Same restriction on read timestamps as C01; refuted for older snapshots (the flush repairs a wrong read)."
  },
  {
   "property": "C05",
   "status": "partial",
   "theorems": [
    "C05_compaction_keeps_reads_partial",
    "C05_compaction_keeps_reads_refuted"
   ],
   "note": "Proved for every task and every read timestamp not below the newest merged version, when files holding both rows and deletes come in one reader batch each; refuted otherwise (batches of 1024 rows)."
  },
  {
   "property": "C06",
   "status": "partial",
   "theorems": [
    "C06_memtable_partial",
    "C06_sst_reader",
    "C06_seal_refuted",
    "C06_compaction_refuted"
   ],
   "note": "Memtable (and everything after it): proved when the memtable has free slots for the call. SST reader: proved for every sorted file. Refuted when the slots run out between the upserts and the deletes of the call (the row reappears after a seal), and in compaction (the entry with the larger index in its batch wins)."
  },
  {
   "property": "C07",
   "status": "proved",
   "theorems": [
    "C07_limit_is_prefix",
    "C07_batches"
   ],
   "note": "For every state, predicate, transaction overlay, snapshot and limit; and the batches the stream hands out."
  },
  {
   "property": "C08",
   "status": "partial",
   "theorems": [
    "C08_predicate_scan_partial",
    "C08_stale_version_refuted",
    "C08_narrow_key_lost_refuted",
    "C08_narrow_key_extra_refuted",
    "C08_null_literal_refuted",
    "C08_false_composite_key_refuted",
    "C08_large_string_refuted"
   ],
   "note": "Proved for predicates on key columns, and for any predicate while all data is in memory, with literals the key column is stored like. Refuted: a filter on a non-key column resurrects an overwritten version; 32-bit key columns lose or gain rows; NULL literals and False on composite keys return every memtable row; large string literals match nothing."
  },
  {
   "property": "C09",
   "status": "partial",
   "theorems": [
    "C09_key_bounds_partial",
    "C09_key_bounds_refuted"
   ],
   "note": "Proved for literals stored like the key column (64-bit integers, doubles other than zeros and NaN, strings, booleans). Refuted for 32-bit integer key columns: the bound is a 64-bit key, which is in another order class than the 32-bit key."
  },
  {
   "property": "C10",
   "status": "proved",
   "theorems": [
    "C10_prefix_interval",
    "C10_upper_bound_is_utf8"
   ],
   "note": "All scalar-value strings, compared by their UTF-8 bytes."
  },
  {
   "property": "C11",
   "status": "proved",
   "theorems": [
    "C11_int_float_exact",
    "C11_ints_exact",
    "C11_float_widths_exact"
   ],
   "note": "All integer types and both float widths, as exact rationals."
  },
  {
   "property": "C12",
   "status": "proved",
   "theorems": [
    "C12_row_filter_split",
    "C12_memtable_split",
    "C12_residual_evaluator",
    "C12_float_order_refuted"
   ],
   "note": "Both splits with no precondition; the evaluator for rows and literals that fit the schema, floats being neither NaN nor -0.0 (the evaluator orders floats of one type totally: C12_float_order_refuted)."
  },
  {
   "property": "C13",
   "status": "partial",
   "theorems": [
    "C13_total_order_partial",
    "C13_hash_partial",
    "C13_nan_refuted",
    "C13_negative_zero_refuted",
    "C13_union_refuted",
    "C13_union_hash"
   ],
   "note": "Total order for keys without NaN; equal hashes for keys without negative zero. Refuted for NaN (equal to everything in the order, equal to nothing by equality) for the two zeros (equal, different hashes), and for union columns, which are accepted as keys (all values equal in the order, none equal to itself)."
  },
  {
   "property": "C14",
   "status": "partial",
   "theorems": [
    "C14_frame_partial",
    "C14_payload",
    "C14_oversized_refuted",
    "C14_every_oversized_refuted"
   ],
   "note": "Frames of all types and sequence numbers with payloads below 2^32 bytes, followed by any bytes; payloads of all commands with Arrow IPC as an oracle that inverts its own output. Refuted for payloads of 2^32 bytes or more: the length is truncated and the frame is never read back."
  },
  {
   "property": "C15",
   "status": "proved",
   "theorems": [
    "C15_frames",
    "C15_cut",
    "C15_log",
    "C15_repair"
   ],
   "note": "Every segment, every cut; the whole directory scan with a floor; the repair done when the log is opened for writing."
  },
  {
   "property": "C16",
   "status": "partial",
   "theorems": [
    "C16_transactions",
    "C16_exactly",
    "C16_one_timestamp",
    "C16_reused_partial",
    "C16_unfinished_refuted",
    "C16_crash_partial"
   ],
   "note": "Every interleaving of records of any number of transactions, from the bytes on disk after a cut anywhere; identifiers may be used again once their transaction has finished. Refuted otherwise: a transaction with the identifier of an unfinished one commits the mutations of both (C44 shows a history that leads there)."
  },
  {
   "property": "C17",
   "status": "partial",
   "theorems": [
    "C17_recovery_partial",
    "C17_write_acknowledged",
    "C17_null_key_refuted",
    "C17_full_memtable_refuted",
    "C17_replay_seal_refuted",
    "C17_clock_refuted"
   ],
   "note": "Every run of writes, flushes, compactions, rotations and restarts with calls interrupted at any record, one call at a time, without retention budget and with the default state store, when the memtable has a free slot for each write, no restart seals while replaying, and restarts continue frame numbers and identifiers. Each of these hypotheses is needed: four refutations. The repair of a torn last segment is one step here (C61 and C75 have its steps)."
  },
  {
   "property": "C18",
   "status": "partial",
   "theorems": [
    "C18_over_replay_partial"
   ],
   "note": "Every run as in C17 and every selection of log records that has the unflushed ones; every timestamp at or above the compaction horizon whose sealed segments are safe for it (C20). Partial because runs are those of C17."
  },
  {
   "property": "C19",
   "status": "partial",
   "theorems": [
    "C19_timestamps_partial",
    "C19_timestamps_refuted"
   ],
   "note": "Runs as in C17. Refuted: after a restart with nothing to replay whose state store lags behind the tables the clock goes back and a timestamp is used twice."
  },
  {
   "property": "C20",
   "status": "partial",
   "theorems": [
    "C20_snapshot_stable_partial",
    "C20_snapshot_flush_refuted",
    "C20_snapshot_seal_refuted",
    "C20_first_snapshot_refuted"
   ],
   "note": "Proved for every schedule of whole operations without a flush; refuted with a flush (rows disappear), with a seal (a deleted row comes back) and for the snapshot taken before the first commit."
  },
  {
   "property": "C21",
   "status": "partial",
   "theorems": [
    "C21_txn_scan_overlay_fresh",
    "C21_txn_scan_overlay_partial",
    "C21_txn_scan_overlay_refuted"
   ],
   "note": "Proved for every run, every staged call sequence and every transaction scanned in the state it began in; for older snapshots with the restriction of C01. Refuted when a flush happens after the transaction began."
  },
  {
   "property": "C22",
   "status": "partial",
   "theorems": [
    "C22_get_is_scan_partial",
    "C22_get_misses_flushed_refuted",
    "C22_get_returns_deleted_refuted",
    "C22_get_returns_old_row_refuted"
   ],
   "note": "Proved for keys with no version in an SST and versions in at most one of memtable and immutable segments; refuted in each of the other cases."
  },
  {
   "property": "C23",
   "status": "partial",
   "theorems": [
    "C23_conflicts_detected_partial",
    "C23_conflict_after_flush_refuted",
    "C23_conflict_with_first_commit_refuted"
   ],
   "note": "Exact (if and only if) for every sequence of whole operations without a flush after the snapshot; refuted with a flush, and for a snapshot taken before the first commit."
  },
  {
   "property": "C24",
   "status": "partial",
   "theorems": [
    "C24_reads_see_whole_commits_partial"
   ],
   "note": "Proved for whole operations (each commit runs to completion); same read-timestamp restriction as C01. Interleaved calls are the subject of C52: a snapshot taken while a commit is in flight can see half of it (C52_half_applied_refuted); C52_snapshot_stable_partial says when it cannot."
  },
  {
   "property": "C25",
   "status": "proved",
   "theorems": [
    "C25_publish",
    "C25_immutable",
    "C25_only_publish",
    "C25_listing"
   ],
   "note": "Every interleaving of calls, crashes and failed commits, fewer than 2^64-1 events. Trusted: the session contract of the fusio-manifest crate (Model/Sessions.v)."
  },
  {
   "property": "C26",
   "status": "proved",
   "theorems": [
    "C26_expected_head",
    "C26_one_winner",
    "C26_failed_changes_nothing",
    "C26_undisturbed_succeeds"
   ],
   "note": "Every interleaving of calls, crashes and failed commits, fewer than 2^64-1 events. Trusted: the session contract of the fusio-manifest crate (Model/Sessions.v)."
  },
  {
   "property": "C27",
   "status": "proved",
   "theorems": [
    "C27_live_ssts",
    "C27_missing_level_rejected",
    "C27_only_missing_level_rejected",
    "C27_log_references"
   ],
   "note": "For every sequence of edit batches, accepted or rejected."
  },
  {
   "property": "C28",
   "status": "partial",
   "theorems": [
    "C28_unflushed_replayed_partial",
    "C28_unflushed_replayed_refuted"
   ],
   "note": "Runs as in C17, every crash point of pruning. Refuted when the memtable has no free slot for a write."
  },
  {
   "property": "C29",
   "status": "partial",
   "theorems": [
    "C29_budget_refuted",
    "C29_restart_loses_refuted"
   ],
   "note": "Refuted: a budget removes segments whose records are in no table."
  },
  {
   "property": "C30",
   "status": "partial",
   "theorems": [
    "C30_pins_version_partial",
    "C30_manifest_choice_partial",
    "C30_reads_version_partial",
    "C30_fewer_rows_refuted",
    "C30_later_row_refuted",
    "C30_commit_version_refuted"
   ],
   "note": "Refuted: version timestamps count published versions while commit timestamps count commits, so a snapshot at a listed timestamp can miss rows of the version, show later rows, or show nothing. Proved: the snapshot pins the tables of that version, and reads its data when memory was empty at its creation and the two counters agree."
  },
  {
   "property": "C31",
   "status": "partial",
   "theorems": [
    "C31_planner_partial",
    "C31_task_size_refuted"
   ],
   "note": "Proved for every layout and configuration, with the count bound on the files taken from the level over its limit; the whole task can exceed the configured number of inputs and bytes (refuted)."
  },
  {
   "property": "C32",
   "status": "partial",
   "theorems": [
    "C32_outputs",
    "C32_laid_out",
    "C32_compaction_outputs_partial",
    "C32_content_refuted"
   ],
   "note": "Order, disjointness, the row limit and that nothing is added: proved for every database in key order, configuration and batching of the reader (C32_outputs), and such are all reachable databases (C32_laid_out). That the outputs hold exactly the newest version of every input key is refuted for a file with rows and deletes read in batches of 1024 (C32_content_refuted) and proved otherwise (C32_compaction_outputs_partial)."
  },
  {
   "property": "C33",
   "status": "proved",
   "theorems": [
    "C33_new_identifier",
    "C33_after_restart",
    "C33_never_back",
    "C33_ids_unique_in_a_run"
   ],
   "note": "For every schedule of flushes, compactions, failing calls (also ones that fail after taking effect), stopped workers and restarts. C33_ids_across_restarts_partial adds that an identifier names one table's contents for ever in runs of the logged database that meet yops_ok."
  },
  {
   "property": "C34",
   "status": "partial",
   "theorems": [
    "C34_thresholds",
    "C34_configurations",
    "C34_more_files_partial",
    "C34_statistics",
    "C34_wait",
    "C34_more_files_refuted"
   ],
   "note": "Decision characterised exactly for every configuration and statistic; configuration invariants for every sequence of builder calls; the wait loop. Monotonicity holds when every L0 file has size statistics and is refuted otherwise: one file without statistics switches the byte limits off."
  },
  {
   "property": "C35",
   "status": "proved",
   "theorems": [
    "C35_backoff",
    "C35_backoff_default",
    "C35_exact"
   ],
   "note": "All configurations whose durations fit the Duration type, all attempts."
  },
  {
   "property": "C36",
   "status": "partial",
   "theorems": [
    "C36_ingest_with_tombstones_partial",
    "C36_ingest_with_tombstones_refuted"
   ],
   "note": "Proved for batches in which no key is both written and deleted; refuted otherwise: a key deleted and then written stays deleted."
  },
  {
   "property": "C37",
   "status": "partial",
   "theorems": [
    "C37_rejected_ingest_partial",
    "C37_rejected_upsert_partial",
    "C37_rejected_ingest_refuted",
    "C37_rejected_delete_refuted"
   ],
   "note": "Proved while the memtable has a free batch slot. Refuted without one (the segment sealed to make room is dropped), and for a null key among the deletes of ingest_with_tombstones (the upserts stay)."
  },
  {
   "property": "C38",
   "status": "proved",
   "theorems": [
    "C38_range_scan"
   ],
   "note": "For the memtable and every immutable segment of every run, every read timestamp and pair of bounds."
  },
  {
   "property": "C39",
   "status": "partial",
   "theorems": [
    "C39_pruning_sound_partial",
    "C39_pruning_sound_refuted"
   ],
   "note": "Proved unless a segment holds a visible tombstone but only rows newer than the read timestamp; refuted there."
  },
  {
   "property": "C40",
   "status": "proved",
   "theorems": [
    "C40_existing_name",
    "C40_success",
    "C40_unique",
    "C40_kept",
    "C40_new_name"
   ],
   "note": "Every interleaving of registrations; the identifiers drawn for new tables (random ULIDs) are assumed distinct. Trusted: the session contract of the fusio-manifest crate."
  },
  {
   "property": "C41",
   "status": "proved",
   "theorems": [
    "C41_intersection_exact",
    "C41_union_contains_both",
    "C41_union_is_envelope",
    "C41_range_of_two_bounds",
    "C41_overlaps",
    "C41_emptiness",
    "C41_range_for_scan"
   ],
   "note": "For every key type with a total order and all ranges."
  },
  {
   "property": "C42",
   "status": "proved",
   "theorems": [
    "C42_set_operations",
    "C42_iteration",
    "C42_construction",
    "C42_full_and_empty",
    "C42_rows_read",
    "C42_ranges"
   ],
   "note": "All row sets: union, intersection, iteration, the constructors, the tests for a full and an empty set and the selection handed to the reader of a file, against plain sets of row numbers."
  },
  {
   "property": "C43",
   "status": "proved",
   "theorems": [
    "C43_frames"
   ],
   "note": "Every command sequence on a new log, every segment size, with or without retention budget (which removes a prefix)."
  },
  {
   "property": "C44",
   "status": "partial",
   "theorems": [
    "C44_identifiers_partial",
    "C44_identifiers_refuted",
    "C44_uncommitted_row_refuted"
   ],
   "note": "Runs as in C17 when the last frame of the active segment carries an identifier. Refuted otherwise (crash after a rotation): the identifier is reused and the rows of the unfinished transaction become readable."
  },
  {
   "property": "C45",
   "status": "partial",
   "theorems": [
    "C45_round_trip",
    "C45_reserved_refuted"
   ],
   "note": "Every batch without columns of the two reserved names; a table with a column of such a name cannot write to the log (refuted)."
  },
  {
   "property": "C46",
   "status": "partial",
   "theorems": [
    "C46_policy_exact",
    "C46_ingest_partial",
    "C46_statistics",
    "C46_counters",
    "C46_counters_memtable",
    "C46_rows_refuted",
    "C46_age_refuted",
    "C46_commit_refuted",
    "C46_reason",
    "C46_default_policy",
    "C46_documented_limit_refuted"
   ],
   "note": "Policies trigger exactly at their limits and an ingest seals exactly then; the counters kept while writing give the statistics of the contents after any calls; the reason of a seal is true; the default policy is characterised. Refuted in four respects: the row count shown to policies is always absent, the age is absent until the first seal, transaction commits never evaluate the policy, and the default policy seals at 64 MiB where its documentation says 8 MiB."
  },
  {
   "property": "C47",
   "status": "partial",
   "theorems": [
    "C47_valid_ingest_accepted_partial",
    "C47_valid_ingest_accepted_refuted"
   ],
   "note": "Proved when the memtable has an entry or a free slot; refuted: after 1024 batches without rows every later write fails."
  },
  {
   "property": "C48",
   "status": "partial",
   "theorems": [
    "C48_numbers_partial",
    "C48_orderly_partial",
    "C48_numbers_refuted",
    "C48_stale_state_refuted",
    "C48_numbers_no_state_refuted"
   ],
   "note": "Unique and increasing over any life of a log in which, at every restart, the newest file has frames or the saved state names the last one; in particular with a state store if no command is interrupted. Refuted otherwise: crash right after a rotation; crash after a frame was written, then a rotation before the next write; no state store."
  },
  {
   "property": "C49",
   "status": "proved",
   "theorems": [
    "C49_floor"
   ],
   "note": "Every interleaving of calls, fewer than 2^64-1 events. Trusted: the session contract of the fusio-manifest crate."
  },
  {
   "property": "C50",
   "status": "proved",
   "theorems": [
    "C50_no_deadlock",
    "C50_bounded",
    "C50_all_can_return"
   ],
   "note": "Every state, reachable or not. Key locks are taken in key order by the staged map; the database's own locks are held for one step only. Calls and flushes may be given up while they wait."
  },
  {
   "property": "C51",
   "status": "partial",
   "theorems": [
    "C51_no_lost_update_partial",
    "C51_begin_in_window_refuted",
    "C51_empty_database_refuted",
    "C51_flushed_refuted",
    "C51_sealed_refuted",
    "C51_ingest_refuted"
   ],
   "note": "Refuted: a transaction that begins between another's timestamp and its insert, two transactions begun on an empty database, a flush or a seal before the check, and any ingest between check and commit. Proved for transactions when none of these happens: no flush, no check while a sealed segment is in flight, no begin while a write is in flight or before the first commit."
  },
  {
   "property": "C52",
   "status": "partial",
   "theorems": [
    "C52_snapshot_stable_partial",
    "C52_snapshot_changes_refuted",
    "C52_half_applied_refuted",
    "C52_acknowledged_row_missing_refuted"
   ],
   "note": "Refuted: timestamps are handed out before the rows are inserted, a transaction's upserts are inserted before its deletes, and a sealed memtable is invisible until it is added to the segments. Proved for a snapshot taken while no write is in flight, after the first commit, read without a flush in between while no segment is in flight, over every later interleaving."
  },
  {
   "property": "C53",
   "status": "proved",
   "theorems": [
    "C53_settled"
   ],
   "note": "Every interleaving of atomic steps, with calls and flushes given up while they wait for a lock, for space, for the log or for the manifest, in which no call fails (a batch too large for an empty memtable), rows with keys, no ingest_with_tombstones call writing and deleting one key (C36), fewer than 2^64 events; scans with any sound predicate and limit."
  },
  {
   "property": "C54",
   "status": "partial",
   "theorems": [
    "C54_plan_then_read_partial",
    "C54_sealed_between_refuted",
    "C54_flushed_between_refuted"
   ],
   "note": "Refuted: the plan records segment positions and whether the memtable has rows; a seal or a flush between planning and reading loses all rows. Proved when no seal or flush falls between, writers running."
  },
  {
   "property": "C55",
   "status": "proved",
   "theorems": [
    "C55_real_time",
    "C55_distinct"
   ],
   "note": "Every interleaving, fewer than 2^64 events, no failed call."
  },
  {
   "property": "C56",
   "status": "partial",
   "theorems": [
    "C56_apart_partial",
    "C56_in_flight_refuted",
    "C56_seal_during_flush_refuted",
    "C56_range_taken_refuted",
    "C56_two_commits_refuted"
   ],
   "note": "Refuted: a flush while another write is in the log but not recorded; a seal between the capture of the segments and the read of the live floor; a write between the two steps of a seal; two overlapping commits. In each the floor passes the frames of an acknowledged write that is in no table. Proved for every schedule in which seals, commits up to the publication of their floor, and flushes up to the enumeration of the log overlap no other step and start with no write half done, and no insert finds the memtable full (C17). Writes are abstract (number and frames); one process life; no compaction."
  },
  {
   "property": "C57",
   "status": "partial",
   "theorems": [
    "C57_files_kept_partial",
    "C57_lost_ack_refuted"
   ],
   "note": "Refuted: when the manifest accepts a compaction's commit but the call reports an error other than a conflict, the job removes its outputs, which the current version now refers to. Proved for every schedule without such a lost acknowledgement: any number of flushes and compactions, failing and torn writes, failing reads and commits, stopped workers, restarts. Data file and sidecar are one file; inputs are read before the first output is written."
  },
  {
   "property": "C58",
   "status": "proved",
   "theorems": [
    "C58_history",
    "C58_acknowledged",
    "C58_once"
   ],
   "note": "Every schedule without a lost acknowledgement of a compaction's commit (C57). Contents and merge are abstract; the merge of the code is an instance (C57_merge_applies), its effect on reads is C05 and C06."
  },
  {
   "property": "C59",
   "status": "partial",
   "theorems": [
    "C59_plan_safe",
    "C59_no_leftovers_partial",
    "C59_forgotten_refuted",
    "C59_stopped_refuted"
   ],
   "note": "Refuted: recording a plan replaces the previous one, which nothing but tests ever takes, so obsolete files are forgotten; a stopped worker leaves its outputs. Proved: the plan never lists a current file; without failures and stops every file is referred to by some version once all jobs are over."
  },
  {
   "property": "C60",
   "status": "partial",
   "theorems": [
    "C60_same_rows",
    "C60_projected_table_partial",
    "C60_unknown_column",
    "C60_reserved_column_refuted"
   ],
   "note": "Proved in full: same rows as the scan of all columns, for every state, predicate on the table's columns, limit and transaction. Refuted corner: the reserved commit timestamp column, which is not a column of the table, is refused while rows are in memory and read once they are in files. The table-level theorem misses what C08 misses. Column types of a request are those of the table."
  },
  {
   "property": "C61",
   "status": "partial",
   "theorems": [
    "C61_always_partial",
    "C61_always_refuted",
    "C61_repair_refuted",
    "C61_repair_sync_refuted",
    "C61_process_partial",
    "C61_shutdown"
   ],
   "note": "Refuted when an opening stops while it repairs a half written last frame: the last segment is emptied and written again, so answered and synced writes are lost although only processes stop; and the rewritten segment is not synced, so a power loss before the next sync loses writes that were on the disk. Also refuted for the default flush interval with a file handle that buffers (tokio): the sync opens the file by its path and does not flush the handle. Proved when written bytes reach the operating system before the answer (flush interval 0, or an unbuffered handle), for every history with crashes and repairs that end and are followed by a sync before the next power loss; the shutdown part without that condition. Disk behaviour is a contract: what was synced stays; directory entries are durable."
  },
  {
   "property": "C62",
   "status": "partial",
   "theorems": [
    "C62_bytes_partial",
    "C62_bytes_restart_refuted"
   ],
   "note": "Proved: less than n bytes (at least 1) times one plus the number of earlier crashes. Refuted without the factor: the count of bytes not yet synced starts again at 0 after a restart. Condition on flushing as C61; no stops in the middle of a frame."
  },
  {
   "property": "C63",
   "status": "partial",
   "theorems": [
    "C63_time_partial",
    "C63_timer",
    "C63_default_refuted",
    "C63_restart_refuted"
   ],
   "note": "Proved for histories without crashes before the one considered, with the flushing condition of C61. Refuted otherwise: in the default configuration with a buffering handle the timer syncs nothing and is not set again; a restart forgets that a sync is due."
  },
  {
   "property": "C64",
   "status": "proved",
   "theorems": [
    "C64_rest"
   ],
   "note": "Every infinite run of rounds without failing merges and without other writers. Merge outputs are arbitrary. A job takes effect when it publishes."
  },
  {
   "property": "C65",
   "status": "partial",
   "theorems": [
    "C65_awake_partial",
    "C65_asleep_refuted"
   ],
   "note": "Refuted when the queue is longer than the number of jobs run together: an outdated job left at the front of the queue makes a round publish nothing, and the worker then waits although a level is over its limit and a good job is queued; each later trigger gets one compaction done. Proved when the queue is not longer, as by default."
  },
  {
   "property": "C66",
   "status": "partial",
   "theorems": [
    "C66_follow_partial",
    "C66_chain_refuted"
   ],
   "note": "Refuted: after any publication the worker plans again at once, so that with no follow-up allowed files still go through two levels at one instant. Proved for the follow-ups queued by a finished job of level 0, in every life of a worker."
  },
  {
   "property": "C67",
   "status": "partial",
   "theorems": [
    "C67_marked",
    "C67_named",
    "C67_single",
    "C67_undeclared",
    "C67_builder",
    "C67_builder_refuses",
    "C67_round_trip_partial",
    "C67_comma_refuted",
    "C67_marker_refuted"
   ],
   "note": "What is taken as key and what is refused: proved in full for markers, for lists of names without commas, quotes, backslashes and control characters, and for the builder. The round trip is refuted: a name with a comma written by the builder is read back as two columns, and a field marker overrides the key the builder wrote; both without an error. Proved for schemas without markers and plain names."
  },
  {
   "property": "C68",
   "status": "partial",
   "theorems": [
    "C68_text",
    "C68_reopen",
    "C68_key_partial",
    "C68_key_refuted"
   ],
   "note": "Proved: the open succeeds exactly if the schemas are equal up to the order of object members and the key columns have the same names. Refuted corner: with two fields of one name the same definition stands for two different keys. Arrow's JSON of a schema and SHA-256 are outside the model."
  },
  {
   "property": "C69",
   "status": "proved",
   "theorems": [
    "C69_ranges",
    "C69_cache",
    "C69_filters",
    "C69_metadata"
   ],
   "note": "Full. A path names one content while a process runs (files are written once), and a read of a range beyond the end of a file is an error. Decoding a filter and reading the metadata of a file are arbitrary functions of the content."
  },
  {
   "property": "C70",
   "status": "partial",
   "theorems": [
    "C70_records_partial",
    "C70_written",
    "C70_unreadable",
    "C70_infinity_refuted",
    "C70_union_refuted",
    "C70_plan",
    "C70_catalog",
    "C70_catalog_order",
    "C70_old_version",
    "C70_state",
    "C70_state_absent",
    "C70_state_fields"
   ],
   "note": "Refuted twice: a float key that is an infinity or no number is written as null in the bounds of its file, and the version cannot be read again; a union key makes every publication of its file fail. Proved for all other records, under the hypothesis that the JSON reader gives finite floats back exactly (serde_json promises that only with a feature the project does not switch on). The other records are proved in full."
  },
  {
   "property": "C71",
   "status": "partial",
   "theorems": [
    "C71_order",
    "C71_truth",
    "C71_end",
    "C71_running",
    "C71_no_failure",
    "C71_admission",
    "C71_shutdown",
    "C71_stops",
    "C71_depth",
    "C71_error_absent_refuted",
    "C71_isolation_refuted",
    "C71_second_shutdown_refuted"
   ],
   "note": "Order, truth of success, answers at the end, shutdown and termination proved for every schedule. Refuted: a call told of an error may be in the log (another command of its batch failed, or its own sync did); one failing command fails the rest of its batch and ends the log for everybody; a second shutdown call succeeds at once whatever becomes of the requests that wait."
  },
  {
   "property": "C72",
   "status": "partial",
   "theorems": [
    "C72_times",
    "C72_own",
    "C72_reserved_refuted"
   ],
   "note": "Proved for tables without a column called _commit_ts. Refuted otherwise: such a table can be opened, and the user's numbers are read as commit times (with the log on, no write succeeds at all: C45_reserved_refuted). The Parquet file is assumed to give its columns back."
  },
  {
   "property": "C73",
   "status": "partial",
   "theorems": [
    "C73_success",
    "C73_visible",
    "C73_shutdown",
    "C73_whole",
    "C73_no_effect",
    "C73_stable",
    "C73_order",
    "C73_no_failure",
    "C73_ends",
    "C73_given_up_refuted",
    "C73_error_refuted",
    "C73_late_error_refuted",
    "C73_fast_refuted"
   ],
   "note": "Success, wholeness and order proved for every schedule; no effect proved for calls that end before their commit frame is handed over. Refuted: a call given up later, or failing because of another command in its batch, cannot be read but comes up after a restart; a call fails although its write is applied (manifest or minor compaction); a fast commit that succeeded is lost if the log fails afterwards."
  },
  {
   "property": "C74",
   "status": "partial",
   "theorems": [
    "C74_ingest_partial",
    "C74_refused",
    "C74_transaction_partial",
    "C74_reserved_refuted"
   ],
   "note": "Proved for tables without a column called _commit_ts or _tombstone, for every IPC encoding that gives valid batches back. Refuted otherwise: in a table keyed by a number column called _commit_ts a call that only deletes succeeds, and the log it leaves cannot be replayed, so the database does not open. A transaction's batches are assumed as the record builder promises them."
  },
  {
   "property": "C75",
   "status": "partial",
   "theorems": [
    "C75_quiet_partial",
    "C75_lost_refuted",
    "C75_broken_refuted"
   ],
   "note": "Every commit and flush calls the function that repairs the log, on the log being written. Refuted: a call that reads the segment while a frame is half written empties it and writes it again without that frame; the frame, answered meanwhile, is lost, or its second half follows the rewritten bytes and the database cannot be opened. Proved for every schedule in which no call reads the segment at such a moment. One segment; bytes written are seen at once."
  },
  {
   "property": "C76",
   "status": "partial",
   "theorems": [
    "C76_prefix",
    "C76_short",
    "C76_zeros_refuted",
    "C76_payload_refuted",
    "C76_length_refuted"
   ],
   "note": "Proved for every damage of the last segment: recovery fails or returns the events before it, unchanged. Refuted: the documented stop at an unreadable frame is an error (zeros, wrong checksum), for recovery and for opening; a length field that is too large counts as the end of the log, and good frames after it are skipped and removed without an error."
  },
  {
   "property": "C77",
   "status": "partial",
   "theorems": [
    "C77_point_partial",
    "C77_process",
    "C77_order",
    "C77_hole_refuted",
    "C77_open",
    "C77_open_empty",
    "C77_state",
    "C77_closed_refuted",
    "C77_closed_opens_refuted",
    "C77_stuck_refuted"
   ],
   "note": "Proved unless syncs are disabled, and with any policy for stops of the process; opening continues such a log, also with a half frame at its end. Refuted with syncs disabled: a power loss can leave later writes without earlier ones (recovery has no check for the gap), and a closed segment that ends in a half frame is not repaired: the log cannot be opened, or, if the state file lists the segment, it opens and everything written afterwards is never recovered. Disk behaviour as in C61."
  },
  {
   "property": "C78",
   "status": "partial",
   "theorems": [
    "C78_bound_partial",
    "C78_answer",
    "C78_reads",
    "C78_no_race",
    "C78_quiet_partial",
    "C78_ends",
    "C78_sealed_stay",
    "C78_bound_refuted",
    "C78_quiet_refuted"
   ],
   "note": "Refuted: commits seal segments and never run the trigger, so that with transactions alone sealed segments pile up in memory without bound and nothing is ever flushed. Proved for ingests that are not told to stall; that the flush makes no write fail and that reads do not change are proved in full (file operations that fail: C73)."
  },
  {
   "property": "C79",
   "status": "partial",
   "theorems": [
    "C79_name",
    "C79_sorted",
    "C79_only_partial",
    "C79_list",
    "C79_fallback",
    "C79_prune",
    "C79_tables",
    "C79_foreign",
    "C79_state",
    "C79_only_refuted",
    "C79_twice_refuted",
    "C79_gap_refuted"
   ],
   "note": "Refuted corners: a file called wal-+0000000000000000007.tonwal counts as segment 7, beside the real one it is replayed too; in an object store whose listing is behind, only the segment the state file names is checked, an earlier one that is not shown stays unseen. Everything else proved in full."
  },
  {
   "property": "C80",
   "status": "partial",
   "theorems": [
    "C80_log",
    "C80_memory",
    "C80_same",
    "C80_open_partial",
    "C80_flush",
    "C80_compaction",
    "C80_in_force",
    "C80_no_compaction",
    "C80_sizes",
    "C80_sizes_grow",
    "C80_reopen_refuted",
    "C80_strategy_refuted"
   ],
   "note": "Refuted corners: with recovery mode AbsoluteConsistency or SkipCorrupted the first open succeeds and writes are accepted, every later open with the same options fails; a set of compaction options undoes a strategy chosen before it. Everything else proved in full. The table name, acknowledgement mode and metrics are not among the options modelled here."
  },
  {
   "property": "C81",
   "status": "partial",
   "theorems": [
    "C81_catches_up_partial",
    "C81_settles",
    "C81_goes_on",
    "C81_ends",
    "C81_queue_refuted",
    "C81_drop_refuted",
    "C81_failure_refuted"
   ],
   "note": "Proved for every interleaving when the queue is not longer than the number of jobs run together (as by default), no merge fails and no flush is dropped between its publication and its trigger. Refuted otherwise: in each of the three cases the worker waits with level 0 over its limit and nothing on its way to wake it (the next flush or the timer, if one is set, does). Becoming idle after the last flush is proved for every queue length."
  },
  {
   "property": "C82",
   "status": "partial",
   "theorems": [
    "C82_upsert",
    "C82_rows",
    "C82_delete",
    "C82_refused_partial",
    "C82_staged",
    "C82_commits_partial",
    "C82_batch_partial",
    "C82_delete_refuted",
    "C82_half_refuted",
    "C82_batch_refuted"
   ],
   "note": "Refuted: a delete is not checked against the types of the key (5i64 for an Int32 key), and the commit fails with everything else that was staged; upsert_rows and upsert_batch that fail leave the rows before the bad one staged, and a commit writes them; upsert_batch refuses values of column types other than nine (Int16, LargeUtf8, lists, timestamps, ...) that upsert accepts. Everything else proved in full. The row builders of typed-arrow-dyn are an external contract."
  },
  {
   "property": "C83",
   "status": "proved",
   "theorems": [
    "C83_listing",
    "C83_change"
   ],
   "note": "For every run of the manifest. The live tables are those of the edits of the publishes that succeeded, read off their replies (Spec/ListingSpec.v, Spec/LiveSet.v). A table without statistics counts with size 0. What a table reports as its size is up to the writers and not part of this property."
  },
  {
   "property": "C84",
   "status": "partial",
   "theorems": [
    "C84_key_size",
    "C84_key_bytes",
    "C84_keys_partial",
    "C84_rows_refuted"
   ],
   "note": "Refuted: only the different keys are counted, by their heap size (0 for numbers) plus 32 bytes; the other columns and further versions of a key are not, so any amount of data stays under any limit above the size of one key (C84_rows_refuted). Proved: equal keys have equal sizes; after an ingest the different keys of the memtable are below the limit."
  },
  {
   "property": "C85",
   "status": "partial",
   "theorems": [
    "C85_payload_partial",
    "C85_checksum",
    "C85_type",
    "C85_number_refuted"
   ],
   "note": "Changes confined to four consecutive bytes of a payload and all changes of the checksum are reported, after any good log and whatever follows; so are changes of the type, except between begin and abort (C85_type). Refuted for the header: the checksum does not cover the sequence number, and a record whose number is damaged to one below the recovery floor (one bit can do it) is left out without an error; a commit is lost that way. See also C76_length_refuted for the length field."
  }
 ]
}