{"id": "C01", "title": "A scan returns the newest visible version of every key", "statement": "A scan of a snapshot with read timestamp t over the mutable memtable, the sealed memtables and the SSTs returns, in ascending key order and without duplicates, exactly one row for every key whose newest version with commit timestamp <= t is an upsert, namely that upsert's row, and no row for any other key.", "quantifier": "every contents of the three layers (any number of segments, SSTs, versions, tombstones) and every read timestamp", "why_tests_cant": "The interleavings of versions of a key over layers are unbounded; a test fixes a handful of layouts.", "anchors": ["src/db/scan.rs: build_scan_streams, stream_with_profile", "src/query/stream/merge.rs: MergeStream", "src/inmem/mutable/memtable.rs: DynRowScan", "src/inmem/immutable/memtable.rs: ImmutableVisibleScan", "src/ondisk/scan.rs: SstableScan"]}
{"id": "C02", "title": "The latest read equals the mutations applied in commit order", "statement": "After any sequence of autocommit ingests, transaction commits, memtable seals, flushes and compactions, a scan of a fresh snapshot returns exactly the rows obtained by applying all committed mutations, in commit order, to an empty key-value map.", "quantifier": "every finite sequence of operations with arbitrary payloads", "why_tests_cant": "Histories are unbounded; the property is about all of them.", "anchors": ["src/db/mod.rs: ingest, begin_snapshot, flush_immutables_with_descriptor", "src/db/wal.rs: insert_into_mutable, apply_committed_batch, apply_committed_deletes, maybe_seal_after_insert", "src/transaction/mod.rs: commit", "src/ondisk/merge.rs: execute_inner"]}
{"id": "C03", "title": "Sealing the memtable does not change what any snapshot reads", "statement": "Turning the mutable memtable into an immutable segment leaves the result of every scan, at every read timestamp, unchanged, and keeps every version and tombstone.", "quantifier": "every mutable memtable contents and every read timestamp", "why_tests_cant": "Every combination of repeated keys, timestamps and deletes must be preserved.", "anchors": ["src/inmem/mutable/memtable.rs: seal", "src/inmem/immutable/memtable.rs: ImmutableVisibleScan", "src/db/wal.rs: seal_mutable_now"]}
{"id": "C04", "title": "Flushing sealed memtables to an SST does not change what a fresh snapshot reads", "statement": "Moving any set of immutable segments into one SST and publishing it leaves the result of a scan at every read timestamp unchanged: no row is lost, no deleted row comes back, no row is duplicated.", "quantifier": "every set of immutable segments, every read timestamp", "why_tests_cant": "The property quantifies over all segment contents, including the same key in several segments and delete-only segments.", "anchors": ["src/db/mod.rs: flush_immutables_with_descriptor", "src/ondisk/sstable.rs: stage_immutable, sort_data_rows, sort_delete_rows, finish", "src/ondisk/scan.rs: SstableScan"]}
{"id": "C05", "title": "Major compaction does not change what a fresh snapshot reads", "statement": "Replacing any set of input SSTs by the SSTs produced by merging them leaves the result of a scan at every read timestamp not older than the newest merged version unchanged.", "quantifier": "every set of input SSTs of any size, every set of other SSTs, every such read timestamp", "why_tests_cant": "Row counts above the reader batch size, and interleavings of data and tombstones, are unbounded.", "anchors": ["src/ondisk/merge.rs: SourceCursor, SsTableMerger::execute_inner", "src/ondisk/sstable.rs: into_stream", "src/compaction/executor.rs: LocalCompactionExecutor"]}
{"id": "C06", "title": "A tombstone and an upsert with the same key and commit timestamp are resolved the same way everywhere", "statement": "When one commit contains both an upsert and a delete of a key, the memtable, the SST reader and compaction all treat the key as deleted.", "quantifier": "every key, timestamp and position of the two entries in their files", "why_tests_cant": "The outcome of a tie depends on file positions that a test does not vary.", "anchors": ["src/inmem/mutable/memtable.rs: try_insert_delete_batch", "src/ondisk/scan.rs: SstableScan::poll_next", "src/ondisk/merge.rs: HeapEntry"]}
{"id": "C07", "title": "LIMIT n returns the first n rows of the unlimited scan", "statement": "A scan with limit n returns exactly the first n rows (or all, if fewer) that the same scan without a limit returns, with and without a predicate.", "quantifier": "every limit, every scan contents, every predicate", "why_tests_cant": "Limits interact with tombstones, shadowed versions and residual filtering in unboundedly many ways.", "anchors": ["src/query/stream/merge.rs: decrement_limit, poll_next", "src/query/stream/package.rs: PackageStream::poll_next", "src/db/scan.rs: stream_with_profile"]}
{"id": "C08", "title": "A predicate scan returns exactly the matching rows of the unfiltered scan", "statement": "A scan with predicate p returns exactly those rows of the same scan without predicate for which p evaluates to true (SQL three-valued logic), wherever the rows are stored.", "quantifier": "every predicate, every placement of versions over memtables and SSTs, every read timestamp", "why_tests_cant": "Push-down happens before version resolution, so correctness depends on all version histories.", "anchors": ["src/db/scan.rs: split_predicate_for_non_sst, build_scan_streams", "src/ondisk/sstable.rs: split_predicate_for_row_filter", "src/query/stream/package.rs: ResidualEvaluator"]}
{"id": "C09", "title": "Key ranges derived from a predicate never exclude a matching row", "statement": "For every row that satisfies the predicate, the row's primary key lies inside the key range derived from the predicate and used to prune memtables and SSTs.", "quantifier": "every predicate built from comparisons, BETWEEN, IN, prefix LIKE, AND, OR, NOT and every row", "why_tests_cant": "Predicates are recursive trees over unbounded literals.", "anchors": ["src/query/scan.rs: bounds_from_expr, key_range_for_predicate, KeyBounds", "src/query/mod.rs: KeyPredicateValue"]}
{"id": "C10", "title": "Prefix LIKE is turned into an exact key interval", "statement": "A string key starts with prefix p exactly if it lies between p (inclusive) and the computed upper bound (exclusive; unbounded if there is none), in the byte order the engine uses.", "quantifier": "every valid UTF-8 prefix and key", "why_tests_cant": "Boundary characters (surrogate gap, U+10FFFF, multi-byte) over all strings.", "anchors": ["src/query/scan.rs: next_prefix_string, next_scalar_char"]}
{"id": "C11", "title": "Comparing integers with floats in predicates is exact", "statement": "Predicate comparison of a 64-bit integer column with a float literal (and vice versa) gives the order of the two real numbers, with no rounding, and is unordered exactly when the float is NaN.", "quantifier": "every i64/u64 value and every f64 value", "why_tests_cant": "2^128 pairs.", "anchors": ["src/query/stream/package.rs: numeric_compare, compare_i128_f64, compare_u128_f64, decompose_f64"]}
{"id": "C12", "title": "Splitting a predicate into a pushed-down and a residual part loses nothing", "statement": "For every row, the original predicate is true exactly if the pushed-down part and the residual part are both true; a missing part counts as true.", "quantifier": "every predicate tree and every row", "why_tests_cant": "Recursive trees with three-valued logic.", "anchors": ["src/db/scan.rs: split_predicate_for_non_sst", "src/ondisk/sstable.rs: split_predicate_for_row_filter"]}
{"id": "C13", "title": "Primary keys are totally ordered, consistently with equality and hashing", "statement": "For keys of one schema the comparison used by all indexes is a total order, two keys compare equal exactly if the engine considers them the same key, and equal keys hash equally.", "quantifier": "all keys of a schema", "why_tests_cant": "All triples of keys of all types.", "anchors": ["src/key/row.rs: dyn_rows_cmp, dyn_rows_equal, hash_row, floats_cmp", "src/key/ts.rs: Ord"]}
{"id": "C14", "title": "A WAL frame decodes to what was encoded", "statement": "Decoding the bytes produced for a frame returns the same frame type, sequence number and payload and consumes exactly those bytes; transaction begin/append/commit/abort payloads round-trip.", "quantifier": "every frame type, sequence number and payload", "why_tests_cant": "Unbounded payload space.", "anchors": ["src/wal/frame.rs: FrameHeader::encode_into, FrameHeader::decode_from, encode_command, decode_frame"]}
{"id": "C15", "title": "A torn log tail yields exactly the complete frames before the tear", "statement": "If a crash cuts the byte stream of a WAL segment at any offset, reading the segment returns exactly the frames that were completely written before the cut, and no error.", "quantifier": "every log and every cut offset", "why_tests_cant": "Every byte offset of every log.", "anchors": ["src/wal/replay.rs: Replayer::scan_with_floor", "src/wal/frame.rs: FrameHeader::decode_from", "src/wal/storage.rs: scan_tail"]}
{"id": "C16", "title": "Recovery applies transactions all-or-nothing", "statement": "After a crash at any point, recovery applies every mutation of each transaction whose commit record is on disk, with that transaction's commit timestamp, and nothing of any other transaction, however the records of concurrent transactions interleave.", "quantifier": "every interleaving of transactions' WAL records and every crash point", "why_tests_cant": "Interleavings and crash points are unbounded.", "anchors": ["src/db/wal.rs: replay_wal_events", "src/wal/replay.rs: scan_with_floor", "src/transaction/mod.rs: write_wal_transaction"]}
{"id": "C17", "title": "Acknowledged durable writes survive a crash", "statement": "If the WAL records of a committed write reached the disk, then after a crash at any later point a fresh snapshot of the reopened database returns what it would have returned before the crash.", "quantifier": "every history of writes, seals, flushes, WAL pruning and crash points", "why_tests_cant": "Crash points and histories are unbounded.", "anchors": ["src/db/mod.rs: recover_with_wal_inner, flush_immutables_with_descriptor", "src/db/wal.rs: replay_wal_events, wal_live_frame_floor", "src/wal/manifest_ext.rs: collect_wal_segment_refs, segment_required, prune_wal_segments"]}
{"id": "C18", "title": "Replaying WAL records that were already flushed changes nothing", "statement": "Recovery may replay records whose effects are already in SSTs; the result of every scan is the same as if exactly the unflushed records had been replayed.", "quantifier": "every set of flushed records, every over-replayed suffix, every read timestamp", "why_tests_cant": "Depends on every overlap of log and SSTs.", "anchors": ["src/db/wal.rs: replay_wal_events", "src/query/stream/merge.rs: MergeStream::poll_next"]}
{"id": "C19", "title": "Commit timestamps are unique and increase, also across restarts", "statement": "Each commit receives a timestamp greater than the timestamps of all commits that finished before it, including commits made before a restart.", "quantifier": "every history of commits, flushes, log pruning and restarts", "why_tests_cant": "Depends on the history before the restart.", "anchors": ["src/mvcc/mod.rs: CommitClock", "src/db/mod.rs: recover_with_wal_inner", "src/wal/state.rs: set_commit_ts", "src/db/builder.rs: build_with_layout"]}
{"id": "C20", "title": "An open snapshot always reads the same data", "statement": "Reading the same snapshot twice returns the same rows, whatever commits, seals, flushes and compactions happen in between.", "quantifier": "every schedule of concurrent operations between the two reads", "why_tests_cant": "All schedules.", "anchors": ["src/db/mod.rs: begin_snapshot, flush_immutables_with_descriptor", "src/transaction/mod.rs: commit", "src/db/scan.rs: plan_scan_with_context"]}
{"id": "C21", "title": "A transaction's scan sees its own staged writes over its snapshot", "statement": "A scan inside a transaction returns the snapshot's rows with the transaction's staged upserts added or replacing and staged deletes removed; the last staged mutation of a key wins.", "quantifier": "every sequence of staged mutations, every snapshot contents", "why_tests_cant": "Arbitrary overlays.", "anchors": ["src/transaction/mod.rs: StagedMutations, TransactionScan", "src/db/scan.rs: execute_with_txn_scan"]}
{"id": "C22", "title": "A transactional get returns what a scan of that key returns", "statement": "Transaction get(k) returns the row a scan restricted to k in the same transaction returns, or none if there is none.", "quantifier": "every database state and key", "why_tests_cant": "Depends on the layer in which the versions of k are stored.", "anchors": ["src/transaction/mod.rs: get, read_mutable_rows"]}
{"id": "C23", "title": "Write-write conflicts are detected", "statement": "A transaction that writes a key which another transaction committed after the first one's snapshot fails to commit (first committer wins).", "quantifier": "every interleaving of two or more transactions with seals and flushes", "why_tests_cant": "All interleavings.", "anchors": ["src/transaction/mod.rs: commit", "src/inmem/mutable/memtable.rs: has_conflict", "src/inmem/immutable/memtable.rs: has_conflict"]}
{"id": "C24", "title": "A transaction becomes visible atomically", "statement": "All mutations of a transaction carry one commit timestamp, so every snapshot sees either all of them or none.", "quantifier": "every transaction, every snapshot timestamp", "why_tests_cant": "All mixtures of upserts and deletes.", "anchors": ["src/transaction/mod.rs: commit, apply_staged_payloads", "src/db/wal.rs: apply_committed_batch, apply_committed_deletes"]}
{"id": "C25", "title": "The version history is append-only and ordered", "statement": "Every publish creates one new version with a strictly larger timestamp; existing versions never change; listing returns all versions newest first, and a limit returns the newest ones; loading a listed version returns it.", "quantifier": "every sequence of publishes", "why_tests_cant": "Unbounded histories.", "anchors": ["src/manifest/driver.rs: apply_version_edits_inner, list_versions, snapshot_at_version, snapshot_latest"]}
{"id": "C26", "title": "Optimistic publishes never overwrite each other", "statement": "A publish that names an expected head succeeds only if the head is still that one; of two publishes based on the same head at most one succeeds, and a failed publish changes nothing.", "quantifier": "every interleaving of publishers", "why_tests_cant": "All schedules.", "anchors": ["src/manifest/driver.rs: apply_version_edits_inner", "src/compaction/driver.rs: run_compaction"]}
{"id": "C27", "title": "The set of live SSTs is exactly what was added and not removed", "statement": "After any sequence of edits the SSTs of a level are those added to the level and not removed from it since, each exactly once; an edit that removes from a level that does not exist is rejected and leaves the version unchanged.", "quantifier": "every sequence of add and remove edits", "why_tests_cant": "Unbounded sequences.", "anchors": ["src/manifest/domain.rs: VersionState::apply_edits, add_ssts, remove_ssts"]}
{"id": "C28", "title": "WAL pruning keeps every record not yet in an SST", "statement": "After a flush, transaction commit or compaction publishes a WAL floor and prunes, every segment containing a record whose effects are still only in memory remains on disk and is replayed after a crash.", "quantifier": "every history of writes, seals, flushes and prunes", "why_tests_cant": "Depends on which segments hold the ranges of all memtables at every prune.", "anchors": ["src/wal/manifest_ext.rs: collect_wal_segment_refs, segment_required", "src/db/wal.rs: insert_into_mutable, take_mutable_wal_range, wal_live_frame_floor", "src/wal/storage.rs: prune_below"]}
{"id": "C29", "title": "A WAL size budget never discards unflushed acknowledged writes", "statement": "With a WAL retention budget configured, segments are removed only when their records are already in SSTs.", "quantifier": "every history with a budget", "why_tests_cant": "Depends on history.", "anchors": ["src/wal/writer.rs: enforce_retention_limit"]}
{"id": "C30", "title": "Reading at a listed version reproduces that version", "statement": "A snapshot opened at a timestamp returned by the version listing reads the data that was current when that version was created.", "quantifier": "every history and every listed version", "why_tests_cant": "Two independent counters coincide in small tests.", "anchors": ["src/db/mod.rs: list_versions, snapshot_at", "src/manifest/driver.rs: apply_version_edits_inner"]}
{"id": "C31", "title": "The compaction planner only proposes well-formed tasks", "statement": "A proposed task names at least one and at most the configured number of distinct SSTs, all present at the level it names, moves data exactly one level down, and is proposed only if a level exceeds its threshold.", "quantifier": "every level layout and configuration", "why_tests_cant": "All layouts.", "anchors": ["src/compaction/planner.rs: plan, plan_l0, plan_leveled_from, select_compaction_run"]}
{"id": "C32", "title": "Compaction outputs are key-disjoint, sorted and within the row limit", "statement": "Output SSTs of a compaction are in ascending key order, no key occurs in two outputs, no output exceeds the configured maximum number of rows, and together they hold exactly the newest version of every input key.", "quantifier": "every input and configuration", "why_tests_cant": "Unbounded inputs.", "anchors": ["src/ondisk/merge.rs: OutputState, execute_inner"]}
{"id": "C33", "title": "SST identifiers are never reused", "statement": "The identifier given to a new SST after a restart differs from every identifier referenced by any published version.", "quantifier": "every history of flushes, compactions and restarts", "why_tests_cant": "Depends on history.", "anchors": ["src/db/builder.rs: sstable_id_allocator_for_table, next_sstable_id"]}
{"id": "C34", "title": "L0 backpressure decisions follow the configured thresholds", "statement": "Ingest stalls exactly if L0 file count or bytes reach the stop threshold, is slowed exactly if a slowdown but no stop threshold is reached, and adding files never relaxes the decision; configured stop thresholds are never below slowdown thresholds.", "quantifier": "every configuration built with the public builder and every L0 statistic", "why_tests_cant": "All numbers and builder call orders.", "anchors": ["src/db/mod.rs: L0BackpressureConfig::decision", "src/db/builder.rs: L0BackpressureConfig"]}
{"id": "C35", "title": "Retry backoff is bounded and monotone", "statement": "The delay before retry n of a conflicting publish never exceeds the configured maximum, never decreases with n and is zero before the first retry.", "quantifier": "every configuration and attempt number", "why_tests_cant": "Overflow for large attempt numbers.", "anchors": ["src/compaction/driver.rs: cas_backoff_delay", "src/db/builder.rs: CasBackoffConfig"]}
{"id": "C36", "title": "Ingesting a batch with delete flags gives each key its last state in the batch", "statement": "After ingest_with_tombstones of a batch and its delete flags, a key touched by the batch reads as the last row of the batch for that key: deleted if it is flagged, the row otherwise.", "quantifier": "every batch, every flags vector, repeated keys", "why_tests_cant": "All permutations of repeated keys.", "anchors": ["src/db/wal.rs: ingest_with_tombstones, partition_batch_for_mutations, build_delete_batch"]}
{"id": "C37", "title": "A rejected write changes nothing", "statement": "A write rejected because of a null or ill-typed key or a schema mismatch leaves every later scan and the recovered state unchanged.", "quantifier": "every invalid batch and every state", "why_tests_cant": "All ways of being invalid.", "anchors": ["src/inmem/mutable/memtable.rs: try_insert_batch", "src/db/wal.rs: insert_dyn_wal_batch", "src/transaction/mod.rs: validate_key"]}
{"id": "C38", "title": "A key-range scan returns exactly the keys of the range", "statement": "Scanning the memtables with a lower and an upper key bound (inclusive, exclusive or open) returns exactly the rows of the full scan whose key satisfies both bounds.", "quantifier": "every pair of bounds and every contents", "why_tests_cant": "All bound combinations.", "anchors": ["src/inmem/mutable/memtable.rs: scan_visible_with_bounds, lower_bound_for_mutable, upper_bound_for_mutable", "src/inmem/immutable/memtable.rs: bounds"]}
{"id": "C39", "title": "Segment pruning never hides a visible version or tombstone", "statement": "Skipping immutable segments whose key range or timestamp range cannot match the query does not change the scan result.", "quantifier": "every set of segments, key range and read timestamp", "why_tests_cant": "All segment contents including delete-only and mixed ones.", "anchors": ["src/inmem/immutable/mod.rs: prune_segments", "src/inmem/immutable/memtable.rs: commit_ts_bounds"]}
{"id": "C40", "title": "Reopening a table with a different definition is rejected", "statement": "Registering a table under an existing name succeeds exactly if schema fingerprint, primary key columns, retention and schema version agree, returns the existing table then, and changes nothing otherwise.", "quantifier": "every catalog and definition", "why_tests_cant": "All catalogs.", "anchors": ["src/manifest/driver.rs: register_table, ensure_table_compat"]}
{"id": "C41", "title": "Key-range algebra is exact for intersection and conservative for union", "statement": "The intersection of two key ranges contains exactly the keys in both; the union contains every key in either; overlap tests and emptiness tests agree with membership.", "quantifier": "all ranges and keys", "why_tests_cant": "All bounds.", "anchors": ["src/query/scan.rs: KeyBounds"]}
{"id": "C42", "title": "Row selections behave as sets", "statement": "Union and intersection of row selections over the same rows contain exactly the rows of the set-theoretic result, iteration returns them in ascending order, a selection built from ranges holds exactly the rows of the ranges, and a file is read without a selection only when every row is selected.", "quantifier": "all selections", "why_tests_cant": "All selections.", "anchors": ["src/query/scan.rs: RowSet, RowSetIter"]}
{"id": "C43", "title": "The WAL writer numbers frames consecutively and reports the exact range", "statement": "Frames across all segments carry consecutive sequence numbers in the order the commands were accepted, each acknowledgement names exactly the frames of its command, and rotation neither drops nor repeats a frame.", "quantifier": "every sequence of commands, sync policies and segment sizes", "why_tests_cant": "All command sequences.", "anchors": ["src/wal/writer.rs: handle_enqueue, write_frame, maybe_rotate, rotate_active_segment"]}
{"id": "C44", "title": "New transactions never mix with leftovers of a crashed one", "statement": "A transaction begun after a restart never gets the WAL identifier of an unfinished transaction whose records are still in the log, so recovery never attaches old records to it.", "quantifier": "every crash point and interleaving", "why_tests_cant": "All crash points.", "anchors": ["src/wal/mod.rs: enable_wal, next_provisional_id", "src/wal/storage.rs: scan_tail", "src/db/wal.rs: replay_wal_events"]}
{"id": "C45", "title": "The commit timestamp column attached to WAL batches round-trips", "statement": "Splitting a batch to which a commit timestamp column was appended returns the original batch and the timestamp for every row.", "quantifier": "all batches and timestamps", "why_tests_cant": "All batches.", "anchors": ["src/wal/mod.rs: append_commit_column, split_commit_column"]}
{"id": "C46", "title": "Seal policies trigger exactly at their thresholds", "statement": "A memtable is sealed after a write exactly if one of the configured limits (bytes, rows, batches, age) is reached, an any-of policy triggers exactly if one member does, the reason given for a seal is true, and the default policy has the limits its documentation gives.", "quantifier": "all policies and statistics", "why_tests_cant": "All numbers.", "anchors": ["src/inmem/policy.rs: SealPolicy, AnyOf"]}
{"id": "C47", "title": "A batch with valid keys is always accepted", "statement": "Ingesting a batch whose rows all have a key succeeds, whatever was written or rejected before.", "quantifier": "every history of writes, empty batches and rejected batches, and every batch with valid keys", "why_tests_cant": "The state in which it fails takes a thousand earlier calls to reach.", "anchors": ["src/inmem/mutable/memtable.rs: MutableMemTable::seal, try_insert_batch, DynMem::insert_batch", "src/db/mod.rs: DB::ingest"]}
{"id": "C48", "title": "Frame numbers are never repeated, across restarts too", "statement": "Every frame in the log has a number no other frame in the log has, whatever restarts happened between writing them.", "quantifier": "every history of writes, rotations and restarts, every crash point, with and without a WAL state store", "why_tests_cant": "All crash points of the rotation and of the state update.", "anchors": ["src/wal/writer.rs: Writer::new, persist_state", "src/wal/storage.rs: tail_metadata, scan_tail"]}
{"id": "C49", "title": "Recovery starts at the floor of the latest published version", "statement": "The WAL floor of a table, where recovery starts and up to which segments may be deleted, is always the smallest segment reference of the latest version published, and there is none exactly when that version references no segment.", "quantifier": "every interleaving of publishes of any number of callers, failed and abandoned ones included", "why_tests_cant": "All interleavings; a floor left behind by one publish would only show after a crash.", "anchors": ["src/manifest/driver.rs: apply_version_edits_inner, wal_floor, snapshot_latest", "src/manifest/domain.rs: normalise_wal_segments"]}
{"id": "C50", "title": "Concurrent calls never deadlock", "statement": "Whatever calls run concurrently, ingests and commits of transactions that write overlapping sets of keys in any order, some call can always make progress until all have returned, and all return after a bounded number of steps.", "quantifier": "every number of calls, every set of keys and every interleaving of their steps", "why_tests_cant": "A deadlock needs one particular interleaving of lock acquisitions.", "anchors": ["src/transaction/mod.rs: Transaction::commit (key locks)", "src/db/mod.rs: DB::ingest"]}
{"id": "C51", "title": "No lost updates between concurrent writers", "statement": "Of two acknowledged transactions that write one key, one began after the other was acknowledged; a transaction is rejected if a call that wrote one of its keys was acknowledged after it began.", "quantifier": "every interleaving of the steps of transactions, ingests, seals and flushes", "why_tests_cant": "The windows are a few instructions wide; a test would have to stop a call at each of them.", "anchors": ["src/transaction/mod.rs: Transaction::commit, mutable_has_conflict, immutable_has_conflict", "src/db/mod.rs: begin_snapshot"]}
{"id": "C52", "title": "A snapshot is stable and atomic while writes are in flight", "statement": "Whenever a snapshot is taken, its scans return the writes acknowledged at that time, each of them whole, and the same rows every time, whatever calls are in flight or start later.", "quantifier": "every interleaving of the steps of writers, seals and scans", "why_tests_cant": "All interleavings.", "anchors": ["src/db/mod.rs: begin_snapshot, ingest", "src/db/wal.rs: seal_mutable_now, maybe_seal_after_insert", "src/transaction/mod.rs: commit", "src/mvcc/mod.rs"]}
{"id": "C53", "title": "Once all calls have returned the database is the serial result of the acknowledged ones", "statement": "After any interleaving of ingests, commits, seals and flushes, when all calls have returned, a scan lists the effect of the acknowledged calls applied one by one in the order of their commit timestamps, and nothing of the rejected ones.", "quantifier": "every interleaving, every number of calls, every batch", "why_tests_cant": "All interleavings.", "anchors": ["src/db/mod.rs: ingest, flush_immutables_with_descriptor", "src/db/wal.rs: insert_dyn_wal_batch, add_immutable", "src/transaction/mod.rs: commit", "src/inmem/mutable/memtable.rs"]}
{"id": "C54", "title": "A scan returns its snapshot although planning and reading are separate steps", "statement": "The rows of a scan are those of its snapshot, whatever happens between planning the scan and reading its sources.", "quantifier": "every interleaving of writers, seals and flushes with the two steps of a scan", "why_tests_cant": "The failing interleavings are narrow.", "anchors": ["src/db/scan.rs: plan_scan_with_context, execute_scan, build_scan_streams"]}
{"id": "C55", "title": "Commit timestamps follow real time", "statement": "A call that starts after another was acknowledged gets a larger commit timestamp; no two acknowledged calls have the same one.", "quantifier": "every interleaving of concurrent calls", "why_tests_cant": "All interleavings.", "anchors": ["src/mvcc/mod.rs: CommitClock::alloc", "src/db/mod.rs: next_commit_ts", "src/transaction/mod.rs: commit"]}
{"id": "C56", "title": "Acknowledged durable writes survive a crash when calls overlap", "statement": "With every write synced to the log, once ingest or commit has returned success its rows are found after a crash and reopen, however writes, seals, flushes, log rotation and log pruning overlapped before the crash.", "quantifier": "every interleaving of the atomic steps of any number of ingests, commits, seals and flushes, every rotation, every crash point", "why_tests_cant": "The losses need a particular interleaving of three parties and a crash; tests run few schedules.", "anchors": ["src/db/mod.rs: ingest, flush_immutables_with_descriptor, prune_wal_segments_below_floor", "src/db/wal.rs: record_wal_range, wal_live_frame_floor, seal_mutable_now, insert_dyn_wal_batch", "src/transaction/mod.rs: commit, finalize_manifest", "src/wal/manifest_ext.rs: collect_wal_segment_refs"]}
{"id": "C57", "title": "A file a published version refers to is never deleted or changed", "statement": "Once a version has been published, each of its files exists with the content it had at publication, for ever: whatever flushes, compactions, retries, clean-ups, failed or torn writes, stopped workers and restarts follow. Snapshots and time travel read these files.", "quantifier": "every interleaving of any number of flushes and compactions, every outcome of every storage and manifest call, every restart", "why_tests_cant": "Deleting or overwriting a live file needs a failure or a conflict at one particular step.", "anchors": ["src/compaction/driver.rs: run_scheduled_compaction", "src/ondisk/merge.rs: cleanup_descriptors", "src/db/mod.rs: flush_immutables_with_descriptor", "src/db/builder.rs: sstable_id_allocator_for_table, next_sstable_id"]}
{"id": "C58", "title": "Overlapping flushes and compactions act one after the other", "statement": "However flushes and compactions overlap, every published version is its predecessor with exactly one flush or one compaction done as if nothing else had been running: the compaction's inputs are files of that predecessor and its outputs are the merge of their contents. A flush that reported success is in this history; nothing is published twice.", "quantifier": "every interleaving of any number of flushes and compactions, every outcome of every call, every restart", "why_tests_cant": "All interleavings; a compaction applied to a version that has changed meanwhile loses data silently.", "anchors": ["src/compaction/driver.rs: run_scheduled_compaction, resolve_compaction_inputs", "src/manifest/driver.rs: apply_version_edits_cas, apply_version_edits_inner", "src/compaction/orchestrator.rs: to_version_edits"]}
{"id": "C59", "title": "The clean-up plan is safe and complete", "statement": "The recorded garbage-collection plan only lists files the current version does not use; and every file on disk is used by the current version, listed in the plan, or being written.", "quantifier": "every interleaving of any number of flushes and compactions", "why_tests_cant": "Leaks show only after long histories.", "anchors": ["src/compaction/orchestrator.rs: gc_plan_from_outcome", "src/manifest/driver.rs: put_gc_plan, take_gc_plan", "src/compaction/driver.rs: run_scheduled_compaction"]}
{"id": "C60", "title": "Asking for some columns does not change which rows a scan returns", "statement": "A scan that asks for some columns of the table returns the requested cells of exactly the rows the scan of all columns returns, in the same order: for every predicate (also on columns that are not requested), limit and open transaction, and wherever the rows are. A requested column the table does not have is never answered with rows.", "quantifier": "every schema, every choice of columns in any order and with repetitions, every predicate on the table's columns, every state of the table, every limit, every staged transaction", "why_tests_cant": "The planner chooses between several schemas depending on where the rows are and what the predicate leaves over; a wrong position shows only for particular combinations.", "anchors": ["src/query/scan.rs: projection_with_predicate, extend_projection_schema, collect_predicate_columns", "src/db/scan.rs: plan_scan_with_context, sst_projection_from_metadata, schema_projection_indices, build_scan_streams", "src/query/stream/package.rs: PackageStream", "src/inmem/immutable/memtable.rs: build_projection"]}
{"id": "C61", "title": "An answered write is durable under the policy that syncs always", "statement": "With the sync policy \"always\", every write that was answered is read back after any later stop of the process or of the machine, also when stops and restarts happened before. With any policy an answered write survives stops of the process, and after an orderly shutdown (unless syncs are disabled) also a stop of the machine.", "quantifier": "every configuration, every sequence of batches, rotations, timer ticks, shutdowns and crashes at any point of a batch, everything a crash may leave of the files", "why_tests_cant": "What is on the disk is not visible to a test; it matters only at a crash.", "anchors": ["src/wal/writer.rs: handle_enqueue, flush_if_needed, maybe_sync, perform_sync, flush_and_sync_for_shutdown", "src/wal/mod.rs: WalSyncPolicy, WalConfig"]}
{"id": "C62", "title": "Syncing every n bytes bounds the loss by n bytes", "statement": "With the sync policy \"every n bytes\", a stop of the machine loses less than n bytes of answered writes.", "quantifier": "every configuration, every history with crashes, everything a crash may leave of the files", "why_tests_cant": "As C61.", "anchors": ["src/wal/writer.rs: maybe_sync, rotate_active_segment, WriterContext::new", "docs/rfcs/0002-wal.md: bounded RPO depending on sync policy"]}
{"id": "C63", "title": "Syncing every d milliseconds bounds the loss in time", "statement": "With the sync policy \"every d\" (the default), a write answered longer than d ago (plus the delay in handling the timer) is read back after a stop of the machine.", "quantifier": "every configuration, every history, every time of the stop", "why_tests_cant": "As C61; and it depends on when the timer is set, kept and cancelled.", "anchors": ["src/wal/writer.rs: maybe_sync, apply_timer_directive, recompute_timer, handle_timer_elapsed, rotate_active_segment", "docs/rfcs/0002-wal.md: bounded RPO depending on sync policy"]}
{"id": "C64", "title": "Background compaction comes to rest", "statement": "While nothing is written and no merge fails, a compaction worker that keeps being triggered publishes only finitely many versions, whatever files its merges produce; from then on the levels stay as they are and every level is within its configured limits.", "quantifier": "every planner and worker configuration, every initial layout of files, every order in which jobs run together finish, every sequence of merge outputs, every infinite sequence of rounds", "why_tests_cant": "Outputs of one compaction make the next level grow and trigger the next; that this ends is a statement about infinite runs.", "anchors": ["src/compaction/driver.rs: spawn_worker, plan_and_enqueue, drain_and_execute, should_self_kick", "src/compaction/planner.rs: LeveledCompactionPlanner", "src/compaction/scheduler.rs: enqueue, drain_with_budget"]}
{"id": "C65", "title": "One trigger is enough for all pending compactions", "statement": "Once triggered, while nothing is written and no merge fails, the compaction worker goes on by itself until every level is within its limits: it never waits for the next trigger with a level over its limit.", "quantifier": "every worker configuration (jobs run together, queue capacity, follow-up limits), every layout, every order of completion", "why_tests_cant": "It depends on what is left in the queue by earlier rounds and on which of them is outdated.", "anchors": ["src/compaction/driver.rs: spawn_worker, should_self_kick, run_scheduled_compaction", "src/compaction/scheduler.rs: CompactionScheduler::new, drain_with_budget"]}
{"id": "C66", "title": "Chained compactions respect the follow-up limits", "statement": "A finished compaction of level 0 sets off at most the configured number of further compactions per trigger, each at least the configured cooldown after the one before.", "quantifier": "every worker configuration, every history of rounds, every clock reading, failing merges included", "why_tests_cant": "The limits are kept across rounds and depend on the clock.", "anchors": ["src/compaction/driver.rs: CascadeControl, drain_and_execute, spawn_worker", "src/db/builder.rs: CascadeConfig"]}
{"id": "C67", "title": "The declared key columns are the key of the table", "statement": "Opening from schema metadata takes as key exactly the fields marked tonbo.key, in the order of the places given, or without markers the fields named in tonbo.keys, in that order; wrong declarations are refused; a key written into the schema by the schema builder is read back as the same key.", "quantifier": "every schema, every marker text, every list of names", "why_tests_cant": "Markers and lists are free text: white space, signs, overflow, ties of places, duplicate names, characters that the list uses itself; tests try a few declarations.", "anchors": ["src/mode/dyn_config.rs: from_metadata, from_key_name, from_key_col", "src/schema.rs: SchemaBuilder::build", "src/extractor/extractors.rs: projection_for_columns"]}
{"id": "C68", "title": "A table is reopened exactly with the same schema and key", "statement": "Opening an existing table succeeds if the schema is the one it was created with, in whatever order its metadata are listed, and the key columns are the same; with any other schema or key it fails.", "quantifier": "every two schemas, every two lists of key columns, every history of the catalog, every hash function that does not confuse the two schemas", "why_tests_cant": "The fingerprint must not depend on the order of hash maps and must separate all schemas; a test compares a few.", "anchors": ["src/mode/mod.rs: fingerprint_schema, canonicalize_json, table_definition", "src/manifest/driver.rs: register_table, ensure_table_compat"]}
{"id": "C69", "title": "Cached bloom filters and file metadata are what the files hold", "statement": "Pruning through the caches uses for every file, row group and column the bloom filter stored there, and for every file its own metadata, however many reads share a cache, whatever is evicted, whichever reads fail or are given up; several filters fetched with joined reads are the filters fetched one by one; the caches keep within their size.", "quantifier": "every file content, every list of requested ranges and joining distance, every cache size, every number of concurrent reads and every interleaving of their steps", "why_tests_cant": "A filter handed to the wrong row group drops rows only for some predicates, some cache histories and some interleavings.", "anchors": ["src/ondisk/bloom.rs: BloomFilterCache, BatchedAsyncReader::get_byte_ranges, bloom_filter, bloom_filters_batch", "src/ondisk/metadata.rs: ParquetMetadataCache", "src/db/scan.rs: parquet_metadata_cached"]}
{"id": "C70", "title": "A published record reads back as it was written", "statement": "Whatever record the table publishes (head, version, log floor, garbage plan, catalog and table entries, the state file of the log) is read back equal to what was written, by this version of the program; a record of an older version without the log segments, or without some of the state fields, reads as one where they are empty.", "quantifier": "every record whose numbers fit their types, every number of levels, files and segments, every key bound of every supported type", "why_tests_cant": "A version can hold any keys as bounds: extreme numbers, floats that JSON cannot write, nested unions; tests write a few.", "anchors": ["src/manifest/domain.rs: TableHead, VersionState, SstEntry, WalSegmentRef, GcPlanState, CatalogState, TableMeta", "src/ondisk/sstable.rs: SsTableStats", "src/key/owned.rs: Serialize, Deserialize for KeyOwned", "src/wal/state.rs: WalState, WalStateHandle"]}
{"id": "C71", "title": "Requests to the log are handled in order and answered truthfully", "statement": "Requests to the write-ahead log take effect in the order in which they were accepted and are answered in that order, each once; success is told only after the request has taken effect; when the log stops every accepted call is answered, and a shutdown that succeeds has lost none; a closed log stops; a call told of an error left nothing in the log, and a failing request affects no other.", "quantifier": "every schedule of calls, writer rounds, timers, shutdowns and drops, every failure of encoding, writing, flushing, syncing or rotating, every queue size", "why_tests_cant": "Batching makes the outcome depend on which requests happen to wait together when one of them fails, and on when the shutdown comes.", "anchors": ["src/wal/writer.rs: run_writer_loop, handle_enqueue_batch, flush_and_sync_for_shutdown", "src/wal/mod.rs: WalHandle::enqueue_command, rotate, snapshot, shutdown, WalTicket::durable"]}
{"id": "C72", "title": "The commit times of the rows of a data file are read back as written", "statement": "For every table that can be opened, the commit times stored with the rows of a data file are the ones read back, and the columns of the table are stored unchanged.", "quantifier": "every batch of columns of any names and types, every list of commit times", "why_tests_cant": "The commit time is stored as a column among those of the user, found by its name; tests use tables without a column of that name.", "anchors": ["src/ondisk/sstable.rs: append_commit_column, commit_ts_column, parse_mvcc_columns_from_data", "src/ondisk/scan.rs: decode_mvcc_from_data"]}
{"id": "C73", "title": "A write call that fails or is given up has no effect, one that succeeds has", "statement": "A write call (ingest, or a commit in either acknowledgement mode) that returned success can be read and is there after a restart; one that returned an error or was given up by dropping its future cannot be read and does not come up after a restart; whatever a restart finds of a write is the whole write; calls that follow one another are found in that order.", "quantifier": "every number of concurrent calls, every point at which a call is given up or one of its steps fails, every schedule and failure of the log writer, every shutdown", "why_tests_cant": "A future can be dropped at every await, and which calls share a batch of the log depends on timing; tests await every call to its end on a log that works.", "anchors": ["src/db/wal.rs: insert_dyn_wal_batch", "src/transaction/mod.rs: Transaction::commit, write_wal_transaction, WalTxnTickets::await_range, spawn_publish_task", "src/wal/mod.rs: WalHandle::enqueue_command, WalTicket::durable"]}
{"id": "C74", "title": "Recovery takes every batch that a write has put into the log", "statement": "A batch with the table's schema, one tombstone flag for each row and no null in a key is accepted by an ingest; the rows without flag are written and the keys of the others deleted, all at one commit time; and what the call (or the commit of a transaction) puts into the log passes every check of recovery, which applies the very same batches. A batch with another schema or another number of flags is refused before anything is written.", "quantifier": "every table, batch of columns of any types, choice of tombstones, commit time and log encoding that gives batches back", "why_tests_cant": "Recovery repeats checks of schema, column and commit times on batches that were split and rebuilt; a batch it refuses makes the database impossible to open. Tests recover a few fixed schemas.", "anchors": ["src/db/wal.rs: insert_dyn_wal_batch, partition_batch_for_mutations, build_delete_batch, take_full_batch, apply_dyn_wal_batch, apply_dyn_delete_wal_batch, replay_wal_events", "src/transaction/mod.rs: write_wal_transaction", "src/mode/mod.rs: build_delete_schema"]}
{"id": "C75", "title": "Looking at the log while it is being written leaves it as it is", "statement": "Commits and flushes look at the log's segments while other writes go on; whatever the timing, every write that was answered is found in the log afterwards, in order and unchanged.", "quantifier": "every schedule of the writer's pieces of frames and the steps of any number of calls looking at the log", "why_tests_cant": "It depends on a call reading the segment while a frame is partly written; tests do not reach this moment.", "anchors": ["src/wal/manifest_ext.rs: collect_wal_segment_refs", "src/wal/storage.rs: tail_metadata_with_hint, scan_tail, overwrite_segment", "src/wal/writer.rs: write_frame", "src/db/mod.rs: flush", "src/transaction/mod.rs: commit"]}
{"id": "C76", "title": "Damage at the end of the log costs only what follows it", "statement": "In the default recovery mode, if the last segment is damaged after some frames, recovery stops at the first truncated or unreadable frame and returns the events of all frames before it; good frames after the damage are not dropped silently.", "quantifier": "every log, every position, every sequence of bytes in place of the rest", "why_tests_cant": "The damage can be any bytes anywhere; tests cut a log at a few places or change one byte.", "anchors": ["src/wal/mod.rs: WalRecoveryMode", "src/wal/replay.rs: Replayer::scan_with_floor", "src/wal/storage.rs: scan_tail, tail_metadata_with_hint", "src/wal/frame.rs: FrameHeader::decode_from"]}
{"id": "C77", "title": "What a stop of the machine leaves of the log is a point in time, and the log works on", "statement": "After any stop of the process or the machine recovery finds the writes up to some point, in their order, and none after a missing one; the log can then be opened, continues with higher numbers, and what is written afterwards is recovered like everything else.", "quantifier": "every configuration, every history with crashes, everything a crash may leave of the files, every state file that is right about the segments", "why_tests_cant": "Whether a segment was closed with a sync shows only after a power loss; the damage shows only at the next recovery but one.", "anchors": ["src/wal/writer.rs: WriterContext::new, rehydrate_segment_metadata, align_state_with_segments, load_bounds_from_storage, rotate_active_segment", "src/wal/storage.rs: tail_metadata_with_hint, segment_frame_bounds", "src/wal/replay.rs: scan_with_floor", "src/wal/mod.rs: WalSyncPolicy"]}
{"id": "C78", "title": "Automatic flushing keeps up with the writes and disturbs none", "statement": "With minor compaction set to a threshold and a level, whenever a write has returned fewer sealed segments than the threshold wait in memory; no write fails because of the flush that follows it, also when writes overlap; and reads are the same whatever was flushed and to which level.", "quantifier": "every threshold, level and history of write calls; every schedule of overlapping calls, with failing file operations and dropped futures", "why_tests_cant": "The flush is a side effect of some writes: how many segments are waiting depends on the kinds of the calls and on who gets the lock first.", "anchors": ["src/db/mod.rs: MinorCompactionState::maybe_compact, maybe_run_minor_compaction, flush_immutables_with_descriptor, ingest", "src/compaction/minor.rs: MinorCompactor::maybe_compact", "src/db/wal.rs: insert_dyn_wal_batch", "src/transaction/mod.rs: commit", "src/db/builder.rs: with_minor_compaction"]}
{"id": "C79", "title": "The files of a database are told apart by their names", "statement": "Every log segment is found again under its number whatever else is in the directory and in whatever order the store lists it; only files the log wrote are taken for segments; removing old segments removes exactly those below the floor; two tables never share a file, and the rows of one are never taken for the deletions of another.", "quantifier": "every set of segment numbers, every other files, every order of listing, every level and identifier", "why_tests_cant": "Names are built and parsed for 64-bit numbers and arbitrary file names of others; tests use small numbers and clean directories.", "anchors": ["src/wal/storage.rs: segment_path, segment_sequence, list_segments_with_hint, should_attempt_fallback, list_segments_from_root, prune_below", "src/ondisk/sstable.rs: level_dir, build_table_paths", "src/wal/state.rs: STATE_FILE_NAME"]}
{"id": "C80", "title": "The options given when a database is built take effect", "statement": "Each log option of an opened durable database is the value given last, through whichever call, or its default if none was given, and it is the same whether the database is created or recovered; a database in memory has no log whatever is said about one; flushing and background compaction follow the settings given last, with no limit of zero; and a database that could be opened with some options can be opened with them again.", "quantifier": "every sequence of builder calls with every value, before a first and before a later open", "why_tests_cant": "There are ten log options, four calls that set some of them one by one and two that merge several, in any order: the cases that matter are combinations.", "anchors": ["src/db/builder.rs: WalConfig::apply, WalConfig::merge, StorageConfig::new, DbBuilder::wal_config, wal_segment_bytes, wal_sync_policy, wal_flush_interval, wal_retention_bytes, with_compaction_options, with_compaction_strategy, with_minor_compaction, CompactionOptions, open_with_executor, build_with_layout, recover_or_init_with_executor, apply_wal_defaults", "src/compaction/executor.rs: default_output_bytes_for_level, output_caps_for_level", "src/wal/replay.rs: scan_with_floor"]}
{"id": "C81", "title": "Compaction catches up with flushes whenever they come", "statement": "However flushes and the background compaction fall together in time, once the triggers that flushes sent have been consumed and the worker waits for another, no level is over its limits; and after the last flush the worker always gets there.", "quantifier": "every interleaving of flushes, timer ticks, stalled writers and steps of the worker, every set of levels a flush publishes, every configuration", "why_tests_cant": "A trigger can arrive at any step of a round, a flush makes running jobs stale, and a lost wake-up shows only if nothing else ever wakes the worker.", "anchors": ["src/compaction/driver.rs: spawn_worker, wait_for_trigger, plan_and_enqueue, drain_and_execute, should_self_kick", "src/compaction/handle.rs: kick", "src/db/mod.rs: flush_immutables_with_descriptor, kick_compaction_worker"]}
{"id": "C82", "title": "A transaction stages exactly what it can commit", "statement": "A staging call of a transaction succeeds exactly if what it is given fits the table; a call that fails stages nothing; each key ends with the last mutation staged for it; a batch does what its rows would do one by one; and a commit never fails because of the shape of something that was accepted.", "quantifier": "every table, every sequence of upserts, batches and deletes, valid or not", "why_tests_cant": "Rows, keys and batches are untyped values: the shapes that must be refused, and their mixtures with good ones in one transaction, are unbounded.", "anchors": ["src/transaction/mod.rs: Transaction::upsert, upsert_rows, upsert_batch, delete, project_key, validate_key, ensure_batch_schema, commit, build_record_batch, build_delete_batch, StagedMutations", "src/extractor/extractors.rs: row_from_batch, project_view, ensure_batch_schema", "src/key/owned.rs: KeyOwned"]}
{"id": "C83", "title": "The version listing counts what each version holds", "statement": "list_versions returns one entry for every version published, newest first, or the newest ones if a limit is given. The entry of a version says how many tables the version has, their total size (capped at the largest 64-bit number) and how many levels have tables: the tables added up to that version and not removed. So a commit leaves the numbers as they were, and a flush or compaction changes them by exactly the tables it adds and removes.", "quantifier": "every sequence of publishes by any number of writers, interleaved, failing or abandoned; every table and limit", "why_tests_cant": "The counts are computed from levels that hundreds of flushes and compactions edited, with gaps, trimmed levels and replaced entries; tests look at one or two versions.", "anchors": ["src/db/mod.rs: Version, DbInner::list_versions", "src/manifest/driver.rs: list_versions", "src/manifest/domain.rs: VersionState::apply_edits, SstEntry::stats"]}
{"id": "C84", "title": "A byte limit bounds the memory of the memtable", "statement": "With a seal policy that has a limit in bytes, the data an ingest leaves in the memtable stays below the limit, whatever the sizes of keys and rows and however often keys are overwritten; keys that are equal count the same.", "quantifier": "every table and key type, every history, every policy with a byte limit, every sequence of ingests", "why_tests_cant": "The sizes and the number of overwrites are unbounded; tests write a few small rows.", "anchors": ["src/inmem/policy.rs: BytesThreshold, AnyOf, MemStats", "src/inmem/mutable/memtable.rs: try_insert_batch, build_stats", "src/inmem/mutable/metrics.rs: record_write", "src/key/row.rs: dyn_row_heap_size, dyn_cell_heap_size", "src/key/heap_size.rs: KeyHeapSize"]}
{"id": "C85", "title": "A damaged record of the log is never taken for a good one", "statement": "If bytes of a stored log record are changed - a flipped bit, a few overwritten bytes - recovery and opening the log report an error; they never return a changed record or leave the record out silently.", "quantifier": "every log, record and position, every change of up to four consecutive bytes of a payload, every changed checksum", "why_tests_cant": "All payloads, positions and values; tests flip single chosen bytes.", "anchors": ["src/wal/frame.rs: FrameHeader::encode_into, FrameHeader::decode_from", "src/wal/replay.rs: Replayer::scan_with_floor", "src/wal/storage.rs: scan_tail"]}
