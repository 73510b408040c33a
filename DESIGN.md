# Formal model of tonbo-io/tonbo in Coq 8.16.1 — design

The model is a set of total, computable Gallina functions, one per function of the Rust
code that matters for a property.  Every definition carries a comment with the file and
lines in `/repo` that it models, and names the simplifications made.

## Layout

| directory | contents |
|---|---|
| `rocq/theories/Base`  | order/list library used by proofs (no model content) |
| `rocq/theories/Spec`  | small specifications: what the English property says, no model helpers |
| `rocq/theories/Model` | the model, definitions only |
| `rocq/theories/Proof` | lemmas |
| `rocq/theories/Props` | the property theorems, each closed by `exact lemma`, with `Print Assumptions` and non-vacuity `Example`s |

## Modelling decisions

* **Keys.**  `src/key/row.rs` compares rows of dynamic cells.  `Model/Key.v` models cells,
  comparison, equality and hashing concretely (floats are bit patterns).  The
  storage layers are modelled over any key type with a comparison satisfying the class
  `KeyOrd` (antisymmetry and transitivity of the comparison, *not* Leibniz equality: keys that
  compare `Eq` are one key, as in the code).  `Proof/KeyFacts.v` shows that the concrete keys
  of a schema without NaN form an instance, and `Props` refutes the law for NaN.
* **Timestamps** are `N` with the 64-bit saturation/wrap written out where the code has it.
* **Memory layers.**  Mutable memtable: write-once batch slots plus an ordered index from
  (key, timestamp descending) to a location or delete marker.  Immutable segment: row table plus
  ordered index plus delete sidecar.  SST: data file and delete sidecar as lists of rows,
  read in batches of 1024 where the batching is observable (compaction).
* **Crashes** are truncations of the durable byte/frame log plus loss of memory state.
* **Concurrency** is a sequence of atomic steps.  `Model/Sched` interleaves the steps of calls
  (what the code does under one lock), flushes and scans; the other files run whole calls, or
  single session steps for the manifest.
* **Predicates**: the `Expr` tree with Kleene three-valued logic; scalar comparison concrete.
* **External code** (Arrow, Parquet, fusio, crossbeam SkipMap, crc32c) is modelled by its
  contract: ordered map, row table, byte store.  CRC-32C is computed bit by bit; no theorem
  depends on its strength.

## Plan per property

For each property: what is modelled, and how it is proved.  The exact theorem names and what
is missing are in `MANIFEST.json`; the statements are in `rocq/theories/Props`.

| id | modelled by | proof |
|---|---|---|
| C01–C03 | `Db`, `MemTable`, `Immutable`, `SsTable`, `MergeStream`, `DbScan`, `Run` | refinement: invariant `inv` (`Proof/Refine.v`) says the versions in memory and tables are those of the history except hidden ones; a scan returns the newest visible version per key; induction over all runs |
| C04, C05 | `flush`, `Compact`, `DbCompact` | same invariant before and after the step |
| C06 | memtable insert order, SST zip of data and delete sidecar | induction over the calls; counterexample by computation |
| C07 | `Package`, `exec_plan` limit | list induction over the stream |
| C08 | `Pred`, `DbScan`, `Residual` | scan spec with any sound pushdown (`push_ok`); counterexamples for non-key filters |
| C09, C10 | `Pred`, `KeyBounds`, `Utf8` | case analysis over the predicate tree; bytes order of strings |
| C11 | `Residual` comparison on exact rationals (`Spec/Ieee`, `Float`) | arithmetic on Z |
| C12 | `Pred` splits, `Residual` evaluator against `Spec/Tri`, `Spec/Sql` | structural induction over predicates |
| C13 | `Key`, `UnionKey` | lexicographic order lemmas; counterexamples for NaN, zeros and unions |
| C14 | `Frame` | round trip by computation on lists of bytes; injectivity of little endian |
| C15 | `WalScan` over `Frame` | induction over the frames of a segment, for every cut |
| C16 | `Replay` over `WalScan` | induction over events with a map of pending transactions; reused identifiers by a simulation with a log in which every transaction has its own name |
| C17–C19, C28, C29, C44, C48 | `WalWriter`, `WalDb` (log + tables + restart), `Spec/Recover` | invariant over runs with crashes: unflushed commits are in the log above the floor |
| C20–C24, C36, C38, C39, C41 | `Txn`, `Db.commit`, `RowSet`, `KeyBounds` | invariants over runs, as C01 |
| C25, C26, C49 | `Sessions` (contract of fusio-manifest), `Manifest` | invariant over all interleavings of open/commit/drop events |
| C27 | `Version` | list induction over edits |
| C30 | `TimeTravel`, `Manifest.version_at` | scan of old tables with the memory of now; counterexamples |
| C31 | `Planner` | induction over levels and files |
| C32 | `Compact`, `DbCompact` | invariants over runs; order and limits for every batching, by an invariant of the merge loop (`Proof/CompactAny`) |
| C33 | `Jobs` (all schedules and failures), `DbCompact`, `WalDb` | invariants over runs |
| C34, C35 | `Backpressure` | arithmetic |
| C37, C47 | `MemTable`, `Immutable`, `Run` | invariants over runs |
| C40 | `Manifest` (catalog) | invariant over all interleavings |
| C42 | `RowSet`: set operations, constructors, full and empty tests, the selection handed to a reader | list induction |
| C43 | `WalWriter` | invariant over command sequences |
| C45 | `Columns` | list equalities |
| C46 | `Policy`, `Metrics` | case analysis; counters agree with the index, by induction over calls |
| C50 | `Sched` | the greatest awaited key belongs to a call that can move; a decreasing measure |
| C51–C55 | `Sched`, `Spec/ConcSpec` | invariant over all schedules, with futures of calls and flushes dropped at their awaits: the store and the segments in flight hold exactly what the calls have applied; counterexample schedules |
| C56 | `LogRace`, `Spec/RaceSpec` | invariant over schedules that keep critical parts apart: every write outside the SSTs has its frames at or above every floor read or published; counterexample schedules |
| C57–C59 | `Jobs`, `Spec/JobSpec` | one invariant over events: every allocated id belongs to one job and is above every published one, files of published versions keep their contents, where each version came from; counterexample schedules |
| C60 | `Project`, `Spec/Projection` | rows are projected where they are read: the merge commutes with a map of the rows, a predicate has the same value on any projection that has its columns, the splits look only at column types; positions found by name in file, scan and result schema compose |
| C61–C63 | `WalSync`, `Spec/SyncSpec` | of each segment file: frames written, with the operating system, on the disk; invariant over batches, ticks, rotations and crashes: closed files complete, answered frames on disk, counted, or due at the timer; a stop in the middle of a frame is followed by the repair of the last file, which can stop too; counterexample runs |
| C64–C66 | `Worker`, `Planner`, `Spec/RestSpec` | rounds of the compaction worker over levels, head, queue and follow-up limits; a published task makes the counts of files per level smaller in lexicographic order, a round that publishes nothing drops outdated jobs; well-founded; counterexample runs |
| C67 | `KeyDecl`, `Json`, `Spec/KeyDeclSpec` | text functions, markers, name lists and the builder as functions on lists of characters; marker meaning as an inductive relation; sortedness of the stable sort determines the order; counterexamples |
| C68 | `Json`, `TableDef`, `Manifest`, `Spec/JsonSpec` | JSON text is prefix-decodable, hence injective; sorting members is invariant under permutation; composed with the catalog runs of C40 |
| C69 | `Caches`, `Spec/CacheSpec` | sorted ranges joined into covering reads, each cut out again; invariant over the interleaved steps of calls: every cached entry and everything a call knows is what the file holds |
| C70 | `Records`, `Spec/RecordSpec` | writer and reader of each record as functions to and from JSON values; round trip by cases on the record, induction on lists; the records that cannot be written or read, characterised exactly |
| C71 | `LogQueue`, `Spec/QueueSpec` | calls, channel and writer rounds as steps that emit observable events; one invariant: while the writer lives, accepted = done ++ waiting and every answer is a success; a round shortens the queue; counterexample schedules |
| C72 | `Stored`, `Columns` | the commit column appended last and found by the first match of its name; counterexample with a user column of that name |
| C73 | `WriteCall`, `LogQueue` | each call as a list of sends, waits and changes over the log of C71, interleaved with other calls, the writer, failures and dropped futures; invariant: what a call has done so far is a prefix of its program, its frames ascend, an applied call has waited for its commit frame; counterexample schedules |
| C74 | `ReplayBatch`, `Replay` | batches as named, typed columns: the split of an ingest by its tombstones, the delete batch rebuilt from the key columns, the frames, and recovery's checks of schema and commit times; proof that the checks accept what the split builds; counterexample for the reserved name |
| C75 | `LogStock`, `WalScan` | one segment as bytes, the writer adding pieces of frames, any number of calls that read, empty and rewrite it; invariant that the segment is the frames written and a part of the current one; two counterexample schedules |
| C76 | `WalScan`, `Frame` | scanning a log followed by arbitrary bytes equals the events of the log followed by the scan of those bytes; the kinds of damage by evaluating the header checks |
| C77 | `WalSync`, `WalBoot`, `WalScan` | from the invariant of C61: closed files are complete, so what is read is an initial part; order of the writes as an invariant; opening by computation over the segments (`rehydrate`), for every cut of the last one; segments torn inside the log by induction over those before |
| C78 | `Minor` over `Run`; `mevent_step` for overlapping calls | a run with automatic flushes is a run of `Run` with flushes put in, to any level; invariant over schedules: only the holder of the lock is past it, and some call will still look at what waits |
| C79 | `WalNames`: names as bytes, listing as a list of paths in any order | digits read back to the number, for every 64-bit number; a listing is a permutation of the files of a set of numbers and foreign files; sorting and removing duplicates give the increasing list, which is what `WalScan` starts from |
| C80 | `Options`: the setters, `merge`, `apply`, the builder's calls, the two ways of opening | every field of the opened database is the last setting of it in the concatenated settings, by induction over the calls; merging overrides equals applying their settings one by one |
| C81 | `WorkerSteps`: the worker's loop in single steps, flushes that publish and then send a trigger, the timer, stalled writers | invariant: a level over its limit is covered by a trigger on its way, or by a fresh job that runs or will be planned; a stale job left in the queue is covered by two; steps of the worker alone decrease a lexicographic measure |
| C82 | `Stage`: the checks of the staging calls, reading rows out of a batch, the staged entries, the batches a commit builds | acceptance characterised by a separate definition of valid rows; what a call stages is a prefix of what it asks for; invariant: every staged entry is valid for its key, so the commit's batches build |
| C83 | `Listing`: the entries of `list_versions` over the versions of `Manifest` | induction over the calls of a run: the stored versions are those of the accepted publishes, in order, each showing the live set of their edits; saturating sums and level counts over a version equal the counts of the live set |
| C84 | `KeySize` (the size of a key), `Policy` (byte limits over the memtable's statistics) | key sizes respect the key order, by induction over the cells; after a policy-checked ingest the different keys of the index stay below the limit; refutation for every limit, by induction over the writes of one key |
| C85 | `Frame` (checksum, decoding), `WalScan` | the checksum register is a bijection in each step and linear in up to four bytes; scanning a damaged log as in C76 |

None of the properties was left out as not expressible.

## Trusted base

* Coq 8.16.1's kernel, including its virtual machine (`vm_compute`, `vm_cast_no_check`), used
  for concrete witnesses.
* `Print Assumptions` beside each theorem of `Props` prints "Closed under the global context":
  no axioms.  (Library files that get loaded contain `Coq.ssr.ssrunder` axioms; none is used.)
* That the model is the code.  Each definition cites the lines it models; nothing is extracted
  or generated from the Rust source, and the code was read, not run.
* Contracts of external code, written as definitions of the model:
  * `crossbeam_skiplist::SkipMap`, `BTreeMap`: ordered maps (`Model/OMap.v`).
  * Arrow record batches and Parquet files: lists of rows, read back as written.  What a filter
    pushed into a table scan removes is any function satisfying `push_ok` (`Spec/Valid.v`);
    page pruning may also leave out any rows newer than the read timestamp, as the code prunes
    with `commit_ts <= read_ts` (`push_ok`, `prune_contract`, `drops_newer`).
  * Arrow IPC (payloads of WAL frames): an oracle that inverts its own output
    (`Spec/WalSpec.v`).
  * The `crc32c` crate computes the CRC of `Model/Frame.v` (only C85 needs its strength; the published check value is confirmed by an example).
  * fusio file systems: bytes are appended in order, a crash leaves a prefix of them, and bytes
    whose write was acknowledged stay, whatever the sync policy (`WalWriter`, `WalDb`; what the policies give is `WalSync`);
    directory listings and whole-file reads are exact.
  * A file: written bytes are with the operating system after a flush of the handle (or at
    once, `y_buffered`), and on the disk after a sync of the path; new directory entries are
    on the disk (`WalSync`).
  * fusio-manifest: `Model/Sessions.v` (snapshot reads, commit by compare-and-swap).
  * Random table identifiers (ULIDs) are distinct (C40).
  * serde_json writes values as `Model/Json.v` does; Arrow's JSON of a schema determines the schema
    (C68); SHA-256 does not confuse the schemas compared (a hypothesis of C68).
  * serde's derived code, serde_json and fusio-manifest hand a reader the JSON value the writer
    gave; the key cells of typed-arrow-dyn are written with their type as tag; what the JSON
    reader makes of the digits of a float, and the path parser, are parameters (C70: `exact_reader`).
  * The channel of the futures crate: a message sent through a fresh clone of the sender is queued
    at once if the channel is open and its receiver exists, and is received in order; dropping the
    receiver drops the messages and their answer channels (C71).
  * The row builders of typed-arrow-dyn take a row with one cell per column, each null or of the kind of
    the column's type; a finished batch has no null in a column that is not nullable (C82).
  * A Parquet file gives back its columns in order, also two of one name (C72).
  * a path names one content while a process runs; a read beyond the end of a file fails (C69).

## Not modelled

* Interleavings of compactions with calls (`Sched` has calls and data without the log,
  `LogRace` calls and the log without data, `Jobs` flushes and compactions with abstract contents, `Sessions` manifest sessions; `WalDb` interrupts a
  call by a crash).
* The `Fast` commit acknowledgement together with data and commit times (`WriteCall` has it with the
  log), I/O errors other than those of the log (`LogQueue`, `WriteCall`), of publications and of single reads, file system back ends, the WASM target,
  metrics and statistics counters, timers (except the log's, `WalSync`), the background compaction loop
  together with the contents of files (`WorkerSteps` has the loop with flushes and triggers; any task can start at any time in `Jobs`), its lease, executing the garbage
  collection plan (the code has no executor), the iteration budget of compaction.
* Parquet encoding, statistics, and the content of bloom filters (how they are read is C69).
* Schemas beyond names, key types and key declarations (`KeyDecl`): nullability, nested columns, requests whose column types differ from the table's.

## Findings

What fails for the code as read, each shown by a theorem `..._refuted` on a concrete run of
the model (none was reproduced by running the program):

* C01, C03, C04, C39: a scan skips an immutable segment whose rows are all newer than the
  snapshot, with the older tombstones in it.
* C02, C05, C32: compacting a file with 1025 rows and a delete loses a row (batches of 1024).
* C06: a row and a delete of one call: the row reappears when a seal falls between them, or
  after a compaction.
* C08: a filter on a non-key column resurrects an overwritten version; `id = NULL`, and `False`
  on composite keys, return every memtable row; large string literals match nothing.
* C08, C09: bounds on 32-bit key columns are 64-bit keys, so rows are lost or gained.
* C13: NaN keys are not ordered; the two zeros are equal and hash differently.
* C14: a WAL payload of 2^32 bytes or more is written with a truncated length.
* C17, C28: acknowledged writes are lost, or the database does not open, after a null key, a
  full memtable, a seal during replay, or a clock behind the tables.
* C19: a commit timestamp is used twice after a restart whose state store lags.
* C20: a snapshot loses rows at a flush, and a deleted row comes back at a seal; a snapshot
  taken before the first commit is not stable.
* C21, C23: a flush after a transaction began changes what it reads and hides conflicts.
* C22: point reads miss flushed rows and prefer older segments.
* C29: a retention budget removes log segments whose records are in no table.
* C30: versions and commits are counted separately, so a snapshot at a listed version timestamp
  reads other data than that version had.
* C31: a compaction task can exceed the configured number of inputs and bytes.
* C34: one L0 file without size statistics switches the byte limits off.
* C36: a key deleted and written by one call stays deleted.
* C37: a rejected batch drops the segment sealed to make room for it; upserts of a call
  rejected for its deletes stay.
* C44: after a crash following a rotation an identifier is reused and rows of an unfinished
  transaction become readable.
* C45: a table with a column of a reserved name cannot write to the log.
* C46: policies see no row count, no age before the first seal, and are not evaluated at
  transaction commits; the default policy seals at 64 MiB, its documentation says 8 MiB.
* C47: batches without rows use up the memtable's slots for good.
* C48: frame numbers repeat after a restart: after a crash between a rotation and the save of
  the state, after a crash between a frame and the save of the state when the log is rotated
  before the next write, and always possible without a state store.
* C12: the residual evaluator compares floats of one type by the total order: -0.0 does not
  match `x = 0.0`, NaN matches `x > 0.0`; a literal of the other width decides differently.
* C51: concurrent transactions overwrite each other unnoticed: a begin between the timestamp and
  the insert of another commit, a begin before the first commit, a seal or flush before the
  check; ingests take no key locks.
* C52: a snapshot changes, shows half a transaction, or misses acknowledged rows while a write
  or a seal is in flight.
* C54: a seal or flush between planning and reading empties a scan.
* C56: overlapping calls lose acknowledged writes at the next crash: the log floor passes their
  frames (a write in flight during a flush, a seal during a flush, a write during a seal, two
  overlapping commits).
* C57: when the manifest accepts a compaction's commit but the call reports an error, the job
  deletes the files the current version is made of.
* C59: each compaction's clean-up plan replaces the one before, so obsolete files are forgotten.
* C60: the reserved commit timestamp column can be requested, but only while every row is in a file.
* C61, C63: a sync opens the segment again by its path without flushing the writer's handle.
  With a handle that buffers (tokio) and the default flush interval, an answered write is not
  on the disk under the policy "always", nor ever under the default policy, and is lost even
  if only the process stops.
* C65: with a queue longer than the number of concurrent jobs, an outdated job ends the worker's round early and it waits with levels over their limits.
* C66: the worker's own next round is not subject to the follow-up budget and cooldown.
* C62, C63: a restart forgets the bytes not yet synced and the sync that is due.
* C67: a key name with a comma that the schema builder writes into the metadata is read back as
  several columns; a field marker left in the schema overrides the key that the builder wrote.
  No error in either case.
* C68: a table definition records the names of the key columns, not their positions: with two
  fields of one name, opening by key name and from the metadata of the same schema gives two
  keys and one definition.
* C13: columns of union type are accepted as keys, but the key order has no case for them: all
  their values compare as equal, so distinct keys are one key in a memtable.
* C70: a float key that is an infinity or no number makes the version that holds its file
  unreadable: its bound is written as `null`, and the reader wants a number.  A file with a union
  key cannot be published at all.
* C71: the log writer stops at the first command that fails: the other commands that were waiting
  together with it get its error, also those already in the log, and every later write fails until
  the table is opened again.  A second `shutdown` call returns success without waiting.
* C72: no check keeps a user from naming a column `_commit_ts`: with the log on every write fails
  (C45); without it the numbers in that column are read from data files as commit times.
* C73: dropping the future of `ingest` or `commit` (a timeout, a `select!`) after its commit frame
  was handed to the log leaves a write that nobody can read and that the next open brings up,
  although nothing failed.  The same holds for a call that returns an error because another
  command of its batch failed.  A call also returns an error when only the minor compaction or the
  manifest update after it failed, though its write is applied and durable.  A fast commit that
  returned success is lost if the log fails later, without any call being told.
* C74: in a table keyed by a number column called `_commit_ts`, an ingest of tombstones only
  succeeds (at a commit time read from the key), but recovery refuses its frame: the database
  cannot be opened any more.
* C61: opening a log whose last frame is half written empties its last segment and writes the
  good part again.  A stop in between loses answered, synced writes; the new contents are not
  synced either.  (The recovery model of C17 treats this repair as one step.)
* C75: every commit and every flush calls the same repair on the log being written.  If it reads
  the segment while a frame is half written, the log loses an answered write or becomes unreadable.
* C76: recovery is documented to stop at the first unreadable frame; zeros at the end of the log
  or a wrong checksum make it, and every opening, fail.  A length field that is too large is taken
  for the end of the log: good frames after it are skipped and removed without an error.
* C77: with syncs disabled, a power loss can leave later segments of the log without the end of an
  earlier one.  Recovery does not notice a gap at a frame boundary.  A half frame in a closed
  segment is never repaired: the database cannot be opened, or it opens and loses all later writes
  at every following recovery.
* C78: commits seal segments but never flush: with transactions alone minor compaction does
  nothing, and sealed segments fill the memory.
* C79: the parser of segment numbers accepts a plus sign: `wal-+0000000000000000007.tonwal` is a
  second segment 7.  The S3 fallback listing is used only if the hinted segment is missing.
* C80: recovery modes `AbsoluteConsistency` and `SkipCorrupted` are accepted by the first open and
  refused by every later one.  `with_compaction_options` resets a strategy chosen before it.
* C81: the future of a flush dropped between the publication of its file and its trigger, a failed
  merge, or a queue longer than the number of concurrent jobs leave the compaction worker waiting with
  level 0 over its limit until something else wakes it.
* C82: `delete` in a transaction does not check the types of the key, the commit then fails and the
  other staged changes are lost.  `upsert_rows` and `upsert_batch` that fail leave part of their rows
  staged.  `upsert_batch` refuses column types that `upsert` accepts.
* C84: a limit in bytes counts the different keys only: integer keys have size 0, other columns and
  overwritten versions are not counted, so 300 MB of rows of one key stay below a limit of 64 MiB.
* C85: the checksum of a log record does not cover its sequence number; one flipped bit there
  can make recovery leave out a commit without an error.
