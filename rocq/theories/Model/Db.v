(** The database core: memtable, immutable segments, SST levels, commit clock and the
    WAL frame ranges kept beside them (src/db/mod.rs, src/db/wal.rs,
    src/transaction/mod.rs).  One call runs to completion before the next starts.  Definitions only. *)
From Coq Require Import List NArith Bool.
From Verif Require Import Base.Order Model.OMap Model.KeyTs Model.MemTable Model.Immutable
     Model.SsTable Model.MergeStream Model.KeyBounds Model.DbScan Model.Version.
Import ListNotations.

(** [WalFrameRange] (first, last) and [extend]: src/db/wal.rs:28-48 *)
Definition frame_range := (N * N)%type.
Definition range_extend (a b : frame_range) : frame_range :=
  (N.min (fst a) (fst b), N.max (snd a) (snd b)).

Section Db.
  Context {K : Type} {KO : KeyOrd K} {R : Type}.
  Variable key_of : R -> option K.

  (** [DbInner] (src/db/mod.rs) with its [SealState] (src/db/wal.rs:86-92).
      [d_levels] are the SST levels of the manifest's latest version; a manifest entry is
      modelled as the table itself, i.e. files are never overwritten (C33). *)
  Record db := mkDb {
    d_mem : mem K R;
    d_imm : list (seg K R);
    d_mrange : option frame_range;            (* [mutable_wal_range] *)
    d_iranges : list (option frame_range);    (* [immutable_wal_ranges] *)
    d_levels : list (list (sst K R));
    d_clock : N;
    d_next_id : N
  }.

  Definition set_mem (d : db) (m : mem K R) : db :=
    mkDb m (d_imm d) (d_mrange d) (d_iranges d) (d_levels d) (d_clock d) (d_next_id d).

  (** A new database: src/db/builder.rs:1055-1180 (clock 0, SST ids from 1). *)
  Definition db_new (capacity : nat) : db := mkDb (mem_new capacity) [] None [] [] 0 1.

  (** [CommitClock::alloc]: src/mvcc/mod.rs:93-98; returns the timestamp and advances
      with u64 wrap-around. *)
  Definition tick (d : db) : db :=
    mkDb (d_mem d) (d_imm d) (d_mrange d) (d_iranges d) (d_levels d)
         ((d_clock d + 1) mod 2 ^ 64)%N (d_next_id d).

  (** [record_mutable_wal_range]: src/db/wal.rs:393-402; nothing without a WAL. *)
  Definition observe_range (r : option frame_range) (d : db) : db :=
    match r with
    | None => d
    | Some r =>
        mkDb (d_mem d) (d_imm d)
             (Some (match d_mrange d with Some e => range_extend e r | None => r end))
             (d_iranges d) (d_levels d) (d_clock d) (d_next_id d)
    end.

  (** [take_mutable_wal_range] and [add_immutable]: src/db/wal.rs:386-409 *)
  Definition add_immutable (d : db) (m : mem K R) (s : seg K R) : db :=
    mkDb m (d_imm d ++ [s]) None (d_iranges d ++ [d_mrange d]) (d_levels d) (d_clock d) (d_next_id d).

  (** What the callers do with the result of a memtable insert:
      src/db/wal.rs:133-145, 167-178, 490-502, 565-569.  [false]: the call returned an error. *)
  Definition apply_insert (d : db) (r : minsert_result K R) : db * bool :=
    match r with
    | MOk m None => (set_mem d m, true)
    | MOk m (Some s) => (add_immutable d m s, true)
    | MKeyErr m => (set_mem d m, false)
    | MFail => (d, false)
    end.

  (** [seal_mutable_now]: src/db/wal.rs:147-155 *)
  Definition seal_now (d : db) : db * bool :=
    match seal key_of (d_mem d) with
    | SNone => (d, true)
    | SErr => (d, false)
    | SSealed m s => (add_immutable d m s, true)
    end.

  (** [maybe_seal_after_insert] (src/db/wal.rs:191-200) with the policy's decision as a
      parameter. *)
  Definition maybe_seal (decision : bool) (d : db) : db * bool :=
    if decision then seal_now d else (d, true).

  Definition seq2 (r : db * bool) (f : db -> db * bool) : db * bool :=
    let '(d, ok) := r in if ok then f d else (d, false).

  (** [insert_into_mutable] / [apply_committed_batch]: src/db/wal.rs:133-165 *)
  Definition put_rows (rows : list R) (ts : N) (d : db) : db * bool :=
    apply_insert d (mem_insert_batch key_of (d_mem d) rows ts).
  (** [apply_committed_deletes]: src/db/wal.rs:167-178 *)
  Definition put_deletes (ks : list (option K)) (ts : N) (d : db) : db * bool :=
    apply_insert d (mem_insert_deletes key_of (d_mem d) ks ts).

  (** [ingest]: src/db/mod.rs:766-807.  [span] is the WAL frame range of the write.
      Backpressure delays and the minor compaction trigger are not part of this
      step (the latter is the separate operation [flush]). *)
  Definition ingest (rows : list R) (span : option frame_range) (decision : bool) (d : db) : db * bool :=
    let ts := d_clock d in
    seq2 (put_rows rows ts (observe_range span (tick d))) (maybe_seal decision).

  (** [partition_batch_for_mutations]: src/db/wal.rs:677-719: rows to upsert, keys to
      delete. *)
  Definition part_upserts (rows : list (R * bool)) : list R :=
    map fst (filter (fun p => negb (snd p)) rows).
  Definition part_deletes (rows : list (R * bool)) : list (option K) :=
    map (fun p => key_of (fst p)) (filter snd rows).

  (** Apply upserts, then deletes, at one timestamp; an absent part is skipped:
      src/db/wal.rs:490-502, src/transaction/mod.rs:726-746 *)
  Definition apply_parts (ups : list R) (dels : list (option K)) (ts : N) (d : db) : db * bool :=
    seq2 (match ups with [] => (d, true) | _ => put_rows ups ts d end)
         (fun d1 => match dels with [] => (d1, true) | _ => put_deletes dels ts d1 end).

  (** [insert_dyn_wal_batch]: src/db/wal.rs:426-513.  Key columns are declared
      non-nullable in the delete schema or a null key is rejected by the memtable:
      either way the call fails; the model rejects it in the memtable. *)
  Definition ingest_with_tombstones (rows : list (R * bool)) (span : option frame_range)
             (decision : bool) (d : db) : db * bool :=
    match rows with
    | [] => (d, true)
    | _ =>
        let ts := d_clock d in
        seq2 (apply_parts (part_upserts rows) (part_deletes rows) ts (observe_range span (tick d)))
             (maybe_seal decision)
    end.

  (** *** Transactions *)

  (** [StagedMutations] entries: src/transaction/mod.rs:117-186; [Some row] = upsert. *)
  Definition staged_map := list (K * option R).

  (** [Transaction::upsert] / [delete]: src/transaction/mod.rs:421-457; [None]: the row
      was rejected (null key). *)
  Definition stage_upsert (s : staged_map) (r : R) : option staged_map :=
    match key_of r with Some k => Some (om_insert k (Some r) s) | None => None end.
  Definition stage_delete (s : staged_map) (k : K) : staged_map := om_insert k None s.

  (** [into_mutations]: src/transaction/mod.rs:188-198 *)
  Definition staged_rows (s : staged_map) : list R :=
    flat_map (fun e => match snd e with Some r => [r] | None => [] end) s.
  Definition staged_dels (s : staged_map) : list (option K) :=
    flat_map (fun e => match snd e with Some _ => [] | None => [Some (fst e)] end) s.

  (** The conflict check of [commit]: src/transaction/mod.rs:592-598 with
      src/db/wal.rs:180-189 *)
  Definition has_conflict (d : db) (snapshot_ts : N) (s : staged_map) : bool :=
    existsb (fun e => mem_has_conflict (d_mem d) (fst e) snapshot_ts
                      || existsb (fun g => seg_has_conflict g (fst e) snapshot_ts) (d_imm d)) s.

  Inductive commit_result := COk | CConflict | CError.

  (** [Transaction::commit]: src/transaction/mod.rs:558-680 (the manifest update of the
      WAL references is in [Model.WalDb]). *)
  Definition commit (snapshot_ts : N) (s : staged_map) (span : option frame_range) (d : db)
    : db * commit_result :=
    match s with
    | [] => (d, COk)
    | _ =>
        if has_conflict d snapshot_ts s then (d, CConflict)
        else
          let ts := d_clock d in
          let '(d', ok) := apply_parts (staged_rows s) (staged_dels s) ts (observe_range span (tick d)) in
          (d', if ok then COk else CError)
    end.

  (** [TransactionScan]: src/transaction/mod.rs:292-324: every staged entry, in key order,
      at the snapshot timestamp. *)
  Definition txn_entries (snapshot_ts : N) (s : staged_map) : list ((K * N) * option R) :=
    map (fun e => ((fst e, snapshot_ts), snd e)) s.

  (** *** Flush *)

  (** [flush_immutables_with_descriptor]: src/db/mod.rs:1094-1204, with the descriptor id
      taken from the id allocator (src/compaction/minor.rs); the level edit is
      [VersionEdit::AddSsts] on the level of the descriptor, which is the one given to
      [with_minor_compaction] (src/db/builder.rs:961-967). *)
  Definition flush (level : nat) (d : db) : db * bool :=
    match d_imm d with
    | [] => (d, false)
    | _ =>
        match write_flush key_of (d_next_id d) (d_imm d) with
        | FSst t =>
            (mkDb (d_mem d) [] (d_mrange d) (skipn (length (d_imm d)) (d_iranges d))
                  (tidy (@t_id K R) (add_ssts (@t_id K R) level [t] (d_levels d))) (d_clock d) (d_next_id d + 1)%N, true)
        | _ => (mkDb (d_mem d) (d_imm d) (d_mrange d) (d_iranges d) (d_levels d) (d_clock d)
                     (d_next_id d + 1)%N, false)
        end
    end.

  (** *** Reading *)

  (** [TxSnapshot]: the read timestamp and the pinned manifest version. *)
  Record snapshot := mkSnap { sn_ts : N; sn_levels : list (list (sst K R)) }.

  (** [begin_snapshot]: src/db/mod.rs:821-833 *)
  Definition begin_snapshot (d : db) : snapshot := mkSnap (d_clock d - 1)%N (d_levels d).

  (** A scan that plans and builds its streams against the same state. *)
  Definition scan_txn (prune : sst K R -> list (R * N)) (cp : cpred K R) (txn : option staged_map)
             (sn : snapshot) (limit : option nat) (d : db) : option (list ((K * N) * R)) :=
    let overlay := match txn with
                   | Some (e :: r) => Some (txn_entries (sn_ts sn) (e :: r))
                   | _ => None
                   end in
    let force := match overlay with Some _ => true | None => false end in
    exec_plan key_of overlay (d_mem d) (d_imm d)
              (plan_scan prune cp force (d_mem d) (d_imm d) (sn_levels sn) (sn_ts sn) limit).

  Definition scan prune cp sn limit d := scan_txn prune cp None sn limit d.

  (** A full scan at the latest snapshot, without predicate or limit. *)
  Definition read_all (d : db) : option (list ((K * N) * R)) :=
    scan (@t_rows K R) (cp_all) (begin_snapshot d) None d.
End Db.
Arguments db K R : clear implicits.
Arguments snapshot K R : clear implicits.
