(** The database with its WAL: writes go to the log first, flushes and commits publish WAL
    references and prune, a restart replays the log (src/db/mod.rs, src/db/wal.rs,
    src/transaction/mod.rs, src/db/builder.rs).  One call at a time; a crash may interrupt
    a call.  Definitions only. *)
From Coq Require Import List NArith Bool.
From Verif Require Import Base.Order Model.OMap Model.KeyTs Model.MemTable Model.Immutable
     Model.SsTable Model.Version Model.Compact Model.Planner Model.Db Model.DbCompact Model.WalScan
     Model.Replay Model.WalWriter Spec.History Model.Run.
Import ListNotations.

Section WalDb.
  Context {K : Type} {KO : KeyOrd K} {R : Type}.
  Variable key_of : R -> option K.
  Variable row_bytes : R -> nat.
  Variable del_bytes : K -> nat.

  (** The mutation payloads of the log with the timestamps of their commit column (the same
      for every row; bytes and columns are in [Model.Columns], [Model.Frame]). *)
  Inductive pay := LRows (rows : list R) (cts : N) | LDels (ks : list (option K)) (cts : N).
  Notation rec := (wrec pay).
  (** Bytes of the frame of a record. *)
  Variable size : rec -> N.

  (** Append and commit frames carry a provisional id where [scan_tail] looks for it:
      src/wal/storage.rs:355-380 *)
  Definition tail_id (r : rec) : option N :=
    match r with RPay i _ => Some i | RCommit i _ => Some i | _ => None end.
  Definition commit_of (r : rec) : option N := match r with RCommit _ t => Some t | _ => None end.

  (** A write call. *)
  Inductive wr := WIngest (rows : list R) | WTomb (rows : list (R * bool)) | WCommit (snapshot_ts : N) (muts : list (mut K R)).

  Definition part_pays (ups : list R) (dels : list (option K)) (ts : N) : list pay :=
    (match ups with [] => [] | _ => [LRows ups ts] end) ++ (match dels with [] => [] | _ => [LDels dels ts] end).

  (** The records a call writes: [ingest] src/db/mod.rs:778-795, [insert_dyn_wal_batch]
      src/db/wal.rs:436-478, [commit] src/transaction/mod.rs:558-640 with
      [write_wal_transaction] 1195-1235. *)
  Definition recs (d : db K R) (w : wr) (id ts : N) : list rec :=
    match w with
    | WIngest rows => [RPay id (LRows rows ts); RCommit id ts]
    | WTomb rows =>
        match rows with
        | [] => []
        | _ => map (RPay id) (part_pays (part_upserts rows) (part_deletes key_of rows) ts) ++ [RCommit id ts]
        end
    | WCommit snap ms =>
        match stage key_of ms with
        | [] => []
        | s => if has_conflict d snap s then []
               else RBegin id :: map (RPay id) (part_pays (staged_rows s) (staged_dels s) ts) ++ [RCommit id ts]
        end
    end.
  (** The mutations of a call. *)
  Definition wr_muts (w : wr) : list (mut K R) :=
    match w with WIngest rows => map Put rows | WTomb rows => tomb_muts key_of rows | WCommit _ ms => accepted key_of ms end.

  (** The database, its log, the WAL references of the manifest's latest version
      ([wal_segments]; the floor is the first, src/manifest/domain.rs:395-408), the WAL ids
      of each SST ([SstEntry::wal_segments]), the SST ids that occur in some version, and
      the next provisional id. *)
  Record sys := mkSys {
    y_st : state K R;
    y_log : writer rec;
    y_refs : list seg_ref;
    y_ids : list (N * option (list N));
    y_seen : list N;
    y_prov : N
  }.
  Definition floor_of (refs : list seg_ref) : option seg_ref := match refs with [] => None | r :: _ => Some r end.

  Definition span_of (acks : list (N * N)) : option frame_range :=
    match acks with [] => None | a :: r => Some (fold_left range_extend r a) end.

  (** [wal_live_frame_floor]: src/db/wal.rs:344-359 *)
  Definition live_floor (d : db K R) : option N :=
    fold_left (fun m r => match m, r with
                          | Some a, Some b => Some (N.min a (fst b))
                          | None, Some b => Some (fst b)
                          | m, None => m
                          end) (d_iranges d) (option_map fst (d_mrange d)).

  Definition write_op (w : wr) (span : option frame_range) (dec : bool) : op K R :=
    match w with
    | WIngest rows => OIngest rows span dec
    | WTomb rows => OTomb rows span dec
    | WCommit snap ms => OCommit snap ms span
    end.

  (** The manifest update that ends a strict commit: src/transaction/mod.rs:1327-1373; [n]
      is how far pruning got. *)
  Definition finalize (prev : option N) (first : N) (n : nat) (refs : list seg_ref) (w : writer rec)
    : list seg_ref * writer rec :=
    let live := match prev with Some p => N.min p first | None => first end in
    match seg_refs (option_map r_seq (floor_of refs)) (Some live) (w_files w) with
    | [] => (refs, w)
    | refs' => (refs', prune (floor_of refs') n w)
    end.

  (** [ingest], [ingest_with_tombstones], [Transaction::commit] in strict mode.  [None]: the
      WAL writer failed. *)
  Definition write (cf : wconf) (w : wr) (dec : bool) (n : nat) (y : sys) : option sys :=
    let d := st_db (y_st y) in
    match recs d w (y_prov y) (d_clock d) with
    | [] => Some (mkSys (step key_of row_bytes del_bytes (y_st y) (write_op w None dec)) (y_log y) (y_refs y) (y_ids y) (y_seen y) (y_prov y))
    | l =>
        match enqueues size commit_of cf l (y_log y) with
        | None => None
        | Some (log, acks) =>
            let span := span_of acks in
            let s' := step key_of row_bytes del_bytes (y_st y) (write_op w span dec) in
            let '(refs, log') :=
              match w, span with
              | WCommit _ _, Some r =>
                  (* an error while applying skips the manifest update *)
                  if Nat.ltb (length (st_hist (y_st y))) (length (st_hist s'))
                  then finalize (live_floor d) (fst r) n (y_refs y) log
                  else (y_refs y, log)
              | _, _ => (y_refs y, log)
              end in
            Some (mkSys s' log' refs (y_ids y) (y_seen y) (y_prov y + 1))
        end
    end.

  (** *** Flush and compaction *)
  Definition ids_of (ids : list (N * option (list N))) (id : N) : option (list N) :=
    match find (fun e => fst e =? id)%N ids with Some e => snd e | None => None end.
  Definition level_ids (ls : list (list (sst K R))) : list N := map (@t_id K R) (concat ls).

  (** [flush_immutables_with_descriptor]: src/db/mod.rs:1094-1190: the live floor is that of
      the memtable. *)
  Definition flush_sys (level n : nat) (y : sys) : sys :=
    let d := st_db (y_st y) in
    let '(d', ok) := flush key_of level d in
    let s' := mkSt d' (st_hist (y_st y)) (st_horizon (y_st y)) in
    if ok then
      let refs := seg_refs (option_map r_seq (floor_of (y_refs y))) (option_map fst (d_mrange d)) (w_files (y_log y)) in
      let wids := match refs with [] => None | _ => Some (map r_seq refs) end in
      mkSys s' (prune (floor_of refs) n (y_log y)) refs ((d_next_id d, wids) :: y_ids y)
            (level_ids (d_levels d') ++ y_seen y) (y_prov y)
    else mkSys s' (y_log y) (y_refs y) (y_ids y) (y_seen y) (y_prov y).

  (** [wal_ids_for_remaining_ssts]: src/compaction/orchestrator.rs:87-113 *)
  Fixpoint all_wal_ids (ids : list (N * option (list N))) (tables : list N) : option (list N) :=
    match tables with
    | [] => Some []
    | t :: r => match ids_of ids t, all_wal_ids ids r with
                | Some a, Some b => Some (a ++ b)
                | _, _ => None
                end
    end.
  Definition in_list (l : list N) (r : seg_ref) : bool := existsb (N.eqb (r_seq r)) l.
  Fixpoint has_gaps (l : list seg_ref) : bool :=
    match l with a :: (b :: _) as r => (sat1 (r_seq a) <? r_seq b)%N || has_gaps r | _ => false end.
  (** [wal_segments_after_compaction]: src/compaction/orchestrator.rs:119-160; file ids are
      functions of the sequence numbers. *)
  Fixpoint before_ref (s : N) (l : list seg_ref) : list seg_ref :=
    match l with [] => [] | r :: q => if (r_seq r =? s)%N then [] else r :: before_ref s q end.
  Definition refs_after (ids : list (N * option (list N))) (tables : list N) (refs : list seg_ref) : list seg_ref :=
    match all_wal_ids ids tables with
    | None => refs
    | Some l =>
        match refs with
        | [] => refs
        | _ =>
            let kept := filter (in_list l) refs in
            match kept with
            | [] => []
            | first :: _ =>
                if has_gaps refs then
                  match before_ref (r_seq first) refs with
                  | [] => refs
                  | pre => pre ++ kept
                  end
                else kept
            end
        end
    end.

  (** [run_compaction] with [reconcile_wal_segments]: src/compaction/driver.rs:439-660,
      src/compaction/orchestrator.rs:165-197, src/ondisk/merge.rs:675-700 (the outputs name
      the WAL ids of all inputs). *)
  Definition compact_sys (mc : mconf) (ch : chunking K R) (tk : task K) (n : nat) (y : sys) : sys :=
    let d := st_db (y_st y) in
    let s' := step key_of row_bytes del_bytes (y_st y) (OCompact mc ch tk) in
    let d' := st_db s' in
    if snd (compact key_of row_bytes del_bytes mc ch tk d) then
      let union := flat_map (fun i => match ids_of (y_ids y) (snd i) with Some l => l | None => [] end) (tk_input tk) in
      let out := match union with [] => None | _ => Some union end in
      let fresh := filter (fun t => (d_next_id d <=? t)%N) (level_ids (d_levels d')) in
      let ids' := map (fun t => (t, out)) fresh ++ y_ids y in
      let refs := refs_after ids' (level_ids (d_levels d')) (y_refs y) in
      mkSys s' (prune (floor_of refs) n (y_log y)) refs ids' (level_ids (d_levels d') ++ y_seen y) (y_prov y)
    else mkSys s' (y_log y) (y_refs y) (y_ids y) (y_seen y) (y_prov y).

  (** *** Crash and recovery *)

  (** Apply one payload during replay: src/db/wal.rs:255-290 with [apply_dyn_wal_batch]
      521-572, [apply_dyn_delete_wal_batch] 574-591, and the seal policy's decision after
      it (the next element of the list). *)
  Definition apply_pay (p : pay) (ts : N) (s : db K R * list bool) : option (db K R * list bool) :=
    let '(d, decs) := s in
    let '(dec, decs') := match decs with [] => (false, []) | b :: r => (b, r) end in
    let r := match p with
             | LRows rows cts => match rows with
                                 | [] => put_rows key_of [] ts d
                                 | _ => if (cts =? ts)%N then put_rows key_of rows ts d else (d, false)
                                 end
             | LDels ks cts => match ks with
                               | [] => put_deletes key_of [] ts d
                               | _ => if (cts =? ts)%N then put_deletes key_of ks ts d else (d, false)
                               end
             end in
    let '(d', ok) := seq2 r (maybe_seal key_of dec) in
    if ok then Some (d', decs') else None.

  (** [next_sstable_id]: src/db/builder.rs:1781-1793 *)
  Definition next_id_of (seen : list N) : N :=
    match seen with [] => 1 | _ => sat1 (fold_right N.max 0%N seen) end.

  (** [recover_with_wal_inner]: src/db/mod.rs:704-763 from the log records [l] found. *)
  Definition recover_db (cap : nat) (levels : list (list (sst K R))) (next_id : N) (floor : option seg_ref)
             (hint : option N) (decs : list bool) (l : list rec) : option (db K R) :=
    let range := match l with
                 | [] => None
                 | _ => match floor with Some f => Some (r_first f, r_last f) | None => Some (1, 1)%N end
                 end in
    match replay apply_pay l [] None (mkDb (mem_new cap) [] range [] levels 0 next_id, decs) with
    | None => None
    | Some ((d, _), last) =>
        let clock := match (match last with Some t => Some t | None => hint end) with
                     | Some t => sat1 t
                     | None => 0%N
                     end in
        Some (mkDb (d_mem d) (d_imm d) (d_mrange d) (d_iranges d) (d_levels d) clock (d_next_id d))
    end.

  (** The log when the process dies in a write: the first [j] records went through, the next
      one reached the given stage. *)
  Definition crash_log (cf : wconf) (l : list rec) (j : nat) (sg : WalWriter.stage) (w : writer rec) : option (writer rec) :=
    match enqueues size commit_of cf (firstn j l) w with
    | None => None
    | Some (w1, _) =>
        match nth_error l j with
        | None => Some w1
        | Some a => enqueue_until size commit_of cf sg a w1
        end
    end.
  (** The interrupted call, if any. *)
  Definition inflight := option (wr * nat * WalWriter.stage).
  Definition crash (cf : wconf) (fl : inflight) (y : sys) : option sys :=
    match fl with
    | None => Some y
    | Some (w, j, sg) =>
        let d := st_db (y_st y) in
        let l := recs d w (y_prov y) (d_clock d) in
        match crash_log cf l j sg (y_log y) with
        | None => None
        | Some log =>
            (* with its commit record on disk the call counts as done *)
            let h := if Nat.ltb (S j) (length l) then [] else match l, wr_muts w with
                     | [], _ => [] | _, [] => [] | _, ms => [(d_clock d, ms)] end in
            Some (mkSys (mkSt d (st_hist (y_st y) ++ h) (st_horizon (y_st y))) log (y_refs y) (y_ids y) (y_seen y) (y_prov y))
        end
    end.

  (** Reopening: src/db/builder.rs:1649-1745.  Memory is lost; files, manifest and the
      persisted WAL state remain. *)
  Definition reopen (cf : wconf) (decs : list bool) (y : sys) : option sys :=
    let d := st_db (y_st y) in
    let fs := w_files (y_log y) in
    let fl := floor_of (y_refs y) in
    match recover_db (m_capacity (d_mem d)) (d_levels d) (next_id_of (y_seen y)) fl
                     (if c_state cf then ws_commit (w_disk (y_log y)) else None) decs
                     (map snd (frames_from fl fs)),
          open size cf fs (w_disk (y_log y)) with
    | Some d', Some log =>
        Some (mkSys (mkSt d' (st_hist (y_st y)) (st_horizon (y_st y))) log (y_refs y) (y_ids y) (y_seen y) (open_prov tail_id fs))
    | _, _ => None
    end.

  (** *** Runs *)
  Inductive yop :=
  | YWrite (w : wr) (dec : bool) (n : nat)
  | YFlush (level n : nat)
  | YCompact (mc : mconf) (ch : chunking K R) (tk : task K) (n : nat)
  | YRotate
  | YRestart (fl : inflight) (decs : list bool).

  Definition ystep (cf : wconf) (y : sys) (o : yop) : option sys :=
    match o with
    | YWrite w dec n => write cf w dec n y
    | YFlush level n => Some (flush_sys level n y)
    | YCompact mc ch tk n => Some (compact_sys mc ch tk n y)
    | YRotate => match rotate_now cf (y_log y) with
                 | Some log => Some (mkSys (y_st y) log (y_refs y) (y_ids y) (y_seen y) (y_prov y))
                 | None => None
                 end
    | YRestart fl decs => match crash cf fl y with Some y' => reopen cf decs y' | None => None end
    end.
  Fixpoint yrun (cf : wconf) (y : sys) (ops : list yop) : option sys :=
    match ops with
    | [] => Some y
    | o :: r => match ystep cf y o with Some y' => yrun cf y' r | None => None end
    end.
  (** A new database: segment 0 is created empty. *)
  Definition ystart (cf : wconf) (capacity : nat) : sys :=
    mkSys (start capacity) (mkWr [] 0 [] 0 [] 1 1 wstate0 wstate0) [] [] [] 1.
End WalDb.
Arguments pay K R : clear implicits.
Notation rec K R := (wrec (pay K R)).
Arguments wr K R : clear implicits.
Arguments sys K R : clear implicits.
Arguments yop K R : clear implicits.
Arguments inflight K R : clear implicits.
