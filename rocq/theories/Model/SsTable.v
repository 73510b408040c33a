(** SSTables: writing a flush (src/ondisk/sstable.rs) and scanning one
    (src/ondisk/scan.rs).  Definitions only.

    Simplifications: a Parquet file is the list of its rows in order, with the
    [_commit_ts] column beside each row; the delete sidecar file is the list of its
    (key, commit timestamp) pairs.  Reading back a Parquet file is assumed to return
    what was written.  The user schema has no column called [_sequence].  Row
    indices stay below 2^32.  I/O errors are not modelled. *)
From Coq Require Import List NArith Bool.
From Verif Require Import Base.Order Model.OMap Model.KeyTs Model.MemTable Model.Immutable.
Import ListNotations.

(** Contract of [slice::sort_by] (a stable sort): insertion sort.  [le a b] is
    "[a] may stay before [b]", i.e. the comparator does not return [Greater]. *)
Section Sort.
  Context {A : Type}.
  Variable le : A -> A -> bool.
  Fixpoint sort_insert (a : A) (l : list A) : list A :=
    match l with
    | [] => [a]
    | b :: r => if le a b then a :: l else b :: sort_insert a r
    end.
  Fixpoint sort_by (l : list A) : list A :=
    match l with
    | [] => []
    | a :: r => sort_insert a (sort_by r)
    end.
End Sort.

Section Sst.
  Context {K : Type} {KO : KeyOrd K} {R : Type}.
  Variable key_of : R -> option K.

  (** [SsTableDescriptor] with its [SsTableStats] and the contents of its two files:
      src/ondisk/sstable.rs:262-345. *)
  Record sst := mkSst {
    t_id : N;
    t_rows : list (R * N);
    t_dels : list (K * N);
    t_min_key : option K;
    t_max_key : option K;
    t_min_ts : option N;
    t_max_ts : option N
  }.

  (** [StagedSegment]: src/ondisk/sstable.rs:499-502 (data with its commit column, and
      the delete sidecar). *)
  Definition staged := (list (R * N) * list (K * N))%type.

  (** [StagedTableStats] (key and timestamp bounds only): src/ondisk/sstable.rs:418-426 *)
  Record stats := mkStats {
    st_min_key : option K; st_max_key : option K;
    st_min_ts : option N; st_max_ts : option N;
    st_segments : nat
  }.
  Definition stats_new : stats := mkStats None None None None 0.

  (** [update_key_bounds]: src/ondisk/sstable.rs:442-451 *)
  Definition update_key_bounds (s : stats) (mn mx : K) : stats :=
    mkStats (match st_min_key s with
             | Some e => if kleb e mn then Some e else Some mn
             | None => Some mn end)
            (match st_max_key s with
             | Some e => if kleb mx e then Some e else Some mx
             | None => Some mx end)
            (st_min_ts s) (st_max_ts s) (st_segments s).

  (** [update_commit_bounds]: src/ondisk/sstable.rs:455-464 *)
  Definition update_commit_bounds (s : stats) (mn mx : N) : stats :=
    mkStats (st_min_key s) (st_max_key s)
            (match st_min_ts s with
             | Some e => if N.leb e mn then Some e else Some mn
             | None => Some mn end)
            (match st_max_ts s with
             | Some e => if N.leb mx e then Some e else Some mx
             | None => Some mx end)
            (st_segments s).

  (** [stage_immutable]: src/ondisk/sstable.rs:527-579.  [row_iter]
      (src/inmem/immutable/memtable.rs:466-485) yields every index entry, deletes
      included. *)
  Definition stage_immutable (w : stats * list staged) (g : seg K R) : stats * list staged :=
    match s_rows g, s_del_keys g with
    | [], [] => w
    | _, _ =>
        let st := fst w in
        let st1 := match seg_min_key g, seg_max_key g with
                   | Some a, Some b => update_key_bounds st a b
                   | _, _ => st
                   end in
        let st2 := match ts_bounds (map (fun e => snd (fst e)) (s_index g)) with
                   | Some (mn, mx) => update_commit_bounds st1 mn mx
                   | None => st1
                   end in
        (mkStats (st_min_key st2) (st_max_key st2) (st_min_ts st2) (st_max_ts st2)
                 (S (st_segments st2)),
         snd w ++ [(combine (s_rows g) (map fst (s_mvcc g)),
                    combine (s_del_keys g) (s_del_ts g))])
    end.

  (** [SortKey]: src/ondisk/sstable.rs:697-703, carrying its payload along. *)
  Record sort_key (A : Type) := mkSK {
    sk_key : K; sk_ts : N; sk_seq : nat; sk_row : nat; sk_val : A
  }.
  Arguments mkSK {A}. Arguments sk_key {A}. Arguments sk_ts {A}.
  Arguments sk_seq {A}. Arguments sk_row {A}. Arguments sk_val {A}.

  (** The comparator of [sort_data_rows] and [sort_delete_rows]
      (src/ondisk/sstable.rs:807-813, 888-894): key ascending, commit timestamp
      descending, sequence descending, row index ascending. *)
  Definition sk_cmp {A} (a b : sort_key A) : comparison :=
    match kcmp (sk_key a) (sk_key b) with
    | Eq => match N.compare (sk_ts b) (sk_ts a) with
            | Eq => match Nat.compare (sk_seq b) (sk_seq a) with
                    | Eq => Nat.compare (sk_row a) (sk_row b)
                    | c => c
                    end
            | c => c
            end
    | c => c
    end.
  Definition sk_le {A} (a b : sort_key A) : bool :=
    match sk_cmp a b with Gt => false | _ => true end.

  (** Sort keys of one batch: the sequence is the row index within the batch
      (src/ondisk/sstable.rs:775-792).  [None]: a null key. *)
  Fixpoint keys_of_rows (i off : nat) (rows : list (R * N)) : option (list (sort_key (R * N))) :=
    match rows with
    | [] => Some []
    | (r, t) :: rs =>
        match key_of r, keys_of_rows (S i) off rs with
        | Some k, Some ks => Some (mkSK k t i (off + i) (r, t) :: ks)
        | _, _ => None
        end
    end.
  Fixpoint keys_of_dels (i off : nat) (ds : list (K * N)) : list (sort_key (K * N)) :=
    match ds with
    | [] => []
    | (k, t) :: r => mkSK k t i (off + i) (k, t) :: keys_of_dels (S i) off r
    end.
  Fixpoint data_sort_keys (off : nat) (l : list staged) : option (list (sort_key (R * N))) :=
    match l with
    | [] => Some []
    | (rows, _) :: r =>
        match keys_of_rows 0 off rows, data_sort_keys (off + length rows) r with
        | Some a, Some b => Some (a ++ b)
        | _, _ => None
        end
    end.
  Fixpoint delete_sort_keys (off : nat) (l : list staged) : list (sort_key (K * N)) :=
    match l with
    | [] => []
    | (_, ds) :: r => keys_of_dels 0 off ds ++ delete_sort_keys (off + length ds) r
    end.

  (** [normalize_immutable_flush_segments]: src/ondisk/sstable.rs:705-720 *)
  Definition normalize (l : list staged) : option (list staged) :=
    if Nat.leb (length l) 1 then Some l
    else
      match data_sort_keys 0 l with
      | None => None
      | Some dk =>
          Some [(map sk_val (sort_by sk_le dk),
                 map sk_val (sort_by sk_le (delete_sort_keys 0 l)))]
      end.

  (** Outcome of writing a flush: [FNone] is [NoImmutableSegments]. *)
  Inductive flush_result := FNone | FErr | FSst (t : sst).

  (** [SsTableBuilder] over the immutables followed by [ParquetTableWriter::finish]:
      src/ondisk/sstable.rs:653-689 *)
  Definition write_flush (id : N) (segs : list (seg K R)) : flush_result :=
    let '(st, l) := fold_left stage_immutable segs (stats_new, []) in
    if Nat.eqb (st_segments st) 0 then FNone
    else
      match (if Nat.ltb 1 (length l) then normalize l else Some l) with
      | None => FErr
      | Some l' =>
          FSst (mkSst id (concat (map fst l')) (concat (map snd l'))
                      (st_min_key st) (st_max_key st) (st_min_ts st) (st_max_ts st))
      end.

  (** Data entries visible at [read_ts] with their keys, in file order:
      [poll_next_data_entry] (src/ondisk/scan.rs:457-513).  The keys are projected
      batch by batch; [None] is a key error. *)
  Fixpoint data_entries (read_ts : N) (rows : list (R * N)) : option (list ((K * N) * R)) :=
    match rows with
    | [] => Some []
    | (r, t) :: rs =>
        match key_of r, data_entries read_ts rs with
        | Some k, Some es => Some (if N.ltb read_ts t then es else ((k, t), r) :: es)
        | _, _ => None
        end
    end.
  (** [poll_next_delete_entry]: src/ondisk/scan.rs:516-554 *)
  Definition delete_entries (read_ts : N) (ds : list (K * N)) : list (K * N) :=
    filter (fun d => negb (N.ltb read_ts (snd d))) ds.

  (** [process_data_entry] / [process_delete_entry]: src/ondisk/scan.rs:406-454.
      Returns the new (current_key, emitted_for_key) and whether to emit. *)
  Definition process (cur : option K) (emitted : bool) (k : K) : option K * bool :=
    let is_new := match cur with Some c => negb (keqb c k) | None => true end in
    if is_new then (Some k, true) else (cur, negb emitted).

  (** [SstableScan::poll_next] driven to the end: src/ondisk/scan.rs:279-401.  The
      fuel is the number of remaining entries; [None] only if it runs out. *)
  Fixpoint sst_merge (fuel : nat) (cur : option K) (emitted : bool)
           (data : list ((K * N) * R)) (dels : list (K * N))
    : option (list ((K * N) * option R)) :=
    match fuel with
    | O => match data, dels with [], [] => Some [] | _, _ => None end
    | S fuel =>
        let emit k (v : (K * N) * option R) data' dels' :=
          let '(cur', e) := process cur emitted k in
          match sst_merge fuel cur' true data' dels' with
          | Some r => Some (if e then v :: r else r)
          | None => None
          end in
        match data, dels with
        | [], [] => Some []
        | ((k, t), r) :: data', [] => emit k ((k, t), Some r) data' []
        | [], (k, t) :: dels' => emit k ((k, t), None) [] dels'
        | ((k, t), r) :: data', (dk, dt) :: dels' =>
            match kcmp k dk with
            | Lt => emit k ((k, t), Some r) data' dels
            | Gt => emit dk ((dk, dt), None) data dels'
            | Eq => if N.leb t dt then emit dk ((dk, dt), None) data' dels'
                    else emit k ((k, t), Some r) data' dels'
            end
        end
    end.

  (** A scan of one SSTable at [read_ts].  [rows] are the rows of the data file the
      planner selected (row groups and row selection, src/db/scan.rs:733-738); [keep] is
      the Parquet row filter pushed down to the data file (src/db/scan.rs:737); the
      delete sidecar is read whole (src/db/scan.rs:757-762). *)
  Definition sst_scan (keep : R -> bool) (rows : list (R * N)) (del : list (K * N)) (read_ts : N)
    : option (list ((K * N) * option R)) :=
    match data_entries read_ts (filter (fun p => keep (fst p)) rows) with
    | None => None
    | Some data =>
        let dels := delete_entries read_ts del in
        sst_merge (length data + length dels) None false data dels
    end.
End Sst.
Arguments sst K R : clear implicits.
Arguments flush_result K R : clear implicits.
Arguments mkSst {K R}.
Arguments mkSK {K A}. Arguments sk_key {K A}. Arguments sk_ts {K A}.
Arguments sk_seq {K A}. Arguments sk_row {K A}. Arguments sk_val {K A}.
