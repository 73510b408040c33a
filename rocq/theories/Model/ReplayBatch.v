(** The record batches of a write: how a call splits its batch, what it hands to the log and to
    the memtable, and what recovery checks before it hands a batch of the log to the memtable:
    src/db/wal.rs:424-508, 515-759, src/mode/mod.rs:62-92, src/transaction/mod.rs:691-724,
    1195-1229, src/inmem/mutable/memtable.rs:193-289, 647-690, 716-725.  Definitions only.

    Simplifications: an array of a type other than UInt64 is its type and its values; a field of
    such an array has its metadata as part of the type.  Row numbers are unbounded (32 bits in
    the code).  The checks that hold back a call with null keys are in [put_entries]. *)
From Coq Require Import List NArith Bool String.
From Verif Require Import Model.Columns Model.Frame Model.MemTable Model.Replay.
Import ListNotations.
Local Open Scope N_scope.

Section ReplayBatch.
  Context {T V : Type}.
  Variable T_eqb : T -> T -> bool.

  Record arr := mkArr { a_type : T; a_vals : list (option V) }.
  Definition arr_len (a : arr) : nat := List.length (a_vals a).
  Notation batch := (batch arr).
  Notation column := (column arr).

  (** [Schema]: fields with their types ([None]: UInt64) and metadata. *)
  Record schema := mkSchema { sc_fields : list (field * option T); sc_meta : list (string * string) }.
  Definition col_type (c : column) : option T := match c with U64 _ => None | Other a => Some (a_type a) end.
  Definition schema_of (b : batch) : schema :=
    mkSchema (map (fun fc => (fst fc, col_type (snd fc))) (b_cols b)) (b_meta b).

  (** [Schema]'s equality (external; metadata is a map, here a list in a fixed order). *)
  Definition field_eqb (a b : field * option T) : bool :=
    String.eqb (f_name (fst a)) (f_name (fst b)) && Bool.eqb (f_nullable (fst a)) (f_nullable (fst b)) &&
    match snd a, snd b with None, None => true | Some x, Some y => T_eqb x y | _, _ => false end.
  Fixpoint list_eqb {A} (eqb : A -> A -> bool) (l m : list A) : bool :=
    match l, m with
    | [], [] => true
    | a :: l', b :: m' => eqb a b && list_eqb eqb l' m'
    | _, _ => false
    end.
  Definition schema_eqb (a b : schema) : bool :=
    list_eqb field_eqb (sc_fields a) (sc_fields b) &&
    list_eqb (fun x y => String.eqb (fst x) (fst y) && String.eqb (snd x) (snd y)) (sc_meta a) (sc_meta b).

  (** A table: its schema and its key columns.  [delete_schema]: src/mode/mod.rs:72-73, 84-92
      with the fields of the key, src/extractor/extractors.rs:69-73; [None]: a key column that
      is not there (a panic). *)
  Record table := mkTable { t_schema : schema; t_keys : list nat }.
  Definition key_fields (t : table) : option (list (field * option T)) :=
    mapM (nth_error (sc_fields (t_schema t))) (t_keys t).
  Definition delete_schema (t : table) : option schema :=
    match key_fields t with
    | Some fs => Some (mkSchema (fs ++ [(mkField commit_col false, None)]) [])
    | None => None
    end.

  (** [take] (external): the rows with these numbers. *)
  Definition col_take (idx : list nat) (c : column) : column :=
    match c with
    | U64 l => U64 (map (fun i => nth i l None) idx)
    | Other a => Other (mkArr (a_type a) (map (fun i => nth i (a_vals a) None) idx))
    end.
  (** [RecordBatch::try_new] with a schema (external contract): as many columns as fields, of
      their types. *)
  Definition try_new_schema (s : schema) (cols : list column) : option batch :=
    if list_eqb (fun a b => match a, b with None, None => true | Some x, Some y => T_eqb x y | _, _ => false end)
                (map snd (sc_fields s)) (map col_type cols)
    then try_new arr arr_len (combine (map fst (sc_fields s)) cols) (sc_meta s) else None.

  (** The row numbers with a flag: src/db/wal.rs:689-697 *)
  Fixpoint flagged (flag : bool) (i : nat) (tombs : list bool) : list nat :=
    match tombs with
    | [] => []
    | x :: r => if Bool.eqb x flag then i :: flagged flag (S i) r else flagged flag (S i) r
    end.
  (** [take_full_batch]: src/db/wal.rs:752-759 *)
  Definition take_full_batch (b : batch) (idx : list nat) : option batch :=
    try_new_schema (schema_of b) (map (fun fc => col_take idx (snd fc)) (b_cols b)).
  (** [build_delete_batch]: src/db/wal.rs:721-750 *)
  Definition build_delete_batch (t : table) (b : batch) (idx : list nat) (ts : N) : option batch :=
    match mapM (nth_error (b_cols b)) (t_keys t), delete_schema t with
    | Some kcs, Some ds =>
        try_new_schema ds (map (fun fc => col_take idx (snd fc)) kcs ++ [ts_column ts (List.length idx)])
    | _, _ => None
    end.

  Inductive werr := SchemaMismatch | TombstoneLength | ArrowError | CodecError | KeyError.
  Inductive wres (A : Type) := WOk (a : A) | WErr (e : werr).
  Arguments WOk {A}. Arguments WErr {A}.

  (** [partition_batch_for_mutations]: src/db/wal.rs:677-719 *)
  Definition partition (t : table) (b : batch) (tombs : list bool) (ts : N) : wres (option batch * option batch) :=
    match b_rows b with
    | O => WOk (None, None)
    | S _ =>
        let dels := flagged true 0 tombs in
        let ups := flagged false 0 tombs in
        match dels with
        | [] => WOk (Some b, None)
        | _ =>
            match build_delete_batch t b dels ts with
            | None => WErr ArrowError
            | Some d =>
                match ups with
                | [] => WOk (None, Some d)
                | _ => match take_full_batch b ups with Some u => WOk (Some u, Some d) | None => WErr ArrowError end
                end
            end
        end
    end.

  (** What is handed to the memtable: rows with their column of commit times, or a delete batch. *)
  Inductive put := PutRows (b : batch) (ts_col : column) | PutDels (b : batch).

  (** The commands of a write (src/db/wal.rs:450-481, src/transaction/mod.rs:1205-1220) and its
      puts (src/db/wal.rs:491-502, src/transaction/mod.rs:726-756). *)
  Definition commands_of (id ts : N) (u d : option batch) : list (command arr) :=
    match u with Some b => [CmdRows id b (ts_column ts (b_rows b))] | None => [] end ++
    match d with Some b => [CmdDelete id b] | None => [] end ++ [CmdCommit id ts].
  Definition puts_of (ts : N) (u d : option batch) : list put :=
    match u with Some b => [PutRows b (ts_column ts (b_rows b))] | None => [] end ++
    match d with Some b => [PutDels b] | None => [] end.

  (** [insert_dyn_wal_batch] up to the log: src/db/wal.rs:434-448, with [validate_record_batch_schema]
      (593-609) and [validate_vec_tombstone_bitmap] (611-622).  Two absent batches: the call
      returns at once. *)
  Definition ingest_batches (t : table) (b : batch) (tombs : list bool) (ts : N) : wres (option batch * option batch) :=
    if negb (schema_eqb (t_schema t) (schema_of b)) then WErr SchemaMismatch
    else if negb (Nat.eqb (b_rows b) (List.length tombs)) then WErr TombstoneLength
    else partition t b tombs ts.

  (** Every value is there and equal to the commit time: src/db/wal.rs:543-562, 656-673 *)
  Definition times_are (ts : N) (c : column) : bool :=
    match c with
    | Other _ => false
    | U64 l => forallb (fun v => match v with Some x => x =? ts | None => false end) l
    end.

  (** What recovery does with a payload at its commit: [apply_dyn_wal_batch] (src/db/wal.rs:515-572) and
      [apply_dyn_delete_wal_batch] (574-591) with [validate_delete_batch_schema] (624-640) and
      [validate_delete_commit_ts] (642-675), up to the insertion into the memtable.  The
      assertions on the hints (267-272, 280-285) are not in release builds. *)
  Definition replay_put (t : table) (p : wpayload arr) (ts : N) : wres put :=
    match p with
    | PUpsert b col _ =>
        if has_field tombstone_col b && negb (existsb (fun f => String.eqb (f_name (fst f)) tombstone_col) (sc_fields (t_schema t)))
        then WErr CodecError
        else if negb (schema_eqb (t_schema t) (schema_of b)) then WErr SchemaMismatch
        else if negb (times_are ts col) then WErr CodecError
        else WOk (PutRows b col)
    | PDelete b _ =>
        match delete_schema t with
        | None => WErr KeyError
        | Some ds =>
            if negb (schema_eqb ds (schema_of b)) then WErr SchemaMismatch
            else match position commit_col (b_cols b) with
                 | None => WErr CodecError
                 | Some i =>
                     match nth_error (b_cols b) i with
                     | Some (_, c) => if times_are ts c then WOk (PutDels b) else WErr CodecError
                     | None => WErr CodecError
                     end
                 end
        end
    end.
  (** Recovery with the list of puts as its state. *)
  Definition replay_step (t : table) (p : wpayload arr) (ts : N) (s : list put) : option (list put) :=
    match replay_put t p ts with WOk q => Some (s ++ [q]) | WErr _ => None end.

  (** *** What a put adds to the memtable *)
  Definition cell := option (N + V).
  Definition col_at (i : nat) (c : column) : cell :=
    match c with U64 l => option_map inl (nth i l None) | Other a => option_map inr (nth i (a_vals a) None) end.
  Definition row_at (b : batch) (i : nat) : list cell := map (fun fc => col_at i (snd fc)) (b_cols b).
  Definition rows_of (b : batch) : list (list cell) := map (row_at b) (seq 0 (b_rows b)).
  (** The key of a row; a null is an error. *)
  Definition key_of_row (keys : list nat) (r : list cell) : option (list (N + V)) :=
    mapM (fun k => match nth_error r k with Some (Some v) => Some v | _ => None end) keys.
  (** The values of a column of commit times: [null_count() > 0], [value]. *)
  Definition times_of (c : column) : option (list N) :=
    match c with U64 l => mapM (fun v => v) l | Other _ => None end.

  (** [try_insert_batch] and [try_insert_delete_batch] with their checks, up to the free slots:
      src/inmem/mutable/memtable.rs:140-190, 193-289, 653-690, 716-725: key, commit time and the
      row written, [None] for a delete. *)
  Definition put_entries (t : table) (p : put) : option (list (list (N + V) * N * option (list cell))) :=
    match p with
    | PutRows b col =>
        match times_of col, mapM (key_of_row (t_keys t)) (rows_of b) with
        | Some tss, Some ks =>
            if Nat.eqb (List.length tss) (b_rows b)
            then Some (map (fun x => (fst (fst x), snd (fst x), Some (snd x))) (combine (combine ks tss) (rows_of b)))
            else None
        | _, _ => None
        end
    | PutDels b =>
        match position commit_col (b_cols b) with
        | None => None
        | Some i =>
            match nth_error (b_cols b) i with
            | None => None
            | Some (_, c) =>
                match times_of c, mapM (key_of_row (seq 0 (List.length (t_keys t)))) (rows_of b) with
                | Some tss, Some ks =>
                    if Nat.eqb (List.length tss) (b_rows b) then Some (map (fun x => (fst x, snd x, None)) (combine ks tss)) else None
                | _, _ => None
                end
            end
        end
    end.
End ReplayBatch.
Arguments arr T V : clear implicits.
Arguments schema T : clear implicits.
Arguments table T : clear implicits.
Arguments put T V : clear implicits.
Arguments WOk {A}. Arguments WErr {A}.
