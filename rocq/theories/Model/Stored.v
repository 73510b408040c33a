(** The commit times of the rows of a data file: src/ondisk/sstable.rs:946-997,
    1025-1033, src/ondisk/scan.rs:732-753.  Definitions only.  The Parquet
    file itself is taken to give back the columns it was given, in order,
    with their names, also when two have the same name. *)
From Coq Require Import List NArith Bool String.
From Verif Require Import Model.Columns.
Import ListNotations.

Section Stored.
  Variable array : Type.
  Variable array_len : array -> nat.

  (** [append_commit_column] of the data files: src/ondisk/sstable.rs:945-967.
      There is no check for a column of that name. *)
  Definition store_columns (b : batch array) (ts : list N) : cres (batch array) :=
    if negb (Nat.eqb (List.length ts) (b_rows b)) then CErr LengthMismatch
    else match try_new array array_len
                 (b_cols b ++ [(mkField commit_col false, U64 (map Some ts))]) (b_meta b) with
         | Some w => COk w
         | None => CErr BadBatch
         end.

  (** [RecordBatch::column_by_name] (external): the first column of the name. *)
  Definition column_by_name (name : string) (b : batch array) : option (column array) :=
    match position name (b_cols b) with
    | Some i => option_map snd (nth_error (b_cols b) i)
    | None => None
    end.

  Fixpoint values (l : list (option N)) : option (list N) :=
    match l with
    | [] => Some []
    | Some v :: r => option_map (cons v) (values r)
    | None :: _ => None
    end.

  (** [commit_ts_column] and [parse_mvcc_columns_from_data],
      src/ondisk/sstable.rs:969-997; [decode_mvcc_from_data],
      src/ondisk/scan.rs:732-753. *)
  Definition stored_times (b : batch array) : cres (list N) :=
    match column_by_name commit_col b with
    | None => CErr MissingCol
    | Some (Other _) => CErr NotU64
    | Some (U64 l) => match values l with Some v => COk v | None => CErr NullTs end
    end.

  (** [write_flush] up to the writing and [load] after it, of one batch. *)
  Definition times_back (b : batch array) (ts : list N) : cres (list N) :=
    match store_columns b ts with
    | COk w => stored_times w
    | CErr e => CErr e
    end.
End Stored.
