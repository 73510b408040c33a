(** Record batches as named columns, and the commit timestamp column of WAL batches:
    src/wal/mod.rs:310-425, src/wal/frame.rs:532-566.  Definitions only. *)
From Coq Require Import List NArith Bool String.
Import ListNotations.
Local Open Scope N_scope.

Section Columns.
  (** Arrow arrays of other types than UInt64. *)
  Variable array : Type.
  Variable array_len : array -> nat.

  Inductive column := U64 (vals : list (option N)) | Other (a : array).
  Definition col_len (c : column) : nat := match c with U64 l => List.length l | Other a => array_len a end.

  (** A field: name and nullability (its type is that of its column). *)
  Record field := mkField { f_name : string; f_nullable : bool }.
  (** [RecordBatch] (external, arrow_array): fields with columns, number of rows, schema
      metadata. *)
  Record batch := mkBatch { b_cols : list (field * column); b_rows : nat; b_meta : list (string * string) }.

  (** [RecordBatch::try_new] (external contract): at least one column, all of one length;
      a non-nullable column has no nulls (only checked for UInt64 here). *)
  Definition has_null (c : column) : bool :=
    match c with U64 l => existsb (fun v => match v with None => true | Some _ => false end) l | Other _ => false end.
  Definition try_new (cols : list (field * column)) (meta : list (string * string)) : option batch :=
    match cols with
    | [] => None
    | (f0, c0) :: _ =>
        if forallb (fun fc : field * column => Nat.eqb (col_len (snd fc)) (col_len c0)
                              && (f_nullable (fst fc) || negb (has_null (snd fc)))) cols
        then Some (mkBatch cols (col_len c0) meta) else None
    end.
  (** What every [RecordBatch] satisfies. *)
  Definition batch_valid (b : batch) : Prop :=
    b_cols b <> [] /\
    Forall (fun fc : field * column => col_len (snd fc) = b_rows b /\ (f_nullable (fst fc) = false -> has_null (snd fc) = false)) (b_cols b).

  Definition commit_col : string := "_commit_ts".
  Definition tombstone_col : string := "_tombstone".

  Definition has_field (name : string) (b : batch) : bool :=
    existsb (fun fc : field * column => String.eqb (f_name (fst fc)) name) (b_cols b).
  Definition all_equal (l : list (option N)) : bool :=
    match l with
    | Some v :: _ => forallb (fun x => match x with Some y => y =? v | None => false end) l
    | None :: _ => false
    | [] => true
    end.

  Inductive col_error := LengthMismatch | NotU64 | NullTs | VaryingTs | HasCommitCol | HasTombstoneCol | MissingCol | BadBatch.
  Inductive cres (A : Type) := COk (a : A) | CErr (e : col_error).
  Arguments COk {A}. Arguments CErr {A}.

  (** [append_commit_column]: src/wal/mod.rs:310-368 *)
  Definition append_commit_column (b : batch) (ts : column) : cres batch :=
    if negb (Nat.eqb (col_len ts) (b_rows b)) then CErr LengthMismatch
    else match ts with
         | Other _ => CErr NotU64
         | U64 l =>
             if has_null ts then CErr NullTs
             else if negb (all_equal l) then CErr VaryingTs
             else if has_field commit_col b then CErr HasCommitCol
             else if has_field tombstone_col b then CErr HasTombstoneCol
             else match try_new (b_cols b ++ [(mkField commit_col false, ts)]) (b_meta b) with
                  | Some w => COk w
                  | None => CErr BadBatch
                  end
         end.

  (** [position]: the first field with a name. *)
  Fixpoint position (name : string) (cols : list (field * column)) : option nat :=
    match cols with
    | [] => None
    | (f, _) :: r => if String.eqb (f_name f) name then Some O else option_map S (position name r)
    end.
  Fixpoint remove_nth {A} (i : nat) (l : list A) : list A :=
    match l, i with
    | [], _ => []
    | _ :: r, O => r
    | a :: r, S j => a :: remove_nth j r
    end.

  (** The single value of a commit timestamp column; [None] for an empty column. *)
  Definition commit_value (c : column) : cres (option N) :=
    match c with
    | Other _ => CErr NotU64
    | U64 l =>
        if has_null c then CErr NullTs
        else if all_equal l then COk (match l with Some v :: _ => Some v | _ => None end)
        else CErr VaryingTs
    end.

  (** [split_commit_column]: src/wal/mod.rs:371-425 *)
  Definition split_commit_column (b : batch) : cres (batch * option N * column) :=
    match position commit_col (b_cols b) with
    | None => CErr MissingCol
    | Some i =>
        match nth_error (b_cols b) i with
        | None => CErr MissingCol
        | Some (_, c) =>
            match commit_value c with
            | CErr e => CErr e
            | COk ts =>
                match try_new (remove_nth i (b_cols b)) (b_meta b) with
                | Some s => COk (s, ts, c)
                | None => CErr BadBatch
                end
            end
        end
    end.

  (** [extract_delete_commit_hint]: src/wal/frame.rs:537-569 *)
  Definition delete_commit_hint (b : batch) : cres (option N) :=
    match position commit_col (b_cols b) with
    | None => CErr MissingCol
    | Some i => match nth_error (b_cols b) i with Some (_, c) => commit_value c | None => CErr MissingCol end
    end.

  (** The column of an append: src/wal/mod.rs:649-650 *)
  Definition ts_column (ts : N) (rows : nat) : column := U64 (repeat (Some ts) rows).
End Columns.
Arguments COk {A}.
Arguments CErr {A}.
Arguments U64 {array}. Arguments Other {array}.
Arguments mkBatch {array}. Arguments b_cols {array}. Arguments b_rows {array}. Arguments b_meta {array}.
Arguments has_field {array}. Arguments position {array}. Arguments has_null {array}. Arguments commit_value {array}.
Arguments delete_commit_hint {array}. Arguments ts_column {array}.
