(** What the staging calls of a transaction accept, and the batches a commit builds from what
    they staged: src/transaction/mod.rs:117-198, 421-457, 485-530, 600-616, 683-724,
    src/extractor/extractors.rs:82-137, 210-285.  Definitions only.

    Simplifications: the entries are kept in the order of their first insertion (the order of
    keys is in [Model.Db]); a value is its kind with its contents, and a type outside the
    listed ones takes values of its own kind; contents are not checked against the type (the
    length of a FixedSizeBinary value); metadata of schemas is left out.

    External contracts (typed-arrow-dyn): a builder takes a row with one cell for each column,
    each null or of the kind of the column's type, and the finished batch is refused if a
    column that is not nullable holds a null. *)
From Coq Require Import List Bool Arith String.
Import ListNotations.

(** [DataType]: src/extractor/extractors.rs:139-160 *)
Inductive ctype :=
| TBool | TInt32 | TInt64 | TUInt32 | TUInt64 | TFloat32 | TFloat64
| TUtf8 | TBinary | TLargeUtf8 | TLargeBinary | TOther (n : nat).
(** [DynCell]: src/key/owned.rs:249-275 *)
Inductive ckind := CBool | CI32 | CI64 | CU32 | CU64 | CF32 | CF64 | CStr | CBin | COther (n : nat).

(** The kind of the values of a type (external). *)
Definition kind_of (t : ctype) : ckind :=
  match t with
  | TBool => CBool | TInt32 => CI32 | TInt64 => CI64 | TUInt32 => CU32 | TUInt64 => CU64
  | TFloat32 => CF32 | TFloat64 => CF64 | TUtf8 | TLargeUtf8 => CStr | TBinary | TLargeBinary => CBin
  | TOther n => COther n
  end.
Definition kind_eqb (a b : ckind) : bool :=
  match a, b with
  | CBool, CBool | CI32, CI32 | CI64, CI64 | CU32, CU32 | CU64, CU64
  | CF32, CF32 | CF64, CF64 | CStr, CStr | CBin, CBin => true
  | COther n, COther m => Nat.eqb n m
  | _, _ => false
  end.
Definition ctype_eqb (a b : ctype) : bool :=
  match a, b with
  | TBool, TBool | TInt32, TInt32 | TInt64, TInt64 | TUInt32, TUInt32 | TUInt64, TUInt64
  | TFloat32, TFloat32 | TFloat64, TFloat64 | TUtf8, TUtf8 | TBinary, TBinary
  | TLargeUtf8, TLargeUtf8 | TLargeBinary, TLargeBinary => true
  | TOther n, TOther m => Nat.eqb n m
  | _, _ => false
  end.

Record column := mkCol { c_name : string; c_type : ctype; c_null : bool }.
Definition column_eqb (a b : column) : bool :=
  String.eqb (c_name a) (c_name b) && ctype_eqb (c_type a) (c_type b) && Bool.eqb (c_null a) (c_null b).
Fixpoint schema_eqb (a b : list column) : bool :=
  match a, b with
  | [], [] => true
  | x :: a', y :: b' => column_eqb x y && schema_eqb a' b'
  | _, _ => false
  end.

Section Stage.
  Context {V : Type}.
  Variable V_eqb : V -> V -> bool.

  Definition cell : Type := ckind * V.
  (** [DynRow]; a key ([KeyOwned]) is a row too. *)
  Definition row : Type := list (option cell).

  Definition cell_eqb (a b : option cell) : bool :=
    match a, b with
    | None, None => true
    | Some (k, v), Some (k', v') => kind_eqb k k' && V_eqb v v'
    | _, _ => false
    end.
  Fixpoint key_eqb (a b : row) : bool :=
    match a, b with
    | [], [] => true
    | x :: a', y :: b' => cell_eqb x y && key_eqb a' b'
    | _, _ => false
    end.

  (** The table: its columns and the numbers of the key columns (at least one, in range:
      src/extractor/extractors.rs:59-68). *)
  Record table := mkTab { t_cols : list column; t_key : list nat }.
  Variable t : table.

  (** [DynBuilders] (external contract) *)
  Fixpoint row_builds (cs : list column) (r : row) : bool :=
    match cs, r with
    | [], [] => true
    | c :: cs', x :: r' =>
        match x with None => c_null c | Some (k, _) => kind_eqb k (kind_of (c_type c)) end && row_builds cs' r'
    | _, _ => false
    end.
  (** [build_record_batch]: src/transaction/mod.rs:683-689 *)
  Definition batch_builds (rs : list row) : bool := forallb (row_builds (t_cols t)) rs.

  Inductive serr := RowArity | RowEncoding | KeyExtract | SchemaMismatch | KeyComponents | KeyNull.

  (** The cells of the key columns ([project_view], src/extractor/extractors.rs:111-137, and
      [KeyRow::from_dyn], src/key/row.rs:38-45); [None]: a null. *)
  Definition no_null (k : row) : bool := forallb (fun x => match x with Some _ => true | None => false end) k.
  Definition key_cells (r : row) : row := map (fun i => nth i r None) (t_key t).
  (** [project_key]: src/transaction/mod.rs:485-501 *)
  Definition project_key (r : row) : row + serr :=
    if negb (Nat.eqb (List.length r) (List.length (t_cols t))) then inr RowArity
    else if negb (row_builds (t_cols t) r) then inr RowEncoding
    else if no_null (key_cells r) then inl (key_cells r) else inr KeyExtract.
  (** [validate_key]: src/transaction/mod.rs:513-530 *)
  Definition validate_key (k : row) : option serr :=
    if negb (Nat.eqb (List.length k) (List.length (t_key t))) then Some KeyComponents
    else if no_null k then None else Some KeyNull.

  (** [StagedMutations::entries]: src/transaction/mod.rs:111-186; [Some r]: an upsert of [r] *)
  Definition staged : Type := list (row * option row).
  Fixpoint put (k : row) (m : option row) (s : staged) : staged :=
    match s with
    | [] => [(k, m)]
    | (k', m') :: s' => if key_eqb k k' then (k', m) :: s' else (k', m') :: put k m s'
    end.
  Fixpoint get (s : staged) (k : row) : option (option row) :=
    match s with
    | [] => None
    | (k', m) :: s' => if key_eqb k k' then Some m else get s' k
    end.

  (** [upsert]: src/transaction/mod.rs:421-425 *)
  Definition upsert (r : row) (s : staged) : staged * option serr :=
    match project_key r with inl k => (put k (Some r) s, None) | inr e => (s, Some e) end.
  (** [upsert_rows]: src/transaction/mod.rs:428-436 *)
  Fixpoint upsert_rows (rs : list row) (s : staged) : staged * option serr :=
    match rs with
    | [] => (s, None)
    | r :: rs' => match upsert r s with (s', None) => upsert_rows rs' s' | (s', Some e) => (s', Some e) end
    end.

  (** [row_from_batch]: src/extractor/extractors.rs:211-270 (its values are those of the
      batch) *)
  Definition reserved (n : string) : bool := String.eqb n "_commit_ts" || String.eqb n "_tombstone".
  Definition readable (ty : ctype) : bool :=
    match ty with TLargeUtf8 | TLargeBinary | TOther _ => false | _ => true end.
  Fixpoint row_from_batch (cs : list column) (r : row) : row + serr :=
    match cs, r with
    | c :: cs', x :: r' =>
        if reserved (c_name c) then row_from_batch cs' r'
        else match x with
             | None => match row_from_batch cs' r' with inl q => inl (None :: q) | inr e => inr e end
             | Some v => if readable (c_type c)
                         then match row_from_batch cs' r' with inl q => inl (Some v :: q) | inr e => inr e end
                         else inr KeyExtract
             end
    | _, _ => inl []
    end.
  (** [upsert_batch]: src/transaction/mod.rs:439-446 with [ensure_batch_schema] (503-511) *)
  Fixpoint upsert_batch_rows (cs : list column) (rs : list row) (s : staged) : staged * option serr :=
    match rs with
    | [] => (s, None)
    | r :: rs' =>
        match row_from_batch cs r with
        | inr e => (s, Some e)
        | inl q => match upsert q s with (s', None) => upsert_batch_rows cs rs' s' | (s', Some e) => (s', Some e) end
        end
    end.
  Definition upsert_batch (cs : list column) (rs : list row) (s : staged) : staged * option serr :=
    if schema_eqb cs (t_cols t) then upsert_batch_rows cs rs s else (s, Some SchemaMismatch).
  (** [delete]: src/transaction/mod.rs:449-457 *)
  Definition delete (k : row) (s : staged) : staged * option serr :=
    match validate_key k with Some e => (s, Some e) | None => (put k None s, None) end.

  Inductive scall := SUpsert (r : row) | SRows (rs : list row) | SBatch (cs : list column) (rs : list row) | SDelete (k : row).
  Definition stage (c : scall) (s : staged) : staged * option serr :=
    match c with
    | SUpsert r => upsert r s
    | SRows rs => upsert_rows rs s
    | SBatch cs rs => upsert_batch cs rs s
    | SDelete k => delete k s
    end.
  (** A transaction whose calls are made one after the other, failed or not. *)
  Definition stage_all (cs : list scall) : staged := fold_left (fun s c => fst (stage c s)) cs [].

  (** [into_mutations]: src/transaction/mod.rs:188-198 *)
  Definition upserts (s : staged) : list row := flat_map (fun e => match snd e with Some r => [r] | None => [] end) s.
  Definition deletes (s : staged) : list row := flat_map (fun e => match snd e with Some _ => [] | None => [fst e] end) s.
  (** [build_delete_batch]: src/transaction/mod.rs:691-724, with the schema of
      src/mode/mod.rs:84-92 (the column of commit times always builds) *)
  Definition key_columns : list column :=
    map (fun i => nth i (t_cols t) (mkCol "" (TOther 0) true)) (t_key t).
  Definition delete_builds (k : row) : bool :=
    Nat.eqb (List.length k) (List.length (t_key t)) && no_null k && row_builds key_columns k.
  (** What [commit] builds before it writes anything: src/transaction/mod.rs:600-616;
      [None]: it fails. *)
  Definition payload (s : staged) : option (list row * list row) :=
    if batch_builds (upserts s) && forallb delete_builds (deletes s) then Some (upserts s, deletes s) else None.
End Stage.
