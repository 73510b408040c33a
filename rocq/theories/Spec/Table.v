(** Tables with a schema: the rows a table can store and their keys. *)
From Coq Require Import List NArith ZArith Bool.
From Verif Require Import Base.Order Base.Sub Spec.Tri Spec.KeySpec Spec.PredSpec Spec.Sql Model.Key Model.Expr
     Model.SsTable Proof.KeyInst.
Import ListNotations.

(** A row of the schema (no NaN and no negative zero in it). *)
Definition trow (s : schema) := { r : cells | row_fits s r = true }.
Definition row_cells {s : schema} (r : trow s) : cells := proj1_sig r.

(** The key of a row: its cells in the key columns; [None] if one is null. *)
Definition trow_key (s : schema) (kcols : list N) (r : trow s) : option nkey :=
  match key_cells s kcols (row_cells r) with Some k => to_nkey k | None => None end.

(** The types the key extractor reads: src/extractor/extractors.rs:212-270. *)
Definition key_type (t : dtype) : bool :=
  match t with
  | TBool | TI32 | TI64 | TU32 | TU64 | TF32 | TF64 | TUtf8 | TBinary => true
  | _ => false
  end.
(** The key columns are columns of the schema with such types. *)
Definition key_cols_ok (s : schema) (kcols : list N) : bool :=
  forallb (fun c => match col_type s c with Some t => key_type t | None => false end) kcols.
(** The schema of the key columns. *)
Definition key_schema (s : schema) (kcols : list N) : schema :=
  map (fun c => (c, match col_type s c with Some t => t | None => TNull end)) kcols.

(** The literals a predicate may compare with the key: with a single key column those of
    [key_lits]; with several, no restriction but that the predicate is not [False]. *)
Definition key_lits_ok (s : schema) (kcols : list N) (e : expr) : bool :=
  match kcols with
  | [kc] => match col_type s kc with Some kt => key_lits kc kt e | None => false end
  | _ => match e with EFalse => false | _ => true end
  end.

(** What is assumed of the Parquet and aisle libraries: the row filter built from a
    predicate keeps the rows for which it is true; the pages left out of a read at [ts] hold
    no row that was written at or before [ts] and for which the predicate is true (the code
    prunes with the predicate and [commit_ts <= ts], src/db/scan.rs:399-404). *)
Definition filter_contract {s : schema} (row_filter : expr -> trow s -> bool) : Prop :=
  forall e r, row_filter e r = is_true (sql s (row_cells r) e).
Definition prune_contract {s : schema} {K} (e : expr) (ts : N) (prune : sst K (trow s) -> list (trow s * N)) : Prop :=
  forall t, sublist (prune t) (t_rows t) /\
    forall r u, In (r, u) (t_rows t) -> In (r, u) (prune t) \/ (ts < u)%N \/ sql s (row_cells r) e <> TT.
