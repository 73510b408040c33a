(** Scans that ask for some columns: C60.
    [requested s proj row]: the cells of the row in the requested columns, found by name (Spec.Projection). *)
From Coq Require Import List NArith ZArith Bool.
From Verif Require Import Base.Order Spec.Tri Spec.KeySpec Spec.PredSpec Spec.Sql Spec.KeySet Spec.Table Spec.Projection
     Model.KeyBounds Model.Key Model.Expr Model.Residual Model.Pred Model.MemTable Model.Immutable Model.SsTable Model.DbScan Model.Db Model.Project
     Spec.Mvcc Spec.History Model.Run Spec.Valid Proof.KeyInst Proof.Findings4 Proof.PredProps Proof.ProjectProps.
Import ListNotations.

(** *** C60: asking for some columns does not change which rows a scan returns: it returns
    the requested cells of exactly the rows the scan of all columns returns, in the same
    order, whatever the predicate, the limit, the open transaction and where the rows are. *)
Theorem C60_same_rows :
  forall s kcols proj e row_filter prune txn sn limit (d : db nkey (trow s)),
    table_schema commit_name s -> key_cols_ok s kcols = true -> incl proj s -> proj <> [] -> only_cols (map fst s) e = true ->
    scan_projected (trow_key s kcols) one_cell row_cells row_filter s (key_schema s kcols) proj e prune txn sn limit d
    = option_map (map (fun x => (fst x, requested s proj (row_cells (snd x)))))
        (scan_txn (trow_key s kcols) prune (compile one_cell row_cells row_filter s (key_schema s kcols) e) txn sn limit d).
Proof. exact c60_same_rows. Qed.
Print Assumptions C60_same_rows.

(** Read together with C08: the requested cells of the matching rows of the table.
    Missing: what C08 misses. *)
Theorem C60_projected_table_partial :
  forall s kcols proj e row_filter row_bytes del_bytes capacity ops prune ts limit,
    table_schema commit_name s -> incl proj s -> proj <> [] -> only_cols (map fst s) e = true ->
    key_cols_ok s kcols = true -> expr_good s e = true -> key_lits_ok s kcols e = true ->
    filter_contract row_filter -> prune_contract e ts prune ->
    1 <= capacity -> (N.of_nat (length ops) < 2 ^ 64)%N ->
    ops_ok (trow_key s kcols) row_bytes del_bytes (start capacity) ops ->
    let st := run (trow_key s kcols) row_bytes del_bytes (start capacity) ops in
    Forall (seg_safe ts) (d_imm (st_db st)) -> (st_horizon st <= ts)%N ->
    (only_cols kcols e = true \/ concat (d_levels (st_db st)) = []) ->
    exists full,
      scan_projected (trow_key s kcols) one_cell row_cells row_filter s (key_schema s kcols) proj e prune None
                     (mkSnap ts (d_levels (st_db st))) limit (st_db st)
      = Some (map (fun x => (fst x, requested s proj (row_cells (snd x)))) match limit with Some n => firstn n full | None => full end) /\
      lists_table (trow_key s kcols) (as_of (trow_key s kcols) (st_hist st) ts) (fun r => is_true (sql s (row_cells r) e)) full.
Proof. exact c60_table. Qed.
Print Assumptions C60_projected_table_partial.

Example C60_applies :
  tok s64 [0%N] demo64 /\ table_schema commit_name s64 /\ only_cols (map fst s64) rng = true /\
  incl [(1%N, TI64)] s64 /\ incl [(1%N, TI64); (0%N, TI64); (1%N, TI64)] s64 /\
  length (concat (d_levels (st_db (trun s64 [0%N] demo64)))) = 1 /\
  pscan [(1%N, TI64)] rng 2 demo64
  = Some [([CI64 2], 1%N, [Some (CI64 21)]); ([CI64 3], 0%N, [Some (CI64 30)]); ([CI64 9], 2%N, [Some (CI64 90)])] /\
  pscan [(1%N, TI64); (0%N, TI64); (1%N, TI64)] rng 2 demo64
  = Some [([CI64 2], 1%N, [Some (CI64 21); Some (CI64 2); Some (CI64 21)]); ([CI64 3], 0%N, [Some (CI64 30); Some (CI64 3); Some (CI64 30)]);
          ([CI64 9], 2%N, [Some (CI64 90); Some (CI64 9); Some (CI64 90)])].
Proof. exact demo64_projected. Qed.

(** A requested column the table does not have is never answered with rows. *)
Theorem C60_unknown_column :
  forall s kcols proj c e row_filter prune txn sn limit (d : db nkey (trow s)),
    table_schema commit_name s -> key_cols_ok s kcols = true -> In c (map fst proj) -> ~ In c (map fst s) -> c <> commit_name ->
    let out := scan_projected (trow_key s kcols) one_cell row_cells row_filter s (key_schema s kcols) proj e prune txn sn limit d in
    out = None \/ out = Some [].
Proof. exact c60_unknown. Qed.
Print Assumptions C60_unknown_column.

(** Except the reserved commit timestamp column: refused while the row is in memory, read
    after a flush. *)
Theorem C60_reserved_column_refuted :
  tok s64 [0%N] (one_row ++ [OFlush 0]) /\ ~ In commit_name (map fst s64) /\
  pscan [(commit_name, TU64)] ETrue 0 one_row = None /\
  pscan [(commit_name, TU64)] ETrue 0 (one_row ++ [OFlush 0]) = Some [([CI64 1], 0%N, [Some (CU64 0)])].
Proof. exact reserved_read. Qed.
Print Assumptions C60_reserved_column_refuted.
