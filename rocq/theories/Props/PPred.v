(** Properties of keys, predicates and row selections: C08-C13, C42.
    [sql] is the meaning of a predicate for a row (Spec.Sql), three-valued. *)
From Coq Require Import List NArith ZArith QArith Bool Sorting.Sorted.
From Verif Require Import Base.Order Base.Lex Spec.Ieee Spec.Tri Spec.KeySpec Spec.PredSpec Spec.Sql Spec.KeySet Spec.Table
     Model.Float Model.Utf8 Model.KeyBounds Model.Key Model.Expr Model.Residual Model.Pred Model.RowSet
     Model.MemTable Model.Immutable Model.SsTable Model.DbScan Model.Db Spec.Mvcc Spec.History Model.Run Spec.Valid
     Proof.KeyInst Proof.SplitFacts Proof.BoundsFacts Spec.RowSetSpec Proof.RowSetFacts Proof.Findings4 Proof.PredProps
     Model.UnionKey Proof.UnionKeyFacts.
Import ListNotations.
Close Scope Q_scope.

(** *** C08: a scan with a predicate returns the matching rows of the table as of the read
    timestamp, in key order, up to the limit.
    Missing: predicates on other than key columns over data in SSTs, literals the key column
    is not stored like, large string literals (each refuted below), and the read timestamps
    of C01. *)
Theorem C08_predicate_scan_partial :
  forall s kcols e row_filter row_bytes del_bytes capacity ops prune ts limit,
    key_cols_ok s kcols = true -> expr_good s e = true -> key_lits_ok s kcols e = true ->
    filter_contract row_filter -> prune_contract e ts prune ->
    1 <= capacity -> (N.of_nat (length ops) < 2 ^ 64)%N ->
    ops_ok (trow_key s kcols) row_bytes del_bytes (start capacity) ops ->
    let st := run (trow_key s kcols) row_bytes del_bytes (start capacity) ops in
    Forall (seg_safe ts) (d_imm (st_db st)) -> (st_horizon st <= ts)%N ->
    (only_cols kcols e = true \/ concat (d_levels (st_db st)) = []) ->
    exists full out,
      scan (trow_key s kcols) prune (compile one_cell row_cells row_filter s (key_schema s kcols) e)
           (mkSnap ts (d_levels (st_db st))) limit (st_db st) = Some out /\
      out = match limit with Some n => firstn n full | None => full end /\
      lists_table (trow_key s kcols) (as_of (trow_key s kcols) (st_hist st) ts)
                  (fun r => is_true (sql s (row_cells r) e)) full.
Proof. exact c08_scan. Qed.
Print Assumptions C08_predicate_scan_partial.

Example C08_applies :
  tok s64 [0%N] demo64 /\ expr_good s64 rng = true /\ key_lits_ok s64 [0%N] rng = true /\ only_cols [0%N] rng = true /\
  Forall (seg_safe 2) (d_imm (st_db (trun s64 [0%N] demo64))) /\
  length (concat (d_levels (st_db (trun s64 [0%N] demo64)))) = 1 /\
  option_map (map show) (tscan s64 [0%N] rng 2 demo64)
  = Some [([CI64 2], 1%N, [Some (CI64 2); Some (CI64 21)]); ([CI64 3], 0%N, [Some (CI64 3); Some (CI64 30)]);
          ([CI64 9], 2%N, [Some (CI64 9); Some (CI64 90)])].
Proof. exact demo64_scan. Qed.

(** [v = 10]: the file with the newest version of the row drops it before the merge, so the
    overwritten version of an older file is returned. *)
Theorem C08_stale_version_refuted :
  tok s64 [0%N] stale_ops /\ expr_good s64 (ECmp 1 OpEq (i64 10)) = true /\
  key_lits_ok s64 [0%N] (ECmp 1 OpEq (i64 10)) = true /\
  exists out, tscan s64 [0%N] (ECmp 1 OpEq (i64 10)) 1 stale_ops = Some out /\
              ~ tspec s64 [0%N] (ECmp 1 OpEq (i64 10)) 1 stale_ops out.
Proof. exact stale_wrong. Qed.
Print Assumptions C08_stale_version_refuted.

(** A 32-bit key column: [id < 5] loses the rows, [id > 5] returns all of them. *)
Theorem C08_narrow_key_lost_refuted :
  tok s32 [0%N] narrow_ops /\ expr_good s32 (ECmp 0 OpLt (i32 5)) = true /\ only_cols [0%N] (ECmp 0 OpLt (i32 5)) = true /\
  exists out, tscan s32 [0%N] (ECmp 0 OpLt (i32 5)) 0 narrow_ops = Some out /\
              ~ tspec s32 [0%N] (ECmp 0 OpLt (i32 5)) 0 narrow_ops out.
Proof. exact narrow_lost. Qed.
Print Assumptions C08_narrow_key_lost_refuted.
Theorem C08_narrow_key_extra_refuted :
  tok s32 [0%N] narrow_ops /\ expr_good s32 (ECmp 0 OpGt (i32 5)) = true /\ only_cols [0%N] (ECmp 0 OpGt (i32 5)) = true /\
  exists out, tscan s32 [0%N] (ECmp 0 OpGt (i32 5)) 0 narrow_ops = Some out /\
              ~ tspec s32 [0%N] (ECmp 0 OpGt (i32 5)) 0 narrow_ops out.
Proof. exact narrow_extra. Qed.
Print Assumptions C08_narrow_key_extra_refuted.

(** [id = NULL] returns every row of the memtable; so does [False] with a composite key. *)
Theorem C08_null_literal_refuted :
  tok s64 [0%N] one_ops /\ expr_good s64 (ECmp 0 OpEq null64) = true /\ only_cols [0%N] (ECmp 0 OpEq null64) = true /\
  exists out, tscan s64 [0%N] (ECmp 0 OpEq null64) 0 one_ops = Some out /\
              ~ tspec s64 [0%N] (ECmp 0 OpEq null64) 0 one_ops out.
Proof. exact null_extra. Qed.
Print Assumptions C08_null_literal_refuted.
Theorem C08_false_composite_key_refuted :
  tok s64 [0; 1]%N one_ops /\ expr_good s64 EFalse = true /\ only_cols [0; 1]%N EFalse = true /\
  exists out, tscan s64 [0; 1]%N EFalse 0 one_ops = Some out /\ ~ tspec s64 [0; 1]%N EFalse 0 one_ops out.
Proof. exact false_extra. Qed.
Print Assumptions C08_false_composite_key_refuted.

(** A [LargeUtf8] literal never equals a [Utf8] value. *)
Theorem C08_large_string_refuted :
  tok sstr [0%N] str_ops /\ key_lits_ok sstr [0%N] (ECmp 1 OpEq (large [97%N])) = true /\
  exists out, tscan sstr [0%N] (ECmp 1 OpEq (large [97%N])) 0 str_ops = Some out /\
              ~ tspec sstr [0%N] (ECmp 1 OpEq (large [97%N])) 0 str_ops out.
Proof. exact large_lost. Qed.
Print Assumptions C08_large_string_refuted.

(** *** C09: key bounds contain the key of every matching row.
    [x] is the row's key cell, [k] the key as it is stored.  Missing: key columns of other
    types than those of [key_lit] (composite keys have no bounds). *)
Theorem C09_key_bounds_partial :
  forall s kc kt x k e, col_type s kc = Some kt -> key_cell kt x = true -> raw k = [x] ->
    key_lits kc kt e = true ->
    forall r kb, column s r kc = Some (cell_sql x) ->
      key_bounds_for_predicate one_cell (key_schema s [kc]) e = Some kb -> sql s r e = TT -> kb_in kb k = true.
Proof. exact c09_bounds. Qed.
Print Assumptions C09_key_bounds_partial.

Example C09_applies :
  let e := EOr [EAnd [ECmp 0 OpGt (i64 2); ECmp 0 OpLe (i64 5)]; EIn 0 [i64 7; i64 6]]%N in
  key_lits 0 TI64 e = true /\ sql s64 [Some (CI64 6); None] e = TT /\
  option_map (fun kb => (option_map (fun p => (raw (fst p), snd p)) (kb_lower kb), option_map (fun p => (raw (fst p), snd p)) (kb_upper kb)))
    (key_bounds_for_predicate one_cell (key_schema s64 [0%N]) e) = Some (Some ([CI64 2], false), Some ([CI64 7], true)).
Proof. vm_compute. repeat split. Qed.

Theorem C09_key_bounds_refuted :
  exists e k kb, raw k = [CI32 1] /\ sql s32 [Some (CI32 1); None] e = TT /\
    key_bounds_for_predicate one_cell (key_schema s32 [0%N]) e = Some kb /\ kb_in kb k = false.
Proof. exact c09_narrow. Qed.
Print Assumptions C09_key_bounds_refuted.

(** *** C10: prefix LIKE is an exact interval of the byte order; the bound is a string. *)
Theorem C10_prefix_interval :
  forall p s, forallb is_scalar p = true -> forallb is_scalar s = true ->
    ((exists t, utf8 s = utf8 p ++ t) <->
     lexN (utf8 p) (utf8 s) <> Gt /\
     match next_prefix_string p with Some u => lexN (utf8 s) (utf8 u) = Lt | None => True end).
Proof. exact c10_prefix. Qed.
Print Assumptions C10_prefix_interval.
Theorem C10_upper_bound_is_utf8 :
  forall p u, forallb is_scalar p = true -> next_prefix_string p = Some u -> forallb is_scalar u = true.
Proof. exact c10_upper_valid. Qed.
Print Assumptions C10_upper_bound_is_utf8.
Example C10_applies :
  next_prefix_string [97; 0x10ffff]%N = Some [98]%N /\ next_prefix_string [0xd7ff]%N = Some [0xe000]%N /\
  next_prefix_string [0x10ffff]%N = None /\ utf8 [0xe9; 0x20ac; 0x1f600]%N = [0xc3; 0xa9; 0xe2; 0x82; 0xac; 0xf0; 0x9f; 0x98; 0x80]%N.
Proof. vm_compute. repeat split. Qed.

(** *** C11: integers and floats are compared as real numbers. *)
Theorem C11_int_float_exact :
  forall ti tf z b, int_fits ti z = true -> float_fits tf b = true ->
    compare_scalar_values (mkSc ti (Some (VInt z))) (mkSc tf (Some (VFloat b))) = fval_cmp (FNum (inject_Z z)) (float_value tf b) /\
    compare_scalar_values (mkSc tf (Some (VFloat b))) (mkSc ti (Some (VInt z))) = fval_cmp (float_value tf b) (FNum (inject_Z z)) /\
    (compare_scalar_values (mkSc ti (Some (VInt z))) (mkSc tf (Some (VFloat b))) = None <-> float_value tf b = FNan).
Proof. exact c11_exact. Qed.
Print Assumptions C11_int_float_exact.
Theorem C11_ints_exact :
  forall ti tj a b, int_fits ti a = true -> int_fits tj b = true ->
    compare_scalar_values (mkSc ti (Some (VInt a))) (mkSc tj (Some (VInt b))) = Some (Z.compare a b).
Proof. exact c11_ints. Qed.
Print Assumptions C11_ints_exact.
Theorem C11_float_widths_exact :
  forall b c, (b < 2 ^ 32)%N ->
    compare_scalar_values (mkSc TF32 (Some (VFloat b))) (mkSc TF64 (Some (VFloat c))) = fval_cmp (f32_value b) (f64_value c) /\
    compare_scalar_values (mkSc TF64 (Some (VFloat c))) (mkSc TF32 (Some (VFloat b))) = fval_cmp (f64_value c) (f32_value b).
Proof. exact c11_floats. Qed.
Print Assumptions C11_float_widths_exact.
(** 2^53 + 1 against 2^53 as a double; 2^64 - 1 against 2^64. *)
Example C11_applies :
  compare_scalar_values (mkSc TI64 (Some (VInt 9007199254740993))) (mkSc TF64 (Some (VFloat 0x4340000000000000))) = Some Gt /\
  compare_scalar_values (mkSc TU64 (Some (VInt 18446744073709551615))) (mkSc TF64 (Some (VFloat 0x43f0000000000000))) = Some Lt /\
  int_fits TU64 18446744073709551615 = true /\ float_fits TF64 0x43f0000000000000 = true.
Proof. vm_compute. repeat split. Qed.

(** *** C12: the two splits of a predicate lose nothing, for every predicate and row. *)
Theorem C12_row_filter_split :
  forall s r e,
    is_true (sql s r e) = is_true (opt_sql s r (fst (split_row_filter s e))) && is_true (opt_sql s r (snd (split_row_filter s e))).
Proof. exact c12_row_filter. Qed.
Print Assumptions C12_row_filter_split.
Theorem C12_memtable_split :
  forall s r ks e,
    is_true (sql s r e) = is_true (opt_sql s r (fst (split_non_sst ks e))) && is_true (opt_sql s r (snd (split_non_sst ks e))).
Proof. exact c12_non_sst. Qed.
Print Assumptions C12_memtable_split.
(** The residual evaluator computes the truth value. *)
Theorem C12_residual_evaluator :
  forall s r e, row_fits s r = true -> expr_good s e = true -> evaluate s r e = Some (sql s r e).
Proof. exact c12_evaluator. Qed.
Print Assumptions C12_residual_evaluator.
(** Outside [row_fits]: the evaluator orders floats of one type totally, so the row -0.0 does
    not match [x = 0.0] and NaN matches [x > 0.0]; a literal of the other width decides both
    differently, as numbers. *)
Theorem C12_float_order_refuted :
  let s := [(0, TF64)]%N in
  let zero64 := mkSc TF64 (Some (VFloat 0)) in let zero32 := mkSc TF32 (Some (VFloat 0)) in
  let negative_zero := [Some (CF64 (2 ^ 63))]%N in let nan := [Some (CF64 0x7ff8000000000000)]%N in
  evaluate s negative_zero (ECmp 0 OpEq zero64) = Some TF /\ sql s negative_zero (ECmp 0 OpEq zero64) = TT /\
  evaluate s negative_zero (ECmp 0 OpEq zero32) = Some TT /\
  evaluate s nan (ECmp 0 OpGt zero64) = Some TT /\ sql s nan (ECmp 0 OpGt zero64) = TU /\
  evaluate s nan (ECmp 0 OpGt zero32) = Some TU.
Proof. exact float_order. Qed.
Print Assumptions C12_float_order_refuted.
Example C12_applies :
  let e := EAnd [ENot (ECmp 1 OpLt (i64 5)); EOr [ECmp 0 OpEq (i64 1); ECmp 1 OpEq (i32 7)]; EFalse]%N in
  split_row_filter s64 e =
    (Some (EAnd [ENot (ECmp 1 OpLt (i64 5)); EFalse]%N), Some (EOr [ECmp 0 OpEq (i64 1); ECmp 1 OpEq (i32 7)]%N)) /\
  row_fits s64 [Some (CI64 1); None] = true /\ expr_good s64 e = true.
Proof. vm_compute. repeat split. Qed.

(** *** C13: the key order.  Missing: NaN and unions (all keys), negative zero (hashing). *)
Theorem C13_total_order_partial :
  forall a b c o, key_ok a = true -> key_ok b = true -> key_ok c = true ->
    keys_cmp a a = Eq /\ keys_cmp b a = CompOpp (keys_cmp a b) /\
    (keys_cmp a b = o -> keys_cmp b c = o -> keys_cmp a c = o) /\
    (keys_cmp a b = Eq <-> keys_equal a b = true).
Proof. exact c13_order. Qed.
Print Assumptions C13_total_order_partial.
Theorem C13_hash_partial :
  forall a b, key_ok a = true -> key_ok b = true -> forallb cell_fits a = true -> forallb cell_fits b = true ->
    forallb no_neg_zero a = true -> forallb no_neg_zero b = true -> keys_equal a b = true -> key_hash a = key_hash b.
Proof. exact Proof.TableFacts.keys_hash_eq. Qed.
Print Assumptions C13_hash_partial.
Theorem C13_nan_refuted :
  keys_cmp [CF64 one64] [CF64 nan64] = Eq /\ keys_cmp [CF64 nan64] [CF64 two64] = Eq /\
  keys_cmp [CF64 one64] [CF64 two64] = Lt /\ keys_equal [CF64 one64] [CF64 nan64] = false.
Proof. exact c13_nan. Qed.
Print Assumptions C13_nan_refuted.
Theorem C13_negative_zero_refuted :
  keys_equal [CF64 0] [CF64 (2 ^ 63)] = true /\ keys_cmp [CF64 0] [CF64 (2 ^ 63)] = Eq /\
  key_hash [CF64 0] <> key_hash [CF64 (2 ^ 63)].
Proof. exact c13_zero. Qed.
Print Assumptions C13_negative_zero_refuted.
(** Union columns are accepted as keys, but all union values are equal in the order and none is
    equal to itself.  On other keys the functions with unions are those above. *)
Theorem C13_union_refuted :
  (exists a b : ukey, a <> b /\ ukeys_cmp a b = Eq /\ ukeys_equal a b = false /\ ukeys_equal a a = false) /\
  (forall t v t' v', ukeys_cmp [UUnion t v] [UUnion t' v'] = Eq /\ ukeys_equal [UUnion t v] [UUnion t' v'] = false) /\
  (forall a b, ukeys_cmp (map UPlain a) (map UPlain b) = keys_cmp a b /\ ukeys_equal (map UPlain a) (map UPlain b) = keys_equal a b).
Proof. exact (conj union_refuted (conj union_keys_collapse plain_keys)). Qed.
Print Assumptions C13_union_refuted.
(** Hashing with unions: equal keys hold no union value, so [C13_hash_partial] is about all equal
    keys; all union values have one hash. *)
Theorem C13_union_hash :
  (forall a b, ukeys_equal a b = true -> exists p q, a = map UPlain p /\ b = map UPlain q /\ keys_equal p q = true) /\
  (forall k, ukey_hash (map UPlain k) = key_hash k) /\
  (forall t v t' v', ukey_hash [UUnion t v] = ukey_hash [UUnion t' v']).
Proof. exact union_hashing. Qed.
Print Assumptions C13_union_hash.
Example C13_union_hash_applies :
  ukeys_equal [UPlain (CI64 4); UPlain (CStr [97])]%N [UPlain (CI64 4); UPlain (CStr [97])]%N = true /\
  ukey_hash [UPlain (CI64 4); UUnion 1 (CI64 5)] = key_hash [CI64 4] ++ [TokInt 1 255].
Proof. vm_compute. repeat split. Qed.
Example C13_applies :
  key_ok [CI64 (-3); CStr [97; 98]; CF64 one64]%N = true /\
  keys_cmp [CI64 (-3); CStr [97; 98]; CF64 one64]%N [CI64 (-3); CStr [97; 98]; CF64 two64]%N = Lt.
Proof. vm_compute. repeat split. Qed.

(** *** C42: row selections are sets. *)
Theorem C42_set_operations :
  forall a b, rs_ok a -> rs_ok b ->
    (rs_total a <> rs_total b -> rs_intersect a b = None /\ rs_union a b = None) /\
    (rs_total a = rs_total b -> exists c d, rs_intersect a b = Some c /\ rs_union a b = Some d /\
       rs_ok c /\ rs_ok d /\ rs_total c = rs_total a /\ rs_total d = rs_total a /\
       (forall i, In i (rs_iter c) <-> In i (rs_iter a) /\ In i (rs_iter b)) /\
       (forall i, In i (rs_iter d) <-> In i (rs_iter a) \/ In i (rs_iter b))).
Proof. exact c42_sets. Qed.
Print Assumptions C42_set_operations.
Theorem C42_iteration :
  forall r, rs_ok r -> StronglySorted lt (rs_iter r) /\ length (rs_iter r) = rs_len r /\
    (forall i, In i (rs_iter r) -> i < rs_total r).
Proof. exact c42_iter. Qed.
Print Assumptions C42_iteration.
Theorem C42_construction :
  forall n, (exists r, rs_all n = Some r /\ rs_ok r /\ rs_total r = n /\ forall i, In i (rs_iter r) <-> i < n) /\
    (exists r, rs_none n = Some r /\ rs_ok r /\ rs_total r = n /\ rs_iter r = []) /\
    (forall s r, rs_from_selection n s = Some r <-> implied_total s = n /\ r = mkRS n s).
Proof. exact c42_make. Qed.
Print Assumptions C42_construction.
Theorem C42_full_and_empty :
  forall r, rs_ok r ->
    (rs_full r = true <-> forall i, i < rs_total r -> In i (rs_iter r)) /\
    (rs_empty r = true <-> rs_iter r = []).
Proof. exact c42_flags. Qed.
Print Assumptions C42_full_and_empty.
(** [None] to the reader of a file means every row. *)
Theorem C42_rows_read :
  forall r, rs_ok r -> forall i,
    In i (rs_iter r) <->
    match rs_to_selection r with None => i < rs_total r | Some s => In i (rs_iter (mkRS (rs_total r) s)) end.
Proof. exact c42_reader. Qed.
Print Assumptions C42_rows_read.
(** Ascending disjoint ranges inside the source ([ranges_ok]). *)
Theorem C42_ranges :
  forall total ranges, ranges_ok 0 ranges total ->
    exists r, rs_from_ranges total ranges = Some r /\ rs_ok r /\ rs_total r = total /\
      forall i, In i (rs_iter r) <-> exists a b, In (a, b) ranges /\ a <= i < b.
Proof. exact c42_ranges. Qed.
Print Assumptions C42_ranges.
Example C42_ranges_apply :
  ranges_ok 0 [(0, 2); (2, 3); (5, 5); (6, 8)] 9 /\
  option_map rs_iter (rs_from_ranges 9 [(0, 2); (2, 3); (5, 5); (6, 8)]) = Some [0; 1; 2; 6; 7].
Proof. vm_compute. repeat split; repeat constructor. Qed.
Example C42_flags_apply :
  let a := mkRS 5 [mkSel false 2; mkSel false 3] in let b := mkRS 5 [mkSel true 1; mkSel true 4] in
  rs_ok a /\ rs_ok b /\ rs_full a = true /\ rs_empty a = false /\ rs_full b = false /\ rs_empty b = true.
Proof. vm_compute. repeat split. Qed.
Example C42_applies :
  let a := mkRS 6 [mkSel false 3; mkSel true 3] in let b := mkRS 6 [mkSel true 1; mkSel false 4; mkSel true 1] in
  rs_ok a /\ rs_ok b /\ option_map rs_iter (rs_intersect a b) = Some [1; 2] /\ option_map rs_iter (rs_union a b) = Some [0; 1; 2; 3; 4].
Proof. vm_compute. repeat split. Qed.
