(** The property theorems on keys and predicates, and their examples. *)
From Coq Require Import List NArith ZArith QArith Bool Lia.
From Verif Require Import Base.Order Base.Lex Base.Sub Spec.Ieee Spec.Tri Spec.KeySpec Spec.PredSpec Spec.Sql Spec.KeySet Spec.Table
     Model.Float Model.Utf8 Model.KeyBounds Model.Key Model.Expr Model.Residual Model.Pred
     Model.MemTable Model.Immutable Model.SsTable Model.DbScan Model.Db Spec.Mvcc Spec.History Model.Run Spec.Valid
     Proof.Utf8Facts Proof.KeyFacts Proof.FloatFacts Proof.NumFacts Proof.KeyBoundsFacts Proof.PredFacts Proof.SplitFacts
     Proof.KeyInst Proof.BoundsFacts Proof.Refine Proof.Reads Proof.TableFacts Proof.Findings4.
Import ListNotations.
Close Scope Q_scope.

(** ** C08 *)
Lemma c08_scan s kcols e row_filter row_bytes del_bytes capacity ops prune ts limit :
  key_cols_ok s kcols = true -> expr_good s e = true -> key_lits_ok s kcols e = true ->
  filter_contract row_filter -> prune_contract e ts prune ->
  1 <= capacity -> (N.of_nat (length ops) < 2 ^ 64)%N ->
  ops_ok (trow_key s kcols) row_bytes del_bytes (start capacity) ops ->
  let st := run (trow_key s kcols) row_bytes del_bytes (start capacity) ops in
  Forall (seg_safe ts) (d_imm (st_db st)) -> (st_horizon st <= ts)%N ->
  (only_cols kcols e = true \/ concat (d_levels (st_db st)) = []) ->
  exists full out,
    scan (trow_key s kcols) prune (compile one_cell row_cells row_filter s (key_schema s kcols) e)
         (mkSnap ts (d_levels (st_db st))) limit (st_db st) = Some out /\
    out = match limit with Some n => firstn n full | None => full end /\
    lists_table (trow_key s kcols) (as_of (trow_key s kcols) (st_hist st) ts)
                (fun r => is_true (sql s (row_cells r) e)) full.
Proof. intros H1 H2 H3 H4 H5 H6 H7 H8 st H9 H10 H11. now apply scan_predicate. Qed.

Definition rng : expr := EAnd [ECmp 0 OpGe (i64 2); EIn 0 [i64 2; i64 3; i64 9]]%N.
Definition demo64 : list (op nkey (trow s64)) :=
  [ OIngest [r64 1 10 eq_refl; r64 2 20 eq_refl; r64 3 30 eq_refl] None true; OFlush 0;
    OIngest [r64 2 21 eq_refl; r64 4 40 eq_refl] None true; OIngest [r64 9 90 eq_refl] None false ].
Lemma demo64_ok : tok s64 [0%N] demo64.
Proof. unfold tok, demo64. ok_t. Qed.
Lemma demo64_scan :
  tok s64 [0%N] demo64 /\ expr_good s64 rng = true /\ key_lits_ok s64 [0%N] rng = true /\ only_cols [0%N] rng = true /\
  Forall (seg_safe 2) (d_imm (st_db (trun s64 [0%N] demo64))) /\
  length (concat (d_levels (st_db (trun s64 [0%N] demo64)))) = 1 /\
  option_map (map show) (tscan s64 [0%N] rng 2 demo64)
  = Some [([CI64 2], 1%N, [Some (CI64 2); Some (CI64 21)]); ([CI64 3], 0%N, [Some (CI64 3); Some (CI64 30)]);
          ([CI64 9], 2%N, [Some (CI64 9); Some (CI64 90)])].
Proof.
  split; [exact demo64_ok|]. repeat (split; [reflexivity|]). split; [|split; vm_compute; reflexivity].
  destruct (latest_ok (trow_key s64 [0%N]) sz ksz 1024 demo64 2) as (A & _ & _).
  - split; [repeat constructor|]. split; [reflexivity|exact demo64_ok].
  - vm_compute. discriminate.
  - exact A.
Qed.

(** ** C09 *)
Lemma c09_bounds s kc kt x k e : col_type s kc = Some kt -> key_cell kt x = true -> raw k = [x] ->
  key_lits kc kt e = true -> forall r kb, column s r kc = Some (cell_sql x) ->
  key_bounds_for_predicate one_cell (key_schema s [kc]) e = Some kb -> sql s r e = TT -> kb_in kb k = true.
Proof.
  intros Ht Hx Hk HL r kb HC HB HT. unfold key_bounds_for_predicate, key_schema in HB. cbn [map] in HB. rewrite Ht in HB.
  pose proof (bounds_sound kt x Hx k Hk s r kc HC e HL HT) as H. rewrite HB in H. exact H.
Qed.

(** ** C10 *)
Lemma c10_prefix p s : forallb is_scalar p = true -> forallb is_scalar s = true ->
  ((exists t, utf8 s = utf8 p ++ t) <->
   lexN (utf8 p) (utf8 s) <> Gt /\ match next_prefix_string p with Some u => lexN (utf8 s) (utf8 u) = Lt | None => True end).
Proof.
  intros Hp Hs. apply scalars_forallb in Hp, Hs. pose proof (next_prefix_exact p s Hp Hs) as H. unfold between in H.
  assert (E : (exists t, utf8 s = utf8 p ++ t) <-> (exists t, s = p ++ t)).
  { rewrite <- (utf8_prefix s p) by assumption. split.
    - intros [t ->]. clear. induction (utf8 p) as [|a l IH]; simpl; auto. now rewrite N.eqb_refl.
    - clear. generalize (utf8 s). induction (utf8 p) as [|a l IH]; intros m; [exists m; reflexivity|].
      destruct m as [|b m]; simpl; [discriminate|]. intros H. apply andb_prop in H as [H1 H2]. apply N.eqb_eq in H1. subst b.
      destruct (IH m H2) as [t ->]. now exists t. }
  rewrite E, H, (utf8_lex p s Hp Hs). destruct (next_prefix_string p) as [u|] eqn:EU; [|tauto].
  rewrite (utf8_lex s u Hs (next_prefix_scalars p u Hp EU)). tauto.
Qed.
Lemma c10_upper_valid p u : forallb is_scalar p = true -> next_prefix_string p = Some u -> forallb is_scalar u = true.
Proof. intros Hp E. apply scalars_forallb in Hp. apply scalars_forallb. now apply (next_prefix_scalars p u). Qed.

(** ** C11 *)
Definition float_value (t : dtype) (b : N) : fval := match t with TF32 => f32_value b | _ => f64_value b end.
Definition float_fits (t : dtype) (b : N) : bool :=
  match t with TF32 => N.ltb b (2 ^ 32) | TF64 => N.ltb b (2 ^ 64) | _ => false end.
Lemma c11_exact ti tf z b : int_fits ti z = true -> float_fits tf b = true ->
  compare_scalar_values (mkSc ti (Some (VInt z))) (mkSc tf (Some (VFloat b))) = fval_cmp (FNum (inject_Z z)) (float_value tf b) /\
  compare_scalar_values (mkSc tf (Some (VFloat b))) (mkSc ti (Some (VInt z))) = fval_cmp (float_value tf b) (FNum (inject_Z z)) /\
  (compare_scalar_values (mkSc ti (Some (VInt z))) (mkSc tf (Some (VFloat b))) = None <-> float_value tf b = FNan).
Proof.
  intros Hi Hf. pose proof (int_fits_range ti z Hi) as HR.
  assert (A : compare_scalar_values (mkSc ti (Some (VInt z))) (mkSc tf (Some (VFloat b))) = fval_cmp (FNum (inject_Z z)) (float_value tf b)).
  { destruct tf; try discriminate Hf; apply N.ltb_lt in Hf; destruct ti; try discriminate Hi;
      unfold compare_scalar_values, numeric_compare, is_float_scalar, scalar_to_i128, scalar_to_f64; cbn [s_type s_val dtype_eqb];
      rewrite num_int_float by assumption; try reflexivity; apply widen_r, Hf. }
  split; [exact A|]. split.
  - destruct tf; try discriminate Hf; apply N.ltb_lt in Hf; destruct ti; try discriminate Hi;
      unfold compare_scalar_values, numeric_compare, is_float_scalar, scalar_to_i128, scalar_to_f64; cbn [s_type s_val dtype_eqb];
      rewrite num_int_float by assumption; rewrite fval_cmp_swap; try reflexivity; apply widen_l, Hf.
  - rewrite A. destruct (float_value tf b) as [|[]|q]; simpl; split; easy.
Qed.
Lemma c11_ints ti tj a b : int_fits ti a = true -> int_fits tj b = true ->
  compare_scalar_values (mkSc ti (Some (VInt a))) (mkSc tj (Some (VInt b))) = Some (Z.compare a b).
Proof. intros Ha Hb. destruct ti; try discriminate; destruct tj; try discriminate; reflexivity. Qed.
Lemma c11_floats b c : (b < 2 ^ 32)%N ->
  compare_scalar_values (mkSc TF32 (Some (VFloat b))) (mkSc TF64 (Some (VFloat c))) = fval_cmp (f32_value b) (f64_value c) /\
  compare_scalar_values (mkSc TF64 (Some (VFloat c))) (mkSc TF32 (Some (VFloat b))) = fval_cmp (f64_value c) (f32_value b).
Proof.
  intros Hb. unfold compare_scalar_values, numeric_compare, is_float_scalar, scalar_to_f64; cbn [s_type s_val dtype_eqb]. unfold f64_cmp.
  now rewrite widen_l, widen_r.
Qed.

(** ** C12 *)
Lemma c12_row_filter s r e :
  is_true (sql s r e) = is_true (opt_sql s r (fst (split_row_filter s e))) && is_true (opt_sql s r (snd (split_row_filter s e))).
Proof. apply split_row_filter_exact. Qed.
Lemma c12_non_sst s r ks e :
  is_true (sql s r e) = is_true (opt_sql s r (fst (split_non_sst ks e))) && is_true (opt_sql s r (snd (split_non_sst ks e))).
Proof. apply split_non_sst_exact. Qed.
(** The evaluator. *)
Lemma c12_evaluator s r e : row_fits s r = true -> expr_good s e = true -> evaluate s r e = Some (sql s r e).
Proof. intros. now apply evaluate_ok. Qed.

(** ** C13 *)
Lemma c13_order a b c o : key_ok a = true -> key_ok b = true -> key_ok c = true ->
  keys_cmp a a = Eq /\ keys_cmp b a = CompOpp (keys_cmp a b) /\ (keys_cmp a b = o -> keys_cmp b c = o -> keys_cmp a c = o) /\
  (keys_cmp a b = Eq <-> keys_equal a b = true).
Proof.
  intros Ha Hb Hc. apply key_ok_iff in Ha, Hb, Hc. split; [|split; [|split]].
  - pose proof (keys_cmp_opp a a Ha Ha) as H. destruct (keys_cmp a a); simpl in H; congruence.
  - now apply keys_cmp_opp.
  - now apply keys_cmp_trans.
  - now apply keys_eq_iff.
Qed.
Definition nan64 : N := 0x7ff8000000000000%N.
Definition one64 : N := 0x3ff0000000000000%N.
Definition two64 : N := 0x4000000000000000%N.
Lemma c13_nan : keys_cmp [CF64 one64] [CF64 nan64] = Eq /\ keys_cmp [CF64 nan64] [CF64 two64] = Eq /\
  keys_cmp [CF64 one64] [CF64 two64] = Lt /\ keys_equal [CF64 one64] [CF64 nan64] = false.
Proof. vm_compute. repeat split. Qed.
Lemma c13_zero : keys_equal [CF64 0] [CF64 (2 ^ 63)] = true /\ keys_cmp [CF64 0] [CF64 (2 ^ 63)] = Eq /\
  key_hash [CF64 0] <> key_hash [CF64 (2 ^ 63)].
Proof. vm_compute. repeat split. discriminate. Qed.

Lemma float_order :
  let s := [(0, TF64)]%N in
  let zero64 := mkSc TF64 (Some (VFloat 0)) in let zero32 := mkSc TF32 (Some (VFloat 0)) in
  let negative_zero := [Some (CF64 (2 ^ 63))]%N in let nan := [Some (CF64 0x7ff8000000000000)]%N in
  evaluate s negative_zero (ECmp 0 OpEq zero64) = Some TF /\ sql s negative_zero (ECmp 0 OpEq zero64) = TT /\
  evaluate s negative_zero (ECmp 0 OpEq zero32) = Some TT /\
  evaluate s nan (ECmp 0 OpGt zero64) = Some TT /\ sql s nan (ECmp 0 OpGt zero64) = TU /\
  evaluate s nan (ECmp 0 OpGt zero32) = Some TU.
Proof. vm_compute. repeat split. Qed.
