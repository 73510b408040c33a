(** The property theorems on requested columns, and their examples. *)
From Coq Require Import List NArith ZArith Bool Lia.
From Verif Require Import Base.Order Spec.Tri Spec.KeySpec Spec.PredSpec Spec.Sql Spec.KeySet Spec.Table Spec.Projection
     Model.KeyBounds Model.Key Model.Expr Model.Residual Model.Pred Model.MemTable Model.Immutable Model.SsTable Model.DbScan Model.Db Model.Project
     Spec.Mvcc Spec.History Model.Run Spec.Valid
     Proof.KeyInst Proof.PredFacts Proof.Refine Proof.Reads Proof.TableFacts Proof.Findings4 Proof.PredProps Proof.ProjectFacts Proof.ProjectScan.
Import ListNotations.

Lemma row_fits_length s : forall r, row_fits s r = true -> length r = length s.
Proof.
  induction s as [|[n t] s IH]; intros [|o r] H; try discriminate; auto. cbn in *. apply andb_prop in H as [_ H]. now rewrite (IH r H).
Qed.
Lemma only_cols_incl cs e : only_cols cs e = true -> incl (pred_columns e) cs.
Proof.
  induction e as [ | | c op v | c lo hi i | c vs | c p | c n | c | l IH | l IH | e IH] using expr_rect'; cbn [only_cols pred_columns]; intros H;
    try (intros x []; fail);
    try (intros x [<-|[]]; apply existsb_exists in H as (y & Hy & E); apply N.eqb_eq in E; now subst).
  - intros x Hx. apply in_flat_map in Hx as (y & Hy & Hx). rewrite Forall_forall in IH. rewrite forallb_forall in H. exact (IH y Hy (H y Hy) x Hx).
  - intros x Hx. apply in_flat_map in Hx as (y & Hy & Hx). rewrite Forall_forall in IH. rewrite forallb_forall in H. exact (IH y Hy (H y Hy) x Hx).
  - auto.
Qed.
Lemma key_schema_incl s kcols : key_cols_ok s kcols = true -> incl (key_schema s kcols) s.
Proof.
  intros H f Hf. apply in_map_iff in Hf as (c & <- & Hc). unfold key_cols_ok in H. rewrite forallb_forall in H. specialize (H c Hc).
  unfold col_type in *. destruct (col_index s c) as [i|] eqn:E; [|discriminate]. destruct (col_index_nth _ _ _ E) as [t E2]. rewrite E2. cbn.
  eapply nth_error_In; eauto.
Qed.

Lemma c60_same_rows s kcols proj e row_filter prune txn sn limit (d : db nkey (trow s)) :
  table_schema commit_name s -> key_cols_ok s kcols = true -> incl proj s -> proj <> [] -> only_cols (map fst s) e = true ->
  scan_projected (trow_key s kcols) one_cell row_cells row_filter s (key_schema s kcols) proj e prune txn sn limit d
  = option_map (map (fun x => (fst x, requested s proj (row_cells (snd x)))))
      (scan_txn (trow_key s kcols) prune (compile one_cell row_cells row_filter s (key_schema s kcols) e) txn sn limit d).
Proof.
  intros H1 H2 H3 H4 H5. apply scan_projected_ok; auto.
  - now apply key_schema_incl.
  - intros [r Hr]. now apply row_fits_length.
  - now apply only_cols_incl.
Qed.
Lemma c60_unknown s kcols proj c e row_filter prune txn sn limit (d : db nkey (trow s)) :
  table_schema commit_name s -> key_cols_ok s kcols = true -> In c (map fst proj) -> ~ In c (map fst s) -> c <> commit_name ->
  let out := scan_projected (trow_key s kcols) one_cell row_cells row_filter s (key_schema s kcols) proj e prune txn sn limit d in
  out = None \/ out = Some [].
Proof. intros H1 H2 H3 H4 H5. now apply scan_unknown with c. Qed.

Lemma c60_table s kcols proj e row_filter row_bytes del_bytes capacity ops prune ts limit :
  table_schema commit_name s -> incl proj s -> proj <> [] -> only_cols (map fst s) e = true ->
  key_cols_ok s kcols = true -> expr_good s e = true -> key_lits_ok s kcols e = true ->
  filter_contract row_filter -> prune_contract e ts prune ->
  1 <= capacity -> (N.of_nat (length ops) < 2 ^ 64)%N ->
  ops_ok (trow_key s kcols) row_bytes del_bytes (start capacity) ops ->
  let st := run (trow_key s kcols) row_bytes del_bytes (start capacity) ops in
  Forall (seg_safe ts) (d_imm (st_db st)) -> (st_horizon st <= ts)%N ->
  (only_cols kcols e = true \/ concat (d_levels (st_db st)) = []) ->
  exists full,
    scan_projected (trow_key s kcols) one_cell row_cells row_filter s (key_schema s kcols) proj e prune None
                   (mkSnap ts (d_levels (st_db st))) limit (st_db st)
    = Some (map (fun x => (fst x, requested s proj (row_cells (snd x)))) match limit with Some n => firstn n full | None => full end) /\
    lists_table (trow_key s kcols) (as_of (trow_key s kcols) (st_hist st) ts) (fun r => is_true (sql s (row_cells r) e)) full.
Proof.
  intros P1 P2 P3 P4 H1 H2 H3 H4 H5 H6 H7 H8 st H9 H10 H11.
  destruct (c08_scan s kcols e row_filter row_bytes del_bytes capacity ops prune ts limit H1 H2 H3 H4 H5 H6 H7 H8 H9 H10 H11) as (full & out & A & B & C).
  exists full. split; auto. rewrite c60_same_rows by auto. fold st in A. unfold scan in A. rewrite A, B. reflexivity.
Qed.

(** Scans after operations on the two-column table, asking for [proj]. *)
Definition pscan (proj : schema) (e : expr) (ts : N) (ops : list (op nkey (trow s64))) :=
  let d := st_db (trun s64 [0%N] ops) in
  option_map (map (fun x : (nkey * N) * cells => (raw (fst (fst x)), snd (fst x), snd x)))
    (scan_projected (trow_key s64 [0%N]) one_cell row_cells exact_filter s64 (key_schema s64 [0%N]) proj e (@t_rows nkey (trow s64)) None
       (mkSnap ts (d_levels d)) None d).
Lemma s64_table : table_schema commit_name s64.
Proof. split; [repeat constructor; cbn; intuition discriminate|]. vm_compute. intuition discriminate. Qed.

(** The value column alone, filtered by the key column; then both columns, one of them twice. *)
Lemma demo64_projected :
  tok s64 [0%N] demo64 /\ table_schema commit_name s64 /\ only_cols (map fst s64) rng = true /\
  incl [(1%N, TI64)] s64 /\ incl [(1%N, TI64); (0%N, TI64); (1%N, TI64)] s64 /\
  length (concat (d_levels (st_db (trun s64 [0%N] demo64)))) = 1 /\
  pscan [(1%N, TI64)] rng 2 demo64
  = Some [([CI64 2], 1%N, [Some (CI64 21)]); ([CI64 3], 0%N, [Some (CI64 30)]); ([CI64 9], 2%N, [Some (CI64 90)])] /\
  pscan [(1%N, TI64); (0%N, TI64); (1%N, TI64)] rng 2 demo64
  = Some [([CI64 2], 1%N, [Some (CI64 21); Some (CI64 2); Some (CI64 21)]); ([CI64 3], 0%N, [Some (CI64 30); Some (CI64 3); Some (CI64 30)]);
          ([CI64 9], 2%N, [Some (CI64 90); Some (CI64 9); Some (CI64 90)])].
Proof.
  split; [exact demo64_ok|]. split; [exact s64_table|]. split; [reflexivity|].
  split; [intros x [<-|[]]; cbn; auto|]. split; [intros x [<-|[<-|[<-|[]]]]; cbn; auto|]. split; [vm_compute; reflexivity|].
  split; vm_compute; reflexivity.
Qed.

(** The reserved commit timestamp column is refused while the rows are in memory and read
    once they are in a file. *)
Definition one_row : list (op nkey (trow s64)) := [ OIngest [r64 1 10 eq_refl] None true ].
Lemma reserved_read :
  tok s64 [0%N] (one_row ++ [OFlush 0]) /\ ~ In commit_name (map fst s64) /\
  pscan [(commit_name, TU64)] ETrue 0 one_row = None /\
  pscan [(commit_name, TU64)] ETrue 0 (one_row ++ [OFlush 0]) = Some [([CI64 1], 0%N, [Some (CU64 0)])].
Proof.
  split; [unfold tok, one_row; cbn [app]; ok_t|]. split; [exact (proj2 s64_table)|]. split; vm_compute; reflexivity.
Qed.
