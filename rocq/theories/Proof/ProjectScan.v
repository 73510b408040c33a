(** Scans of requested columns. *)
From Coq Require Import List Arith NArith Bool Lia.
From Verif Require Import Base.Order Spec.Tri Spec.Projection Model.Key Model.Expr Model.Residual Model.Pred Model.MemTable Model.Immutable
  Model.SsTable Model.MergeStream Model.DbScan Model.Db Model.Project Proof.PredFacts Proof.ProjectFacts.
Import ListNotations.

Section Main.
  Context {K : Type} {KO : KeyOrd K} {R : Type}.
  Variable key_of : R -> option K.
  Variable single : cell -> option K.
  Variable row_cells : R -> cells.
  Variable row_filter : expr -> R -> bool.
  Variables s ks proj : schema.
  Hypothesis TS : table_schema commit_name s.
  Hypothesis KS : incl ks s.
  Hypothesis RC : forall r, length (row_cells r) = length s.

  Lemma and_matches a b row : row_matches s (EAnd [a; b]) row = row_matches s a row && row_matches s b row.
  Proof.
    unfold row_matches. cbn. destruct (evaluate s row a) as [[]|]; cbn; try reflexivity; destruct (evaluate s row b) as [[]|]; reflexivity.
  Qed.

  Lemma sources_ok sc srcs : incl sc s -> sc <> [] ->
    all_some (map (project_source row_cells s ks sc) srcs) = Some (map (map_source (fun (_ : K * N) r => requested s sc (row_cells r))) srcs).
  Proof.
    intros HI NE. destruct TS as (ND & _). destruct (sst_projection_ok s sc ks TS HI KS) as (g & G1 & G2). destruct (row_projection_ok s sc ND HI NE) as (h & H1 & H2).
    induction srcs as [|[prio es] srcs IH]; auto. cbn [map all_some project_source]. rewrite G1, H1.
    destruct (Nat.eqb prio 3); cbn [option_map all_some]; rewrite IH; f_equal; f_equal; unfold map_source; cbn [fst snd]; f_equal; apply map_ext;
      intros [kt [r|]]; unfold map_entry; cbn [fst snd option_map]; f_equal; f_equal; [now rewrite G2|now rewrite H2].
  Qed.

  Lemma compile_same ps e : incl ps s -> incl (pred_columns e) (names ps) ->
    compile_for single row_cells row_filter ps s ks e = compile single row_cells row_filter s ks e /\ split_row_filter ps e = split_row_filter s e.
  Proof.
    intros HI HC. destruct TS as (ND & _).
    assert (E : split_row_filter ps e = split_row_filter s e) by (apply split_same; intros c Hc; apply col_type_sub; auto).
    split; auto. unfold compile_for, compile. now rewrite E.
  Qed.

  Lemma filter_map_swap {A B} (f : A -> B) (p : B -> bool) (q : A -> bool) l : (forall x, p (f x) = q x) -> filter p (map f l) = map f (filter q l).
  Proof. intros H. induction l as [|x l IH]; auto. cbn. rewrite H. destruct (q x); cbn; now rewrite IH. Qed.

  (** The residual of the plan as an expression. *)
  Lemma residual_same prune e force m imms levels ts limit ps :
    split_row_filter ps e = split_row_filter s e ->
    let p := plan_scan prune (compile single row_cells row_filter s ks e) force m imms levels ts limit in
    match residual_expr ps ks e force (p_mem p || negb (Nat.eqb (length (p_imm p)) 0))
            match snd (split_row_filter s e), p_ssts p with Some _, _ :: _ => true | _, _ => false end with
    | None => p_resid p = None
    | Some q => incl (pred_columns q) (pred_columns e) /\ exists k, p_resid p = Some k /\ forall r, k r = row_matches s q (row_cells r)
    end.
  Proof.
    intros ES p. subst p. unfold plan_scan, residual_expr. cbn [p_mem p_imm p_ssts p_resid c_true c_full c_bounds c_push c_resid c_nonsst compile]. rewrite ES.
    set (sel := select_ssts _ _ _ _). set (has := _ || _).
    assert (W : forall o1 o2, match o1 with None => True | Some q => incl (pred_columns q) (pred_columns e) end ->
      match o2 with None => True | Some q => incl (pred_columns q) (pred_columns e) end ->
      match combine_with_and o1 o2 with
      | None => DbScan.combine_and (option_map (matches row_cells s) o1) (option_map (matches row_cells s) o2) = None
      | Some q => incl (pred_columns q) (pred_columns e) /\
          exists k, DbScan.combine_and (option_map (matches row_cells s) o1) (option_map (matches row_cells s) o2) = Some k /\ forall r, k r = row_matches s q (row_cells r)
      end).
    { intros [a|] [b|] Ha Hb; cbn [combine_with_and option_map DbScan.combine_and]; auto.
      - split; [cbn; rewrite app_nil_r; apply incl_app; auto|]. eexists. split; [reflexivity|]. intros r. cbv beta. rewrite and_matches. reflexivity.
      - split; auto. eexists. split; reflexivity.
      - split; auto. eexists. split; reflexivity. }
    assert (E1 : option_map (matches row_cells s) (snd (split_row_filter s e)) = None <-> snd (split_row_filter s e) = None).
    { destruct (snd (split_row_filter s e)); cbn; split; congruence. }
    replace (match option_map (matches row_cells s) (snd (split_row_filter s e)) with Some _ => match sel with [] => false | _ :: _ => true end | None => false end)
      with (match snd (split_row_filter s e) with Some _ => match sel with [] => false | _ :: _ => true end | None => false end)
      by (destruct (snd (split_row_filter s e)); reflexivity).
    destruct (match snd (split_row_filter s e) with Some _ => match sel with [] => false | _ :: _ => true end | None => false end &&
              negb match e with ETrue => true | _ => false end).
    - split; [apply incl_refl|]. eexists. split; reflexivity.
    - set (o2 := if force && _ then Some e else if has then snd (split_non_sst ks e) else None).
      replace (if force && negb match e with ETrue => true | _ => false end then Some (matches row_cells s e)
               else if has then option_map (matches row_cells s) (snd (split_non_sst ks e)) else None)
        with (option_map (matches row_cells s) o2).
      + apply W.
        * destruct (snd (split_row_filter s e)) eqn:EQ; auto. now apply resid_cols with s.
        * subst o2. destruct (force && _); [apply incl_refl|]. destruct has; auto. destruct (snd (split_non_sst ks e)) eqn:EQ; auto. now apply nonsst_cols with ks.
      + subst o2. destruct (force && _); auto. destruct has; auto.
  Qed.

  Theorem scan_projected_ok e prune txn sn limit d :
    incl proj s -> proj <> [] -> incl (pred_columns e) (names s) ->
    scan_projected key_of single row_cells row_filter s ks proj e prune txn sn limit d
    = option_map (map (fun x => (fst x, requested s proj (row_cells (snd x)))))
        (scan_txn key_of prune (compile single row_cells row_filter s ks e) txn sn limit d).
  Proof.
    intros HP NE HC. destruct TS as (ND & NC). destruct (extend_ok s proj (pred_columns e) ND HP HC) as (ps & E1 & E2 & E3 & E4).
    unfold scan_projected, scan_txn. rewrite E1. destruct (compile_same ps e E2 E4) as (E5 & E6). rewrite E5.
    set (overlay := match txn with Some (x :: r) => Some (txn_entries (sn_ts sn) (x :: r)) | _ => None end). cbv zeta.
    set (force := match overlay with Some _ => true | None => false end).
    pose proof (residual_same prune e force (d_mem d) (d_imm d) (sn_levels sn) (sn_ts sn) limit ps E6) as HR. cbv zeta in HR.
    assert (PL : p_limit (plan_scan prune (compile single row_cells row_filter s ks e) force (d_mem d) (d_imm d) (sn_levels sn) (sn_ts sn) limit) = limit) by reflexivity.
    set (p := plan_scan _ _ _ _ _ _ _ _) in *.
    set (resid := residual_expr _ _ _ _ _ _) in *. clearbody resid p. unfold exec_plan. rewrite PL. clear PL.
    destruct (build_streams key_of overlay (d_mem d) (d_imm d) p) as [srcs|]; auto.
    set (sc := if force || match resid with Some _ => true | None => false end then ps else proj).
    assert (S1 : incl sc s) by (subst sc; destruct (force || _); auto).
    assert (S2 : incl proj sc) by (subst sc; destruct (force || _); auto using incl_refl).
    assert (S3 : sc <> []). { destruct proj as [|f pr]; [congruence|]. intros E. rewrite E in S2. destruct (S2 f). cbn. auto. }
    assert (S4 : forall q, resid = Some q -> sc = ps). { intros q ->. subst sc. now rewrite orb_true_r. }
    clearbody sc. destruct (result_projection_ok s sc proj ND S1 S2) as (out & O1 & O2).
    destruct srcs as [|s0 srcs].
    - destruct resid as [q|]; [destruct HR as (_ & k & HR & _)|]; rewrite HR; cbn.
      + destruct limit as [[|]|]; reflexivity.
      + destruct limit as [[|]|]; reflexivity.
    - generalize (s0 :: srcs). clear s0 srcs. intros srcs. rewrite (sources_ok sc srcs S1 S3), O1. destruct resid as [q|].
      + destruct HR as (HQ & k & HR & HK). rewrite HR, merge_streams_map. destruct (merge_streams None srcs) as [rows|]; auto. cbn [option_map]. f_equal.
        rewrite (filter_map_swap _ _ (fun x => k (snd x))).
        * rewrite map_map. destruct limit as [n|]; [rewrite firstn_map|]; apply map_ext; intros x; cbn; now rewrite O2.
        * intros x. cbn. rewrite HK. unfold row_matches. rewrite evaluate_sub; auto. rewrite (S4 q eq_refl). intros c Hc. apply E4, HQ, Hc.
      + rewrite HR, merge_streams_map. destruct (merge_streams limit srcs) as [rows|]; auto. cbn [option_map]. f_equal. rewrite map_map. apply map_ext.
        intros x. cbn. now rewrite O2.
  Qed.

  (** A requested column the table does not have. *)
  Lemma positions_none (find : N * dtype -> option nat) tgt f : In f tgt -> find f = None -> all_positions find tgt = None.
  Proof.
    induction tgt as [|g tgt IH]; intros [] E; cbn; subst; [now rewrite E|]. rewrite IH by auto. destruct (find g); reflexivity.
  Qed.
  Lemma col_index_none sc c : ~ In c (names sc) -> col_index sc c = None.
  Proof.
    intros H. destruct (col_index sc c) as [i|] eqn:E; auto. exfalso. apply H. destruct (col_index_nth _ _ _ E) as [t E2].
    apply nth_error_In in E2. apply in_names in E2. exact E2.
  Qed.
  Lemma source_unknown c src : In c (names proj) -> ~ In c (names s) -> c <> commit_name -> project_source row_cells s ks proj (K := K) src = None.
  Proof.
    intros H1 H2 H3. destruct TS as (ND & NC). destruct src as [prio es]. unfold project_source.
    assert (A : sst_projection s proj ks = None).
    { unfold sst_projection, sst_columns. fold (file_schema s).
      destruct (take_needed 0 (names proj ++ names ks ++ [commit_name]) (file_schema s)) as [l rest] eqn:ET.
      destruct (take_needed_spec _ (nodup_file s ND NC) _ _ _ _ ET) as (_ & _ & _ & D). destruct rest; auto.
      exfalso. apply (D c). split; [apply in_or_app; auto|]. unfold file_schema, names. rewrite map_app. intros F.
      apply in_app_or in F as [F|[F|[]]]; [contradiction|apply H3; symmetry; exact F]. }
    assert (B : row_projection s proj = None).
    { apply in_map_iff in H1 as (f & E & H1). unfold row_projection, dyn_projection. destruct proj as [|g pr]; auto.
      rewrite (positions_none _ _ f H1); auto. rewrite col_index_none; auto. now rewrite E. }
    rewrite A, B. now destruct (Nat.eqb prio 3).
  Qed.
  Theorem scan_unknown c e prune txn sn limit d : In c (names proj) -> ~ In c (names s) -> c <> commit_name ->
    scan_projected key_of single row_cells row_filter s ks proj e prune txn sn limit d = None \/
    scan_projected key_of single row_cells row_filter s ks proj e prune txn sn limit d = Some [].
  Proof.
    intros H1 H2 H3. destruct TS as (ND & NC). unfold scan_projected.
    destruct (extend_unknown s proj (pred_columns e) ND) as [-> | ->]; auto. cbv zeta.
    destruct (build_streams _ _ _ _ _) as [[|s0 srcs]|]; auto. left.
    replace (if _ || _ then proj else proj) with proj by (destruct (_ || _); reflexivity).
    cbn [map all_some]. rewrite (source_unknown c); auto.
  Qed.
End Main.
