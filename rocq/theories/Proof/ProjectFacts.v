(** Projections of rows. *)
From Coq Require Import List Arith NArith Bool Lia.
From Verif Require Import Base.Order Spec.Tri Spec.Projection Model.Key Model.Expr Model.Residual Model.Pred Model.MemTable Model.Immutable
  Model.SsTable Model.MergeStream Model.DbScan Model.Db Model.Project Proof.PredFacts.
Import ListNotations.

(** *** Columns by name *)
Lemma dtype_eqb_refl t : dtype_eqb t t = true. Proof. destruct t; try reflexivity. apply N.eqb_refl. Qed.
Lemma dtype_eqb_eq t u : dtype_eqb t u = true -> t = u.
Proof. destruct t, u; try reflexivity; try discriminate. cbn. intros H. apply N.eqb_eq in H. now subst. Qed.

Lemma col_index_nth s : forall c i, col_index s c = Some i -> exists t, nth_error s i = Some (c, t).
Proof.
  induction s as [|[n t] s IH]; intros c i H; [discriminate|]. cbn in H. destruct (N.eqb_spec n c) as [->|NE].
  - injection H as <-. cbn. eauto.
  - destruct (col_index s c) as [j|] eqn:E; [|discriminate]. injection H as <-. cbn. eauto.
Qed.
Lemma col_index_in s c : In c (names s) -> exists i, col_index s c = Some i.
Proof.
  induction s as [|[n t] s IH]; [intros []|]. cbn. destruct (N.eqb_spec n c) as [->|NE]; eauto.
  intros [->|H]; [congruence|]. destruct (IH H) as [i ->]. cbn. eauto.
Qed.
Lemma col_index_nth_nodup s : NoDup (names s) -> forall c t i, nth_error s i = Some (c, t) -> col_index s c = Some i.
Proof.
  induction s as [|[n u] s IH]; intros ND c t i H; [destruct i; discriminate|]. cbn in ND. inversion ND as [|? ? N1 N2]; subst.
  cbn. destruct i as [|i].
  - cbn in H. injection H as -> ->. now rewrite N.eqb_refl.
  - cbn in H. destruct (N.eqb_spec n c) as [->|NE].
    + exfalso. apply N1. apply in_map_iff. exists (c, t). split; auto. eapply nth_error_In; eauto.
    + now rewrite (IH N2 _ _ _ H).
Qed.
Lemma col_type_in s c t : NoDup (names s) -> In (c, t) s -> col_type s c = Some t.
Proof.
  intros ND H. apply In_nth_error in H as [i H]. unfold col_type. rewrite (col_index_nth_nodup s ND _ _ _ H), H. reflexivity.
Qed.
Lemma cell_in_nth s : forall row c i, length row = length s -> col_index s c = Some i -> cell_in s row c = nth i row None.
Proof.
  induction s as [|[n t] s IH]; intros row c i L H; [discriminate|]. destruct row as [|x row]; [discriminate|]. cbn in *.
  destruct (N.eqb_spec n c) as [->|NE]; [injection H as <-; reflexivity|].
  destruct (col_index s c) as [j|] eqn:E; [|discriminate]. injection H as <-. apply IH; auto.
Qed.
Lemma cell_in_app s s' row row' c : length row = length s -> In c (names s) -> cell_in (s ++ s') (row ++ row') c = cell_in s row c.
Proof.
  revert row. induction s as [|[n t] s IH]; intros row L H; [destruct H|]. destruct row as [|x row]; [discriminate|]. cbn in *.
  destruct (N.eqb_spec n c) as [->|NE]; auto. destruct H as [->|H]; [congruence|]. apply IH; auto.
Qed.
Lemma mem_name_in c l : mem_name c l = true <-> In c l.
Proof.
  unfold mem_name. rewrite existsb_exists. split.
  - intros (x & Hx & E). apply N.eqb_eq in E. now subst.
  - intros H. exists c. split; auto. apply N.eqb_refl.
Qed.
Lemma drop_name_in c x l : In x (drop_name c l) <-> In x l /\ x <> c.
Proof. unfold drop_name. rewrite filter_In, negb_true_iff, N.eqb_neq. reflexivity. Qed.
Lemma in_names (f : N * dtype) s : In f s -> In (fst f) (names s). Proof. apply in_map. Qed.

(** *** The loop over the fields *)
Lemma take_needed_spec s : NoDup (names s) -> forall i needed l rest, take_needed i needed s = (l, rest) ->
  (forall j f, In (j, f) l -> i <= j /\ nth_error s (j - i) = Some f) /\
  NoDup (names (map snd l)) /\
  (forall f, In f (map snd l) <-> In f s /\ In (fst f) needed) /\
  (forall c, In c rest <-> In c needed /\ ~ In c (names s)).
Proof.
  induction s as [|f s IH]; intros ND i needed l rest H; cbn in H.
  - injection H as <- <-. repeat split; try tauto; try constructor; intros; cbn in *; try tauto; destruct H as [[] _].
  - cbn in ND. inversion ND as [|? ? N1 N2]; subst. destruct (mem_name (fst f) needed) eqn:EM.
    + apply mem_name_in in EM. destruct (take_needed (S i) (drop_name (fst f) needed) s) as [l' rest'] eqn:ET. injection H as <- <-.
      destruct (IH N2 _ _ _ _ ET) as (A & B & C1 & D). split; [|split; [|split]].
      * intros j g [E|E].
        -- injection E as <- <-. split; auto. now rewrite Nat.sub_diag.
        -- destruct (A j g E) as [A1 A2]. split; [lia|]. replace (j - i) with (S (j - S i)) by lia. exact A2.
      * cbn. constructor; auto. intros F. apply in_map_iff in F as (g & E & F). apply C1 in F as [_ F]. apply drop_name_in in F as [_ F]. congruence.
      * intros g. cbn [map snd]. cbn [In]. rewrite C1, drop_name_in. split.
        -- intros [<-|(F1 & F2 & F3)]; [split; auto|]. split; auto.
        -- intros ([->|F1] & F2); auto. right. split; auto. split; auto. intros E. apply N1. rewrite <- E. now apply in_names.
      * intros c. rewrite D, drop_name_in. cbn [names map In]. split.
        -- intros ((F1 & F2) & F3). split; auto. intros [F|F]; auto.
        -- intros (F1 & F2). split; [split; auto|]; intros F; apply F2; auto.
    + assert (NM : ~ In (fst f) needed) by (intros F; apply mem_name_in in F; congruence).
      destruct (IH N2 _ _ _ _ H) as (A & B & C1 & D). split; [|split; [|split]]; auto.
      * intros j g E. destruct (A j g E) as [A1 A2]. split; [lia|]. replace (j - i) with (S (j - S i)) by lia. exact A2.
      * intros g. cbn [In]. rewrite C1. split; [tauto|]. intros ([->|F1] & F2); [contradiction|]. auto.
      * intros c. rewrite D. cbn [names map In]. split; [|tauto]. intros (F1 & F2). split; auto. intros [F|F]; auto. subst. contradiction.
Qed.

(** *** Projections copy the requested cells *)
Lemma positions_pick (find : N * dtype -> option nat) (val : N * dtype -> option cell) row tgt :
  (forall f, In f tgt -> exists i, find f = Some i /\ nth i row None = val f) ->
  exists idx, all_positions find tgt = Some idx /\ pick idx row = map val tgt.
Proof.
  induction tgt as [|f tgt IH]; intros H; [exists []; split; reflexivity|].
  destruct (H f (or_introl eq_refl)) as (i & E1 & E2). destruct IH as (idx & E3 & E4); [intros g Hg; apply H; cbn; auto|].
  exists (i :: idx). cbn [all_positions]. rewrite E1, E3. split; auto. cbn [pick map]. now rewrite E2, <- E4.
Qed.
Lemma positions_some (find : N * dtype -> option nat) tgt : (forall f, In f tgt -> exists i, find f = Some i) -> exists idx, all_positions find tgt = Some idx.
Proof.
  induction tgt as [|f tgt IH]; intros H; [exists []; reflexivity|].
  destruct (H f (or_introl eq_refl)) as (i & E1). destruct IH as (idx & E3); [intros g Hg; apply H; cbn; auto|].
  exists (i :: idx). cbn [all_positions]. now rewrite E1, E3.
Qed.
Lemma dyn_projection_ok s sc : NoDup (names s) -> incl sc s -> exists idx, dyn_projection s sc = Some idx /\
  forall row, length row = length s -> pick idx row = requested s sc row.
Proof.
  intros ND HI. assert (F : forall f, In f sc -> exists i, col_index s (fst f) = Some i /\
    (match col_index s (fst f), col_type s (fst f) with Some i, Some t => if dtype_eqb t (snd f) then Some i else None | _, _ => None end) = Some i).
  { intros [c t] Hf. apply HI in Hf. pose proof (col_type_in _ _ _ ND Hf) as ET. cbn [fst snd].
    destruct (col_index_in s c) as [i E]; [now apply in_names in Hf|]. exists i. split; auto. now rewrite E, ET, dtype_eqb_refl. }
  destruct (positions_some (fun f => match col_index s (fst f), col_type s (fst f) with Some i, Some t => if dtype_eqb t (snd f) then Some i else None | _, _ => None end) sc)
    as (idx & E); [intros f Hf; destruct (F f Hf) as (i & _ & E); eauto|].
  exists idx. split; auto. intros row L.
  destruct (positions_pick (fun f => match col_index s (fst f), col_type s (fst f) with Some i, Some t => if dtype_eqb t (snd f) then Some i else None | _, _ => None end)
              (fun f => cell_in s row (fst f)) row sc) as (idx' & E1 & E2).
  - intros f Hf. destruct (F f Hf) as (i & F1 & F2). exists i. split; auto. symmetry. now apply cell_in_nth.
  - unfold dyn_projection in *. rewrite E in E1. injection E1 as ->. exact E2.
Qed.

Lemma sub_ok s sc : NoDup (names s) -> incl sc s -> forall c i, col_index sc c = Some i ->
  exists t, nth_error sc i = Some (c, t) /\ In (c, t) s.
Proof. intros ND HI c i H. destruct (col_index_nth _ _ _ H) as [t E]. exists t. split; auto. apply HI. eapply nth_error_In; eauto. Qed.
Lemma col_type_sub s sc c : NoDup (names s) -> incl sc s -> In c (names sc) -> col_type sc c = col_type s c.
Proof.
  intros ND HI Hc. destruct (col_index_in sc c Hc) as [i E]. destruct (sub_ok _ _ ND HI _ _ E) as (t & E1 & E2).
  rewrite (col_type_in _ _ _ ND E2). unfold col_type. now rewrite E, E1.
Qed.
Lemma requested_nth s sc row c i : col_index sc c = Some i -> nth_error (requested s sc row) i = Some (cell_in s row c).
Proof.
  intros H. destruct (col_index_nth _ _ _ H) as [t E]. unfold requested. now rewrite (map_nth_error _ _ _ E).
Qed.
Lemma requested_length s sc row : length (requested s sc row) = length sc. Proof. apply map_length. Qed.
Lemma cell_in_requested s sc row c : In c (names sc) -> cell_in sc (requested s sc row) c = cell_in s row c.
Proof.
  intros H. destruct (col_index_in sc c H) as [i E]. rewrite (cell_in_nth sc _ c i (requested_length _ _ _) E).
  apply nth_error_nth. now apply requested_nth.
Qed.
Lemma requested_twice s sc proj row : incl proj sc -> requested sc proj (requested s sc row) = requested s proj row.
Proof. intros H. unfold requested at 1 3. apply map_ext_in. intros f Hf. apply cell_in_requested. apply in_names. auto. Qed.
Lemma requested_same s sc proj row : sc = proj -> requested s sc row = requested s proj row. Proof. now intros ->. Qed.

(** The projection of a sub-schema that may name a column twice. *)
Lemma result_projection_ok s sc proj : NoDup (names s) -> incl sc s -> incl proj sc -> exists out, result_projection sc proj = Some out /\
  forall row, out (requested s sc row) = requested s proj row.
Proof.
  intros ND H1 H2. unfold result_projection. destruct (schema_eqb sc proj) eqn:EE.
  - exists (fun row => row). split; auto. intros row. f_equal. clear H1 H2. revert proj EE. induction sc as [|[n t] sc IH]; intros [|[m u] proj] E; try discriminate; auto.
    cbn in E. apply andb_prop in E as [E E3]. apply andb_prop in E as [E1 E2]. apply N.eqb_eq in E1. apply dtype_eqb_eq in E2. subst.
    f_equal. apply IH. exact E3.
  - assert (F : forall f, In f proj -> exists i, col_index sc (fst f) = Some i /\
      (match col_index sc (fst f), col_type sc (fst f) with Some i, Some t => if dtype_eqb t (snd f) then Some i else None | _, _ => None end) = Some i).
    { intros [c t] Hf. apply H2 in Hf. cbn [fst snd]. destruct (col_index_in sc c) as [i E]; [now apply in_names in Hf|]. exists i. split; auto.
      rewrite E. rewrite (col_type_sub s sc c ND H1) by (now apply in_names in Hf). rewrite (col_type_in s c t ND) by auto. now rewrite dtype_eqb_refl. }
    destruct (positions_some (fun f => match col_index sc (fst f), col_type sc (fst f) with Some i, Some t => if dtype_eqb t (snd f) then Some i else None | _, _ => None end) proj)
      as (idx & E); [intros f Hf; destruct (F f Hf) as (i & _ & E); eauto|].
    exists (pick idx). unfold dyn_projection. rewrite E. split; auto. intros row.
    destruct (positions_pick (fun f => match col_index sc (fst f), col_type sc (fst f) with Some i, Some t => if dtype_eqb t (snd f) then Some i else None | _, _ => None end)
              (fun f => cell_in s row (fst f)) (requested s sc row) proj) as (idx' & E1 & E2).
    + intros f Hf. destruct (F f Hf) as (i & F1 & F2). exists i. split; auto. apply nth_error_nth. now apply requested_nth.
    + rewrite E in E1. injection E1 as ->. exact E2.
Qed.

Lemma no_elements {A} (l : list A) : (forall x, ~ In x l) -> l = [].
Proof. destruct l as [|a l]; auto. intros H. destruct (H a). cbn. auto. Qed.

Lemma extend_ok s proj req : NoDup (names s) -> incl proj s -> incl req (names s) ->
  exists ps, extend_projection s proj req = Some ps /\ incl ps s /\ incl proj ps /\ incl req (names ps).
Proof.
  intros ND H1 H2. unfold extend_projection. destruct (forallb (fun c => mem_name c (names proj)) req) eqn:EF.
  - exists proj. repeat split; auto using incl_refl. intros c Hc. apply mem_name_in. rewrite forallb_forall in EF. auto.
  - destruct (take_needed 0 (names proj ++ req) s) as [l rest] eqn:ET.
    destruct (take_needed_spec s ND _ _ _ _ ET) as (A & B & C1 & D).
    assert (E : rest = []).
    { apply no_elements. intros c Hc. apply D in Hc as [F1 F2]. apply F2. apply in_app_or in F1 as [F1|F1]; auto.
      apply in_map_iff in F1 as (f & <- & F1). apply in_names. auto. }
    subst. exists (map snd l). repeat split; auto.
    + intros f Hf. now apply C1 in Hf.
    + intros f Hf. apply C1. split; auto. apply in_or_app. left. now apply in_names.
    + intros c Hc. pose proof (H2 c Hc) as F. apply in_map_iff in F as (f & <- & F). apply in_names. apply C1. split; auto. apply in_or_app. auto.
Qed.
(** A requested column the table does not have is refused when the predicate needs others. *)
Lemma extend_unknown s proj req : NoDup (names s) -> ~ incl (names proj) (names s) ->
  extend_projection s proj req = Some proj \/ extend_projection s proj req = None.
Proof.
  intros ND H. unfold extend_projection. destruct (forallb (fun c => mem_name c (names proj)) req) eqn:EF; auto.
  right. destruct (take_needed 0 (names proj ++ req) s) as [l rest] eqn:ET.
  destruct (take_needed_spec s ND _ _ _ _ ET) as (A & B & C1 & D). destruct rest; auto.
  exfalso. apply H. intros c Hc. destruct (in_dec N.eq_dec c (names s)) as [|F]; auto.
  exfalso. apply (D c). split; auto. apply in_or_app. auto.
Qed.

(** *** Files *)
Definition file_schema (s : schema) : schema := s ++ [(commit_name, TU64)].
Lemma nodup_file s : NoDup (names s) -> ~ In commit_name (names s) -> NoDup (names (file_schema s)).
Proof.
  unfold names, file_schema. rewrite map_app. intros ND NC. cbn [map fst]. apply (proj2 (NoDup_Add (Add_app commit_name (map fst s) []))).
  now rewrite app_nil_r.
Qed.
Lemma requested_file s sc ts row : length row = length s -> incl sc s -> requested (file_schema s) sc (file_row ts row) = requested s sc row.
Proof.
  intros L HI. apply map_ext_in. intros f Hf. apply cell_in_app; auto. apply in_names. auto.
Qed.
Lemma indices_ok s fs sc : incl (names sc) (names fs) -> exists idx, schema_projection_indices fs sc = Some idx /\
  forall row, pick idx (requested s fs row) = requested s sc row.
Proof.
  intros HI. assert (F : forall f, In f sc -> exists i, col_index fs (fst f) = Some i).
  { intros f Hf. apply col_index_in, HI, in_names, Hf. }
  destruct (positions_some (fun f => col_index fs (fst f)) sc F) as (idx & E). exists idx. split; auto. intros row.
  destruct (positions_pick (fun f => col_index fs (fst f)) (fun f => cell_in s row (fst f)) (requested s fs row) sc) as (idx' & E1 & E2).
  - intros f Hf. destruct (F f Hf) as (i & E1). exists i. split; auto. apply nth_error_nth. now apply requested_nth.
  - rewrite E in E1. injection E1 as <-. exact E2.
Qed.
Lemma sst_projection_ok s sc ks : table_schema commit_name s -> incl sc s -> incl ks s -> exists f, sst_projection s sc ks = Some f /\
  forall ts row, length row = length s -> f ts row = (requested s ks row, requested s sc row).
Proof.
  intros (ND & NC) H1 H2. unfold sst_projection, sst_columns. fold (file_schema s).
  pose proof (nodup_file s ND NC) as NDF.
  destruct (take_needed 0 (names sc ++ names ks ++ [commit_name]) (file_schema s)) as [l rest] eqn:ET.
  destruct (take_needed_spec _ NDF _ _ _ _ ET) as (A & B & C1 & D).
  assert (IS : forall f, In f s -> In f (file_schema s)) by (intros f Hf; apply in_or_app; auto).
  assert (E : rest = []).
  { apply no_elements. intros c Hc. apply D in Hc as [F1 F2]. apply F2. apply in_app_or in F1 as [F1|F1]; [|apply in_app_or in F1 as [F1|F1]].
    - apply in_map_iff in F1 as (f & <- & F1). apply in_names. auto.
    - apply in_map_iff in F1 as (f & <- & F1). apply in_names. auto.
    - destruct F1 as [<-|[]]. apply (in_names (commit_name, TU64)). apply in_or_app. right. cbn. auto. }
  subst. 
  assert (I1 : incl sc (map snd l)). { intros f Hf. apply C1. split; auto. apply in_or_app. left. now apply in_names. }
  assert (I2 : incl ks (map snd l)). { intros f Hf. apply C1. split; auto. apply in_or_app. right. apply in_or_app. left. now apply in_names. }
  destruct (indices_ok (file_schema s) (map snd l) sc) as (ri & R1 & R2). { intros c Hc. apply in_map_iff in Hc as (f & <- & Hc). apply in_names. auto. }
  destruct (indices_ok (file_schema s) (map snd l) ks) as (ki & K1 & K2). { intros c Hc. apply in_map_iff in Hc as (f & <- & Hc). apply in_names. auto. }
  rewrite R1, K1. eexists. split; [reflexivity|]. intros ts row L. cbv beta zeta.
  assert (P : pick (map fst l) (file_row ts row) = requested (file_schema s) (map snd l) (file_row ts row)).
  { unfold pick, requested. rewrite !map_map. apply map_ext_in. intros [j f] Hj. destruct (A j f Hj) as [_ A2]. rewrite Nat.sub_0_r in A2.
    cbn [fst snd]. destruct f as [c t]. symmetry. apply cell_in_nth.
    - unfold file_row, file_schema. rewrite !app_length. cbn. lia.
    - now apply col_index_nth_nodup with t. }
  rewrite P, R2, K2, !requested_file by auto. reflexivity.
Qed.
Lemma row_projection_ok s sc : NoDup (names s) -> incl sc s -> sc <> [] -> exists f, row_projection s sc = Some f /\
  forall row, length row = length s -> f row = requested s sc row.
Proof.
  intros ND HI NE. destruct (dyn_projection_ok s sc ND HI) as (idx & E1 & E2). exists (pick idx). split; auto.
  unfold row_projection. rewrite E1. destruct sc; [congruence|reflexivity].
Qed.

(** *** Predicates on projected rows *)
Definition and_go (f : expr -> option tri) : tri -> list expr -> option tri := fix go (acc : tri) (l : list expr) : option tri :=
  match l with
  | [] => Some acc
  | x :: t => match f x with None => None | Some o => match tri_and acc o with TF => Some TF | a => go a t end end
  end.
Definition or_go (f : expr -> option tri) : tri -> list expr -> option tri := fix go (acc : tri) (l : list expr) : option tri :=
  match l with
  | [] => Some acc
  | x :: t => match f x with None => None | Some o => match tri_or acc o with TT => Some TT | a => go a t end end
  end.
Lemma and_go_ext f g l : Forall (fun x => f x = g x) l -> forall acc, and_go f acc l = and_go g acc l.
Proof. induction 1 as [|x l E _ IH]; intros acc; cbn; auto. rewrite E. destruct (g x); auto. destruct (tri_and acc t); auto. Qed.
Lemma or_go_ext f g l : Forall (fun x => f x = g x) l -> forall acc, or_go f acc l = or_go g acc l.
Proof. induction 1 as [|x l E _ IH]; intros acc; cbn; auto. rewrite E. destruct (g x); auto. destruct (tri_or acc t); auto. Qed.
Lemma flat_sub (l : list expr) (A : list N) (P : expr -> Prop) : Forall (fun e => incl (pred_columns e) A -> P e) l -> incl (flat_map pred_columns l) A -> Forall P l.
Proof.
  induction 1 as [|x l X _ IH]; intros H; constructor.
  - apply X. intros c Hc. apply H. cbn. apply in_or_app. auto.
  - apply IH. intros c Hc. apply H. cbn. apply in_or_app. auto.
Qed.
Section Eval.
  Variables (s sc : schema) (row : cells).
  Hypothesis L : length row = length s.
  Hypothesis SUB : incl sc s.
  Lemma resolve_sub c : In c (names sc) -> resolve_column sc (requested s sc row) c = resolve_column s row c.
  Proof.
    intros Hc. unfold resolve_column. destruct (col_index_in sc c Hc) as [i E]. rewrite E, (requested_nth _ _ _ _ _ E).
    assert (Hs : In c (names s)). { apply in_map_iff in Hc as (f & <- & Hc). apply in_names. auto. }
    destruct (col_index_in s c Hs) as [j E2]. rewrite E2, (cell_in_nth s row c j L E2).
    rewrite (nth_error_nth' row None). reflexivity.
    rewrite L. destruct (col_index_nth _ _ _ E2) as [t E3]. apply nth_error_Some. congruence.
  Qed.
  Lemma evaluate_sub e : incl (pred_columns e) (names sc) -> evaluate sc (requested s sc row) e = evaluate s row e.
  Proof.
    induction e as [ | | c op v | c lo hi i | c vs | c p | c n | c | l IH | l IH | e IH] using expr_rect'; intros H; cbn [evaluate]; try reflexivity;
      try (unfold evaluate_between, evaluate_in_list, evaluate_starts_with, evaluate_is_null, evaluate_cmp; rewrite resolve_sub by (apply H; cbn; auto); reflexivity).
    - change (and_go (evaluate sc (requested s sc row)) TT l = and_go (evaluate s row) TT l). apply and_go_ext. eapply flat_sub; eauto.
    - change (or_go (evaluate sc (requested s sc row)) TF l = or_go (evaluate s row) TF l). apply or_go_ext. eapply flat_sub; eauto.
    - rewrite (IH H). reflexivity.
  Qed.
End Eval.

(** *** The splits *)
Definition split_go (e : expr) (f : expr -> split) : list expr -> list expr -> split := fix go (acc : list expr) (l : list expr) : split :=
  match l with
  | [] => (combine_or acc, None)
  | x :: t => match f x with
              | (_, Some _) => kept e
              | (Some p, None) => go (acc ++ [p]) t
              | (None, None) => (None, None)
              end
  end.
Lemma split_go_ext e f g l : Forall (fun x => f x = g x) l -> forall acc, split_go e f acc l = split_go e g acc l.
Proof. induction 1 as [|x l E _ IH]; intros acc; cbn; auto. rewrite E. destruct (g x) as [[p|] [q|]]; auto. Qed.
Lemma split_same s sc e : (forall c, In c (pred_columns e) -> col_type sc c = col_type s c) -> split_row_filter sc e = split_row_filter s e.
Proof.
  induction e as [ | | c op v | c lo hi i | c vs | c p | c n | c | l IH | l IH | e IH] using expr_rect'; intros H; cbn [split_row_filter]; try reflexivity.
  - unfold scalar_matches_column. rewrite H by (cbn; auto). reflexivity.
  - unfold scalar_matches_column. rewrite H by (cbn; auto). reflexivity.
  - rewrite H by (cbn; auto). destruct (col_type s c) eqn:E; auto.
    replace (forallb (scalar_matches_column sc c) vs) with (forallb (scalar_matches_column s c) vs); auto.
    clear - H. induction vs as [|v vs IH]; auto. cbn. f_equal; auto. unfold scalar_matches_column. now rewrite H by (cbn; auto).
  - rewrite H by (cbn; auto). reflexivity.
  - rewrite H by (cbn; auto). reflexivity.
  - replace (map (split_row_filter sc) l) with (map (split_row_filter s) l); auto.
    induction l as [|x l IHl]; auto. inversion IH as [|? ? X1 X2]; subst. cbn [map]. f_equal.
    + symmetry. apply X1. intros c Hc. apply H. cbn. apply in_or_app. auto.
    + apply IHl; auto. intros c Hc. apply H. cbn. apply in_or_app. auto.
  - assert (HF : Forall (fun x => split_row_filter sc x = split_row_filter s x) l).
    { assert (HL : forall c, In c (flat_map pred_columns l) -> col_type sc c = col_type s c) by exact H. clear H.
      induction IH as [|x l X _ IHl]; constructor.
      - apply X. intros c Hc. apply HL. cbn. apply in_or_app. auto.
      - apply IHl. intros c Hc. apply HL. cbn. apply in_or_app. auto. }
    destruct l as [|x l]; auto. change (split_go (EOr (x :: l)) (split_row_filter sc) [] (x :: l) = split_go (EOr (x :: l)) (split_row_filter s) [] (x :: l)).
    now apply split_go_ext.
  - rewrite (IH H). reflexivity.
Qed.

Lemma combine_and_cols l : forall e, Pred.combine_and l = Some e -> incl (pred_columns e) (flat_map pred_columns l).
Proof.
  destruct l as [|a [|b l]]; intros e H; try discriminate; injection H as <-; cbn; [rewrite app_nil_r|]; apply incl_refl.
Qed.
Lemma resid_cols s e : forall q, snd (split_row_filter s e) = Some q -> incl (pred_columns q) (pred_columns e).
Proof.
  induction e as [ | | c op v | c lo hi i | c vs | c p | c n | c | l IH | l IH | e IH] using expr_rect'; intros q H; cbn [split_row_filter] in H; try discriminate;
    repeat match type of H with
           | snd (if ?b then _ else _) = _ => match type of b with bool => destruct b end
           | snd (match ?o with Some _ => _ | None => _ end) = _ => match type of o with option _ => destruct o end
           end; unfold kept, pushed in H; cbn [fst snd] in H; try discriminate; try (injection H as <-; apply incl_refl).
  - intros c Hc. apply (combine_and_cols _ _ H) in Hc. clear H. cbn. apply in_flat_map in Hc as (x & Hx & Hc).
    rewrite flat_map_concat_map, map_map, <- flat_map_concat_map in Hx. apply in_flat_map in Hx as (y & Hy & Hx).
    apply in_flat_map. exists y. split; auto. rewrite Forall_forall in IH. specialize (IH y Hy).
    destruct (snd (split_row_filter s y)) as [z|]; [|destruct Hx]. destruct Hx as [->|[]]. now apply (IH x eq_refl).
  - destruct l as [|x l]; [discriminate|]. change (snd (split_go (EOr (x :: l)) (split_row_filter s) [] (x :: l)) = Some q) in H.
    assert (E : q = EOr (x :: l)).
    { revert H. generalize (x :: l) at 2. intros l'. generalize (@nil expr). induction l' as [|y l' IHl]; intros acc H; [discriminate|].
      cbn in H. destruct (split_row_filter s y) as [[p|] [r|]]; try discriminate; try (injection H as <-; reflexivity). eauto. }
    subst. apply incl_refl.
  - destruct (split_row_filter s e) as [[p|] [r|]]; try discriminate; injection H as <-; apply incl_refl.
Qed.
Lemma nonsst_inner_cols kc kt e : forall q, snd (split_non_sst_inner kc kt e) = Some q -> incl (pred_columns q) (pred_columns e).
Proof.
  induction e as [ | | c op v | c lo hi i | c vs | c p | c n | c | l IH | l IH | e IH] using expr_rect'; intros q H; cbn [split_non_sst_inner] in H; try discriminate;
    repeat match type of H with
           | snd (if ?b then _ else _) = _ => match type of b with bool => destruct b end
           | snd (match ?o with Some _ => _ | None => _ end) = _ => match type of o with option _ => destruct o end
           | snd (match ?o with OpEq => _ | _ => _ end) = _ => destruct o
           end; unfold kept, pushed in H; cbn [fst snd] in H; try discriminate; try (injection H as <-; apply incl_refl).
  - intros c Hc. apply (combine_and_cols _ _ H) in Hc. clear H. cbn. apply in_flat_map in Hc as (x & Hx & Hc).
    rewrite flat_map_concat_map, map_map, <- flat_map_concat_map in Hx. apply in_flat_map in Hx as (y & Hy & Hx).
    apply in_flat_map. exists y. split; auto. rewrite Forall_forall in IH. specialize (IH y Hy).
    destruct (snd (split_non_sst_inner kc kt y)) as [z|]; [|destruct Hx]. destruct Hx as [->|[]]. now apply (IH x eq_refl).
Qed.
Lemma nonsst_cols ks e : forall q, snd (split_non_sst ks e) = Some q -> incl (pred_columns q) (pred_columns e).
Proof.
  intros q H. unfold split_non_sst in H. destruct e; try discriminate; destruct ks as [|[kc kt] [|]];
    try (now apply nonsst_inner_cols in H); injection H as <-; apply incl_refl.
Qed.

(** *** The merge does not look at the rows *)
Section Natural.
  Context {K : Type} {KO : KeyOrd K} {A B : Type}.
  Variable f : (K * N) -> A -> B.
  Definition map_entry (e : (K * N) * option A) : (K * N) * option B := (fst e, option_map (f (fst e)) (snd e)).
  Definition map_source (src : @source K A) : @source K B := (fst src, map map_entry (snd src)).
  Definition map_hentry (h : @hentry K A) : @hentry K B := (fst h, map_entry (snd h)).
  Lemma heap_cmp_map a b : heap_cmp (map_hentry a) (map_hentry b) = heap_cmp a b.
  Proof. destruct a as [[i p] [[k t] o]], b as [[j q] [[l u] w]]. reflexivity. Qed.
  Lemma heap_min_map l : forall i, heap_min i (map map_source l) = option_map map_hentry (heap_min i l).
  Proof.
    induction l as [|[p es] l IH]; intros i; auto. cbn [map map_source fst snd heap_min]. rewrite IH.
    destruct es as [|e es]; cbn [map]; auto. destruct (heap_min (S i) l) as [m|]; cbn [option_map]; auto.
    change (i, p, map_entry e) with (map_hentry (i, p, e)). rewrite heap_cmp_map. destruct (heap_cmp (i, p, e) m); reflexivity.
  Qed.
  Lemma advance_map l : forall i, advance i (map map_source l) = map map_source (advance i l).
  Proof.
    induction l as [|[p es] l IH]; intros [|i]; auto; cbn [map map_source fst snd advance].
    - destruct es; reflexivity.
    - now rewrite IH.
  Qed.
  Definition map_out (x : (K * N) * A) : (K * N) * B := (fst x, f (fst x) (snd x)).
  Lemma merge_run_map fuel : forall limit buf srcs,
    merge_run fuel limit (option_map map_entry buf) (map map_source srcs) = option_map (map map_out) (merge_run fuel limit buf srcs).
  Proof.
    induction fuel as [|fuel IH]; intros limit buf srcs; cbn [merge_run]; rewrite heap_min_map;
      destruct (heap_min 0 srcs) as [[[i p] e]|]; cbn [option_map map_hentry fst snd].
    - destruct limit as [[|]|]; reflexivity.
    - destruct limit as [[|]|]; try reflexivity; destruct buf as [[kt [r|]]|]; reflexivity.
    - assert (G : forall lim, match option_map map_entry buf with
          | None => merge_run fuel limit (Some (map_entry e)) (map map_source (advance i srcs))
          | Some (bk, bv) => if keqb (fst bk) (fst (fst (map_entry e))) then merge_run fuel limit (option_map map_entry buf) (map map_source (advance i srcs))
              else match bv with
                   | None => merge_run fuel limit (Some (map_entry e)) (map map_source (advance i srcs))
                   | Some r => match merge_run fuel lim (Some (map_entry e)) (map map_source (advance i srcs)) with
                               | Some out => Some ((bk, r) :: out) | None => None end
                   end
          end = option_map (map map_out) match buf with
          | None => merge_run fuel limit (Some e) (advance i srcs)
          | Some (bk, bv) => if keqb (fst bk) (fst (fst e)) then merge_run fuel limit buf (advance i srcs)
              else match bv with
                   | None => merge_run fuel limit (Some e) (advance i srcs)
                   | Some r => match merge_run fuel lim (Some e) (advance i srcs) with
                               | Some out => Some ((bk, r) :: out) | None => None end
                   end
          end).
      { intros lim. destruct buf as [[bk bv]|]; [|apply (IH limit (Some e))].
        change (option_map map_entry (Some (bk, bv))) with (Some (bk, option_map (f bk) bv)).
        cbv iota beta. change (fst (fst (map_entry e))) with (fst (fst e)). destruct (keqb (fst bk) (fst (fst e))); [apply (IH limit (Some (bk, bv)))|].
        destruct bv as [r|]; cbn [option_map]; [|apply (IH limit (Some e))].
        pose proof (IH lim (Some e) (advance i srcs)) as E. cbn [option_map] in E. rewrite E.
        destruct (merge_run fuel lim (Some e) (advance i srcs)); reflexivity. }
      rewrite advance_map. destruct limit as [[|n]|]; [reflexivity|apply G|apply G].
    - destruct limit as [[|]|]; try reflexivity; destruct buf as [[kt [r|]]|]; reflexivity.
  Qed.
  Lemma merge_streams_map limit srcs : merge_streams limit (map map_source srcs) = option_map (map map_out) (merge_streams limit srcs).
  Proof.
    unfold merge_streams. rewrite <- (merge_run_map _ limit None). f_equal.
    induction srcs as [|[p es] srcs IH]; auto. cbn. now rewrite !app_length, map_length, IH.
  Qed.
End Natural.
