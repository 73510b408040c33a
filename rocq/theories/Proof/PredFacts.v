(** The residual evaluator computes SQL truth; the splits lose nothing. *)
From Coq Require Import List NArith ZArith QArith Bool Lia.
From Verif Require Import Base.Order Base.Lex Spec.Ieee Spec.Tri Spec.KeySpec Spec.PredSpec Spec.Sql
     Model.Float Model.Utf8 Model.Key Model.Expr Model.Residual Model.Pred
     Proof.Utf8Facts Proof.KeyFacts Proof.FloatFacts Proof.NumFacts.
Import ListNotations.
Close Scope Q_scope.

Section Ind.
  Variable P : expr -> Prop.
  Hypothesis HT : P ETrue.
  Hypothesis HF : P EFalse.
  Hypothesis HC : forall c op v, P (ECmp c op v).
  Hypothesis HB : forall c lo hi i, P (EBetween c lo hi i).
  Hypothesis HI : forall c vs, P (EIn c vs).
  Hypothesis HS : forall c p, P (EStarts c p).
  Hypothesis HN : forall c n, P (EIsNull c n).
  Hypothesis HBl : forall c, P (EBloom c).
  Hypothesis HA : forall l, Forall P l -> P (EAnd l).
  Hypothesis HO : forall l, Forall P l -> P (EOr l).
  Hypothesis HNot : forall e, P e -> P (ENot e).
  Fixpoint expr_rect' (e : expr) : P e :=
    match e with
    | ETrue => HT | EFalse => HF
    | ECmp c op v => HC c op v
    | EBetween c lo hi i => HB c lo hi i
    | EIn c vs => HI c vs
    | EStarts c p => HS c p
    | EIsNull c n => HN c n
    | EBloom c => HBl c
    | EAnd l => HA l ((fix go l := match l return Forall P l with [] => Forall_nil _ | x :: t => Forall_cons _ (expr_rect' x) (go t) end) l)
    | EOr l => HO l ((fix go l := match l return Forall P l with [] => Forall_nil _ | x :: t => Forall_cons _ (expr_rect' x) (go t) end) l)
    | ENot x => HNot x (expr_rect' x)
    end.
End Ind.

(** ** Comparing a stored value with a literal *)
Lemma calm32_awkward b : (b < 2 ^ 32)%N -> calm32 b = true -> awkward 23 8 b = false.
Proof.
  unfold calm32, awkward, f32_nan, f32_value. intros Hb H. apply andb_prop in H as [H1 H2].
  destruct (ieee 23 8 b); try discriminate H1; cbn [orb];
  apply negb_true_iff, N.eqb_neq in H2;
  (apply not_true_iff_false; intros S; apply andb_prop in S as [S L]; apply N.eqb_eq in L; apply H2;
   rewrite (split_bits 23 8 b Hb), S, L; reflexivity).
Qed.
Lemma calm64_awkward b : (b < 2 ^ 64)%N -> calm64 b = true -> awkward 52 11 b = false.
Proof.
  unfold calm64, awkward, f64_nan, f64_value. intros Hb H. apply andb_prop in H as [H1 H2].
  destruct (ieee 52 11 b); try discriminate H1; cbn [orb];
  apply negb_true_iff, N.eqb_neq in H2;
  (apply not_true_iff_false; intros S; apply andb_prop in S as [S L]; apply N.eqb_eq in L; apply H2;
   rewrite (split_bits 52 11 b Hb), S, L; reflexivity).
Qed.

Lemma int_fits_range t z : int_fits t z = true -> (- 2 ^ 127 <= z < 2 ^ 127)%Z.
Proof.
  unfold int_fits. destruct t; try discriminate; rewrite andb_true_iff, Z.leb_le, Z.ltb_lt; lia.
Qed.

Lemma scalars_forallb s : forallb is_scalar s = true <-> scalars s.
Proof. unfold scalars. rewrite forallb_forall, Forall_forall. reflexivity. Qed.

Lemma cmp_int z1 z2 : Z.compare z1 z2 = Qcompare (inject_Z z1) (inject_Z z2).
Proof. symmetry. apply Qcompare_inject. Qed.

(** What the comparison of two scalars is, on the values. *)
Lemma num_int_float z b : (- 2 ^ 127 <= z < 2 ^ 127)%Z ->
  compare_i128_f64 z b = fval_cmp (FNum (inject_Z z)) (f64_value b).
Proof. apply compare_i128_exact. Qed.

Lemma fval_cmp_swap x y : option_map CompOpp (fval_cmp x y) = fval_cmp y x.
Proof. destruct x as [|[]|p], y as [|[]|q]; simpl; try reflexivity. now rewrite <- Qcmp_opp. Qed.

Lemma widen_l b y : (b < 2 ^ 32)%N -> fval_cmp (f64_value (widen b)) y = fval_cmp (f32_value b) y.
Proof. intros H. apply feq_cmp; [now apply widen_value|apply feq_refl]. Qed.
Lemma widen_r b x : (b < 2 ^ 32)%N -> fval_cmp x (f64_value (widen b)) = fval_cmp x (f32_value b).
Proof. intros H. apply feq_cmp; [apply feq_refl|now apply widen_value]. Qed.

Definition kind (v : scalar) : Prop :=
  match s_type v, s_val v with
  | TBool, Some (VBool _) => True
  | (TI8 | TI16 | TI32 | TI64 | TU8 | TU16 | TU32 | TU64), Some (VInt z) => (- 2 ^ 127 <= z < 2 ^ 127)%Z
  | TF32, Some (VFloat b) => (b < 2 ^ 32)%N /\ awkward 23 8 b = false
  | TF64, Some (VFloat b) => (b < 2 ^ 64)%N /\ awkward 52 11 b = false
  | TUtf8, Some (VStr s) => scalars s
  | TBinary, Some (VBin _) => True
  | _, _ => False
  end.

Lemma lit_kind v x : lit_good v = true -> s_val v = Some x -> kind v.
Proof.
  unfold lit_good, lit_fits, lit_calm, lit_plain, kind. destruct v as [t o]; cbn [s_type s_val]. intros H ->.
  apply andb_prop in H as [H H3]. apply andb_prop in H as [H1 H2].
  destruct t, x; try discriminate; auto.
  all: try (eapply int_fits_range; eassumption).
  - apply N.ltb_lt in H1. auto using calm32_awkward.
  - apply N.ltb_lt in H1. auto using calm64_awkward.
  - now apply scalars_forallb.
Qed.
Lemma cell_kind t c : cell_fits_type t c = true -> cell_calm c = true -> kind (convert_owned_cell c).
Proof.
  unfold kind. destruct t, c; cbn [cell_fits_type cell_calm convert_owned_cell s_type s_val]; intros H H'; try discriminate; auto.
  all: try (eapply int_fits_range; eassumption).
  all: try (apply N.ltb_lt in H; auto using calm32_awkward, calm64_awkward).
  all: now apply scalars_forallb.
Qed.

Definition same_value (v : scalar) (c : cell) : Prop := lit_sql v = Some (cell_sql c).
Lemma convert_value c : lit_sql (convert_owned_cell c) = Some (cell_sql c).
Proof. destruct c; reflexivity. Qed.

Lemma kind_sql v : kind v -> exists x, lit_sql v = Some x.
Proof.
  unfold kind, lit_sql. destruct (s_val v) as [[]|]; eauto. destruct (s_type v); tauto.
Qed.

Lemma compare_kinds a b x y : kind a -> kind b -> lit_sql a = Some x -> lit_sql b = Some y ->
  compare_scalar_values a b = sql_cmp x y.
Proof.
  destruct a as [ta oa], b as [tb ob]. unfold kind, lit_sql, compare_scalar_values; cbn [s_type s_val].
  destruct oa as [va|]; [|destruct ta; tauto]. destruct ob as [vb|]; [|destruct tb; tauto].
  intros Ha Hb Ex Ey.
  destruct ta; try contradiction Ha; destruct va; try contradiction Ha; injection Ex as <-;
  (destruct tb; try contradiction Hb; destruct vb; try contradiction Hb; injection Ey as <-);
  cbn [dtype_eqb]; unfold scalar_partial_cmp, numeric_compare, is_float_scalar, scalar_to_f64, scalar_to_i128;
  cbn [s_type s_val sql_cmp];
  first
  [ reflexivity
  | cbn [fval_cmp]; now rewrite cmp_int
  | rewrite num_int_float by assumption; first [reflexivity | apply widen_r, Hb]
  | rewrite num_int_float by assumption; rewrite fval_cmp_swap; first [reflexivity | apply widen_l, Ha]
  | unfold f64_cmp; rewrite ?widen_l, ?widen_r by (apply Ha || apply Hb); reflexivity
  | unfold f32_total_cmp; rewrite (total_is_value 23 8) by (lia || apply Ha || apply Hb); reflexivity
  | unfold f64_total_cmp; rewrite (total_is_value 52 11) by (lia || apply Ha || apply Hb); reflexivity
  | rewrite utf8_lex by assumption; reflexivity ].
Qed.

(** ** Evaluation *)
Lemma col_type_index s c t : col_type s c = Some t -> exists i, col_index s c = Some i /\ option_map snd (nth_error s i) = Some t.
Proof. unfold col_type. destruct (col_index s c); [eauto|discriminate]. Qed.

Lemma row_fits_nth s r i t : row_fits s r = true -> option_map snd (nth_error s i) = Some t ->
  exists o, nth_error r i = Some o /\ match o with Some c => cell_fits_type t c = true /\ cell_calm c = true | None => True end.
Proof.
  revert r i; induction s as [|[n u] s IH]; intros [|o r] i; try discriminate; destruct i; try discriminate.
  - simpl. intros H E. injection E as ->. exists o. split; auto. apply andb_prop in H as [H _].
    destruct o; auto. now apply andb_prop in H.
  - simpl. intros H E. apply andb_prop in H as [_ H]. now apply IH.
Qed.

Section Eval.
  Variable s : schema.
  Variable r : cells.
  Hypothesis HR : row_fits s r = true.

  Lemma resolve_ok c : has_col s c = true ->
    (column s r c = None /\ resolve_column s r c = Some None) \/
    exists x t, col_type s c = Some t /\ cell_fits_type t x = true /\ column s r c = Some (cell_sql x) /\
      resolve_column s r c = Some (Some (convert_owned_cell x)) /\ kind (convert_owned_cell x).
  Proof.
    unfold has_col. destruct (col_type s c) as [t|] eqn:E; [|discriminate]. intros _.
    destruct (col_type_index s c t E) as (i & Ei & Et). destruct (row_fits_nth s r i t HR Et) as (o & En & Ho).
    unfold column, resolve_column. rewrite Ei, En. destruct o as [x|]; [right|left; auto].
    exists x, t. destruct Ho as [H1 H2]. repeat split; auto. eapply cell_kind; eauto.
  Qed.

  Lemma cmp_op_holds op o : cmp_op op o = holds op o.
  Proof. destruct op, o; reflexivity. Qed.

  Lemma evaluate_cmp_ok c op v : has_col s c = true -> lit_good v = true ->
    evaluate_cmp s r c op v = Some (sql_compare s r c op v).
  Proof.
    intros HC HL. unfold evaluate_cmp, sql_compare.
    destruct (resolve_ok c HC) as [[-> ->]|(x & t & _ & _ & -> & -> & Hk)]; [reflexivity|].
    destruct (s_val v) as [y|] eqn:E; [|unfold lit_sql; now rewrite E].
    pose proof (lit_kind v y HL E) as Kv. destruct (kind_sql v Kv) as [z Ez].
    rewrite Ez, (compare_kinds _ v _ z Hk Kv (convert_value x) Ez).
    destruct (sql_cmp (cell_sql x) z); [now rewrite cmp_op_holds|reflexivity].
  Qed.

  Lemma in_list_ok lhs x vs b : kind lhs -> lit_sql lhs = Some x -> forallb lit_good vs = true ->
    in_list_loop lhs b vs =
    tri_or (if b then TU else TF)
      (fold_right tri_or TF (map (fun v => match lit_sql v with Some y => match sql_cmp x y with Some o => tri_of (holds OpEq o) | None => TU end | None => TU end) vs)).
  Proof.
    intros Hk Hx. revert b. induction vs as [|v vs IH]; intros b HG.
    - destruct b; reflexivity.
    - cbn [forallb] in HG. apply andb_prop in HG as [Hv HG]. cbn [in_list_loop map fold_right].
      destruct (s_val v) as [y|] eqn:E.
      + pose proof (lit_kind v y Hv E) as Kv. destruct (kind_sql v Kv) as [z Ez].
        rewrite Ez, (compare_kinds _ v _ z Hk Kv Hx Ez).
        destruct (sql_cmp x z) as [[]|]; rewrite ?IH by assumption; cbn [holds tri_of];
          destruct b; destruct (fold_right tri_or TF _); reflexivity.
      + rewrite IH by assumption. assert (lit_sql v = None) as -> by (unfold lit_sql; now rewrite E).
        destruct b; destruct (fold_right tri_or TF _); reflexivity.
  Qed.

  Lemma starts_ok x p : scalars x -> scalars p ->
    starts_with (utf8 x) (utf8 p) = if list_eq_dec N.eq_dec (firstn (length p) x) p then true else false.
  Proof.
    intros Hx Hp. destruct (list_eq_dec N.eq_dec (firstn (length p) x) p) as [E|E].
    - apply utf8_prefix; auto. exists (skipn (length p) x). rewrite <- E at 1. now rewrite firstn_skipn.
    - apply not_true_iff_false. intros H. apply utf8_prefix in H as [t ->]; auto. apply E.
      rewrite firstn_app, Nat.sub_diag, firstn_all. simpl. apply app_nil_r.
  Qed.

  Lemma string_col_has c : string_col s c = true -> has_col s c = true.
  Proof. unfold string_col, has_col. now destruct (col_type s c). Qed.

  Theorem evaluate_ok e : expr_good s e = true -> evaluate s r e = Some (sql s r e).
  Proof.
    induction e using expr_rect'; cbn [expr_good evaluate sql]; intros HG; try discriminate; auto.
    - apply andb_prop in HG as [H1 H2]. now apply evaluate_cmp_ok.
    - apply andb_prop in HG as [HG H3]. apply andb_prop in HG as [H1 H2]. unfold evaluate_between.
      rewrite !evaluate_cmp_ok by assumption. reflexivity.
    - apply andb_prop in HG as [H1 H2]. unfold evaluate_in_list.
      destruct (resolve_ok c H1) as [[E ->]|(x & t & _ & _ & E & -> & Hk)]; rewrite E; [reflexivity|].
      rewrite (in_list_ok _ (cell_sql x) vs false Hk (convert_value x) H2). cbn [tri_or].
      f_equal. unfold sql_compare. rewrite E.
      destruct (fold_right tri_or TF _); reflexivity.
    - apply andb_prop in HG as [H1 H2]. unfold evaluate_starts_with.
      destruct (resolve_ok c (string_col_has c H1)) as [[E ->]|(x & t & Et & Ht & E & -> & Hk)]; rewrite E; [reflexivity|].
      unfold string_col in H1. rewrite Et in H1. destruct t; try discriminate H1; destruct x; try discriminate Ht;
        cbn [convert_owned_cell s_val cell_sql]; cbn [cell_fits_type] in Ht; apply scalars_forallb in Ht, H2;
        now rewrite starts_ok.
    - unfold evaluate_is_null. destruct (resolve_ok c HG) as [[E ->]|(x & t & _ & _ & E & -> & Hk)]; rewrite E; destruct n; reflexivity.
    - assert (G : forall acc, acc <> TF ->
        (fix go (acc : tri) (l : list expr) : option tri :=
           match l with
           | [] => Some acc
           | x :: t => match evaluate s r x with
                       | None => None
                       | Some o => match tri_and acc o with TF => Some TF | a => go a t end
                       end
           end) acc l = Some (tri_and acc (fold_right tri_and TT (map (sql s r) l)))).
      { induction H as [|x l Hx Hl IH]; intros acc Ha.
        - destruct acc; reflexivity.
        - cbn [forallb] in HG. apply andb_prop in HG as [G1 G2]. rewrite (Hx G1).
          cbn [map fold_right]. destruct acc; [| now elim Ha |]; destruct (sql s r x); cbn [tri_and]; rewrite ?IH by (assumption || discriminate);
            destruct (fold_right tri_and TT (map (sql s r) l)); reflexivity. }
      rewrite G by discriminate. destruct (fold_right tri_and TT (map (sql s r) l)); reflexivity.
    - assert (G : forall acc, acc <> TT ->
        (fix go (acc : tri) (l : list expr) : option tri :=
           match l with
           | [] => Some acc
           | x :: t => match evaluate s r x with
                       | None => None
                       | Some o => match tri_or acc o with TT => Some TT | a => go a t end
                       end
           end) acc l = Some (tri_or acc (fold_right tri_or TF (map (sql s r) l)))).
      { induction H as [|x l Hx Hl IH]; intros acc Ha.
        - destruct acc; reflexivity.
        - cbn [forallb] in HG. apply andb_prop in HG as [G1 G2]. rewrite (Hx G1).
          cbn [map fold_right]. destruct acc; [now elim Ha | |]; destruct (sql s r x); cbn [tri_or]; rewrite ?IH by (assumption || discriminate);
            destruct (fold_right tri_or TF (map (sql s r) l)); reflexivity. }
      rewrite G by discriminate. destruct (fold_right tri_or TF (map (sql s r) l)); reflexivity.
    - rewrite IHe by assumption. reflexivity.
  Qed.
End Eval.
