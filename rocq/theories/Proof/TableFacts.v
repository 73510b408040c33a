(** Scans with predicates. *)
From Coq Require Import List NArith ZArith QArith Bool Lia.
From Verif Require Import Base.Order Base.Lex Base.Sub Spec.Ieee Spec.Tri Spec.KeySpec Spec.PredSpec Spec.Sql Spec.KeySet Spec.Table
     Model.Float Model.Utf8 Model.KeyBounds Model.Key Model.Expr Model.Residual Model.Pred
     Model.MemTable Model.Immutable Model.SsTable Model.DbScan Model.Db Spec.Mvcc Spec.History Model.Run Spec.Valid
     Proof.Utf8Facts Proof.KeyFacts Proof.FloatFacts Proof.NumFacts Proof.KeyBoundsFacts Proof.PredFacts Proof.SplitFacts
     Proof.KeyInst Proof.BoundsFacts Proof.Refine Proof.Reads.
Import ListNotations.
Close Scope Q_scope.

(** ** Cells that compare equal are the same cell *)
Lemma total_eq mb eb a b : (1 <= eb)%N -> (a < 2 ^ (mb + eb + 1))%N -> (b < 2 ^ (mb + eb + 1))%N ->
  awkward mb eb a = false -> awkward mb eb b = false -> fval_cmp (ieee mb eb a) (ieee mb eb b) = Some Eq -> a = b.
Proof.
  intros He Ha Hb Aa Ab E. rewrite (total_is_value mb eb a b He Aa Ab) in E. injection E as E.
  apply Z.compare_eq in E. now apply total_key_inj in E.
Qed.

Lemma utf8_inj a b : scalars a -> scalars b -> lexN (utf8 a) (utf8 b) = Eq -> a = b.
Proof. intros Ha Hb. rewrite utf8_lex by assumption. apply lexN_eq. Qed.

Lemma cells_eq_same a b : cell_ok a = true -> cell_ok b = true ->
  cell_fits a = true -> cell_fits b = true -> no_neg_zero a = true -> no_neg_zero b = true ->
  (forall s, a = CStr s -> scalars s) -> (forall s, b = CStr s -> scalars s) ->
  cells_cmp a b = Eq -> a = b.
Proof.
  intros Oa Ob Fa Fb Za Zb Sa Sb E.
  destruct a; try discriminate; destruct b; try discriminate; cbn [cells_cmp cell_fits no_neg_zero cell_ok] in *; f_equal.
  - destruct b0, b; easy.
  - now apply Z.compare_eq.
  - now apply Z.compare_eq.
  - now apply N.compare_eq.
  - now apply N.compare_eq.
  - apply N.ltb_lt in Fa, Fb. unfold f32_cmp in E.
    destruct (fval_some (f32_value bits) (f32_value bits0)) as [c Ec]; auto using f32_ok.
    rewrite Ec in E. simpl in E. subst c.
    apply (total_eq 23 8); auto; try lia; apply calm32_awkward; auto; unfold calm32; now rewrite ?Oa, ?Ob, ?Za, ?Zb.
  - apply N.ltb_lt in Fa, Fb. unfold f64_cmp in E.
    destruct (fval_some (f64_value bits) (f64_value bits0)) as [c Ec]; auto using f64_ok.
    rewrite Ec in E. simpl in E. subst c.
    apply (total_eq 52 11); auto; try lia; apply calm64_awkward; auto; unfold calm64; now rewrite ?Oa, ?Ob, ?Za, ?Zb.
  - apply utf8_inj; auto.
  - now apply lexN_eq.
Qed.

(** Hashes: equal keys without negative zero and NaN feed the same bytes to the hasher. *)
Lemma cells_hash_eq a b : cell_ok a = true -> cell_ok b = true -> cell_fits a = true -> cell_fits b = true ->
  no_neg_zero a = true -> no_neg_zero b = true -> cells_equal a b = true -> cell_hash a = cell_hash b.
Proof.
  intros Oa Ob Fa Fb Za Zb E.
  assert (D : (exists x y, a = CStr x /\ b = CStr y) \/ ((forall x, a <> CStr x) /\ forall y, b <> CStr y)).
  { destruct a; try discriminate; destruct b; try discriminate; try (right; split; intros; discriminate); left; eauto. }
  destruct D as [(x & y & -> & ->)|[D1 D2]].
  - cbn [cells_equal] in E. apply bytes_eqb_eq in E. unfold cell_hash. now rewrite E.
  - f_equal. apply cells_eq_same; auto; try (intros z Hz; exfalso; eauto; fail).
    + intros z ->. now elim (D1 z).
    + intros z ->. now elim (D2 z).
    + now apply cells_eq_iff.
Qed.
Lemma keys_hash_eq a b : key_ok a = true -> key_ok b = true -> forallb cell_fits a = true -> forallb cell_fits b = true ->
  forallb no_neg_zero a = true -> forallb no_neg_zero b = true -> keys_equal a b = true -> key_hash a = key_hash b.
Proof.
  revert b; induction a as [|x a IH]; intros [|y b]; cbn [keys_equal key_ok forallb]; try discriminate; auto.
  intros A1 A2 A3 A4 A5 A6 E. unfold key_ok in *. cbn [forallb] in *.
  repeat match goal with H : _ && _ = true |- _ => apply andb_prop in H as [? ?] end.
  unfold key_hash. cbn [flat_map]. f_equal; [now apply cells_hash_eq|]. now apply IH.
Qed.

(** ** Rows *)
Lemma key_type_ok t c : key_type t = true -> cell_fits_type t c = true -> cell_calm c = true ->
  cell_ok c = true /\ cell_fits c = true /\ no_neg_zero c = true /\ (forall s, c = CStr s -> scalars s).
Proof.
  destruct t, c; try discriminate; cbn [cell_fits_type cell_calm cell_ok cell_fits no_neg_zero]; intros _ H1 H2;
    repeat split; auto; try discriminate; unfold calm32, calm64 in H2; try (apply andb_prop in H2 as [? ?]; assumption).
  intros s E. injection E as <-. now apply scalars_forallb.
Qed.

Section Tab.
  Variable s : schema.
  Variable kcols : list N.
  Hypothesis HK : key_cols_ok s kcols = true.

  Notation tkey := (trow_key s kcols).

  Lemma key_cells_cols (r : trow s) k : key_cells s kcols (row_cells r) = Some k ->
    Forall2 (fun c x => exists i t, col_index s c = Some i /\ col_type s c = Some t /\ key_type t = true /\
                nth_error (row_cells r) i = Some (Some x) /\ cell_fits_type t x = true /\ cell_calm x = true) kcols k.
  Proof.
    revert k HK. unfold key_cols_ok. induction kcols as [|c l IH]; cbn [key_cells forallb]; intros k H E.
    - injection E as <-. constructor.
    - apply andb_prop in H as [H1 H2]. destruct (col_type s c) as [t|] eqn:Et; [|discriminate].
      destruct (col_type_index s c t Et) as (i & Ei & Ett). rewrite Ei in E.
      destruct (row_fits_nth s (row_cells r) i t (proj2_sig r) Ett) as (o & En & Ho). rewrite En in E.
      destruct o as [x|]; [|discriminate]. destruct (key_cells s l (row_cells r)) as [k'|]; [|discriminate].
      injection E as <-. destruct Ho as [Ho1 Ho2]. constructor; [|now apply IH].
      exists i, t. repeat split; auto.
  Qed.
  Lemma key_cells_ok (r : trow s) k : key_cells s kcols (row_cells r) = Some k ->
    key_ok k = true.
  Proof.
    intros H. apply key_cells_cols in H. apply key_ok_iff. unfold cells_ok.
    clear HK. induction H as [|c x l k (i & t & _ & _ & Ht & _ & H1 & H2) HF IH]; constructor; auto.
    destruct (key_type_ok t x Ht H1 H2) as (A & _). exact A.
  Qed.
  Lemma tkey_cells (r : trow s) n : tkey r = Some n -> key_cells s kcols (row_cells r) = Some (raw n).
  Proof.
    unfold trow_key. destruct (key_cells s kcols (row_cells r)) as [k|]; [|discriminate]. intros H.
    apply to_nkey_raw in H. now rewrite H.
  Qed.
  (** A row has a key exactly when no key column is null. *)
  Lemma tkey_null (r : trow s) : tkey r = None <-> key_cells s kcols (row_cells r) = None.
  Proof.
    unfold trow_key. destruct (key_cells s kcols (row_cells r)) as [k|] eqn:E; [|tauto].
    destruct (to_nkey_some k (key_cells_ok r k E)) as (n & -> & _). split; discriminate.
  Qed.

  Lemma same_key_cells (r r' : trow s) k k' : tkey r = Some k -> tkey r' = Some k' -> kcmp k' k = Eq ->
    raw k = raw k'.
  Proof.
    intros E1 E2 E. apply tkey_cells, key_cells_cols in E1, E2.
    change (kcmp k' k) with (keys_cmp (raw k') (raw k)) in E. unfold keys_cmp in E.
    revert E2 E. generalize (raw k'). clear HK. induction E1 as [|c x l kk (i & t & _ & _ & Ht & _ & F1 & F2) HF IH]; intros kk' H E.
    - inversion H. reflexivity.
    - inversion H as [|? y ? kk2 (i' & t' & _ & _ & Ht' & _ & F1' & F2') HF']; subst.
      cbn [lex] in E. destruct (cells_cmp y x) eqn:Ec; try discriminate.
      destruct (key_type_ok t x Ht F1 F2) as (A1 & A2 & A3 & A4). destruct (key_type_ok t' y Ht' F1' F2') as (B1 & B2 & B3 & B4).
      f_equal; [|now apply IH]. symmetry. now apply cells_eq_same.
  Qed.

  Lemma only_cols_sql (r r' : trow s) k e : key_cells s kcols (row_cells r) = Some k -> key_cells s kcols (row_cells r') = Some k ->
    only_cols kcols e = true -> sql s (row_cells r) e = sql s (row_cells r') e.
  Proof.
    intros H1 H2.
    assert (C : forall c, existsb (N.eqb c) kcols = true -> column s (row_cells r) c = column s (row_cells r') c).
    { intros c Hc. apply existsb_exists in Hc as (c' & Hin & Ec). apply N.eqb_eq in Ec. subst c'.
      unfold column. revert k H1 H2. clear HK. induction kcols as [|d l IH]; intros k H1 H2; [contradiction|].
      cbn [key_cells] in H1, H2. destruct (col_index s d) as [i|] eqn:Ei; [|discriminate].
      destruct (nth_error (row_cells r) i) as [[x|]|] eqn:En; try discriminate.
      destruct (key_cells s l (row_cells r)) as [k1|]; [|discriminate].
      destruct (nth_error (row_cells r') i) as [[x'|]|] eqn:En'; try discriminate.
      destruct (key_cells s l (row_cells r')) as [k2|]; [|discriminate].
      injection H1 as <-. injection H2 as -> ->.
      destruct Hin as [->|Hin]; [rewrite Ei, En, En'; reflexivity|]. eapply IH; eauto. }
    assert (CC : forall c op v, existsb (N.eqb c) kcols = true -> sql_compare s (row_cells r) c op v = sql_compare s (row_cells r') c op v).
    { intros c op v Hc. unfold sql_compare. now rewrite (C c Hc). }
    induction e using expr_rect'; cbn [only_cols sql]; intros HC; auto.
    - now rewrite !CC.
    - rewrite (C c HC). destruct (column s (row_cells r') c); auto. f_equal. apply map_ext. intros v. now apply CC.
    - now rewrite (C c HC).
    - now rewrite (C c HC).
    - f_equal. apply map_ext_in. intros x Hx. rewrite Forall_forall in H. rewrite forallb_forall in HC. auto.
    - f_equal. apply map_ext_in. intros x Hx. rewrite Forall_forall in H. rewrite forallb_forall in HC. auto.
    - now rewrite IHe.
  Qed.

  (** ** What the planner derives from a predicate is sound *)
  Variable e : expr.
  Hypothesis HG : expr_good s e = true.
  Hypothesis HKL : key_lits_ok s kcols e = true.
  Variable row_filter : expr -> trow s -> bool.
  Hypothesis HRF : filter_contract row_filter.

  Definition holds_row (r : trow s) : bool := is_true (sql s (row_cells r) e).
  Notation cp := (compile one_cell row_cells row_filter s (key_schema s kcols) e).

  Lemma matches_sql p (r : trow s) : expr_good s p = true -> matches row_cells s p r = is_true (sql s (row_cells r) p).
  Proof. intros Hp. unfold matches. now rewrite (evaluate_ok s (row_cells r) (proj2_sig r) p Hp). Qed.

  Lemma good_parts : of (expr_good s) (fst (split_row_filter s e)) = true /\ of (expr_good s) (snd (split_row_filter s e)) = true /\
    of (expr_good s) (snd (split_non_sst (key_schema s kcols) e)) = true.
  Proof.
    destruct (split_row_filter_part (expr_good s) (fun l => eq_refl) (fun l => eq_refl) (fun x => eq_refl) eq_refl s e HG) as [A B].
    destruct (split_non_sst_part (expr_good s) (fun l => eq_refl) (key_schema s kcols) e HG) as [_ C]. auto.
  Qed.
  Lemma is_true_TT t : is_true t = true <-> t = TT.
  Proof. destruct t; split; easy. Qed.

  Lemma opt_match o (r : trow s) : of (expr_good s) o = true ->
    opt_pred (option_map (matches row_cells s) o) r = is_true (opt_sql s (row_cells r) o).
  Proof. destruct o as [p|]; cbn [of option_map opt_pred opt_sql]; intros H; [now apply matches_sql|reflexivity]. Qed.
  Lemma opt_filter o (r : trow s) :
    opt_pred (option_map row_filter o) r = is_true (opt_sql s (row_cells r) o).
  Proof. destruct o as [p|]; cbn [option_map opt_pred opt_sql]; [apply HRF|reflexivity]. Qed.

  Lemma full_holds r : c_full cp r = holds_row r.
  Proof. cbn [compile c_full]. now apply matches_sql. Qed.

  Lemma single_col (r : trow s) k kc : kcols = [kc] -> tkey r = Some k ->
    exists kt x, col_type s kc = Some kt /\ key_cell kt x = true /\ raw k = [x] /\ column s (row_cells r) kc = Some (cell_sql x).
  Proof.
    intros EK E. apply tkey_cells, key_cells_cols in E. rewrite EK in E.
    inversion E as [|? x ? kk (i & t & Ei & Et & Ht & En & F1 & F2) HF EA EB]; subst. inversion HF; subst.
    exists t, x. split; [auto|]. split.
    - unfold key_cell. rewrite F1. now apply (key_type_ok t).
    - split; [auto|]. unfold column. now rewrite Ei, En.
  Qed.

  Lemma cols_cases : (exists kc, kcols = [kc]) \/ kcols = [] \/ exists a b l, kcols = a :: b :: l.
  Proof. destruct kcols as [|a [|b l]]; eauto 6. Qed.

  Lemma compile_sound : cp_sound tkey cp.
  Proof.
    destruct good_parts as (G1 & G2 & G3). constructor.
    - intros H r. rewrite full_holds. unfold holds_row. cbn [compile c_true] in H. destruct e; try discriminate H. reflexivity.
    - intros kb r k HB Hk HF. rewrite full_holds in HF. unfold holds_row in HF. apply is_true_TT in HF.
      cbn [compile c_bounds] in HB. unfold key_bounds_for_predicate, key_schema in HB.
      destruct cols_cases as [(kc & EK)|[EK|(a & b & l & EK)]]; rewrite EK in HB; try discriminate. cbn [map] in HB.
      destruct (single_col r k kc EK Hk) as (kt & x & Et & Hx & Hr & Hc).
      pose proof HKL as HL. unfold key_lits_ok in HL. rewrite EK, Et in HL.
      rewrite Et in HB. pose proof (bounds_sound kt x Hx k Hr s (row_cells r) kc Hc e HL HF) as H.
      rewrite HB in H. exact H.
    - intros r k Hk. rewrite full_holds. cbn [compile c_push c_resid]. rewrite opt_filter, opt_match by assumption.
      destruct (split_row_filter_exact s (row_cells r) e) as [_ H]. unfold holds_row. rewrite H, andb_true_iff. tauto.
    - intros r k Hk HN HB. rewrite full_holds. unfold holds_row. apply is_true_TT.
      cbn [compile c_nonsst c_bounds] in HN, HB. rewrite opt_match in HN by assumption. apply is_true_TT in HN.
      destruct (split_non_sst_exact s (row_cells r) (key_schema s kcols) e) as [_ H].
      pose proof HKL as HL. unfold key_lits_ok in HL. unfold key_bounds_for_predicate, key_schema in HB. unfold key_schema in HN.
      destruct cols_cases as [(kc & EK)|[EK|(a & b & l & EK)]]; rewrite EK in HB, HL, HN.
      + destruct (single_col r k kc EK Hk) as (kt & x & Et & Hx & Hr & Hc).
        cbn [map] in *. rewrite Et in HB, HL, HN.
        apply (nonsst_complete kt x Hx k Hr s (row_cells r) kc Hc e HL).
        * unfold sem_opt_true. destruct e; exact HN.
        * unfold opt_in. destruct (bounds_from_expr one_cell kc kt e) as [kb|]; auto.
      + destruct e; try discriminate HL; try reflexivity; exact HN.
      + destruct e; try discriminate HL; try reflexivity; exact HN.
    - intros r k Hk HF. rewrite full_holds in HF. cbn [compile c_nonsst]. rewrite opt_match by assumption.
      destruct (split_non_sst_exact s (row_cells r) (key_schema s kcols) e) as [_ H]. unfold holds_row in HF.
      rewrite H in HF. now apply andb_prop in HF.
  Qed.

  Lemma key_only_push prune ts ls : prune_contract e ts prune -> only_cols kcols e = true -> push_ok tkey prune cp ts ls.
  Proof.
    intros HP HO. split; [intros t _; apply HP|]. intros t r u k Ht Hr Hk.
    destruct (is_true (sql s (row_cells r) e)) eqn:E.
    - destruct (HP t) as [_ H]. destruct (H r u Hr) as [A|[A|A]]; [|now right; left|now apply is_true_TT in E].
      left. split; auto.
      cbn [compile c_push]. rewrite opt_filter. destruct (split_row_filter_exact s (row_cells r) e) as [_ HX].
        rewrite HX in E. now apply andb_prop in E.
    - right. right. intros r' k' Hk' EE. rewrite full_holds. unfold holds_row.
      pose proof (same_key_cells r r' k k' Hk Hk' EE) as ER. apply tkey_cells in Hk, Hk'. rewrite <- ER in Hk'.
      now rewrite <- (only_cols_sql r r' (raw k) e Hk Hk' HO).
  Qed.

  Lemma lists_table_ext {K R} {KO : KeyOrd K} (key_of : R -> option K) m p q out :
    (forall r, p r = q r) -> lists_table key_of m p out -> lists_table key_of m q out.
  Proof. intros H [A B]. split; auto. intros k t r. rewrite B, H. reflexivity. Qed.

  Theorem scan_predicate row_bytes del_bytes capacity ops prune ts limit :
    1 <= capacity -> (N.of_nat (length ops) < 2 ^ 64)%N ->
    ops_ok tkey row_bytes del_bytes (start capacity) ops ->
    let st := run tkey row_bytes del_bytes (start capacity) ops in
    Forall (seg_safe ts) (d_imm (st_db st)) -> (st_horizon st <= ts)%N ->
    prune_contract e ts prune ->
    (only_cols kcols e = true \/ concat (d_levels (st_db st)) = []) ->
    exists full out,
      scan tkey prune cp (mkSnap ts (d_levels (st_db st))) limit (st_db st) = Some out /\
      out = match limit with Some n => firstn n full | None => full end /\
      lists_table tkey (as_of tkey (st_hist st) ts) holds_row full.
  Proof.
    intros H1 H2 H3 st HS HZ HP HO.
    destruct (run_inv tkey row_bytes del_bytes capacity ops (conj H1 (conj H2 H3))) as [HI HC].
    destruct (read_spec tkey st prune cp limit ts HI HC compile_sound) as (full & out & E1 & E2 & E3); auto.
    - destruct HO as [HO|HO]; [now apply key_only_push|]. split; [intros t _; apply HP|].
      intros t r u k Ht. rewrite HO in Ht. contradiction.
    - exists full, out. split; [exact E1|]. split; [exact E2|]. revert E3. apply lists_table_ext. apply full_holds.
  Qed.
End Tab.
