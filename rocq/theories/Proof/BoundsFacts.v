(** Key bounds derived from a predicate contain the key of every matching row. *)
From Coq Require Import List NArith ZArith QArith Bool Lia.
From Verif Require Import Base.Order Base.Lex Spec.Ieee Spec.Tri Spec.KeySpec Spec.PredSpec Spec.Sql Spec.KeySet
     Model.Float Model.Utf8 Model.KeyBounds Model.Key Model.Expr Model.Residual Model.Pred
     Proof.Utf8Facts Proof.KeyFacts Proof.FloatFacts Proof.NumFacts Proof.KeyBoundsFacts Proof.PredFacts Proof.SplitFacts
     Proof.KeyInst.
Import ListNotations.
Close Scope Q_scope.

(** A cell of a single key column of type [kt], as a stored key. *)
Definition key_cell (kt : dtype) (c : cell) : bool := cell_fits_type kt c && cell_ok c.

(** The optional part of a split is true of the row. *)
Definition sem_opt_true (s : schema) (r : cells) (o : option expr) : Prop := opt_sql s r o = TT.

Lemma kcmp_le_trans {K} {KO : KeyOrd K} (x y z : K) : kcmp x y <> Gt -> kcmp y z <> Gt -> kcmp x z <> Gt.
Proof.
  intros H1 H2. destruct (kcmp x y) eqn:E; [|clear H1|congruence].
  - now rewrite (kcmp_eq_l _ _ z E).
  - destruct (kcmp y z) eqn:F; [|clear H2|congruence].
    + rewrite <- (kcmp_eq_r _ _ x F), E. discriminate.
    + rewrite (kcmp_lt_trans _ _ _ E F). discriminate.
Qed.

Section One.
  Variable kt : dtype.
  Variable x : cell.
  Hypothesis Hx : key_cell kt x = true.
  Variable k : nkey.
  Hypothesis Hk : raw k = [x].

  Lemma lex1 a b : lex cells_cmp [a] [b] = cells_cmp a b.
  Proof. simpl. now destruct (cells_cmp a b). Qed.

  (** Comparing the stored key with the key of a literal compares the values. *)
  Lemma lit_key v : key_lit kt v = true -> exists l, scalar_to_key one_cell v = Some l /\
    exists q, lit_sql v = Some q /\ sql_cmp (cell_sql x) q = Some (kcmp k l).
  Proof.
    unfold key_cell in Hx. apply andb_prop in Hx as [Hx1 Hx2].
    destruct v as [t o]. unfold key_lit, scalar_to_key, scalar_to_cell, lit_sql; cbn [s_type s_val]. intros HL.
    assert (G : forall c q, cell_ok c = true -> sql_cmp (cell_sql x) q = Some (cells_cmp x c) ->
              exists l, one_cell c = Some l /\ exists q', Some q = Some q' /\ sql_cmp (cell_sql x) q' = Some (kcmp k l)).
    { intros c q Hc E. destruct (to_nkey_some [c]) as (l & E1 & E2).
      { unfold key_ok. simpl. now rewrite Hc. }
      exists l. split; [exact E1|]. exists q. split; [reflexivity|]. rewrite E. f_equal.
      change (kcmp k l) with (keys_cmp (raw k) (raw l)). rewrite Hk, E2. unfold keys_cmp. now rewrite lex1. }
    destruct kt; try discriminate HL; destruct x; try discriminate Hx1; cbn [cell_ok] in Hx2;
      destruct t; try discriminate HL; (destruct o as [[]|]; try discriminate HL); apply G; cbn [cell_ok cell_sql sql_cmp cells_cmp];
      try reflexivity.
    all: try (f_equal; symmetry; apply utf8_lex; apply scalars_forallb; assumption).
    all: try (cbn [fval_cmp]; rewrite <- cmp_int; try reflexivity; f_equal; apply Z.leb_le in HL;
              rewrite <- (Z2N.id z) at 1 by assumption; apply N2Z.inj_compare; fail).
    all: try (match goal with |- negb (f64_nan (widen ?b)) = true =>
              apply andb_prop in HL as [HL1 HL2]; apply N.ltb_lt in HL1;
              pose proof (widen_value b HL1) as F; unfold f32_nan in HL2; unfold f64_nan;
              destruct (f32_value b), (f64_value (widen b)); simpl in F; try contradiction; auto end).
    all: try assumption.
    all: unfold f64_cmp.
    - apply andb_prop in HL as [HL1 HL2]; apply N.ltb_lt in HL1. rewrite (widen_r bits0) by assumption.
      destruct (fval_some (f64_value bits) (f32_value bits0)) as [o ->]; auto using f64_ok, f32_ok.
    - destruct (fval_some (f64_value bits) (f64_value bits0)) as [o ->]; auto using f64_ok.
  Qed.

  Variable s : schema.
  Variable r : cells.
  Variable kc : N.
  Hypothesis Hcol : column s r kc = Some (cell_sql x).
  Notation sem := (sql s r).

  Lemma cmp_key op v l : key_lit kt v = true -> scalar_to_key one_cell v = Some l ->
    sql_compare s r kc op v = tri_of (holds op (kcmp k l)).
  Proof.
    intros HL El. destruct (lit_key v HL) as (l' & E1 & q & E2 & E3). rewrite El in E1. injection E1 as <-.
    unfold sql_compare. now rewrite Hcol, E2, E3.
  Qed.

  Lemma range_in lo hi li ui : kb_in (kb_with_range (lo, li) (hi, ui)) k =
    holds (if li then OpGe else OpGt) (kcmp k lo) && holds (if ui then OpLe else OpLt) (kcmp k hi).
  Proof.
    rewrite kb_with_range_in. unfold kb_above, kb_below, kleb, kltb. rewrite (kcmp_opp k lo).
    destruct li, ui, (kcmp k lo), (kcmp k hi); reflexivity.
  Qed.
  Lemma upper_in u i : kb_in (kb_with_upper u i) k = holds (if i then OpLe else OpLt) (kcmp k u).
  Proof. unfold kb_in, kb_with_upper, kb_with_lower; cbn [kb_empty kb_lower kb_upper kb_above kb_below negb andb]. unfold kleb, kltb. destruct i, (kcmp k u); reflexivity. Qed.
  Lemma lower_in l i : kb_in (kb_with_lower l i) k = holds (if i then OpGe else OpGt) (kcmp k l).
  Proof.
    unfold kb_in, kb_with_upper, kb_with_lower; cbn [kb_empty kb_lower kb_upper kb_above kb_below negb andb]. unfold kleb, kltb. rewrite (kcmp_opp k l), andb_true_r. destruct i, (kcmp k l); reflexivity.
  Qed.
  Lemma tri_of_true b : tri_of b = TT <-> b = true.
  Proof. destruct b; split; easy. Qed.

  Definition opt_in (o : option (kbounds nkey)) : Prop := match o with Some kb => kb_in kb k = true | None => True end.

  (** The leaves the scan of the memtable leaves to the key range. *)
  Lemma cmp_bounds op v : key_lit kt v = true -> op <> OpNe ->
    exists kb, bounds_from_expr one_cell kc kt (ECmp kc op v) = Some kb /\
      (kb_in kb k = true <-> sem (ECmp kc op v) = TT).
  Proof.
    intros HL Hop. destruct (lit_key v HL) as (l & E1 & _). cbn [bounds_from_expr sql]. rewrite N.eqb_refl, E1.
    rewrite (cmp_key op v l HL E1).
    destruct op; [| now elim Hop | | | |]; eexists; (split; [reflexivity|]);
      rewrite tri_of_true, ?range_in, ?upper_in, ?lower_in; destruct (kcmp k l); cbn; split; auto; discriminate.
  Qed.
  Lemma and_TT a b : tri_and a b = TT <-> a = TT /\ b = TT.
  Proof. destruct a, b; simpl; split; intros; try easy; try (destruct H; easy). Qed.
  Lemma or_TT a b : tri_or a b = TT <-> a = TT \/ b = TT.
  Proof. destruct a, b; simpl; intuition discriminate. Qed.

  Lemma between_bounds lo hi incl : key_lit kt lo = true -> key_lit kt hi = true ->
    exists kb, bounds_from_expr one_cell kc kt (EBetween kc lo hi incl) = Some kb /\
      (kb_in kb k = true <-> sem (EBetween kc lo hi incl) = TT).
  Proof.
    intros HL HH. destruct (lit_key lo HL) as (l & E1 & _). destruct (lit_key hi HH) as (h & E2 & _).
    cbn [bounds_from_expr sql]. rewrite N.eqb_refl, E1, E2. eexists; split; [reflexivity|].
    rewrite (cmp_key _ lo l HL E1), (cmp_key _ hi h HH E2), and_TT, !tri_of_true, range_in, andb_true_iff.
    destruct incl; reflexivity.
  Qed.

  Lemma str_key p : scalars p -> exists l, one_cell (CStr p) = Some l /\ raw l = [CStr p].
  Proof. intros _. apply to_nkey_some. reflexivity. Qed.
  Lemma str_cmp y p l : x = CStr y -> scalars y -> scalars p -> one_cell (CStr p) = Some l -> kcmp k l = lexN y p.
  Proof.
    intros Ex Hy Hp E. apply to_nkey_raw in E. change (kcmp k l) with (keys_cmp (raw k) (raw l)). rewrite Hk, E, Ex.
    unfold keys_cmp. rewrite lex1. cbn [cells_cmp]. now apply utf8_lex.
  Qed.
  Lemma kt_string : is_string_type kt = true -> exists y, x = CStr y /\ scalars y.
  Proof.
    unfold key_cell in Hx. apply andb_prop in Hx as [H _]. destruct kt; try discriminate; destruct x; try discriminate;
      intros _; eexists; (split; [reflexivity|]); apply scalars_forallb; exact H.
  Qed.

  Lemma starts_bounds p : scalars p -> p <> [] -> is_string_type kt = true ->
    exists kb, bounds_from_expr one_cell kc kt (EStarts kc p) = Some kb /\
      (kb_in kb k = true <-> sem (EStarts kc p) = TT).
  Proof.
    intros Hp Hne Ht. destruct (kt_string Ht) as (y & Ex & Hy).
    cbn [bounds_from_expr sql]. rewrite N.eqb_refl, Ht, Hcol, Ex. cbn [cell_sql negb orb].
    destruct p as [|p0 p']; [now elim Hne|]. set (p := p0 :: p') in *. cbn [length Nat.eqb]. 
    replace (Nat.eqb (length p) 0) with false by reflexivity.
    destruct (str_key p Hp) as (l & El & _). rewrite El.
    assert (S : tri_of (if list_eq_dec N.eq_dec (firstn (length p) y) p then true else false) = TT <-> exists t, y = p ++ t).
    { rewrite tri_of_true. destruct (list_eq_dec N.eq_dec (firstn (length p) y) p) as [E|E]; split; try easy.
      - intros _. exists (skipn (length p) y). rewrite <- E at 1. now rewrite firstn_skipn.
      - intros (t & ->). elim E. rewrite firstn_app, Nat.sub_diag, firstn_all. simpl. now rewrite app_nil_r. }
    pose proof (next_prefix_exact p y Hp Hy) as HX. unfold between in HX.
    destruct (next_prefix_string p) as [u|] eqn:EU.
    - assert (Hu : scalars u) by exact (next_prefix_scalars p u Hp EU).
      destruct (str_key u Hu) as (h & Eh & _). rewrite Eh. eexists; split; [reflexivity|].
      rewrite S, HX, range_in, andb_true_iff, (str_cmp y p l Ex Hy Hp El), (str_cmp y u h Ex Hy Hu Eh).
      rewrite (lexN_opp y p). destruct (lexN y p), (lexN y u); cbn; intuition (try discriminate; try congruence).
    - eexists; split; [reflexivity|]. rewrite S, HX, lower_in, (str_cmp y p l Ex Hy Hp El).
      rewrite (lexN_opp y p). destruct (lexN y p); cbn; intuition (try discriminate; try congruence).
  Qed.

  Lemma all_keys_ok vs : forallb (key_lit kt) vs = true ->
    exists ls, all_keys one_cell vs = Some ls /\ Forall2 (fun v l => scalar_to_key one_cell v = Some l) vs ls.
  Proof.
    induction vs as [|v vs IH]; cbn [forallb all_keys]; intros H.
    - exists []. split; auto.
    - apply andb_prop in H as [H1 H2]. destruct (lit_key v H1) as (l & E & _). destruct (IH H2) as (ls & E' & HF).
      exists (l :: ls). rewrite E, E'. split; [reflexivity|]. constructor; assumption.
  Qed.
  Lemma min_key_le ls : forall a, (forall b, b = a \/ In b ls -> kcmp (min_key a ls) b <> Gt).
  Proof.
    induction ls as [|c ls IH]; intros a b Hb; cbn [min_key fold_left].
    - destruct Hb as [->|[]]. rewrite kcmp_refl. discriminate.
    - fold (min_key (match kcmp c a with Lt => c | _ => a end) ls).
      set (m := match kcmp c a with Lt => c | _ => a end) in *.
      assert (Hm : kcmp (min_key m ls) m <> Gt) by (apply IH; auto).
      assert (HL : forall b, kcmp m b <> Gt -> kcmp (min_key m ls) b <> Gt).
      { intros b' H. eapply kcmp_le_trans; eauto. }
      destruct Hb as [->|[<-|Hb]]; [apply HL|apply HL|apply IH; auto]; unfold m.
      + destruct (kcmp c a) eqn:E; rewrite ?kcmp_refl, ?E; discriminate.
      + destruct (kcmp c a) eqn:E; rewrite ?kcmp_refl; try discriminate; rewrite kcmp_opp, E; discriminate.
  Qed.
  Lemma max_key_ge ls : forall a, (forall b, b = a \/ In b ls -> kcmp b (max_key a ls) <> Gt).
  Proof.
    induction ls as [|c ls IH]; intros a b Hb; cbn [max_key fold_left].
    - destruct Hb as [->|[]]. rewrite kcmp_refl. discriminate.
    - fold (max_key (match kcmp c a with Lt => a | _ => c end) ls).
      set (m := match kcmp c a with Lt => a | _ => c end) in *.
      assert (Hm : kcmp m (max_key m ls) <> Gt) by (apply IH; auto).
      assert (HL : forall b, kcmp b m <> Gt -> kcmp b (max_key m ls) <> Gt).
      { intros b' H. eapply kcmp_le_trans; eauto. }
      destruct Hb as [->|[<-|Hb]]; [apply HL|apply HL|apply IH; auto]; unfold m.
      + destruct (kcmp c a) eqn:E; rewrite ?kcmp_refl; try discriminate; rewrite kcmp_opp, E; discriminate.
      + destruct (kcmp c a) eqn:E; rewrite ?kcmp_refl, ?E; discriminate.
  Qed.

  Theorem bounds_sound e : key_lits kc kt e = true -> sem e = TT -> opt_in (bounds_from_expr one_cell kc kt e).
  Proof.
    induction e using expr_rect'; cbn [key_lits]; intros HL HT; try exact I; try discriminate HT.
    - destruct (N.eqb_spec c kc) as [->|NE].
      + cbn [orb negb] in HL. assert (D : op = OpNe \/ op <> OpNe) by (destruct op; auto; right; discriminate).
        destruct D as [->|D]; [|destruct (cmp_bounds op v HL D) as (kb & -> & H); now apply H].
        cbn [bounds_from_expr]. rewrite N.eqb_refl. destruct (scalar_to_key one_cell v); exact I.
      + cbn [bounds_from_expr]. apply N.eqb_neq in NE. rewrite NE. exact I.
    - destruct (N.eqb_spec c kc) as [->|NE].
      + cbn [orb negb] in HL. apply andb_prop in HL as [H1 H2]. destruct (between_bounds lo hi i H1 H2) as (kb & -> & H). now apply H.
      + cbn [bounds_from_expr]. apply N.eqb_neq in NE. rewrite NE. exact I.
    - cbn [bounds_from_expr]. destruct (N.eqb_spec c kc) as [->|NE]; [|exact I]. cbn [orb negb] in HL.
      destruct vs as [|v0 vs0]; [cbn [sql] in HT; rewrite Hcol in HT; discriminate HT|].
      destruct (all_keys_ok _ HL) as (ls & E & HF). rewrite E.
      destruct ls as [|l0 ls0]; [inversion HF|]. unfold opt_in. rewrite range_in.
      cbn [sql] in HT. rewrite Hcol in HT.
      assert (G : exists l, In l (l0 :: ls0) /\ kcmp k l = Eq).
      { clear E. induction HF as [|v l vs ls Hv HF IH]; [discriminate HT|]. cbn [forallb] in HL. apply andb_prop in HL as [H1 H2].
        cbn [map fold_right] in HT. apply or_TT in HT as [HT|HT].
        - rewrite (cmp_key OpEq v l H1 Hv), tri_of_true in HT. exists l. split; [left; reflexivity|]. now destruct (kcmp k l).
        - destruct (IH H2 HT) as (l' & Hl & El). exists l'. split; [now right|exact El]. }
      destruct G as (l & Hl & El). rewrite !(kcmp_eq_l _ _ _ El).
      assert (M1 : kcmp (min_key l0 ls0) l <> Gt) by (apply min_key_le; destruct Hl; auto).
      assert (M2 : kcmp l (max_key l0 ls0) <> Gt) by (apply max_key_ge; destruct Hl; auto).
      rewrite (kcmp_opp (min_key l0 ls0) l). destruct (kcmp (min_key l0 ls0) l), (kcmp l (max_key l0 ls0)); try reflexivity; congruence.
    - destruct (N.eqb_spec c kc) as [->|NE].
      + cbn [orb negb] in HL. apply scalars_forallb in HL. destruct p as [|p0 p'].
        { cbn [bounds_from_expr]. rewrite N.eqb_refl. cbn [length Nat.eqb]. rewrite orb_true_r. exact I. }
        destruct (is_string_type kt) eqn:Ht.
        * destruct (starts_bounds (p0 :: p') HL ltac:(discriminate) Ht) as (kb & -> & H). now apply H.
        * cbn [bounds_from_expr]. rewrite N.eqb_refl, Ht. exact I.
      + cbn [bounds_from_expr]. apply N.eqb_neq in NE. rewrite NE. exact I.
    - cbn [bounds_from_expr]. cbn [sql] in HT.
      assert (G : forall acc, opt_in acc -> opt_in ((fix go (acc : option (kbounds nkey)) (l : list expr) : option (kbounds nkey) :=
           match l with
           | [] => acc
           | x :: t => match bounds_from_expr one_cell kc kt x with
                       | Some b => go (Some (match acc with Some p => kb_intersect p b | None => b end)) t
                       | None => go acc t
                       end
           end) acc l)); [|apply G; exact I].
      induction H as [|y l Hy Hl IH]; intros acc Ha; [exact Ha|].
      cbn [forallb] in HL. apply andb_prop in HL as [L1 L2]. cbn [map fold_right] in HT. apply and_TT in HT as [T1 T2].
      specialize (Hy L1 T1). destruct (bounds_from_expr one_cell kc kt y) as [b|]; apply IH; auto.
      simpl. destruct acc as [p|]; [rewrite kb_intersect_in|]; simpl in Ha, Hy; rewrite ?Ha; exact Hy.
    - cbn [bounds_from_expr]. cbn [sql] in HT.
      assert (G : forall acc l, Forall (fun e => key_lits kc kt e = true -> sem e = TT -> opt_in (bounds_from_expr one_cell kc kt e)) l ->
         forallb (key_lits kc kt) l = true ->
         ((exists kb, acc = Some kb /\ kb_in kb k = true) \/ fold_right tri_or TF (map sem l) = TT) ->
         opt_in ((fix go (acc : option (kbounds nkey)) (l : list expr) : option (kbounds nkey) :=
           match l with
           | [] => acc
           | x :: t => match bounds_from_expr one_cell kc kt x with
                       | Some b => go (Some (match acc with Some p => kb_union p b | None => b end)) t
                       | None => None
                       end
           end) acc l)); [|apply G; auto].
      clear. intros acc l H. revert acc. induction H as [|y l Hy Hl IH]; intros acc HL HT.
      + destruct HT as [(kb & -> & E)|HT]; [exact E|discriminate HT].
      + cbn [forallb] in HL. apply andb_prop in HL as [L1 L2]. destruct (bounds_from_expr one_cell kc kt y) as [b|]; [|exact I].
        apply IH; auto. destruct HT as [(kb & -> & E)|HT].
        * left. eexists; split; [reflexivity|]. apply kb_union_in. now left.
        * cbn [map fold_right] in HT. apply or_TT in HT as [HT|HT]; [|now right]. specialize (Hy L1 HT). simpl in Hy.
          left. eexists; split; [reflexivity|]. destruct acc; [apply kb_union_in; now right|exact Hy].
  Qed.

  (** Rows of the memtable: what the key range and the residual leave is exactly the predicate. *)
  Theorem nonsst_complete e : key_lits kc kt e = true ->
    sem_opt_true s r (snd (split_non_sst_inner kc kt e)) ->
    opt_in (bounds_from_expr one_cell kc kt e) -> sem e = TT.
  Proof.
    induction e using expr_rect'; cbn [key_lits split_non_sst_inner]; intros HL HR HB; try exact HR; try reflexivity.
    - discriminate HB.
    - destruct (N.eqb_spec c kc) as [->|NE]; [|exact HR]. cbn [orb negb] in *.
      destruct op; try exact HR;
      match type of HB with opt_in (bounds_from_expr _ _ _ (ECmp _ ?op _)) =>
        destruct (cmp_bounds op v HL ltac:(discriminate)) as (kb & E & H) end; rewrite E in HB; now apply H.
    - destruct (N.eqb_spec c kc) as [->|NE]; [|exact HR]. cbn [orb negb] in *. apply andb_prop in HL as [H1 H2].
      destruct (between_bounds lo hi i H1 H2) as (kb & E & H). rewrite E in HB. now apply H.
    - destruct (N.eqb_spec c kc) as [->|NE]; [|exact HR]. cbn [orb negb] in *.
      apply scalars_forallb in HL. destruct p as [|p0 p']; [exact HR|]. cbn [length Nat.eqb orb] in HR.
      destruct (is_string_type kt) eqn:Ht; [|exact HR]. cbn [negb] in HR.
      destruct (starts_bounds (p0 :: p') HL ltac:(discriminate) Ht) as (kb & E & H).
      rewrite E in HB. now apply H.
    - cbn [snd] in HR. cbn [sql].
      assert (HR' : Forall (fun e => sem_opt_true s r (snd (split_non_sst_inner kc kt e))) l).
      { unfold sem_opt_true in *. rewrite combine_and_sem in HR. clear -HR.
        induction l as [|y l IH]; [constructor|]. cbn [map flat_map] in HR.
        rewrite map_app, fold_right_app in HR. constructor.
        - destruct (snd (split_non_sst_inner kc kt y)); [|reflexivity]. cbn [opt_list map fold_right] in HR. now apply and_TT in HR.
        - apply IH. destruct (snd (split_non_sst_inner kc kt y)); [|exact HR]. cbn [opt_list map fold_right] in HR. now apply and_TT in HR. }
      assert (HB' : Forall (fun e => opt_in (bounds_from_expr one_cell kc kt e)) l).
      { cbn [bounds_from_expr] in HB. clear -HB.
        assert (G : forall acc, opt_in ((fix go (acc : option (kbounds nkey)) (l : list expr) : option (kbounds nkey) :=
           match l with
           | [] => acc
           | x :: t => match bounds_from_expr one_cell kc kt x with
                       | Some b => go (Some (match acc with Some p => kb_intersect p b | None => b end)) t
                       | None => go acc t
                       end
           end) acc l) -> opt_in acc /\ Forall (fun e => opt_in (bounds_from_expr one_cell kc kt e)) l); [|now apply (G None)].
        clear. induction l as [|y l IH]; intros acc HB; [split; [exact HB|constructor]|].
        destruct (bounds_from_expr one_cell kc kt y) as [b|] eqn:E.
        - apply IH in HB as [H1 H2]. simpl in H1. destruct acc as [p|].
          + rewrite kb_intersect_in in H1. apply andb_prop in H1 as [Ha Hb]. split; [exact Ha|]. constructor; auto. rewrite E. exact Hb.
          + split; [exact I|]. constructor; auto. rewrite E. exact H1.
        - apply IH in HB as [H1 H2]. split; auto. constructor; auto. rewrite E. exact I. }
      clear HR HB. induction H as [|y l Hy Hl IH]; [reflexivity|].
      inversion_clear HR'. inversion_clear HB'. cbn [forallb] in HL. apply andb_prop in HL as [L1 L2].
      cbn [map fold_right]. apply and_TT. auto.
  Qed.
End One.
