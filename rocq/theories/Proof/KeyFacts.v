(** Keys without NaN are totally preordered; comparison, equality and hash agree. *)
From Coq Require Import List NArith ZArith QArith Bool Lia.
From Verif Require Import Base.Order Base.Lex Spec.Ieee Spec.KeySpec Model.Float Model.Utf8 Model.Key.
Import ListNotations.
Close Scope Q_scope.

Lemma Qcmp_opp (p q : Q) : Qcompare q p = CompOpp (Qcompare p q).
Proof. symmetry. apply Qcompare_antisym. Qed.
Lemma Qcmp_trans c (p q r : Q) : Qcompare p q = c -> Qcompare q r = c -> Qcompare p r = c.
Proof.
  destruct c.
  - rewrite <- !Qeq_alt. intros; eapply Qeq_trans; eauto.
  - rewrite <- !Qlt_alt. intros; eapply Qlt_trans; eauto.
  - rewrite <- !Qgt_alt. intros; eapply Qlt_trans; eauto.
Qed.

Lemma fval_opp x y : x <> FNan -> y <> FNan -> fval_cmp y x = option_map CompOpp (fval_cmp x y).
Proof.
  destruct x as [|[]|p], y as [|[]|q]; simpl; try congruence. intros _ _. now rewrite Qcmp_opp.
Qed.
Lemma fval_trans c x y z : fval_cmp x y = Some c -> fval_cmp y z = Some c -> fval_cmp x z = Some c.
Proof.
  destruct x as [|[]|p], y as [|[]|q], z as [|[]|r]; simpl; try congruence.
  intros E F. f_equal. apply (Qcmp_trans c p q r); congruence.
Qed.
Lemma fval_some x y : x <> FNan -> y <> FNan -> exists c, fval_cmp x y = Some c.
Proof. destruct x as [|[]|p], y as [|[]|q]; simpl; try congruence; eauto. Qed.

Lemma fo_opp x y : x <> FNan -> y <> FNan -> or_equal (fval_cmp y x) = CompOpp (or_equal (fval_cmp x y)).
Proof.
  intros Hx Hy. rewrite (fval_opp x y) by assumption.
  destruct (fval_some x y) as [c ->]; auto.
Qed.
Lemma fo_trans c x y z : x <> FNan -> y <> FNan -> z <> FNan ->
  or_equal (fval_cmp x y) = c -> or_equal (fval_cmp y z) = c -> or_equal (fval_cmp x z) = c.
Proof.
  intros Hx Hy Hz. destruct (fval_some x y) as [a Ea]; auto. destruct (fval_some y z) as [b Eb]; auto.
  rewrite Ea, Eb. simpl. intros -> ->. now rewrite (fval_trans c x y z).
Qed.

Lemma f32_ok b : negb (f32_nan b) = true -> f32_value b <> FNan.
Proof. unfold f32_nan. destruct (f32_value b); easy. Qed.
Lemma f64_ok b : negb (f64_nan b) = true -> f64_value b <> FNan.
Proof. unfold f64_nan. destruct (f64_value b); easy. Qed.

Lemma bool_cmp_opp a b : bool_cmp b a = CompOpp (bool_cmp a b).
Proof. now destruct a, b. Qed.
Lemma bool_cmp_trans c x y z : bool_cmp x y = c -> bool_cmp y z = c -> bool_cmp x z = c.
Proof. destruct x, y, z; simpl; congruence. Qed.

Lemma cells_cmp_opp a b : cell_ok a = true -> cell_ok b = true -> cells_cmp b a = CompOpp (cells_cmp a b).
Proof.
  destruct a, b; cbn [cell_ok cells_cmp cell_tag]; intros Ha Hb; try discriminate;
    auto using bool_cmp_opp, Zcmp_opp, Ncmp_opp, lexN_opp;
    apply fo_opp; auto using f32_ok, f64_ok.
Qed.

Lemma cells_cmp_trans c a b d : cell_ok a = true -> cell_ok b = true -> cell_ok d = true ->
  cells_cmp a b = c -> cells_cmp b d = c -> cells_cmp a d = c.
Proof.
  destruct a; try discriminate;
  destruct b; try discriminate;
  (destruct d; try discriminate);
  cbn [cell_ok cells_cmp cell_tag]; intros Ha Hb Hd;
    lazymatch goal with
    | |- bool_cmp _ _ = _ -> bool_cmp _ _ = _ -> _ => apply bool_cmp_trans
    | |- Z.compare _ _ = _ -> Z.compare _ _ = _ -> _ => apply Zcmp_trans
    | |- lexN _ _ = _ -> lexN _ _ = _ -> _ => apply lexN_trans
    | |- or_equal _ = _ -> or_equal _ = _ -> _ => apply fo_trans; auto using f32_ok, f64_ok
    | |- N.compare ?x ?y = _ -> N.compare ?y ?z = _ -> N.compare ?x ?z = _ => apply Ncmp_trans
    | |- ?e = _ -> ?t = _ -> ?t = _ => intros _ F; exact F
    | |- ?t = _ -> ?e = _ -> ?t = _ => intros E _; exact E
    | |- _ = _ -> _ = _ -> _ = _ => intros E F; exfalso; rewrite <- E in F; discriminate F
    end.
Qed.

Definition cells_ok (k : key) : Prop := Forall (fun c => cell_ok c = true) k.

Lemma key_ok_iff k : key_ok k = true <-> cells_ok k.
Proof. unfold key_ok, cells_ok. rewrite forallb_forall, Forall_forall. reflexivity. Qed.

Lemma keys_cmp_opp a b : cells_ok a -> cells_ok b -> keys_cmp b a = CompOpp (keys_cmp a b).
Proof. apply (lex_opp cells_cmp (fun c => cell_ok c = true)). exact cells_cmp_opp. Qed.
Lemma keys_cmp_trans c a b d : cells_ok a -> cells_ok b -> cells_ok d ->
  keys_cmp a b = c -> keys_cmp b d = c -> keys_cmp a d = c.
Proof.
  apply (lex_trans cells_cmp (fun c => cell_ok c = true)).
  - exact cells_cmp_opp.
  - exact cells_cmp_trans.
Qed.

(** ** Equality *)
Lemma bytes_eqb_eq a b : bytes_eqb a b = true <-> a = b.
Proof.
  revert b; induction a as [|x a IH]; intros [|y b]; simpl; split; try congruence.
  - rewrite andb_true_iff, N.eqb_eq, IH. intros [-> ->]; auto.
  - injection 1 as -> ->. rewrite N.eqb_refl. now apply IH.
Qed.

Lemma cells_eq_iff a b : cell_ok a = true -> cell_ok b = true -> (cells_cmp a b = Eq <-> cells_equal a b = true).
Proof.
  destruct a; try discriminate; (destruct b; try discriminate); cbn [cell_ok cells_cmp cells_equal cell_tag]; intros Ha Hb;
    try (split; vm_compute; congruence).
  - destruct b, b0; simpl; split; congruence.
  - now rewrite Z.compare_eq_iff, Z.eqb_eq.
  - now rewrite Z.compare_eq_iff, Z.eqb_eq.
  - now rewrite N.compare_eq_iff, N.eqb_eq.
  - now rewrite N.compare_eq_iff, N.eqb_eq.
  - unfold floats_equal_f32, f32_cmp. apply negb_true_iff in Ha. rewrite Ha. simpl.
    apply negb_true_iff in Ha. destruct (fval_some (f32_value bits) (f32_value bits0)) as [c ->]; auto using f32_ok.
    destruct c; simpl; split; congruence.
  - unfold floats_equal_f64, f64_cmp. apply negb_true_iff in Ha. rewrite Ha. simpl.
    apply negb_true_iff in Ha. destruct (fval_some (f64_value bits) (f64_value bits0)) as [c ->]; auto using f64_ok.
    destruct c; simpl; split; congruence.
  - now rewrite bytes_eqb_eq, lexN_eq.
  - now rewrite bytes_eqb_eq, lexN_eq.
Qed.

Lemma keys_eq_iff a b : cells_ok a -> cells_ok b -> (keys_cmp a b = Eq <-> keys_equal a b = true).
Proof.
  intros Ha; revert b; induction Ha as [|x a Hx Ha IH]; intros b Hb.
  - destruct b; simpl; split; congruence.
  - destruct Hb as [|y b Hy Hb]; [simpl; split; congruence|].
    unfold keys_cmp in *. cbn [lex keys_equal]. rewrite andb_true_iff, <- IH, <- cells_eq_iff by assumption.
    destruct (cells_cmp x y); split; try tauto; try (intros; congruence); intros [? _]; congruence.
Qed.
