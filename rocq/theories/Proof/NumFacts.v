(** Comparing integers with floats is exact. *)
From Coq Require Import NArith ZArith QArith Qpower Bool Lia.
From Verif Require Import Base.Order Base.Lex Spec.Ieee Model.Float Model.Key Model.Expr Model.Residual Proof.FloatFacts.
Local Open Scope N_scope.

Lemma size_bounds n : 0 < n -> 2 ^ (N.size n - 1) <= n /\ n < 2 ^ N.size n /\ 1 <= N.size n.
Proof.
  intros H. pose proof (N.size_gt n) as G. pose proof (N.size_le n) as L.
  assert (S : 1 <= N.size n). { destruct n; [lia|]. simpl. destruct p; simpl; lia. }
  split; [|split; auto].
  assert (E : 2 ^ N.size n = 2 * 2 ^ (N.size n - 1)).
  { rewrite <- N.pow_succ_r'. f_equal. lia. }
  rewrite E in L. rewrite N.succ_double_spec in L. lia.
Qed.

Lemma shl128_exact n s : (0 <= s)%Z -> n * 2 ^ Z.to_N s < 2 ^ 128 -> shl128 n s = n * 2 ^ Z.to_N s.
Proof. intros Hs H. unfold shl128. rewrite N.shiftl_mul_pow2. now apply N.mod_small. Qed.

Lemma compare_bits_lt a b sa sb : a < 2 ^ sa -> 2 ^ (sb - 1) <= b -> sa < sb -> a < b.
Proof.
  intros Ha Hb H. apply N.lt_le_trans with (2 ^ sa); auto.
  apply N.le_trans with (2 ^ (sb - 1)); auto. apply N.pow_le_mono_r; lia.
Qed.

Lemma compare_u128_spec a m x : 0 < a -> a < 2 ^ 128 -> 0 < m -> m < 2 ^ 64 ->
  compare_u128_f64 a m x =
  if (0 <=? x)%Z then N.compare a (m * 2 ^ Z.to_N x) else N.compare (a * 2 ^ Z.to_N (- x)) m.
Proof.
  intros Ha Ha' Hm Hm'. unfold compare_u128_f64, bit_length.
  destruct (size_bounds a Ha) as (A1 & A2 & A3). destruct (size_bounds m Hm) as (M1 & M2 & M3).
  assert (A4 : N.size a <= 128).
  { destruct (N.le_gt_cases (N.size a) 128); auto. exfalso.
    assert (2 ^ 128 <= 2 ^ (N.size a - 1)) by (apply N.pow_le_mono_r; lia). lia. }
  destruct (Z.leb_spec 0 x) as [Hx|Hx].
  - set (k := Z.to_N x). assert (Ek : x = Z.of_N k) by lia.
    assert (B1 : 2 ^ (N.size m + k - 1) <= m * 2 ^ k).
    { replace (N.size m + k - 1) with (N.size m - 1 + k) by lia. rewrite N.pow_add_r. apply N.mul_le_mono_r. exact M1. }
    assert (B2 : m * 2 ^ k < 2 ^ (N.size m + k)).
    { rewrite N.pow_add_r. apply N.mul_lt_mono_pos_r; auto. apply pow_pos. }
    destruct (Z.ltb_spec (Z.of_N (N.size a)) (Z.of_N (N.size m) + x)) as [L|L].
    { symmetry. apply N.compare_lt_iff. apply (compare_bits_lt _ _ (N.size a) (N.size m + k)); auto. lia. }
    destruct (Z.ltb_spec (Z.of_N (N.size m) + x) (Z.of_N (N.size a))) as [L'|L'].
    { symmetry. apply N.compare_gt_iff. apply (compare_bits_lt _ _ (N.size m + k) (N.size a)); auto. lia. }
    rewrite shl128_exact; auto. fold k.
    apply N.lt_le_trans with (1 := B2). apply N.pow_le_mono_r; lia.
  - set (k := Z.to_N (- x)). assert (Ek : (- x)%Z = Z.of_N k) by lia. rewrite Ek.
    assert (B1 : 2 ^ (N.size a + k - 1) <= a * 2 ^ k).
    { replace (N.size a + k - 1) with (N.size a - 1 + k) by lia. rewrite N.pow_add_r. apply N.mul_le_mono_r. exact A1. }
    assert (B2 : a * 2 ^ k < 2 ^ (N.size a + k)).
    { rewrite N.pow_add_r. apply N.mul_lt_mono_pos_r; auto. apply pow_pos. }
    destruct (Z.ltb_spec (Z.of_N (N.size m)) (Z.of_N (N.size a) + Z.of_N k)) as [L|L].
    { symmetry. apply N.compare_gt_iff. apply (compare_bits_lt _ _ (N.size m) (N.size a + k)); auto. lia. }
    destruct (Z.ltb_spec (Z.of_N (N.size a) + Z.of_N k) (Z.of_N (N.size m))) as [L'|L'].
    { symmetry. apply N.compare_lt_iff. apply (compare_bits_lt _ _ (N.size a + k) (N.size m)); auto. lia. }
    rewrite shl128_exact, N2Z.id; auto; [lia|]. rewrite N2Z.id.
    assert (S64 : N.size m <= 64).
    { destruct (N.le_gt_cases (N.size m) 64); auto. exfalso.
      assert (2 ^ 64 <= 2 ^ (N.size m - 1)) by (apply N.pow_le_mono_r; lia). lia. }
    apply N.lt_le_trans with (1 := B2). apply N.pow_le_mono_r; lia.
Qed.

(** ** In rational numbers *)
Lemma Qcompare_scale p q s : (0 < s)%Q -> Qcompare (p * s) (q * s) = Qcompare p q.
Proof.
  intros Hs. destruct (Qcompare_spec p q) as [E|E|E].
  - rewrite <- Qeq_alt. now rewrite E.
  - rewrite <- Qlt_alt. now apply Qmult_lt_compat_r.
  - rewrite <- Qgt_alt. now apply Qmult_lt_compat_r.
Qed.
Lemma Qcompare_inject a b : Qcompare (inject_Z a) (inject_Z b) = Z.compare a b.
Proof. unfold Qcompare, inject_Z. simpl. now rewrite !Z.mul_1_r. Qed.
Lemma pow2_pos x : (0 < Qpower (2 # 1) x)%Q.
Proof. now apply Qpower_0_lt. Qed.

Lemma Qcompare_pow a m x :
  Qcompare (inject_Z a) (inject_Z m * Qpower (2 # 1) x) =
  if (0 <=? x)%Z then Z.compare a (m * 2 ^ x) else Z.compare (a * 2 ^ (- x)) m.
Proof.
  destruct (Z.leb_spec 0 x) as [H|H].
  - rewrite <- Qcompare_inject. rewrite inject_Z_mult, Zpower_Qpower by lia. reflexivity.
  - rewrite <- Qcompare_inject. rewrite <- (Qcompare_scale (inject_Z (a * 2 ^ (- x))) _ (Qpower (2 # 1) x) (pow2_pos x)).
    rewrite inject_Z_mult, Zpower_Qpower by lia. rewrite <- Qmult_assoc.
    change (inject_Z 2) with (2 # 1)%Q. rewrite <- Qpower_plus by exact two_nz.
    replace (- x + x)%Z with 0%Z by lia. simpl. now rewrite Qmult_1_r.
Qed.

Lemma decompose_spec b :
  let l := b mod 2 ^ 63 in
  let '(m, x) := decompose_f64 l in
  (is_finite 52 11 b = true ->
   (inject_Z (Z.of_N (mag 52 l)) * unit 52 11 == inject_Z (Z.of_N m) * Qpower (2 # 1) x)%Q) /\ m < 2 ^ 64 /\
  (l <> 0 -> 0 < m).
Proof.
  cbv zeta. set (l := b mod 2 ^ 63). unfold decompose_f64.
  assert (Hl : l < 2 ^ 63) by (apply N.mod_lt; discriminate).
  rewrite N.shiftr_div_pow2. change 0x7ff with (N.ones 11). change 0xfffffffffffff with (N.ones 52).
  rewrite !N.land_ones. change (N.shiftl 1 52) with (2 ^ 52).
  assert (E11 : (l / 2 ^ 52) mod 2 ^ 11 = l / 2 ^ 52).
  { apply N.mod_small. apply N.div_lt_upper_bound; [discriminate|]. exact Hl. }
  rewrite E11. pose proof (N.mod_lt l (2 ^ 52) ltac:(discriminate)) as F. pose proof (N.div_mod l (2 ^ 52) ltac:(discriminate)) as D.
  unfold mag, unit. destruct (N.eqb_spec (l / 2 ^ 52) 0) as [E|E].
  - split; [|split].
    + intros _. reflexivity.
    + apply N.lt_trans with (1 := F). reflexivity.
    + intros H. rewrite E in D. lia.
  - assert (EL : N.lor (2 ^ 52) (l mod 2 ^ 52) = l mod 2 ^ 52 + 2 ^ 52).
    { rewrite N.add_comm. symmetry.
      rewrite <- N.lxor_lor.
      - apply N.add_nocarry_lxor. apply N.bits_inj_0. intros n. rewrite N.land_spec.
        destruct (N.eq_dec n 52) as [->|Hn].
        + rewrite N.mod_pow2_bits_high by lia. now rewrite andb_false_r.
        + rewrite N.pow2_bits_false by auto. reflexivity.
      - apply N.bits_inj_0. intros n. rewrite N.land_spec.
        destruct (N.eq_dec n 52) as [->|Hn].
        + rewrite N.mod_pow2_bits_high by lia. now rewrite andb_false_r.
        + rewrite N.pow2_bits_false by auto. reflexivity. }
    rewrite EL. split; [|split].
    + intros _. rewrite N2Z.inj_mul, inject_Z_mult, inject_pow2, <- Qmult_assoc, <- Qpower_plus by exact two_nz.
      apply Qmult_comp; [reflexivity|].
      match goal with |- (Qpower _ ?x == Qpower _ ?y)%Q => replace x with y; [reflexivity|] end.
      change (2 ^ (Z.of_N 11 - 1))%Z with 1024%Z. lia.
    + apply N.lt_trans with (2 ^ 52 + 2 ^ 52); [apply N.add_lt_mono_r; exact F|reflexivity].
    + intros _. apply N.add_pos_r. reflexivity.
Qed.

Lemma f64_finite_or b : f64_nan b = false -> f64_inf b = false -> is_finite 52 11 b = true.
Proof.
  unfold f64_nan, f64_inf, f64_value. intros H1 H2. destruct (is_finite 52 11 b) eqn:E; auto.
  rewrite (ieee_special 52 11 b E) in *. destruct (_ =? 0); discriminate.
Qed.

Lemma Zcompare_of_N a b : Z.compare (Z.of_N a) (Z.of_N b) = N.compare a b.
Proof. apply N2Z.inj_compare. Qed.

Lemma Zcmp_neg a b : Z.compare (- a) (- b) = CompOpp (Z.compare a b).
Proof.
  destruct (Z.compare_spec a b); simpl; [apply Z.compare_eq_iff|apply Z.compare_gt_iff|apply Z.compare_lt_iff]; lia.
Qed.

Theorem compare_i128_exact i b : (- 2 ^ 127 <= i < 2 ^ 127)%Z ->
  compare_i128_f64 i b = fval_cmp (FNum (inject_Z i)) (f64_value b).
Proof.
  intros Hi. unfold compare_i128_f64.
  destruct (f64_nan b) eqn:Hn.
  { unfold f64_nan in Hn. destruct (f64_value b) as [|[]|]; auto; discriminate. }
  destruct (f64_inf b) eqn:Hf.
  { unfold f64_inf, f64_value in *. destruct (is_finite 52 11 b) eqn:F.
    - destruct (ieee_finite 52 11 b F) as (q & E & _). rewrite E in Hf. discriminate.
    - rewrite (ieee_special 52 11 b F) in *. unfold f64_neg. change (52 + 11) with 63 in *.
      destruct (_ =? 0); [|discriminate]. destruct (N.testbit b 63); reflexivity. }
  pose proof (f64_finite_or b Hn Hf) as F.
  destruct (ieee_finite 52 11 b F) as (q & E & Eq). unfold f64_value. rewrite E. cbn [fval_cmp].
  assert (EZ : f64_zero b = match Qcompare q 0 with Datatypes.Eq => true | _ => false end).
  { unfold f64_zero, f64_cmp, f64_value. rewrite E. replace (ieee 52 11 0) with (FNum (inject_Z 0 * Qpower (2 # 1) (1 - (2 ^ (Z.of_N 11 - 1) - 1) - 52))) by reflexivity.
    cbn [fval_cmp is_eq]. rewrite Qmult_0_l. reflexivity. }
  pose proof (decompose_spec b) as HD. cbv zeta in HD.
  unfold f64_abs. change (low 52 11 b) with (b mod 2 ^ 63) in *.
  destruct (decompose_f64 (b mod 2 ^ 63)) as [m x]. destruct HD as (D1 & D2 & D3). specialize (D1 F).
  unfold smag in Eq. change (low 52 11 b) with (b mod 2 ^ 63) in Eq. change (52 + 11) with 63 in Eq.
  fold (f64_neg b) in Eq.
  assert (Eq' : (q == inject_Z (if f64_neg b then - Z.of_N m else Z.of_N m) * Qpower (2 # 1) x)%Q).
  { rewrite Eq. destruct (f64_neg b); auto. rewrite !inject_Z_opp.
    setoid_replace (- inject_Z (Z.of_N (mag 52 (b mod 2 ^ 63))) * unit 52 11)%Q with (- (inject_Z (Z.of_N (mag 52 (b mod 2 ^ 63))) * unit 52 11))%Q by ring.
    rewrite D1. ring. }
  rewrite EZ. destruct (Qcompare q 0) eqn:QZ.
  { rewrite <- Qeq_alt in QZ. rewrite QZ. change 0%Q with (inject_Z 0). now rewrite Qcompare_inject. }
  all: assert (Hm : 0 < m) by
    (destruct (N.eq_dec m 0) as [->|]; [|lia]; exfalso; rewrite Eq' in QZ; destruct (f64_neg b); simpl in QZ;
     rewrite Qmult_0_l in QZ; discriminate).
  all: clear EZ QZ D3.
  all: rewrite Eq', Qcompare_pow.
  all: destruct (Z.eqb_spec i 0) as [->|Hi0].
  1,3: f_equal; destruct (Z.leb_spec 0 x); [pose proof (Z.pow_pos_nonneg 2 x ltac:(lia) ltac:(lia))|];
       destruct (f64_neg b); symmetry; rewrite ?Z.mul_0_l; first [apply Z.compare_lt_iff|apply Z.compare_gt_iff]; nia.
  all: destruct (Z.ltb_spec i 0) as [L|L]; destruct (f64_neg b) eqn:HN; cbn [Bool.eqb negb]; f_equal.
  all: try (symmetry; destruct (Z.leb_spec 0 x);
       [pose proof (Z.pow_pos_nonneg 2 x ltac:(lia) ltac:(lia))|pose proof (Z.pow_pos_nonneg 2 (-x) ltac:(lia) ltac:(lia))];
       first [apply Z.compare_lt_iff; nia|apply Z.compare_gt_iff; nia]).
  all: unfold i128_abs_to_u128; rewrite N.mod_small by lia;
       rewrite compare_u128_spec by lia;
       destruct (Z.leb_spec 0 x) as [Hx|Hx];
       rewrite <- Zcompare_of_N, N2Z.inj_mul, N2Z.inj_pow, !Z2N.id by lia; change (Z.of_N 2) with 2%Z.
  all: try (rewrite Z.abs_eq by lia; reflexivity).
  all: rewrite Z.abs_neq by lia.
  all: rewrite <- Zcmp_neg; f_equal; ring.
Qed.

(** ** Widening *)
Definition feq (x y : fval) : Prop :=
  match x, y with
  | FNan, FNan => True
  | FInf a, FInf b => a = b
  | FNum p, FNum q => (p == q)%Q
  | _, _ => False
  end.
Lemma feq_cmp x x' y y' : feq x x' -> feq y y' -> fval_cmp x y = fval_cmp x' y'.
Proof.
  destruct x as [|[]|p], x' as [|[]|p'], y as [|[]|q], y' as [|[]|q']; simpl; try tauto; try discriminate; try reflexivity.
  intros -> ->. reflexivity.
Qed.
Lemma feq_refl x : feq x x.
Proof. destruct x; simpl; reflexivity. Qed.

Lemma build_bits s e f : s < 2 -> e < 2 ^ 11 -> f < 2 ^ 52 ->
  let b := s * 2 ^ 63 + e * 2 ^ 52 + f in
  N.testbit b 63 = (s =? 1) /\ b mod 2 ^ 63 = e * 2 ^ 52 + f /\
  (e * 2 ^ 52 + f) / 2 ^ 52 = e /\ (e * 2 ^ 52 + f) mod 2 ^ 52 = f.
Proof.
  intros Hs He Hf b.
  assert (L : e * 2 ^ 52 + f < 2 ^ 63).
  { apply N.lt_le_trans with (e * 2 ^ 52 + 2 ^ 52); [now apply N.add_lt_mono_l|].
    replace (e * 2 ^ 52 + 2 ^ 52) with ((e + 1) * 2 ^ 52) by (rewrite N.mul_add_distr_r; reflexivity).
    change (2 ^ 63) with (2 ^ 11 * 2 ^ 52). apply N.mul_le_mono_r. lia. }
  assert (EB : b = s * 2 ^ 63 + (e * 2 ^ 52 + f)) by (unfold b; now rewrite N.add_assoc).
  split; [|split; [|split]].
  - rewrite N.testbit_eqb, EB, N.div_add_l by discriminate. rewrite (N.div_small _ _ L), N.add_0_r.
    rewrite N.mod_small by exact Hs. reflexivity.
  - rewrite EB, N.add_comm, N.mod_add by discriminate. now apply N.mod_small.
  - rewrite N.div_add_l, (N.div_small f) by (discriminate || assumption). apply N.add_0_r.
  - rewrite N.add_comm, N.mod_add by discriminate. now apply N.mod_small.
Qed.

Lemma mod_2 n : n mod 2 < 2.
Proof. apply N.mod_lt. discriminate. Qed.

Lemma unit_ratio : (unit 23 8 == inject_Z (Z.of_N (2 ^ 925)) * unit 52 11)%Q.
Proof. rewrite inject_pow2. unfold unit. rewrite <- Qpower_plus by exact two_nz. reflexivity. Qed.

Lemma widen_value b : b < 2 ^ 32 -> feq (f64_value (widen b)) (f32_value b).
Proof.
  intros Hb. unfold f64_value, f32_value, widen.
  set (s := (b / 2 ^ 31) mod 2). assert (Hs : s < 2) by apply mod_2.
  pose proof (low_exp 23 8 b) as LE. pose proof (low_frac 23 8 b) as LF.
  set (e := (b / 2 ^ 23) mod 2 ^ 8) in *. set (f := b mod 2 ^ 23) in *.
  assert (He : e < 2 ^ 8) by (apply N.mod_lt; discriminate).
  assert (Hf : f < 2 ^ 23) by (apply N.mod_lt; discriminate).
  assert (SB : N.testbit b (23 + 8) = (s =? 1)) by (rewrite N.testbit_eqb; reflexivity).
  assert (F29 : f * 2 ^ 29 < 2 ^ 52).
  { change (2 ^ 52) with (2 ^ 23 * 2 ^ 29). apply N.mul_lt_mono_pos_r; [reflexivity|exact Hf]. }
  destruct (N.eqb_spec e 255) as [E|E].
  - destruct (build_bits s 2047 (f * 2 ^ 29) Hs ltac:(reflexivity) F29) as (B1 & B2 & B3 & B4).
    rewrite (ieee_special 52 11).
    2:{ unfold is_finite, low. change (52 + 11) with 63. rewrite B2, B3. reflexivity. }
    rewrite (ieee_special 23 8).
    2:{ unfold is_finite. rewrite <- LE, E. reflexivity. }
    unfold low at 1. change (52 + 11) with 63. rewrite B2, B4, B1, <- LF, SB.
    destruct (N.eqb_spec f 0) as [->|NF]; [reflexivity|].
    destruct (N.eqb_spec (f * 2 ^ 29) 0) as [Z|Z]; [|exact I].
    apply N.eq_mul_0 in Z as [Z|Z]; [now elim NF|discriminate].
  - assert (FN : is_finite 23 8 b = true).
    { unfold is_finite. rewrite <- LE. apply negb_true_iff, N.eqb_neq. exact E. }
    destruct (ieee_finite 23 8 b FN) as (q & -> & Eq).
    assert (M : mag 23 (low 23 8 b) = if e =? 0 then f else (f + 2 ^ 23) * 2 ^ (e - 1)).
    { unfold mag. now rewrite <- LE, <- LF. }
    assert (KEY : forall e' f', e' < 2 ^ 11 - 1 -> f' < 2 ^ 52 ->
              (if e' =? 0 then f' else (f' + 2 ^ 52) * 2 ^ (e' - 1)) = mag 23 (low 23 8 b) * 2 ^ 925 ->
              feq (ieee 52 11 (s * 2 ^ 63 + e' * 2 ^ 52 + f')) (FNum q)).
    { intros e' f' He' Hf' EM. destruct (build_bits s e' f' Hs ltac:(lia) Hf') as (B1 & B2 & B3 & B4).
      assert (FN' : is_finite 52 11 (s * 2 ^ 63 + e' * 2 ^ 52 + f') = true).
      { unfold is_finite, low. change (52 + 11) with 63. rewrite B2, B3. apply negb_true_iff, N.eqb_neq. lia. }
      destruct (ieee_finite 52 11 _ FN') as (q' & -> & Eq'). cbn [feq]. rewrite Eq, Eq', unit_ratio, Qmult_assoc.
      apply Qmult_comp; [|reflexivity]. unfold smag. change (52 + 11) with 63. rewrite B1, SB.
      assert (EM' : mag 52 (low 52 11 (s * 2 ^ 63 + e' * 2 ^ 52 + f')) = mag 23 (low 23 8 b) * 2 ^ 925).
      { change (low 52 11 (s * 2 ^ 63 + e' * 2 ^ 52 + f')) with ((s * 2 ^ 63 + e' * 2 ^ 52 + f') mod 2 ^ 63).
        rewrite B2. unfold mag at 1. rewrite B3, B4. exact EM. }
      rewrite EM', <- inject_Z_mult. rewrite N2Z.inj_mul. destruct (s =? 1); [rewrite Z.mul_opp_l|]; reflexivity. }
    rewrite M in KEY. destruct (N.eqb_spec e 0) as [E0|E0].
    + destruct (N.eqb_spec f 0) as [F0|F0].
      * specialize (KEY 0 0). rewrite N.mul_0_l, !N.add_0_r in KEY. apply KEY; [reflexivity|reflexivity|].
        rewrite F0. reflexivity.
      * pose proof (N.log2_spec f ltac:(lia)) as [G1 G2].
        assert (G3 : N.log2 f < 23) by (apply N.log2_lt_pow2; [lia|exact Hf]).
        set (g := N.log2 f) in *.
        assert (X : (f - 2 ^ g) * 2 ^ (52 - g) + 2 ^ 52 = f * 2 ^ (52 - g)).
        { replace (2 ^ 52) with (2 ^ g * 2 ^ (52 - g)) by (rewrite <- N.pow_add_r; f_equal; lia).
          rewrite <- N.mul_add_distr_r. f_equal. lia. }
        apply (KEY (g + 1023 - 149)).
        -- change (2 ^ 11 - 1) with 2047. lia.
        -- apply N.lt_le_trans with (2 ^ g * 2 ^ (52 - g)).
           ++ apply N.mul_lt_mono_pos_r; [apply pow_pos|]. rewrite N.pow_succ_r' in G2. lia.
           ++ rewrite <- N.pow_add_r. apply N.pow_le_mono_r; lia.
        -- destruct (N.eqb_spec (g + 1023 - 149) 0); [lia|]. rewrite X, <- N.mul_assoc, <- N.pow_add_r. f_equal. f_equal. lia.
    + apply (KEY (e + 896)).
      * change (2 ^ 11 - 1) with 2047. change (2 ^ 8) with 256 in He. lia.
      * exact F29.
      * destruct (N.eqb_spec (e + 896) 0); [lia|].
        replace (f * 2 ^ 29 + 2 ^ 52) with ((f + 2 ^ 23) * 2 ^ 29) by (rewrite N.mul_add_distr_r; reflexivity).
        rewrite <- !N.mul_assoc. f_equal. rewrite <- !N.pow_add_r. f_equal. lia.
Qed.
