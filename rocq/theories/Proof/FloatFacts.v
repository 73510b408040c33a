(** The order of floating-point values is the order of their bit patterns. *)
From Coq Require Import NArith ZArith QArith Qpower Bool Lia.
From Verif Require Import Base.Order Base.Lex Spec.Ieee Model.Float.
Local Open Scope N_scope.

Section Ieee.
  Variables mb eb : N.

  (** Magnitude of the low bits, in units of the smallest positive number. *)
  Definition mag (l : N) : N :=
    let e := l / 2 ^ mb in let f := l mod 2 ^ mb in
    if e =? 0 then f else (f + 2 ^ mb) * 2 ^ (e - 1).

  Lemma pow_pos n : 0 < 2 ^ n.
  Proof. apply N.neq_0_lt_0, N.pow_nonzero. discriminate. Qed.

  Lemma mag_mono l1 l2 : l1 < l2 -> mag l1 < mag l2.
  Proof.
    intros H. unfold mag. pose proof (pow_pos mb) as P.
    pose proof (N.div_mod l1 (2 ^ mb) ltac:(lia)) as E1. pose proof (N.div_mod l2 (2 ^ mb) ltac:(lia)) as E2.
    pose proof (N.mod_lt l1 (2 ^ mb) ltac:(lia)) as F1. pose proof (N.mod_lt l2 (2 ^ mb) ltac:(lia)) as F2.
    assert (L : l1 / 2 ^ mb <= l2 / 2 ^ mb) by (apply N.div_le_mono; lia).
    set (e1 := l1 / 2 ^ mb) in *. set (e2 := l2 / 2 ^ mb) in *.
    set (f1 := l1 mod 2 ^ mb) in *. set (f2 := l2 mod 2 ^ mb) in *. clearbody e1 e2 f1 f2.
    set (B := 2 ^ mb) in *. clearbody B.
    destruct (N.eq_dec e1 e2) as [->|Ne].
    - assert (f1 < f2) by lia. destruct (N.eqb_spec e2 0); [assumption|].
      apply N.mul_lt_mono_pos_r; [apply pow_pos|lia].
    - assert (e1 < e2) by lia. destruct (N.eqb_spec e2 0); [lia|].
      assert (Q1 : 1 <= 2 ^ (e2 - 1)) by (pose proof (pow_pos (e2 - 1)); lia).
      destruct (N.eqb_spec e1 0).
      + apply N.lt_le_trans with (B * 1); [lia|].
        apply N.mul_le_mono; lia.
      + apply N.lt_le_trans with ((2 * B) * 2 ^ (e1 - 1)).
        * apply N.mul_lt_mono_pos_r; [apply pow_pos|lia].
        * replace (2 * B * 2 ^ (e1 - 1)) with (B * 2 ^ e1).
          -- apply N.mul_le_mono; [lia|]. apply N.pow_le_mono_r; lia.
          -- replace e1 with (N.succ (e1 - 1)) at 1 by lia. rewrite N.pow_succ_r'. lia.
  Qed.

  Lemma mag_inj l1 l2 : mag l1 = mag l2 -> l1 = l2.
  Proof.
    intros E. destruct (N.lt_trichotomy l1 l2) as [H|[H|H]]; auto;
      apply mag_mono in H; lia.
  Qed.
  Lemma mag_compare l1 l2 : (mag l1 ?= mag l2) = (l1 ?= l2).
  Proof.
    destruct (N.compare_spec l1 l2) as [->|H|H].
    - apply N.compare_refl.
    - apply N.compare_lt_iff. now apply mag_mono.
    - apply N.compare_gt_iff. now apply mag_mono.
  Qed.

  Definition low (b : N) : N := b mod 2 ^ (mb + eb).
  Definition unit : Q := Qpower (2 # 1) (1 - (2 ^ (Z.of_N eb - 1) - 1) - Z.of_N mb).

  Lemma low_exp b : (b / 2 ^ mb) mod 2 ^ eb = low b / 2 ^ mb.
  Proof.
    unfold low. rewrite N.pow_add_r. rewrite N.mod_mul_r by (apply N.pow_nonzero; discriminate).
    rewrite (N.add_comm (b mod 2 ^ mb)), (N.mul_comm (2 ^ mb)).
    rewrite N.div_add_l by (apply N.pow_nonzero; discriminate).
    rewrite (N.div_small (b mod 2 ^ mb)) by (apply N.mod_lt, N.pow_nonzero; discriminate). now rewrite N.add_0_r.
  Qed.
  Lemma low_frac b : b mod 2 ^ mb = low b mod 2 ^ mb.
  Proof.
    unfold low. rewrite N.pow_add_r. rewrite N.mod_mul_r by (apply N.pow_nonzero; discriminate).
    rewrite N.mul_comm, N.mod_add by (apply N.pow_nonzero; discriminate). now rewrite N.mod_mod by (apply N.pow_nonzero; discriminate).
  Qed.

  Definition is_finite (b : N) : bool := negb (low b / 2 ^ mb =? 2 ^ eb - 1).
  Definition smag (b : N) : Z := if N.testbit b (mb + eb) then - Z.of_N (mag (low b)) else Z.of_N (mag (low b)).

  Lemma two_nz : ~ (2 # 1 == 0)%Q.
  Proof. discriminate. Qed.

  Lemma unit_pos : (0 < unit)%Q.
  Proof. apply Qpower_0_lt. reflexivity. Qed.

  Lemma inject_pow2 n : (inject_Z (Z.of_N (2 ^ n)) == Qpower (2 # 1) (Z.of_N n))%Q.
  Proof.
    rewrite N2Z.inj_pow. change (2 # 1)%Q with (inject_Z 2).
    rewrite Zpower_Qpower by lia. reflexivity.
  Qed.

  Lemma ieee_finite b : is_finite b = true -> exists q, ieee mb eb b = FNum q /\ (q == inject_Z (smag b) * unit)%Q.
  Proof.
    unfold is_finite, ieee. rewrite low_exp, low_frac. intros H. apply negb_true_iff in H. rewrite H.
    eexists. split; [reflexivity|]. unfold smag, mag, unit.
    set (e := low b / 2 ^ mb). set (f := low b mod 2 ^ mb). set (ng := N.testbit b (mb + eb)).
    set (bias := (2 ^ (Z.of_N eb - 1) - 1)%Z).
    destruct (N.eqb_spec e 0) as [E|E]; cbv zeta.
    - reflexivity.
    - replace (Z.of_N e - bias - Z.of_N mb)%Z with (Z.of_N (e - 1) + (1 - bias - Z.of_N mb))%Z by lia.
      rewrite Qpower_plus by exact two_nz. rewrite Qmult_assoc. apply Qmult_comp; [|reflexivity].
      rewrite <- inject_pow2, <- inject_Z_mult. destruct ng; rewrite N2Z.inj_mul;
        [rewrite <- Z.mul_opp_l|]; reflexivity.
  Qed.

  Lemma Qcompare_unit a b : Qcompare (inject_Z a * unit) (inject_Z b * unit) = Z.compare a b.
  Proof.
    pose proof unit_pos as P. destruct (Z.compare_spec a b) as [->|H|H].
    - rewrite <- Qeq_alt. reflexivity.
    - rewrite <- Qlt_alt. apply Qmult_lt_compat_r; auto. now rewrite <- Zlt_Qlt.
    - rewrite <- Qgt_alt. apply Qmult_lt_compat_r; auto. now rewrite <- Zlt_Qlt.
  Qed.

  Lemma ieee_compare_finite a b : is_finite a = true -> is_finite b = true ->
    fval_cmp (ieee mb eb a) (ieee mb eb b) = Some (Z.compare (smag a) (smag b)).
  Proof.
    intros Ha Hb. destruct (ieee_finite a Ha) as (p & -> & Ep). destruct (ieee_finite b Hb) as (q & -> & Eq).
    simpl. now rewrite Ep, Eq, Qcompare_unit.
  Qed.

  (** Infinite values have the largest magnitude. *)
  Lemma ieee_special b : is_finite b = false ->
    ieee mb eb b = if low b mod 2 ^ mb =? 0 then FInf (N.testbit b (mb + eb)) else FNan.
  Proof.
    unfold is_finite, ieee. rewrite low_exp, low_frac. intros H. apply negb_false_iff in H. now rewrite H.
  Qed.

  Lemma low_lt b : low b < 2 ^ (mb + eb).
  Proof. apply N.mod_lt, N.pow_nonzero. discriminate. Qed.

  Lemma inf_low b : is_finite b = false -> low b mod 2 ^ mb = 0 -> low b = (2 ^ eb - 1) * 2 ^ mb.
  Proof.
    intros H E. apply negb_false_iff, N.eqb_eq in H.
    pose proof (N.div_mod (low b) (2 ^ mb) ltac:(apply N.pow_nonzero; discriminate)). rewrite H, E in H0. lia.
  Qed.
  Lemma finite_low b : 1 <= eb -> is_finite b = true -> low b < (2 ^ eb - 1) * 2 ^ mb.
  Proof.
    intros Heb H. apply negb_true_iff, N.eqb_neq in H. pose proof (low_lt b) as L. rewrite N.pow_add_r in L.
    assert (low b / 2 ^ mb < 2 ^ eb) by (apply N.div_lt_upper_bound; [apply N.pow_nonzero; discriminate|lia]).
    pose proof (pow_pos mb). pose proof (N.div_mod (low b) (2 ^ mb) ltac:(lia)).
    pose proof (N.mod_lt (low b) (2 ^ mb) ltac:(lia)).
    assert (low b / 2 ^ mb <= 2 ^ eb - 2) by lia.
    pose proof (N.mul_le_mono_r _ _ (2 ^ mb) H4). pose proof (pow_pos eb).
    assert (1 < 2 ^ eb) by (apply N.pow_gt_1; lia).
    replace ((2 ^ eb - 1) * 2 ^ mb) with ((2 ^ eb - 2) * 2 ^ mb + 2 ^ mb); [lia|].
    replace (2 ^ eb - 1) with (2 ^ eb - 2 + 1) by lia. lia.
  Qed.

  Lemma zcmp_opp_of_N x y : (- Z.of_N x - 1 ?= - Z.of_N y - 1)%Z = (y ?= x).
  Proof.
    destruct (N.compare_spec y x); [apply Z.compare_eq_iff|apply Z.compare_lt_iff|apply Z.compare_gt_iff]; lia.
  Qed.
  Lemma zcmp_of_N x y : (Z.of_N x ?= Z.of_N y)%Z = (x ?= y).
  Proof. apply N2Z.inj_compare. Qed.

  (** A NaN or the negative zero. *)
  Definition awkward (b : N) : bool :=
    match ieee mb eb b with FNan => true | _ => false end || (N.testbit b (mb + eb) && (low b =? 0)).

  Lemma total_is_value a b : 1 <= eb -> awkward a = false -> awkward b = false ->
    fval_cmp (ieee mb eb a) (ieee mb eb b) = Some (Z.compare (total_key (mb + eb) a) (total_key (mb + eb) b)).
  Proof.
    unfold awkward. intros Heb Ha Hb. apply orb_false_elim in Ha as [Na Za]. apply orb_false_elim in Hb as [Nb Zb].
    unfold total_key. fold (low a) (low b).
    assert (mag0 : mag 0 = 0).
    { unfold mag. rewrite N.div_small by apply pow_pos. simpl. apply N.mod_0_l, N.pow_nonzero. discriminate. }
    assert (MG : forall l, l <> 0 -> mag l <> 0).
    { intros l Hl E. apply Hl. apply mag_inj. now rewrite E, mag0. }
    destruct (is_finite a) eqn:Fa; destruct (is_finite b) eqn:Fb.
    - rewrite ieee_compare_finite by assumption. f_equal. unfold smag.
      destruct (N.testbit a (mb + eb)) eqn:Sa, (N.testbit b (mb + eb)) eqn:Sb; simpl in Za, Zb.
      + rewrite zcmp_opp_of_N, <- mag_compare.
        destruct (N.compare_spec (mag (low b)) (mag (low a))); [apply Z.compare_eq_iff|apply Z.compare_lt_iff|apply Z.compare_gt_iff]; lia.
      + apply N.eqb_neq, MG in Za. transitivity Lt; [apply Z.compare_lt_iff; lia|symmetry; apply Z.compare_lt_iff; lia].
      + apply N.eqb_neq, MG in Zb. transitivity Gt; [apply Z.compare_gt_iff; lia|symmetry; apply Z.compare_gt_iff; lia].
      + rewrite !zcmp_of_N. apply mag_compare.
    - rewrite (ieee_special b Fb) in *. destruct (N.eqb_spec (low b mod 2 ^ mb) 0) as [E|E]; [|discriminate Nb].
      pose proof (inf_low b Fb E) as L. pose proof (finite_low a Heb Fa).
      destruct (ieee_finite a Fa) as (q & -> & _). unfold fval_cmp.
      destruct (N.testbit b (mb + eb)), (N.testbit a (mb + eb)); f_equal; symmetry;
        first [apply Z.compare_lt_iff; lia|apply Z.compare_gt_iff; lia].
    - rewrite (ieee_special a Fa) in *. destruct (N.eqb_spec (low a mod 2 ^ mb) 0) as [E|E]; [|discriminate Na].
      pose proof (inf_low a Fa E) as L. pose proof (finite_low b Heb Fb).
      destruct (ieee_finite b Fb) as (q & -> & _). unfold fval_cmp.
      destruct (N.testbit b (mb + eb)), (N.testbit a (mb + eb)); f_equal; symmetry;
        first [apply Z.compare_lt_iff; lia|apply Z.compare_gt_iff; lia].
    - rewrite (ieee_special a Fa), (ieee_special b Fb) in *.
      destruct (N.eqb_spec (low a mod 2 ^ mb) 0) as [Ea|Ea]; [|discriminate Na].
      destruct (N.eqb_spec (low b mod 2 ^ mb) 0) as [Eb|Eb]; [|discriminate Nb].
      pose proof (inf_low b Fb Eb) as Lb. pose proof (inf_low a Fa Ea) as La. rewrite La, Lb. unfold fval_cmp.
      destruct (N.testbit b (mb + eb)), (N.testbit a (mb + eb)); f_equal; symmetry;
        first [apply Z.compare_eq_iff; lia|apply Z.compare_lt_iff; lia|apply Z.compare_gt_iff; lia].
  Qed.

  Lemma split_bits x : x < 2 ^ (mb + eb + 1) -> x = low x + (if N.testbit x (mb + eb) then 2 ^ (mb + eb) else 0).
  Proof.
    intros Hx. unfold low.
    pose proof (N.div_mod x (2 ^ (mb + eb)) ltac:(apply N.pow_nonzero; discriminate)) as E.
    assert (Q : x / 2 ^ (mb + eb) < 2).
    { apply N.div_lt_upper_bound; [apply N.pow_nonzero; discriminate|]. rewrite N.pow_add_r in Hx. simpl in Hx. lia. }
    rewrite N.testbit_eqb. set (q := x / 2 ^ (mb + eb)) in *. set (r := x mod 2 ^ (mb + eb)) in *.
    set (P := 2 ^ (mb + eb)) in *. clearbody q r P. clear Hx.
    assert (O : q = 0 \/ q = 1) by lia. destruct O; subst q; cbv [N.modulo N.div_eucl N.eqb]; simpl; lia.
  Qed.

  Lemma total_key_inj a b : a < 2 ^ (mb + eb + 1) -> b < 2 ^ (mb + eb + 1) ->
    total_key (mb + eb) a = total_key (mb + eb) b -> a = b.
  Proof.
    intros Ha Hb. unfold total_key. fold (low a) (low b). intros E.
    rewrite (split_bits a Ha), (split_bits b Hb). destruct (N.testbit a (mb + eb)), (N.testbit b (mb + eb)); lia.
  Qed.
End Ieee.
