(** What the checksum of a frame notices. *)
From Coq Require Import List NArith PeanoNat Bool Lia.
From Verif Require Import Model.Columns Model.Frame Proof.FrameFacts.
Import ListNotations.
Local Open Scope N_scope.

Lemma crc_bit_shift x y : crc_bit (N.lxor x (2 * y)) = N.lxor (crc_bit x) y.
Proof.
  unfold crc_bit.
  assert (O : N.odd (N.lxor x (2 * y)) = N.odd x).
  { rewrite <- !N.bit0_odd, N.lxor_spec, N.testbit_even_0. apply xorb_false_r. }
  assert (D : N.lxor x (2 * y) / 2 = N.lxor (x / 2) y).
  { rewrite <- !N.div2_div, !N.div2_spec, N.shiftr_lxor. f_equal.
    rewrite <- N.div2_spec. apply N.div2_double. }
  rewrite O, D. destruct (N.odd x); [|reflexivity].
  rewrite !N.lxor_assoc. f_equal. apply N.lxor_comm.
Qed.
Lemma iter_shift n : forall x y, Nat.iter n crc_bit (N.lxor x (2 ^ N.of_nat n * y)) = N.lxor (Nat.iter n crc_bit x) y.
Proof.
  induction n as [|n IH]; intros x y.
  - cbn [Nat.iter nat_rect]. f_equal. change (2 ^ N.of_nat 0) with 1. lia.
  - cbn [Nat.iter nat_rect]. replace (2 ^ N.of_nat (S n) * y) with (2 ^ N.of_nat n * (2 * y)).
    + change (crc_bit (Nat.iter n crc_bit (N.lxor x (2 ^ N.of_nat n * (2 * y)))) = N.lxor (crc_bit (Nat.iter n crc_bit x)) y).
      rewrite IH. apply crc_bit_shift.
    + rewrite Nat2N.inj_succ, N.pow_succ_r'. lia.
Qed.

Lemma crc_bit_top c : c < 2 ^ 32 -> N.testbit (crc_bit c) 31 = N.odd c.
Proof.
  intros H. assert (T : N.testbit (c / 2) 31 = false).
  { rewrite <- N.div2_div, N.div2_spec, N.shiftr_spec'. change (31 + 1) with 32.
    destruct (N.eq_dec c 0) as [->|Z]; [apply N.bits_0|]. apply N.bits_above_log2. apply N.log2_lt_pow2; lia. }
  unfold crc_bit. destruct (N.odd c); [|exact T]. rewrite N.lxor_spec, T. reflexivity.
Qed.
Lemma crc_bit_inj c d : c < 2 ^ 32 -> d < 2 ^ 32 -> crc_bit c = crc_bit d -> c = d.
Proof.
  intros Hc Hd E. assert (O : N.odd c = N.odd d) by (rewrite <- (crc_bit_top c Hc), <- (crc_bit_top d Hd); now rewrite E).
  assert (D : c / 2 = d / 2).
  { unfold crc_bit in E. rewrite O in E. destruct (N.odd d); [|exact E].
    apply (f_equal (fun x => N.lxor x crc_poly)) in E.
    rewrite !N.lxor_assoc, N.lxor_nilpotent, !N.lxor_0_r in E. exact E. }
  rewrite (N.div2_odd c), (N.div2_odd d), !N.div2_div, D, O. reflexivity.
Qed.
Lemma iter_bound n c : c < 2 ^ 32 -> Nat.iter n crc_bit c < 2 ^ 32.
Proof. intros H. induction n as [|n IH]; [exact H|]. apply (crc_bit_bound _ IH). Qed.
Lemma iter_inj n c d : c < 2 ^ 32 -> d < 2 ^ 32 -> Nat.iter n crc_bit c = Nat.iter n crc_bit d -> c = d.
Proof.
  intros Hc Hd. induction n as [|n IH]; [auto|]. intros E. apply IH.
  apply (crc_bit_inj _ _ (iter_bound n c Hc) (iter_bound n d Hd) E).
Qed.
Lemma lxor_inj_r a b c : N.lxor a c = N.lxor b c -> a = b.
Proof.
  intros E. apply (f_equal (fun x => N.lxor x c)) in E.
  now rewrite !N.lxor_assoc, N.lxor_nilpotent, !N.lxor_0_r in E.
Qed.
Lemma byte_word b : byte_ok b -> b < 2 ^ 32.
Proof. unfold byte_ok. intros H. eapply N.lt_trans; [exact H|reflexivity]. Qed.
Lemma crc_byte_inj b c d : byte_ok b -> c < 2 ^ 32 -> d < 2 ^ 32 -> crc_byte c b = crc_byte d b -> c = d.
Proof.
  intros Hb Hc Hd E. unfold crc_byte in E. apply iter_inj in E; [now apply lxor_inj_r in E| |];
    (apply lxor_bound; [assumption|now apply byte_word]).
Qed.
Lemma fold_bound l : forall c, Forall byte_ok l -> c < 2 ^ 32 -> fold_left crc_byte l c < 2 ^ 32.
Proof. induction l as [|b l IH]; intros c HL Hc; [exact Hc|]. inversion HL; subst. cbn [fold_left]. apply IH; auto. now apply crc_byte_bound. Qed.
Lemma fold_inj l : forall c d, Forall byte_ok l -> c < 2 ^ 32 -> d < 2 ^ 32 -> fold_left crc_byte l c = fold_left crc_byte l d -> c = d.
Proof.
  induction l as [|b l IH]; intros c d HL Hc Hd; [auto|]. inversion HL; subst. cbn [fold_left]. intros E.
  apply (crc_byte_inj b); auto. apply IH; auto; now apply crc_byte_bound.
Qed.

(** Up to four bytes enter the register as one word. *)
Lemma byte_split b v : byte_ok b -> b + 256 * v = N.lxor b (256 * v).
Proof.
  intros H. rewrite N.add_nocarry_lxor; [reflexivity|]. apply N.bits_inj_0. intros i. rewrite N.land_spec.
  change 256 with (2 ^ 8). rewrite (N.mul_comm (2 ^ 8)). destruct (N.lt_ge_cases i 8) as [L|L].
  - rewrite N.mul_pow2_bits_low by exact L. apply andb_false_r.
  - assert (T : N.testbit b i = false); [|now rewrite T].
    destruct (N.eq_dec b 0) as [->|Z]; [apply N.bits_0|]. apply N.bits_above_log2. unfold byte_ok in H.
    assert (N.log2 b < 8); [|lia]. apply N.log2_lt_pow2; [lia|exact H].
Qed.
Lemma iter_plus {A} (f : A -> A) m n x : Nat.iter (m + n) f x = Nat.iter m f (Nat.iter n f x).
Proof. induction m as [|m IH]; [reflexivity|]. cbn [Nat.add Nat.iter nat_rect]. now f_equal. Qed.
Lemma fold_word l : forall c, Forall byte_ok l ->
  fold_left crc_byte l c = Nat.iter (8 * length l) crc_bit (N.lxor c (le_value l)).
Proof.
  induction l as [|b l IH]; intros c HL.
  - cbn [fold_left length le_value]. rewrite N.lxor_0_r. reflexivity.
  - inversion HL; subst. cbn [fold_left le_value]. rewrite IH by assumption.
    replace (8 * length (b :: l))%nat with (8 * length l + 8)%nat by (cbn [length]; lia).
    rewrite iter_plus. f_equal. rewrite byte_split by assumption. rewrite <- N.lxor_assoc.
    change 256 with (2 ^ N.of_nat 8). rewrite iter_shift. reflexivity.
Qed.
Lemma le_value_bound l : Forall byte_ok l -> le_value l < 256 ^ N.of_nat (length l).
Proof.
  induction 1 as [|b l Hb Hl IH]; [reflexivity|]. cbn [le_value length]. rewrite Nat2N.inj_succ, N.pow_succ_r'.
  unfold byte_ok in Hb. nia.
Qed.
Lemma le_value_inj a : forall b, Forall byte_ok a -> Forall byte_ok b -> length a = length b -> le_value a = le_value b -> a = b.
Proof.
  induction a as [|x a IH]; intros [|y b] Ha Hb HL E; try discriminate; [reflexivity|].
  inversion Ha; inversion Hb; subst. cbn [le_value] in E. unfold byte_ok in *.
  assert (x = y /\ le_value a = le_value b) as [-> E2] by lia. f_equal. apply IH; auto.
Qed.
Lemma word_bound l : Forall byte_ok l -> (length l <= 4)%nat -> le_value l < 2 ^ 32.
Proof.
  intros H L. eapply N.lt_le_trans; [now apply le_value_bound|]. change (2 ^ 32) with (256 ^ 4).
  apply N.pow_le_mono_r; lia.
Qed.
Theorem crc_burst pre mid mid' post :
  Forall byte_ok pre -> Forall byte_ok mid -> Forall byte_ok mid' -> Forall byte_ok post ->
  length mid' = length mid -> (length mid <= 4)%nat -> mid' <> mid ->
  crc32c (pre ++ mid' ++ post) <> crc32c (pre ++ mid ++ post).
Proof.
  intros H1 H2 H3 H4 HL H5 NE E. apply NE. unfold crc32c in E. apply lxor_inj_r in E.
  rewrite !fold_left_app in E.
  set (c := fold_left crc_byte pre 4294967295) in *.
  assert (Hc : c < 2 ^ 32) by (apply fold_bound; [exact H1|reflexivity]).
  apply fold_inj in E; [|exact H4| |]; try (apply fold_bound; assumption).
  rewrite !fold_word, HL in E by assumption.
  apply iter_inj in E; try (apply lxor_bound; [exact Hc|]; apply word_bound; [assumption|lia]).
  rewrite (N.lxor_comm c), (N.lxor_comm c (le_value mid)) in E. apply lxor_inj_r in E.
  now apply le_value_inj.
Qed.
