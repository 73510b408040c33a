(** Lexicographic comparison of lists.  Library code, no model content. *)
From Coq Require Import List NArith ZArith Lia.
Import ListNotations.

Section Lex.
  Context {A : Type}.
  Variable cmp : A -> A -> comparison.

  (** The order of slices: element by element, a proper prefix first. *)
  Fixpoint lex (a b : list A) : comparison :=
    match a, b with
    | [], [] => Eq
    | [], _ :: _ => Lt
    | _ :: _, [] => Gt
    | x :: a', y :: b' => match cmp x y with Eq => lex a' b' | c => c end
    end.

  Variable P : A -> Prop.
  Hypothesis opp : forall x y, P x -> P y -> cmp y x = CompOpp (cmp x y).
  Hypothesis trans : forall c x y z, P x -> P y -> P z -> cmp x y = c -> cmp y z = c -> cmp x z = c.

  Lemma lex_opp a b : Forall P a -> Forall P b -> lex b a = CompOpp (lex a b).
  Proof.
    intros Ha; revert b; induction Ha as [|x a Px Pa IH]; intros [|y b] Hb; auto.
    inversion_clear Hb. simpl. rewrite (opp x y) by assumption.
    destruct (cmp x y); simpl; auto.
  Qed.

  Lemma cmp_eq_l x y z : P x -> P y -> P z -> cmp x y = Eq -> cmp x z = cmp y z.
  Proof.
    intros Px Py Pz E. pose proof (opp x y Px Py) as E'. rewrite E in E'. simpl in E'.
    destruct (cmp y z) eqn:F.
    - apply (trans _ x y z); auto.
    - destruct (cmp x z) eqn:G; auto.
      + pose proof (trans _ y x z Py Px Pz E' G). congruence.
      + pose proof (opp x z Px Pz) as G'. rewrite G in G'. simpl in G'.
        pose proof (trans _ y z x Py Pz Px F G'). congruence.
    - destruct (cmp x z) eqn:G; auto.
      + pose proof (trans _ y x z Py Px Pz E' G). congruence.
      + pose proof (opp x z Px Pz) as G'. rewrite G in G'. simpl in G'.
        pose proof (trans _ y z x Py Pz Px F G'). congruence.
  Qed.

  Lemma cmp_eq_r x y z : P x -> P y -> P z -> cmp y z = Eq -> cmp x z = cmp x y.
  Proof.
    intros Px Py Pz E. rewrite (opp z x), (opp y x) by assumption.
    f_equal. symmetry. now apply cmp_eq_l.
  Qed.

  Lemma lex_trans c a b d : Forall P a -> Forall P b -> Forall P d -> lex a b = c -> lex b d = c -> lex a d = c.
  Proof.
    intros Ha; revert b d; induction Ha as [|x a Px Pa IH]; intros b d Hb Hd E F.
    - destruct b, d; simpl in *; congruence.
    - destruct b as [|y b]; destruct d as [|z d]; simpl in *; try congruence.
      inversion_clear Hb. inversion_clear Hd.
      destruct (cmp x y) eqn:C1.
      + rewrite (cmp_eq_l x y z) by assumption. destruct (cmp y z); [apply (IH b d)| |]; assumption.
      + destruct (cmp y z) eqn:C2; try congruence.
        * rewrite (cmp_eq_r x y z) by assumption. rewrite C1. assumption.
        * rewrite (trans Lt x y z) by assumption. assumption.
      + destruct (cmp y z) eqn:C2; try congruence.
        * rewrite (cmp_eq_r x y z) by assumption. rewrite C1. assumption.
        * rewrite (trans Gt x y z) by assumption. assumption.
  Qed.
End Lex.

Lemma Ncmp_opp x y : N.compare y x = CompOpp (N.compare x y).
Proof. apply N.compare_antisym. Qed.
Lemma Ncmp_trans c x y z : N.compare x y = c -> N.compare y z = c -> N.compare x z = c.
Proof.
  destruct c; rewrite ?N.compare_eq_iff, ?N.compare_lt_iff, ?N.compare_gt_iff; lia.
Qed.
Lemma Zcmp_opp x y : Z.compare y x = CompOpp (Z.compare x y).
Proof. apply Z.compare_antisym. Qed.
Lemma Zcmp_trans c x y z : Z.compare x y = c -> Z.compare y z = c -> Z.compare x z = c.
Proof.
  destruct c; rewrite ?Z.compare_eq_iff, ?Z.compare_lt_iff, ?Z.compare_gt_iff; lia.
Qed.

(** Byte strings. *)
Definition lexN : list N -> list N -> comparison := lex N.compare.

Lemma Forall_top {A} (l : list A) : Forall (fun _ => True) l.
Proof. induction l; constructor; auto. Qed.
Lemma lexN_opp a b : lexN b a = CompOpp (lexN a b).
Proof. apply (lex_opp N.compare (fun _ => True)); auto using Ncmp_opp, Forall_top. Qed.
Lemma lexN_trans c a b d : lexN a b = c -> lexN b d = c -> lexN a d = c.
Proof.
  apply (lex_trans N.compare (fun _ => True)); auto using Ncmp_opp, Forall_top.
  intros; eapply Ncmp_trans; eauto.
Qed.
Lemma lexN_eq a b : lexN a b = Eq <-> a = b.
Proof.
  unfold lexN; revert b; induction a as [|x a IH]; intros [|y b]; simpl; split; try congruence.
  - destruct (N.compare_spec x y); try congruence. subst. intros H. now apply IH in H as ->.
  - injection 1 as -> ->. rewrite N.compare_refl. now apply IH.
Qed.
Lemma lexN_refl a : lexN a a = Eq.
Proof. now apply lexN_eq. Qed.
Lemma lexN_app_same p a b : lexN (p ++ a) (p ++ b) = lexN a b.
Proof. unfold lexN; induction p; simpl; auto. now rewrite N.compare_refl. Qed.
