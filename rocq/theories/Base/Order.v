(** Total preorders given by a three-way comparison, and a small decision
    tactic for them.  Library code, no model content. *)
From Coq Require Import List NArith Lia Bool.
Import ListNotations.

(** A key type with a three-way comparison.  [kcmp x y = Eq] means "the same
    key" (it need not be Leibniz equality: 0.0 and -0.0 are one key). *)
Class KeyOrd (K : Type) := {
  kcmp : K -> K -> comparison;
  kcmp_opp : forall x y, kcmp y x = CompOpp (kcmp x y);
  kcmp_trans : forall c x y z, kcmp x y = c -> kcmp y z = c -> kcmp x z = c
}.

Section Facts.
  Context {K : Type} {KO : KeyOrd K}.

  Lemma kcmp_refl x : kcmp x x = Eq.
  Proof. pose proof (kcmp_opp x x) as H. destruct (kcmp x x); simpl in H; congruence. Qed.

  Lemma kcmp_eq_sym x y : kcmp x y = Eq -> kcmp y x = Eq.
  Proof. intros H. rewrite kcmp_opp, H. reflexivity. Qed.

  Lemma kcmp_lt_gt x y : kcmp x y = Lt -> kcmp y x = Gt.
  Proof. intros H. rewrite kcmp_opp, H. reflexivity. Qed.

  Lemma kcmp_gt_lt x y : kcmp x y = Gt -> kcmp y x = Lt.
  Proof. intros H. rewrite kcmp_opp, H. reflexivity. Qed.

  Lemma kcmp_eq_l x y z : kcmp x y = Eq -> kcmp x z = kcmp y z.
  Proof.
    intros H. destruct (kcmp y z) eqn:E.
    - eapply kcmp_trans; eauto.
    - destruct (kcmp x z) eqn:F; auto.
      + apply kcmp_eq_sym in H. pose proof (kcmp_trans _ _ _ _ H F). congruence.
      + apply kcmp_gt_lt in F. pose proof (kcmp_trans _ _ _ _ E F) as G.
        apply kcmp_eq_sym in H. congruence.
    - destruct (kcmp x z) eqn:F; auto.
      + apply kcmp_eq_sym in H. pose proof (kcmp_trans _ _ _ _ H F). congruence.
      + apply kcmp_gt_lt in E. pose proof (kcmp_trans _ _ _ _ F E) as G. congruence.
  Qed.

  Lemma kcmp_eq_r x y z : kcmp x y = Eq -> kcmp z x = kcmp z y.
  Proof.
    intros H. rewrite (kcmp_opp x z), (kcmp_opp y z). f_equal. now apply kcmp_eq_l.
  Qed.

  Lemma kcmp_lt_trans x y z : kcmp x y = Lt -> kcmp y z = Lt -> kcmp x z = Lt.
  Proof. apply kcmp_trans. Qed.

  Definition keqb (x y : K) : bool := match kcmp x y with Eq => true | _ => false end.
  Definition kltb (x y : K) : bool := match kcmp x y with Lt => true | _ => false end.
  Definition kleb (x y : K) : bool := match kcmp x y with Gt => false | _ => true end.

  Lemma keqb_true x y : keqb x y = true <-> kcmp x y = Eq.
  Proof. unfold keqb. destruct (kcmp x y); split; congruence. Qed.
  Lemma keqb_false x y : keqb x y = false <-> kcmp x y <> Eq.
  Proof. unfold keqb. destruct (kcmp x y); split; congruence. Qed.
  Lemma kltb_true x y : kltb x y = true <-> kcmp x y = Lt.
  Proof. unfold kltb. destruct (kcmp x y); split; congruence. Qed.
  Lemma kleb_true x y : kleb x y = true <-> kcmp x y <> Gt.
  Proof. unfold kleb. destruct (kcmp x y); split; congruence. Qed.
  Lemma keqb_refl x : keqb x x = true.
  Proof. apply keqb_true, kcmp_refl. Qed.
End Facts.

(** Normalise order hypotheses to Eq/Lt and close contradictions by
    saturation under transitivity. *)
Ltac knorm :=
  repeat match goal with
  | H : keqb _ _ = true |- _ => apply keqb_true in H
  | H : keqb _ _ = false |- _ => apply keqb_false in H
  | H : kltb _ _ = true |- _ => apply kltb_true in H
  | H : kcmp _ _ = Gt |- _ => apply kcmp_gt_lt in H
  end.

Ltac kadd H :=
  let T := type of H in
  match goal with
  | H' : T |- _ => fail 1
  | _ => pose proof H
  end.

Ltac kstep :=
  match goal with
  | H : kcmp ?x ?x = Lt |- _ => rewrite (kcmp_refl x) in H; discriminate H
  | H : kcmp ?x ?x <> Eq |- _ => exfalso; apply H; apply kcmp_refl
  | H : kcmp ?x ?y = Eq, H' : kcmp ?x ?y <> Eq |- _ => exfalso; apply H'; exact H
  | H : kcmp ?x ?y = Lt, H' : kcmp ?x ?y = Eq |- _ => rewrite H in H'; discriminate H'
  | H : kcmp ?x ?y = Eq |- _ => kadd (kcmp_eq_sym _ _ H)
  | H : kcmp ?x ?y = Eq, H' : kcmp ?y ?z = Eq |- _ => kadd (kcmp_trans _ _ _ _ H H')
  | H : kcmp ?x ?y = Lt, H' : kcmp ?y ?z = Lt |- _ => kadd (kcmp_trans _ _ _ _ H H')
  | H : kcmp ?x ?y = Eq, H' : kcmp ?y ?z = Lt |- _ => kadd (eq_trans (kcmp_eq_l _ _ z H) H')
  | H : kcmp ?x ?y = Lt, H' : kcmp ?y ?z = Eq |- _ => kadd (eq_trans (eq_sym (kcmp_eq_r _ _ x H')) H)
  end.

Ltac korder :=
  intros; knorm;
  first
  [ assumption
  | congruence
  | solve [repeat kstep]
  | match goal with
    | |- kcmp ?x ?y = ?c => destruct (kcmp x y) eqn:?; knorm; try reflexivity; exfalso; solve [repeat kstep]
    | |- kcmp ?x ?y <> ?c => let H := fresh in intro H; knorm; exfalso; solve [repeat kstep]
    end ].

(** As [korder], also splitting "not greater" hypotheses. *)
Ltac ksplit :=
  repeat match goal with
  | H : kcmp ?x ?y <> Gt |- _ =>
      let E := fresh "E" in destruct (kcmp x y) eqn:E; [clear H|clear H|exfalso; apply H; reflexivity]
  end.
Ltac korder2 := intros; ksplit; korder.
