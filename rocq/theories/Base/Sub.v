(** Subsequences. *)
From Coq Require Import List Sorted.
Import ListNotations.

Inductive sublist {A} : list A -> list A -> Prop :=
| sub_nil : sublist [] []
| sub_keep a l m : sublist l m -> sublist (a :: l) (a :: m)
| sub_drop a l m : sublist l m -> sublist l (a :: m).

Lemma sublist_refl {A} (l : list A) : sublist l l.
Proof. induction l; constructor; auto. Qed.

Lemma sublist_In {A} (l m : list A) x : sublist l m -> In x l -> In x m.
Proof. induction 1; simpl; intuition. Qed.

Lemma sublist_filter {A} (f : A -> bool) l : sublist (filter f l) l.
Proof. induction l as [|a l IH]; simpl; [constructor|]. destruct (f a); constructor; auto. Qed.

Lemma sublist_map_inv {A B} (f : A -> B) (l : list B) (m : list A) :
  sublist l (map f m) -> exists m', l = map f m' /\ sublist m' m.
Proof.
  revert l. induction m as [|a m IH]; simpl; intros l H; inversion H; subst.
  - exists []. split; [reflexivity|constructor].
  - apply IH in H2 as (m' & -> & S). exists (a :: m'). split; [reflexivity|constructor; auto].
  - apply IH in H2 as (m' & -> & S). exists m'. split; [reflexivity|constructor; auto].
Qed.

Lemma sublist_sorted {A} (P : A -> A -> Prop) l m : sublist l m -> StronglySorted P m -> StronglySorted P l.
Proof.
  induction 1; intros HS; auto; inversion HS as [|? ? S F]; subst; auto.
  constructor; auto. rewrite Forall_forall in *. intros x Hx. apply F. eapply sublist_In; eauto.
Qed.

Lemma sublist_Forall {A} (P : A -> Prop) l m : sublist l m -> Forall P m -> Forall P l.
Proof. intros S H. rewrite Forall_forall in *. intros x Hx. apply H. eapply sublist_In; eauto. Qed.

Lemma sublist_nil_inv {A} (l : list A) : sublist l [] -> l = [].
Proof. inversion 1; auto. Qed.

Lemma sublist_trans {A} (l m n : list A) : sublist l m -> sublist m n -> sublist l n.
Proof.
  intros H1 H2. revert l H1. induction H2; intros l0 H1; auto.
  - inversion H1; subst; constructor; auto.
  - constructor; auto.
Qed.

Lemma sublist_app {A} (a b c d : list A) : sublist a b -> sublist c d -> sublist (a ++ c) (b ++ d).
Proof. induction 1; simpl; auto; constructor; auto. Qed.

Lemma sublist_map {A B} (f : A -> B) l m : sublist l m -> sublist (map f l) (map f m).
Proof. induction 1; simpl; constructor; auto. Qed.

Lemma sublist_NoDup {A} (l m : list A) : sublist l m -> NoDup m -> NoDup l.
Proof.
  induction 1 as [|a l m S IH|a l m S IH]; intros H; auto; inversion H; subst; auto.
  constructor; auto. intros F. apply H2. eapply sublist_In; eauto.
Qed.
