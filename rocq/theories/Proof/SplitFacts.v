(** The two splits of a predicate lose nothing. *)
From Coq Require Import List NArith ZArith QArith Bool Lia.
From Verif Require Import Base.Order Spec.Tri Spec.PredSpec Spec.Sql
     Model.Utf8 Model.Key Model.Expr Model.Residual Model.Pred Proof.PredFacts.
Import ListNotations.
Close Scope Q_scope.

(** The truth of an optional part: an absent part is true. *)
Definition opt_sql (s : schema) (r : cells) (o : option expr) : tri :=
  match o with Some e => sql s r e | None => TT end.

(** The loop over the disjuncts in [split_row_filter]. *)
Definition or_go (s : schema) (e0 : expr) : list expr -> list expr -> split :=
  fix go (acc : list expr) (l : list expr) : split :=
    match l with
    | [] => (combine_or acc, None)
    | x :: t => match split_row_filter s x with
                | (_, Some _) => kept e0
                | (Some p, None) => go (acc ++ [p]) t
                | (None, None) => (None, None)
                end
    end.
Lemma or_go_nil s e0 acc : or_go s e0 acc [] = (combine_or acc, None).
Proof. reflexivity. Qed.
Lemma or_go_cons s e0 acc x t : or_go s e0 acc (x :: t) =
  match split_row_filter s x with
  | (_, Some _) => kept e0
  | (Some p, None) => or_go s e0 (acc ++ [p]) t
  | (None, None) => (None, None)
  end.
Proof. reflexivity. Qed.
Opaque or_go.

Section Split.
  Variable s : schema.
  Variable r : cells.
  Notation sem := (sql s r).
  Notation osem := (opt_sql s r).
  Notation alls l := (fold_right tri_and TT (map sem l)).
  Notation anys l := (fold_right tri_or TF (map sem l)).

  Lemma combine_and_sem l : osem (combine_and l) = alls l.
  Proof. destruct l as [|a [|b l]]; simpl; auto. now destruct (sem a). Qed.
  Lemma combine_or_sem a l : osem (combine_or (a :: l)) = anys (a :: l).
  Proof. destruct l as [|b l]; simpl; auto. now destruct (sem a). Qed.

  Lemma and_true a b : is_true (tri_and a b) = is_true a && is_true b.
  Proof. now destruct a, b. Qed.
  Lemma alls_true l : is_true (alls l) = forallb (fun e => is_true (sem e)) l.
  Proof. induction l; cbn [map fold_right forallb]; auto. now rewrite and_true, IHl. Qed.
  Lemma anys_app l l' : anys (l ++ l') = tri_or (anys l) (anys l').
  Proof.
    induction l as [|x l IH]; cbn [app map fold_right].
    - now destruct (anys l').
    - rewrite IH. now destruct (sem x), (anys l), (anys l').
  Qed.

  (** A split is exact: a row satisfies the predicate iff it satisfies both parts; and the
      pushed-down part alone has the predicate's truth value if there is no residual. *)
  Definition exact (e : expr) (p : split) : Prop :=
    (snd p = None -> osem (fst p) = sem e) /\
    is_true (sem e) = is_true (osem (fst p)) && is_true (osem (snd p)).

  Lemma exact_pushed e : exact e (pushed e).
  Proof. split; auto. simpl. now rewrite andb_true_r. Qed.
  Lemma exact_kept e : exact e (kept e).
  Proof. split; [discriminate|reflexivity]. Qed.

  Lemma exact_and l ps : Forall2 exact l ps ->
    exact (EAnd l) (combine_and (flat_map (fun p => opt_list (fst p)) ps),
                    combine_and (flat_map (fun p => opt_list (snd p)) ps)).
  Proof.
    intros H. unfold exact. cbn [fst snd]. rewrite !combine_and_sem. cbn [sql]. split.
    - assert (G : forall q, flat_map (fun p : split => opt_list (snd p)) q = [] -> Forall (fun p => snd p = None) q).
      { induction q as [|[a [b|]] q IH]; simpl; [constructor|discriminate|]. intros E. constructor; auto. }
      destruct (flat_map (fun p => opt_list (snd p)) ps) as [|x [|y t]] eqn:E; try discriminate. intros _.
      apply G in E. clear G. induction H as [|e p l ps [H _] HF IH]; auto.
      inversion E as [|? ? E1 E2]; subst. cbn [map flat_map]. specialize (H E1). specialize (IH E2).
      rewrite map_app, fold_right_app. cbn [fold_right] in *. rewrite <- IH, <- H.
      destruct (fst p); [reflexivity|]. simpl. now destruct (alls _).
    - rewrite !alls_true. induction H as [|e p l ps [_ H] HF IH]; auto.
      cbn [flat_map forallb]. rewrite !forallb_app, IH, H. clear.
      destruct p as [[a|] [b|]]; simpl; rewrite ?andb_true_r;
        repeat match goal with |- context [is_true (sem ?x)] => destruct (is_true (sem x)) end; simpl; auto;
        rewrite ?andb_false_r; auto.
  Qed.

  Lemma or_go_exact e0 m : Forall (fun e => exact e (split_row_filter s e)) m -> forall acc,
    sem e0 = tri_or (anys acc) (anys m) -> acc <> [] \/ m <> [] -> exact e0 (or_go s e0 acc m).
  Proof.
    induction 1 as [|x m [H1 H2] Hm IH]; intros acc E Hne; rewrite ?or_go_nil, ?or_go_cons.
    - destruct acc as [|a acc]; [destruct Hne as [K|K]; now elim K|].
      unfold exact. cbn [fst snd]. rewrite combine_or_sem. cbn [opt_sql].
      rewrite E. simpl (anys []). destruct (anys (a :: acc)); split; reflexivity.
    - destruct (split_row_filter s x) as [[p|] [q|]]; try apply exact_kept.
      + apply IH.
        * rewrite E, anys_app. cbn [fst snd opt_sql] in H1. specialize (H1 eq_refl).
          cbn [map fold_right]. rewrite H1. now destruct (anys acc), (sem x), (anys m).
        * left. destruct acc; discriminate.
      + cbn [fst snd opt_sql] in H1. specialize (H1 eq_refl). unfold exact. cbn [fst snd opt_sql].
        rewrite E. cbn [map fold_right]. rewrite <- H1. now destruct (anys acc), (anys m).
  Qed.

  Theorem split_row_filter_exact e : exact e (split_row_filter s e).
  Proof.
    induction e using expr_rect'; cbn [split_row_filter];
      try (apply exact_pushed || apply exact_kept).
    - split; reflexivity.
    - destruct (scalar_matches_column s c v); (apply exact_pushed || apply exact_kept).
    - destruct (_ && _); (apply exact_pushed || apply exact_kept).
    - destruct (col_type s c); [destruct (forallb _ _)|]; (apply exact_pushed || apply exact_kept).
    - destruct (col_type s c) as [t|]; [destruct (is_string_type t)|]; (apply exact_pushed || apply exact_kept).
    - destruct (col_type s c); (apply exact_pushed || apply exact_kept).
    - apply exact_and. clear -H. induction H; constructor; auto.
    - destruct l as [|x0 l0]; [split; reflexivity|].
      change (exact (EOr (x0 :: l0)) (or_go s (EOr (x0 :: l0)) [] (x0 :: l0))).
      apply or_go_exact; auto; [|right; discriminate]. cbn [sql map fold_right]. now destruct (sem x0), (anys l0).
    - destruct IHe as [H1 H2]. destruct (split_row_filter s e) as [[p|] [q|]]; try apply exact_kept;
        cbn [fst snd opt_sql] in H1; specialize (H1 eq_refl); unfold exact; cbn [fst snd opt_sql sql]; rewrite <- H1; split; auto.
      now rewrite andb_true_r.
  Qed.

  Theorem split_non_sst_inner_exact kc kt e : exact e (split_non_sst_inner kc kt e).
  Proof.
    induction e using expr_rect'; cbn [split_non_sst_inner];
      try (apply exact_pushed || apply exact_kept).
    - split; reflexivity.
    - destruct (negb _); [apply exact_kept|]. destruct op; (apply exact_pushed || apply exact_kept).
    - destruct (negb _); (apply exact_pushed || apply exact_kept).
    - destruct (_ || _); [apply exact_kept|]. destruct (next_prefix_string p); (apply exact_pushed || apply exact_kept).
    - apply exact_and. clear -H. induction H; constructor; auto.
  Qed.

  Theorem split_non_sst_exact ks e : exact e (split_non_sst ks e).
  Proof.
    assert (G : exact e (match ks with [(kc, kt)] => split_non_sst_inner kc kt e | _ => kept e end)).
    { destruct ks as [|[kc kt] [|? ?]]; try apply exact_kept. apply split_non_sst_inner_exact. }
    destruct e; try exact G; split; reflexivity.
  Qed.
End Split.

(** The parts are built from the predicate's own comparisons. *)
Section Parts.
  Variable f : expr -> bool.
  Hypothesis f_and : forall l, f (EAnd l) = forallb f l.
  Hypothesis f_or : forall l, f (EOr l) = forallb f l.
  Hypothesis f_not : forall e, f (ENot e) = f e.
  Hypothesis f_false : f EFalse = true.
  Definition of (o : option expr) : bool := match o with Some e => f e | None => true end.

  Lemma combine_and_part l : forallb f l = true -> of (combine_and l) = true.
  Proof. destruct l as [|a [|b l]]; simpl; auto; [now rewrite andb_true_r|]. rewrite f_and. auto. Qed.
  Lemma combine_or_part l : forallb f l = true -> of (combine_or l) = true.
  Proof. destruct l as [|a [|b l]]; simpl; auto; [now rewrite andb_true_r|]. rewrite f_or. auto. Qed.
  Lemma flat_part (g : split -> option expr) ps : (forall p, In p ps -> of (g p) = true) ->
    forallb f (flat_map (fun p => opt_list (g p)) ps) = true.
  Proof.
    intros H. apply forallb_forall. intros x Hx. apply in_flat_map in Hx as (p & Hp & Hx).
    specialize (H p Hp). destruct (g p); simpl in Hx; [destruct Hx as [<-|[]]; exact H|contradiction].
  Qed.

  Lemma or_go_part s e0 m :
    Forall (fun e => f e = true -> of (fst (split_row_filter s e)) = true /\ of (snd (split_row_filter s e)) = true) m ->
    f e0 = true -> forall acc, forallb f acc = true -> forallb f m = true ->
    of (fst (or_go s e0 acc m)) = true /\ of (snd (or_go s e0 acc m)) = true.
  Proof.
    intros HH H0. induction HH as [|x m Hx HH IH]; intros acc Ha Hm; rewrite ?or_go_nil, ?or_go_cons.
    - split; auto. now apply combine_or_part.
    - simpl in Hm. apply andb_prop in Hm as [Hm1 Hm2]. specialize (Hx Hm1).
      destruct (split_row_filter s x) as [[p|] [q|]]; auto. apply IH; auto.
      rewrite forallb_app, Ha. simpl in *. destruct Hx as [-> _]. reflexivity.
  Qed.

  Lemma split_row_filter_part s e : f e = true ->
    of (fst (split_row_filter s e)) = true /\ of (snd (split_row_filter s e)) = true.
  Proof.
    induction e using expr_rect'; cbn [split_row_filter]; intros HF; auto.
    - destruct (scalar_matches_column s c v); auto.
    - destruct (_ && _); auto.
    - destruct (col_type s c); [destruct (forallb _ _)|]; auto.
    - destruct (col_type s c) as [t|]; [destruct (is_string_type t)|]; auto.
    - destruct (col_type s c); auto.
    - rewrite f_and in HF. cbn [fst snd]. split; apply combine_and_part; apply flat_part; intros p Hp;
        apply in_map_iff in Hp as (x & <- & Hx); rewrite Forall_forall in H; rewrite forallb_forall in HF; apply H; auto.
    - destruct l as [|x0 l0]; [auto|].
      change (of (fst (or_go s (EOr (x0 :: l0)) [] (x0 :: l0))) = true /\ of (snd (or_go s (EOr (x0 :: l0)) [] (x0 :: l0))) = true).
      apply or_go_part; auto. now rewrite <- f_or.
    - rewrite f_not in HF. specialize (IHe HF). destruct (split_row_filter s e) as [[p|] [q|]]; simpl in *; auto;
        rewrite ?f_not; auto.
  Qed.

  Lemma split_non_sst_inner_part kc kt e : f e = true ->
    of (fst (split_non_sst_inner kc kt e)) = true /\ of (snd (split_non_sst_inner kc kt e)) = true.
  Proof.
    induction e using expr_rect'; cbn [split_non_sst_inner]; intros HF; auto.
    - destruct (negb _); auto. destruct op; auto.
    - destruct (negb _); auto.
    - destruct (_ || _); auto. destruct (next_prefix_string p); auto.
    - rewrite f_and in HF. cbn [fst snd]. split; apply combine_and_part; apply flat_part; intros p Hp;
        apply in_map_iff in Hp as (x & <- & Hx); rewrite Forall_forall in H; rewrite forallb_forall in HF; apply H; auto.
  Qed.
  Lemma split_non_sst_part ks e : f e = true ->
    of (fst (split_non_sst ks e)) = true /\ of (snd (split_non_sst ks e)) = true.
  Proof.
    intros HF.
    assert (G : let p := match ks with [(kc, kt)] => split_non_sst_inner kc kt e | _ => kept e end in
                of (fst p) = true /\ of (snd p) = true).
    { destruct ks as [|[kc kt] [|? ?]]; try (split; auto; fail). now apply split_non_sst_inner_part. }
    destruct e; try exact G; auto.
  Qed.
End Parts.
