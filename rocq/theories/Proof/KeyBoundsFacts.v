(** Key bounds denote sets of keys; the operations compute the right sets. *)
From Coq Require Import List NArith Bool.
From Verif Require Import Base.Order Model.OMap Model.KeyTs Model.KeyBounds Spec.KeySet Proof.ViewFacts.
Import ListNotations.

Section KeyBoundsFacts.
  Context {K : Type} {KO : KeyOrd K}.
  Local Arguments kcmp : simpl never.
  Notation kbounds := (kbounds K).

  Ltac kb := repeat match goal with
    | H : context [kleb ?a ?b] |- _ => unfold kleb in H
    | H : context [kltb ?a ?b] |- _ => unfold kltb in H
    | |- context [kleb ?a ?b] => unfold kleb
    | |- context [kltb ?a ?b] => unfold kltb
    end.

  Lemma kb_in_normalize b k : kb_in (kb_normalize b) k = kb_in b k.
  Proof.
    unfold kb_normalize. destruct b as [[[l li]|] [[u ui]|] e]; simpl; auto.
    destruct (kcmp l u) eqn:E; auto.
    - destruct (li && ui) eqn:EE; simpl; auto.
      unfold kb_in; simpl. destruct e; simpl; auto. symmetry.
      destruct li, ui; simpl in *; try discriminate; kb;
        destruct (kcmp l k) eqn:E1; auto; destruct (kcmp k u) eqn:E2; auto; exfalso; korder.
    - unfold kb_in; simpl. destruct e; simpl; auto. symmetry.
      destruct li, ui; simpl; kb;
        destruct (kcmp l k) eqn:E1; auto; destruct (kcmp k u) eqn:E2; auto; exfalso; korder.
  Qed.

  Lemma kb_intersect_in a b k : kb_in (kb_intersect a b) k = kb_in a k && kb_in b k.
  Proof.
    unfold kb_intersect. destruct (kb_empty a) eqn:Ea; [unfold kb_in at 2; rewrite Ea; reflexivity|].
    destruct (kb_empty b) eqn:Eb; [unfold kb_in at 3; rewrite Eb; simpl; now rewrite andb_false_r|].
    simpl. rewrite kb_in_normalize. unfold kb_in. rewrite Ea, Eb. cbn [kb_empty kb_lower kb_upper negb andb].
    assert (HL : forall x y, kb_above
       (match x, y with
        | Some (x, xi), Some (y, yi) => match kcmp x y with Gt => Some (x, xi) | Lt => Some (y, yi) | Eq => Some (x, xi && yi) end
        | Some x, None => Some x | None, o => o end) k = kb_above x k && kb_above y k).
    { intros [[x xi]|] [[y yi]|]; simpl; rewrite ?andb_true_r; auto.
      destruct (kcmp x y) eqn:E; destruct xi, yi; simpl; kb;
          destruct (kcmp x k) eqn:E1; destruct (kcmp y k) eqn:E2; simpl; auto; exfalso; korder. }
    assert (HU : forall x y, kb_below
       (match x, y with
        | Some (x, xi), Some (y, yi) => match kcmp x y with Gt => Some (y, yi) | Lt => Some (x, xi) | Eq => Some (x, xi && yi) end
        | Some x, None => Some x | None, o => o end) k = kb_below x k && kb_below y k).
    { intros [[x xi]|] [[y yi]|]; simpl; rewrite ?andb_true_r; auto.
      destruct (kcmp x y) eqn:E; destruct xi, yi; simpl; kb;
          destruct (kcmp k x) eqn:E1; destruct (kcmp k y) eqn:E2; simpl; auto; exfalso; korder. }
    rewrite HL, HU.
    destruct (kb_above (kb_lower a) k), (kb_above (kb_lower b) k), (kb_below (kb_upper a) k), (kb_below (kb_upper b) k); reflexivity.
  Qed.

  (** The union is an envelope: it contains both sets. *)
  Lemma kb_union_in a b k : kb_in a k = true \/ kb_in b k = true -> kb_in (kb_union a b) k = true.
  Proof.
    unfold kb_union. destruct (kb_empty a) eqn:Ea.
    { intros [H|H]; auto. unfold kb_in in H. rewrite Ea in H. discriminate. }
    destruct (kb_empty b) eqn:Eb.
    { intros [H|H]; auto. unfold kb_in in H. rewrite Eb in H. discriminate. }
    unfold kb_in. rewrite Ea, Eb. cbn [kb_empty kb_lower kb_upper negb andb].
    assert (HL : forall x y, kb_above x k = true \/ kb_above y k = true -> kb_above
       (match x, y with
        | Some (x, xi), Some (y, yi) => match kcmp x y with Gt => Some (y, yi) | Lt => Some (x, xi) | Eq => Some (x, xi || yi) end
        | _, _ => None end) k = true).
    { intros [[x xi]|] [[y yi]|]; simpl; auto.
      destruct (kcmp x y) eqn:E; destruct xi, yi; simpl; kb;
          destruct (kcmp x k) eqn:E1; destruct (kcmp y k) eqn:E2; simpl; intuition (try discriminate; auto); exfalso; korder. }
    assert (HU : forall x y, kb_below x k = true \/ kb_below y k = true -> kb_below
       (match x, y with
        | Some (x, xi), Some (y, yi) => match kcmp x y with Gt => Some (x, xi) | Lt => Some (y, yi) | Eq => Some (x, xi || yi) end
        | _, _ => None end) k = true).
    { intros [[x xi]|] [[y yi]|]; simpl; auto.
      destruct (kcmp x y) eqn:E; destruct xi, yi; simpl; kb;
          destruct (kcmp k x) eqn:E1; destruct (kcmp k y) eqn:E2; simpl; intuition (try discriminate; auto); exfalso; korder. }
    intros [H|H]; apply andb_true_iff in H as [H1 H2]; rewrite HL, HU; auto.
  Qed.

  (** A range of keys that [overlaps] rejects contains no key of the set. *)
  Lemma kb_overlaps_sound b mn mx k :
    kb_overlaps b mn mx = false -> kcmp mn k <> Gt -> kcmp k mx <> Gt -> kb_in b k = false.
  Proof.
    unfold kb_overlaps, kb_in. destruct (kb_empty b); auto. simpl.
    intros H H1 H2. apply andb_false_iff in H. apply andb_false_iff. destruct H as [H|H].
    - left. destruct (kb_lower b) as [[l li]|]; [|discriminate].
      simpl. destruct (kcmp mx l) eqn:E; try discriminate; destruct li; try discriminate; kb;
        destruct (kcmp l k) eqn:E3; auto; exfalso; korder2.
    - right. destruct (kb_upper b) as [[l li]|]; [|discriminate].
      simpl. destruct (kcmp mn l) eqn:E; try discriminate; destruct li; try discriminate; kb;
        destruct (kcmp k l) eqn:E3; auto; exfalso; korder2.
  Qed.

  (** ... and one it accepts is not separated from the set by a bound: when [mn <= mx],
      some side of the range satisfies each bound. *)
  Lemma kb_overlaps_complete b mn mx k :
    kb_in b k = true -> kcmp mn k <> Gt -> kcmp k mx <> Gt -> kb_overlaps b mn mx = true.
  Proof.
    intros H H1 H2. destruct (kb_overlaps b mn mx) eqn:E; auto.
    rewrite (kb_overlaps_sound _ _ _ _ E H1 H2) in H. discriminate.
  Qed.

  Lemma kb_range_in b k :
    kb_empty b = false -> key_in (kb_range b) k = kb_in b k.
  Proof.
    unfold kb_range, kb_in, key_in. intros ->. simpl.
    destruct (kb_lower b) as [[l [|]]|], (kb_upper b) as [[u [|]]|]; reflexivity.
  Qed.

  Lemma kb_with_range_in lo hi k :
    kb_in (kb_with_range lo hi) k = kb_above (Some lo) k && kb_below (Some hi) k.
  Proof. unfold kb_with_range. rewrite kb_in_normalize. reflexivity. Qed.

  (** Normalised bounds: an empty flag is never missing for inverted ranges. *)
  Lemma kb_in_same_key b k k' : kcmp k k' = Eq -> kb_in b k = kb_in b k'.
  Proof.
    intros E. unfold kb_in. f_equal; [f_equal|].
    - destruct (kb_lower b) as [[l [|]]|]; simpl; auto; kb; now rewrite (kcmp_eq_r _ _ l E).
    - destruct (kb_upper b) as [[l [|]]|]; simpl; auto; kb; now rewrite (kcmp_eq_l _ _ l E).
  Qed.

  Lemma kb_overlaps_true b mn mx : kb_overlaps b mn mx = true <->
    kb_empty b = false /\ kb_above (kb_lower b) mx = true /\ kb_below (kb_upper b) mn = true.
  Proof.
    unfold kb_overlaps. destruct (kb_empty b); [intuition discriminate|].
    rewrite andb_true_iff. destruct (kb_lower b) as [[l [|]]|], (kb_upper b) as [[u [|]]|]; simpl; kb;
      try (rewrite (kcmp_opp mx l)); try (destruct (kcmp mx l)); try (destruct (kcmp mn u)); simpl; intuition discriminate.
  Qed.

  (** The flag is set exactly for inverted bounds. *)
  Definition kb_flagged (b : kbounds) : Prop :=
    kb_empty b = false ->
    match kb_lower b, kb_upper b with
    | Some (l, li), Some (u, ui) => kcmp l u = Lt \/ (kcmp l u = Eq /\ li = true /\ ui = true)
    | _, _ => True
    end.
  Lemma flagged_normalize b : kb_flagged (kb_normalize b).
  Proof.
    unfold kb_flagged, kb_normalize. destruct b as [[[l li]|] [[u ui]|] e]; simpl; auto.
    destruct (kcmp l u) eqn:E; simpl; try discriminate; rewrite ?E; auto.
    destruct li, ui; simpl; try discriminate; rewrite ?E; auto.
  Qed.
  Lemma flagged_union a b : kb_flagged a -> kb_flagged b -> kb_flagged (kb_union a b).
  Proof.
    unfold kb_union, kb_flagged. destruct a as [la ua ea], b as [lb ub eb]; simpl. destruct ea, eb; simpl; auto.
    intros Ha Hb _. specialize (Ha eq_refl). specialize (Hb eq_refl).
    destruct la as [[la li]|], lb as [[lb lj]|], ua as [[ua ui]|], ub as [[ub uj]|]; simpl; auto;
      destruct (kcmp la lb) eqn:E1; auto; destruct (kcmp ua ub) eqn:E2; auto;
      destruct Ha as [Ha|(Ha & -> & ->)], Hb as [Hb|(Hb & -> & ->)];
      first [left; korder | right; split; [korder|auto] ].
  Qed.
  Lemma flagged_intersect a b : kb_flagged (kb_intersect a b).
  Proof.
    unfold kb_intersect. destruct (kb_empty a || kb_empty b); [intros H; discriminate|apply flagged_normalize].
  Qed.
  Lemma built_flagged b : kb_built b -> kb_flagged b.
  Proof.
    induction 1.
    - intros H. discriminate.
    - intros _. exact I.
    - intros _. exact I.
    - apply flagged_normalize.
    - apply flagged_intersect.
    - now apply flagged_union.
  Qed.
  Lemma built_empty b : kb_built b -> (kb_empty b = true -> forall k, kb_in b k = false).
  Proof. intros _ H k. unfold kb_in. now rewrite H. Qed.
  Lemma built_nonempty b l i : kb_built b -> kb_empty b = false -> kb_lower b = Some (l, i) ->
    match kb_upper b with
    | Some (u, j) => kcmp l u <> Gt /\ (i = true -> kb_in b l = true) /\ (j = true -> kb_in b u = true)
    | None => i = true -> kb_in b l = true
    end.
  Proof.
    intros HB HE HL. apply built_flagged in HB. specialize (HB HE). rewrite HL in HB.
    destruct (kb_upper b) as [[u j]|] eqn:EU.
    - split; [destruct HB as [HB|[HB _]]; rewrite HB; discriminate|].
      unfold kb_in. rewrite HE, HL, EU. simpl. kb. rewrite !kcmp_refl.
      destruct HB as [HB|(HB & -> & ->)]; rewrite HB; simpl; auto.
      split; intros ->; [destruct j; auto|destruct i; auto].
    - intros ->. unfold kb_in. rewrite HE, HL, EU. simpl. kb. rewrite kcmp_refl. reflexivity.
  Qed.
  Lemma built_no_panic b lo hi : kb_built b -> kb_range b = Some (lo, hi) -> range_panics (kts_lower lo) (kts_upper hi) = false.
  Proof.
    intros HB HR. unfold kb_range in HR. destruct (kb_empty b) eqn:EE; [discriminate|].
    apply built_flagged in HB. specialize (HB EE). inversion HR; subst. clear HR.
    assert (HK : forall a b : K * N, kcmp a b = kts_cmp a b) by reflexivity.
    destruct (kb_lower b) as [[l [|]]|], (kb_upper b) as [[u [|]]|]; simpl; auto; unfold kleb, kltb;
      destruct HB as [HB|(HB & H1 & H2)]; try discriminate;
      rewrite HK; unfold kts_cmp; cbn [fst snd]; rewrite (kcmp_opp l u), HB; simpl; auto.
  Qed.

  Lemma kb_union_envelope (a b : kbounds) k :
    kb_empty a = false -> kb_empty b = false -> kb_in (kb_union a b) k = true ->
    (kb_above (kb_lower a) k = true \/ kb_above (kb_lower b) k = true) /\
    (kb_below (kb_upper a) k = true \/ kb_below (kb_upper b) k = true).
  Proof.
    unfold kb_union, kb_in. intros -> ->. cbn [kb_empty kb_lower kb_upper negb andb]. rewrite andb_true_iff. intros [H1 H2]. split.
    - clear H2. destruct (kb_lower a) as [[x xi]|], (kb_lower b) as [[y yi]|]; simpl; auto.
      destruct (kcmp x y) eqn:E; destruct xi, yi; simpl in *; kb; auto;
        destruct (kcmp x k) eqn:E1; auto; destruct (kcmp y k) eqn:E2; auto; discriminate || (exfalso; korder).
    - clear H1. destruct (kb_upper a) as [[x xi]|], (kb_upper b) as [[y yi]|]; simpl; auto.
      destruct (kcmp x y) eqn:E; destruct xi, yi; simpl in *; kb; auto;
        destruct (kcmp k x) eqn:E1; auto; destruct (kcmp k y) eqn:E2; auto; discriminate || (exfalso; korder).
  Qed.
End KeyBoundsFacts.

Lemma kb_overlaps_spec (K : Type) (KO : KeyOrd K) (b : kbounds K) mn mx :
    (kb_overlaps b mn mx = false -> forall k, kcmp mn k <> Gt -> kcmp k mx <> Gt -> kb_in b k = false) /\
    (kb_overlaps b mn mx = true <->
     kb_empty b = false /\ kb_above (kb_lower b) mx = true /\ kb_below (kb_upper b) mn = true).
Proof. split; [intros H k; now apply kb_overlaps_sound|apply kb_overlaps_true]. Qed.
Lemma built_emptiness (K : Type) (KO : KeyOrd K) (b : kbounds K) : kb_built b ->
    (kb_empty b = true -> forall k, kb_in b k = false) /\
    (forall l i u j, kb_empty b = false -> kb_lower b = Some (l, i) -> kb_upper b = Some (u, j) ->
       kcmp l u <> Gt /\ (i = true -> kb_in b l = true) /\ (j = true -> kb_in b u = true)).
Proof.
  intros H. split; [now apply built_empty|]. intros l i u j H1 H2 H3.
  pose proof (built_nonempty b l i H H1 H2) as HX. now rewrite H3 in HX.
Qed.

