(** What the manifest edits do to the set of live SSTs. *)
From Coq Require Import List NArith Bool Sorted Permutation Lia Arith.
From Verif Require Import Base.Order Base.Sub Model.SsTable Model.Version Model.Planner Proof.SstFacts.
Import ListNotations.

Section VersionFacts.
  Context {E : Type}.
  Variable eid : E -> N.
  Notation levels := (list (list E)).

  Lemma trim_concat (ls : levels) : concat (trim ls) = concat ls.
  Proof.
    induction ls as [|b r IH]; simpl; auto. destruct b as [|x b]; simpl.
    - destruct (trim r); simpl in *; auto.
    - now rewrite IH.
  Qed.
  Lemma tidy_perm (ls : levels) : Permutation (concat (tidy eid ls)) (concat ls).
  Proof.
    unfold tidy. rewrite trim_concat. induction ls as [|b r IH]; simpl; auto.
    apply Permutation_app; auto. apply Permutation_sym, sort_by_perm.
  Qed.

  Lemma add_one_fresh b e : ~ In (eid e) (map eid b) -> add_one eid b e = b ++ [e].
  Proof.
    intros H. unfold add_one. f_equal. induction b as [|x b IH]; simpl in *; auto.
    destruct (N.eqb_spec (eid x) (eid e)); simpl; [tauto|]. f_equal. tauto.
  Qed.
  Lemma add_all_fresh es : forall b, NoDup (map eid es) ->
    (forall e, In e es -> ~ In (eid e) (map eid b)) -> fold_left (add_one eid) es b = b ++ es.
  Proof.
    induction es as [|e es IH]; intros b HN H; simpl; [now rewrite app_nil_r|].
    inversion HN; subst. rewrite add_one_fresh by (apply H; simpl; auto). rewrite IH; auto.
    - now rewrite <- app_assoc.
    - intros x Hx. rewrite map_app, in_app_iff. simpl. intros [F|[F|[]]].
      + apply (H x); simpl; auto.
      + apply H2. rewrite F. now apply in_map.
  Qed.
  Lemma level_update_perm f es : forall n (ls : levels),
    (forall b, In b ls \/ b = [] -> Permutation (f b) (es ++ b)) ->
    Permutation (concat (level_update n f ls)) (es ++ concat ls).
  Proof.
    induction n as [|n IH]; intros ls H; destruct ls as [|b r]; simpl.
    - rewrite app_nil_r. rewrite (H [] (or_intror eq_refl)). reflexivity.
    - rewrite (H b) by (simpl; auto). now rewrite <- app_assoc.
    - apply (IH []). intros b [[]| ->]. apply H. auto.
    - rewrite IH by (intros c [Hc|Hc]; apply H; simpl; auto).
      rewrite !app_assoc. apply Permutation_app_tail, Permutation_app_comm.
  Qed.
  Lemma add_ssts_perm level es (ls : levels) : NoDup (map eid es) ->
    (forall e, In e es -> ~ In (eid e) (map eid (concat ls))) ->
    Permutation (concat (add_ssts eid level es ls)) (es ++ concat ls).
  Proof.
    intros HN H. unfold add_ssts. destruct es as [|e es]; [reflexivity|].
    apply level_update_perm. intros b Hb. rewrite add_all_fresh; auto using Permutation_app_comm.
    intros x Hx F. apply (H x Hx). destruct Hb as [Hb| ->]; [|destruct F].
    rewrite in_map_iff in *. destruct F as (y & E1 & E2). exists y. split; auto.
    apply in_concat. eauto.
  Qed.

  Lemma In_nth_level (ls : levels) x : In x (concat ls) <-> exists i, In x (nth i ls []).
  Proof.
    rewrite in_concat. split.
    - intros (b & Hb & Hx). apply (In_nth _ _ []) in Hb as (i & _ & E1). exists i. now rewrite E1.
    - intros (i & Hx). exists (nth i ls []). split; auto.
      destruct (lt_dec i (length ls)); [now apply nth_In|].
      rewrite nth_overflow in Hx by lia. destruct Hx.
  Qed.

  Lemma level_update_nth f i : forall n (ls : levels), n < length ls ->
    nth i (level_update n f ls) [] = if Nat.eqb i n then f (nth i ls []) else nth i ls [].
  Proof.
    revert i. induction i as [|i IH]; intros n ls H; destruct ls as [|b r]; simpl in *; try lia; destruct n; simpl; auto.
    apply IH. lia.
  Qed.
  Lemma level_update_length f : forall n (ls : levels), n < length ls -> length (level_update n f ls) = length ls.
  Proof. induction n as [|n IH]; intros [|b r] H; simpl in *; try lia. rewrite IH; lia. Qed.
  Lemma level_update_sub f : (forall b, sublist (f b) b) -> forall n (ls : levels), n < length ls ->
    sublist (concat (level_update n f ls)) (concat ls).
  Proof.
    intros Hf. induction n as [|n IH]; intros [|b r] H; simpl in *; try lia.
    - apply sublist_app; auto. apply sublist_refl.
    - apply sublist_app; [apply sublist_refl|]. apply IH. lia.
  Qed.

  Lemma mem_id_In i ids : mem_id i ids = true <-> In i ids.
  Proof.
    unfold mem_id. rewrite existsb_exists. split.
    - intros (x & H1 & H2). apply N.eqb_eq in H2. now subst.
    - intros H. exists i. split; auto. apply N.eqb_refl.
  Qed.

  (** A list of removals, one per level. *)
  Lemma removals_spec (ids : nat -> list N) (Ls : list nat) : forall (v : vstate E),
    (forall l, In l Ls -> l < length (v_levels v)) ->
    exists v', apply_each eid v (map (fun l => RemoveSsts l (ids l)) Ls) = Some v' /\
      sublist (concat (v_levels v')) (concat (v_levels v)) /\
      v_ts v' = v_ts v /\ v_wal v' = v_wal v /\ v_floor v' = v_floor v /\ v_mark v' = v_mark v /\
      (forall i x, In x (nth i (v_levels v') []) <->
         In x (nth i (v_levels v) []) /\ ~ (In i Ls /\ In (eid x) (ids i))).
  Proof.
    induction Ls as [|l Ls IH]; intros v H; simpl.
    - exists v. split; auto. split; [apply sublist_refl|]. do 4 (split; auto). intros i x. tauto.
    - assert (Hl : l < length (v_levels v)) by (apply H; simpl; auto).
      unfold remove_ssts. destruct (ids l) as [|a il] eqn:EI.
      + destruct v as [vt vl vw vf vm]; simpl in *.
        destruct (IH (mkVer vt vl vw vf vm)) as (v' & A1 & A2 & A3 & A4 & A5 & A6 & A7); [intros; apply H; auto|].
        simpl in *. exists v'. split; [exact A1|]. split; auto. do 4 (split; auto).
        intros i x. rewrite A7. split; intros [P Q]; split; auto.
        * intros [[->|Q1] Q2]; [rewrite EI in Q2; destruct Q2|]. apply Q. auto.
        * intros [Q1 Q2]. apply Q. auto.
      + rewrite <- EI in *. destruct (Nat.leb_spec (length (v_levels v)) l); [lia|].
        set (f := filter _). set (v1 := mkVer _ _ _ _ _).
        destruct (IH v1) as (v' & A1 & A2 & A3 & A4 & A5 & A6 & A7).
        { unfold v1; simpl. intros k Hk. rewrite level_update_length by auto. apply H. simpl; auto. }
        exists v'. split; [exact A1|]. split.
        { eapply sublist_trans; [exact A2|]. unfold v1; simpl. apply level_update_sub; auto.
          intros b. apply sublist_filter. }
        do 4 (split; auto).
        intros i x. rewrite A7. unfold v1; simpl. rewrite level_update_nth by auto.
        destruct (Nat.eqb_spec i l) as [->|NE].
        * unfold f. rewrite filter_In, negb_true_iff. rewrite <- not_true_iff_false, mem_id_In. tauto.
        * split; intros [P Q]; split; auto.
          -- intros [[F|F] G]; [congruence|]. apply Q. auto.
          -- intros [F G]. apply Q. auto.
  Qed.

  Lemma resolve_In (ls : levels) ins : forall res, resolve_inputs eid ls ins = Some res ->
    map (fun p => (fst p, eid (snd p))) res = ins /\
    Forall (fun p => fst p < length ls /\ In (snd p) (nth (fst p) ls [])) res.
  Proof.
    induction ins as [|[l i] ins IH]; intros res H; simpl in H.
    - inversion H; subst. auto.
    - destruct (nth_error ls l) as [b|] eqn:EB; [|discriminate].
      destruct (find _ b) as [e|] eqn:EF; [|discriminate].
      destruct (resolve_inputs eid ls ins) as [es|] eqn:ER; [|discriminate].
      inversion H; subst. destruct (IH es eq_refl) as [I1 I2]. simpl.
      apply find_some in EF as [F1 F2]. apply N.eqb_eq in F2. split; [now rewrite I1, F2|].
      constructor; auto. simpl. split.
      + apply nth_error_Some. congruence.
      + rewrite (nth_error_nth _ _ [] EB). exact F1.
  Qed.

  Lemma NoDup_level (ls : levels) : NoDup (map eid (concat ls)) -> forall i j x y,
    In x (nth i ls []) -> In y (nth j ls []) -> eid x = eid y -> i = j.
  Proof.
    induction ls as [|b r IH]; intros HN i j x y Hx Hy HE; simpl in *.
    - destruct i; destruct Hx.
    - rewrite map_app in HN.
      assert (ND : forall u w, In u b -> In w (concat r) -> eid u <> eid w).
      { intros u w Hu Hw F. clear - HN Hu Hw F. apply (in_map eid) in Hu, Hw. rewrite <- F in Hw.
        induction (map eid b) as [|a l IHl]; [contradiction|]. simpl in HN. inversion HN; subst.
        destruct Hu as [->|Hu]; [|apply IHl; auto]. apply H1, in_app_iff. auto. }
      destruct i as [|i], j as [|j]; auto.
      + exfalso. apply (ND x y); auto. apply In_nth_level. eauto.
      + exfalso. apply (ND y x); auto. apply In_nth_level. eauto.
      + f_equal. apply (IH) with (x := x) (y := y); auto.
        clear - HN. induction (map eid b); simpl in HN; auto. inversion HN; auto.
  Qed.

  (** The edits of a compaction outcome: the inputs leave, the outputs enter. *)
  Theorem outcome_spec (v : vstate E) ins res outs target :
    NoDup (map eid (concat (v_levels v))) ->
    resolve_inputs eid (v_levels v) ins = Some res ->
    NoDup (map eid outs) ->
    (forall e, In e outs -> ~ In (eid e) (map eid (concat (v_levels v)))) ->
    exists v', apply_edits eid v (outcome_edits eid res outs target) = Some v' /\
      (forall x, In x (concat (v_levels v')) <->
         In x outs \/ (In x (concat (v_levels v)) /\ ~ In (eid x) (map snd ins))) /\
      NoDup (map eid (concat (v_levels v'))).
  Proof.
    intros HN HR HO HF. destruct (resolve_In _ _ _ HR) as [R1 R2].
    unfold apply_edits, outcome_edits, remove_edits.
    set (ids := fun l => map (fun p => eid (snd p)) (filter (fun p => Nat.eqb (fst p) l) res)).
    destruct (removals_spec ids (nodup Nat.eq_dec (map fst res)) v) as (v1 & A1 & A2 & _ & A4 & A5 & A6 & A7).
    { intros l Hl. apply nodup_In, in_map_iff in Hl as (p & <- & Hp). rewrite Forall_forall in R2. now apply R2. }
    assert (AE : forall es1 es2 u u1, apply_each eid u es1 = Some u1 ->
              apply_each eid u (es1 ++ es2) = apply_each eid u1 es2).
    { induction es1 as [|e es1 IH]; intros es2 u u1 H; simpl in *; [congruence|].
      destruct (apply_edit eid u e); [|discriminate]. auto. }
    rewrite (AE _ _ _ _ A1).
    assert (M1 : forall x, In x (concat (v_levels v1)) <-> In x (concat (v_levels v)) /\ ~ In (eid x) (map snd ins)).
    { intros x. rewrite !In_nth_level. split.
      - intros (i & Hi). apply A7 in Hi as [H1 H2]. split; [eauto|]. intros F. apply H2.
        rewrite <- R1, map_map in F. simpl in F. apply in_map_iff in F as (p & F1 & F2).
        rewrite Forall_forall in R2. destruct (R2 p F2) as [_ R3].
        pose proof (NoDup_level _ HN _ _ _ _ H1 R3 (eq_sym F1)) as ->. split.
        + apply nodup_In. now apply in_map.
        + unfold ids. rewrite <- F1. apply (in_map (fun p => eid (snd p))). apply filter_In. split; auto. apply Nat.eqb_refl.
      - intros [(i & Hi) H2]. exists i. apply A7. split; auto. intros [_ F]. apply H2.
        unfold ids in F. apply in_map_iff in F as (p & F1 & F2). apply filter_In in F2 as [F2 _].
        rewrite <- R1, map_map. simpl. rewrite <- F1. apply (in_map (fun p => eid (snd p))). auto. }
    assert (N1 : NoDup (map eid (concat (v_levels v1)))).
    { eapply sublist_NoDup; [apply sublist_map, A2|exact HN]. }
    destruct outs as [|o outs].
    - simpl. eexists. split; [reflexivity|].
      assert (EL : v_levels (normalise (mkVer (v_ts v1) (tidy eid (v_levels v1)) (v_wal v1) (v_floor v1) (v_mark v1)))
                   = tidy eid (v_levels v1)).
      { unfold normalise. simpl. destruct (v_wal v1); reflexivity. }
      rewrite EL. split.
      + intros x. rewrite <- M1. split.
        * intros H. right. eapply Permutation_in; [apply tidy_perm|exact H].
        * intros [[]|H]. eapply Permutation_in; [apply Permutation_sym, tidy_perm|exact H].
      + eapply Permutation_NoDup; [apply Permutation_map, Permutation_sym, tidy_perm|exact N1].
    - cbn [apply_each apply_edit]. eexists. split; [reflexivity|].
      set (es := o :: outs) in *. set (l2 := add_ssts eid target es (v_levels v1)).
      set (v2 := mkVer _ l2 _ _ _).
      assert (EL : v_levels (normalise (mkVer (v_ts v2) (tidy eid (v_levels v2)) (v_wal v2) (v_floor v2) (v_mark v2)))
                   = tidy eid l2).
      { unfold normalise. simpl. destruct (v_wal v1); reflexivity. }
      rewrite EL.
      assert (P2 : Permutation (concat l2) (es ++ concat (v_levels v1))).
      { apply add_ssts_perm; auto. intros e He F. apply (HF e He).
        rewrite in_map_iff in *. destruct F as (y & F1 & F2). exists y. split; auto. now apply M1. }
      assert (P3 : Permutation (concat (tidy eid l2)) (es ++ concat (v_levels v1))).
      { etransitivity; [apply tidy_perm|exact P2]. }
      split.
      + intros x. rewrite <- M1, <- in_app_iff. split; intros H.
        * eapply Permutation_in; [exact P3|exact H].
        * eapply Permutation_in; [apply Permutation_sym, P3|exact H].
      + eapply Permutation_NoDup; [apply Permutation_map, Permutation_sym, P3|].
        rewrite map_app. clear - HO N1 HF M1. induction es as [|e es IH]; simpl; auto.
        inversion HO; subst. constructor.
        * rewrite in_app_iff. intros [F|F]; [contradiction|].
          apply (HF e (or_introl eq_refl)). rewrite in_map_iff in *. destruct F as (y & F1 & F2).
          exists y. split; auto. now apply M1.
        * apply IH; auto. intros x Hx. apply HF. simpl; auto.
  Qed.
End VersionFacts.
