(** The levels of a version list exactly the live SSTs. *)
From Coq Require Import List NArith Bool Sorted Permutation Lia Arith.
From Verif Require Import Base.Order Base.Sub Model.SsTable Model.Version Model.Planner Spec.LiveSet Proof.SstFacts Proof.VersionFacts.
Import ListNotations.

Section LiveFacts.
  Context {E : Type}.
  Variable eid : E -> N.
  Notation levels := (list (list E)).
  Notation shows := (shows eid).
  Notation live_edit := (live_edit eid).
  Notation live_edits := (live_edits eid).

  Lemma level_nth f i : f [] = [] \/ True -> forall n (ls : levels),
    nth i (level_update n f ls) [] = if Nat.eqb i n then f (nth i ls []) else nth i ls [].
  Proof.
    intros _. revert i. induction i as [|i IH]; intros n ls.
    - destruct n, ls; reflexivity.
    - destruct n, ls as [|b r]; simpl; auto.
      + now destruct i.
      + rewrite IH. destruct (Nat.eqb i n); destruct i; reflexivity.
  Qed.
  Lemma trim_nth i : forall (ls : levels), nth i (trim ls) [] = nth i ls [].
  Proof.
    induction i as [|i IH]; intros [|b r]; simpl; auto.
    - destruct b, (trim r) eqn:T; auto.
    - rewrite <- IH. destruct b; destruct (trim r) eqn:T; auto. destruct i; reflexivity.
  Qed.
  Lemma tidy_nth i (ls : levels) :
    nth i (tidy eid ls) [] = sort_by (fun a b => N.leb (eid a) (eid b)) (nth i ls []).
  Proof.
    unfold tidy. rewrite trim_nth.
    change (@nil E) with (sort_by (fun a b : E => N.leb (eid a) (eid b)) []) at 1. now rewrite map_nth.
  Qed.

  Lemma shows_ext ls s s' : (forall l i, s l i = s' l i) -> shows ls s -> shows ls s'.
  Proof.
    intros H (A & B & C). split; [|split]; auto.
    - intros l e. rewrite <- H. apply A.
    - intros l i e. rewrite <- H. apply B.
  Qed.

  Lemma shows_tidy ls s : shows ls s -> shows (tidy eid ls) s.
  Proof.
    intros (A & B & C). split; [|split; auto].
    - intros l e. rewrite tidy_nth, <- A. split; apply Permutation_in; [apply Permutation_sym|]; apply sort_by_perm.
    - intros l. rewrite tidy_nth. eapply Permutation_NoDup; [|apply (C l)]. apply Permutation_map. apply sort_by_perm.
  Qed.

  Lemma NoDup_filter_map (f : E -> bool) b : NoDup (map eid b) -> NoDup (map eid (filter f b)).
  Proof.
    induction b as [|x b IH]; simpl; auto. intros H. inversion H; subst. destruct (f x); simpl; auto.
    constructor; auto. intros F. apply H2. apply in_map_iff in F as (y & E1 & E2). apply filter_In in E2 as [E2 _].
    rewrite <- E1. now apply in_map.
  Qed.

  Lemma shows_add l es : forall ls s, shows ls s ->
    shows (level_update l (fun b => fold_left (add_one eid) es b) ls) (fold_left (add_live eid l) es s).
  Proof.
    induction es as [|e es IH]; intros ls s H; simpl.
    - destruct H as (A & B & C). split; [|split; auto]; intros i; try intros x; rewrite level_nth by auto;
        destruct (Nat.eqb i l); auto.
    - assert (H1 : shows (level_update l (fun b => add_one eid b e) ls) (add_live eid l s e)).
      { destruct H as (A & B & C). unfold add_live. split; [|split].
        - intros i x. rewrite level_nth by auto. destruct (Nat.eqb_spec i l) as [->|NE]; simpl; [|apply A].
          unfold add_one. rewrite in_app_iff, filter_In, A, negb_true_iff. simpl.
          destruct (N.eqb_spec (eid x) (eid e)) as [EQ|NE].
          + split; [intros [[_ F]|[->|[]]]; congruence|]. intros F; inversion F; auto.
          + split; [intros [[F _]|[->|[]]]; congruence|]. auto.
        - intros i j x. destruct (Nat.eqb i l && N.eqb j (eid e))%bool eqn:EQ; [|apply B].
          intros F; inversion F; subst. apply andb_prop in EQ as [_ EQ]. apply N.eqb_eq in EQ. auto.
        - intros i. rewrite level_nth by auto. destruct (Nat.eqb i l); auto. unfold add_one.
          rewrite map_app. simpl. apply (Permutation_NoDup (Permutation_cons_append _ _)). constructor.
          + intros F. apply in_map_iff in F as (y & E1 & E2). apply filter_In in E2 as [_ E2].
            rewrite E1, N.eqb_refl in E2. discriminate.
          + now apply NoDup_filter_map. }
      specialize (IH _ _ H1).
      split; [|split].
      + intros i x. destruct IH as (A & _ & _). rewrite <- A. rewrite !level_nth by auto.
        destruct (Nat.eqb i l); reflexivity.
      + apply IH.
      + intros i. destruct IH as (_ & _ & C). specialize (C i). rewrite !level_nth in C by auto.
        rewrite level_nth by auto. destruct (Nat.eqb i l); auto.
  Qed.

  Lemma drop_live_all l ids : forall (s : @live E) i j,
    fold_left (drop_live l) ids s i j = if Nat.eqb i l && mem_id j ids then None else s i j.
  Proof.
    induction ids as [|a ids IH]; intros s i j; simpl.
    - now rewrite andb_false_r.
    - rewrite IH. unfold drop_live. destruct (Nat.eqb i l); simpl; auto.
      change (mem_id j (a :: ids)) with (N.eqb j a || mem_id j ids).
      destruct (N.eqb j a), (mem_id j ids); reflexivity.
  Qed.
  Lemma shows_remove l ids ls s : shows ls s ->
    shows (level_update l (filter (fun x => negb (mem_id (eid x) ids))) ls) (fold_left (drop_live l) ids s).
  Proof.
    intros (A & B & C). split; [|split].
    - intros i x. rewrite level_nth by auto. rewrite drop_live_all. destruct (Nat.eqb i l); simpl; [|apply A].
      rewrite filter_In, A. destruct (mem_id (eid x) ids); simpl; split; auto; try tauto; intuition discriminate.
    - intros i j x. rewrite drop_live_all. destruct (_ && _); [discriminate|apply B].
    - intros i. rewrite level_nth by auto. destruct (Nat.eqb i l); auto. now apply NoDup_filter_map.
  Qed.

  (** All live SSTs lie below the length of the level list. *)
  Lemma shows_beyond ls s l i : shows ls s -> length ls <= l -> s l i = None.
  Proof.
    intros (A & B & C) H. destruct (s l i) as [e|] eqn:EE; auto.
    pose proof (B _ _ _ EE) as X. subst i. apply A in EE. rewrite nth_overflow in EE by auto. destruct EE.
  Qed.

  Lemma apply_each_shows es : forall v s, shows (v_levels v) s ->
    match apply_each eid v es with
    | Some v' => shows (v_levels v') (live_edits s es)
    | None => exists es1 l ids es2, es = es1 ++ RemoveSsts l ids :: es2 /\ ids <> [] /\
                 forall l' i, l <= l' -> live_edits s es1 l' i = None
    end.
  Proof.
    induction es as [|e es IH]; intros v s H; simpl; auto.
    assert (HR : forall v1 s1, shows (v_levels v1) s1 -> s1 = live_edit s e ->
       match apply_each eid v1 es with
       | Some v' => shows (v_levels v') (live_edits (live_edit s e) es)
       | None => exists es1 l ids es2, e :: es = es1 ++ RemoveSsts l ids :: es2 /\ ids <> [] /\
                    forall l' i, l <= l' -> live_edits s es1 l' i = None
       end).
    { intros v1 s1 H1 ->. specialize (IH v1 _ H1). destruct (apply_each eid v1 es); auto.
      destruct IH as (es1 & l & ids & es2 & E1 & E2 & E3). exists (e :: es1), l, ids, es2.
      split; [now rewrite E1|]. split; auto. }
    destruct e as [l es0|l ids|segs|w]; simpl.
    - apply HR with (s1 := fold_left (add_live eid l) es0 s); [|reflexivity]. simpl.
      unfold add_ssts. destruct es0; [exact H|]. now apply shows_add.
    - unfold remove_ssts. destruct ids as [|a ids].
      + apply HR with (s1 := s); [exact H|reflexivity].
      + destruct (Nat.leb_spec (length (v_levels v)) l) as [HL|HL].
        * exists [], l, (a :: ids), es. split; auto. split; [discriminate|].
          intros l' i Hl. eapply shows_beyond; eauto. lia.
        * apply HR with (s1 := fold_left (drop_live l) (a :: ids) s); [|reflexivity].
          exact (shows_remove l (a :: ids) _ _ H).
    - apply HR with (s1 := s); [exact H|reflexivity].
    - apply HR with (s1 := s); [exact H|reflexivity].
  Qed.

  Lemma normalise_levels (v : vstate E) : v_levels (normalise v) = v_levels v.
  Proof. unfold normalise. destruct (v_wal v); reflexivity. Qed.

  Lemma apply_edits_shows v s es : shows (v_levels v) s ->
    match apply_edits eid v es with
    | Some v' => shows (v_levels v') (live_edits s es)
    | None => exists es1 l ids es2, es = es1 ++ RemoveSsts l ids :: es2 /\ ids <> [] /\
                 forall l' i, l <= l' -> live_edits s es1 l' i = None
    end.
  Proof.
    intros H. unfold apply_edits. pose proof (apply_each_shows es v s H) as X.
    destruct (apply_each eid v es); auto. rewrite normalise_levels. now apply shows_tidy.
  Qed.

  (** No empty level at the end. *)
  Definition trimmed (ls : levels) : Prop := ls = [] \/ last ls [] <> [].
  Lemma trim_last : forall ls : levels, trimmed (trim ls).
  Proof.
    induction ls as [|b r IH]; simpl; [now left|].
    destruct b as [|x b].
    - destruct (trim r) as [|c t] eqn:T; [now left|]. right. destruct IH as [F|F]; [discriminate|]. exact F.
    - destruct (trim r) as [|c t] eqn:T; right; [discriminate|]. destruct IH as [F|F]; [discriminate|exact F].
  Qed.
  Lemma trimmed_beyond ls s l : trimmed ls -> shows ls s -> (forall l' i, l <= l' -> s l' i = None) -> length ls <= l.
  Proof.
    intros [->|T] (A & B & C) H; [simpl; lia|].
    destruct (le_lt_dec (length ls) l) as [|HL]; auto. exfalso.
    assert (EL : last ls [] = nth (length ls - 1) ls []).
    { clear. induction ls as [|b r IH]; auto. destruct r as [|c r]; auto.
      change (last (b :: c :: r) []) with (last (c :: r) (@nil E)). rewrite IH. simpl length.
      replace (S (S (length r)) - 1) with (S (S (length r) - 1)) by lia. reflexivity. }
    rewrite EL in T. destruct (nth (length ls - 1) ls []) as [|e b] eqn:EN; [congruence|].
    assert (In e (nth (length ls - 1) ls [])) as X by (rewrite EN; simpl; auto).
    apply A in X. rewrite H in X by lia. discriminate.
  Qed.
  Lemma apply_edits_trimmed v es v' : apply_edits eid v es = Some v' -> trimmed (v_levels v').
  Proof.
    unfold apply_edits. destruct (apply_each eid v es); [|discriminate]. intros H; inversion H; subst.
    rewrite normalise_levels. apply trim_last.
  Qed.

  Lemma batches_shows bs : forall v s, trimmed (v_levels v) -> shows (v_levels v) s ->
    trimmed (v_levels (fst (apply_batches eid v bs))) /\
    shows (v_levels (fst (apply_batches eid v bs))) (live_edits s (concat (snd (apply_batches eid v bs)))).
  Proof.
    induction bs as [|b bs IH]; intros v s T H; simpl; auto.
    pose proof (apply_edits_shows v s b H) as X. destruct (apply_edits eid v b) as [v'|] eqn:EE; auto.
    specialize (IH v' _ (apply_edits_trimmed _ _ _ EE) X). destruct (apply_batches eid v' bs) as [w acc]; simpl in *.
    unfold LiveSet.live_edits in *. rewrite fold_left_app. exact IH.
  Qed.
  Lemma shows_empty : shows [] (@nothing E).
  Proof.
    split; [|split].
    - intros [|l] e; simpl; unfold nothing; split; try tauto; discriminate.
    - discriminate.
    - intros [|l]; constructor.
  Qed.

  Lemma c27_live bs : let r := apply_batches eid vstate_empty bs in
    shows (v_levels (fst r)) (live_edits nothing (concat (snd r))).
  Proof. simpl. apply batches_shows; [now left|apply shows_empty]. Qed.

  Lemma c27_reject bs es : let r := apply_batches eid vstate_empty bs in
    let s := live_edits nothing (concat (snd r)) in
    apply_edits eid (fst r) es = None ->
    exists es1 l ids es2, es = es1 ++ RemoveSsts l ids :: es2 /\ ids <> [] /\
      forall l' i, l <= l' -> live_edits s es1 l' i = None.
  Proof.
    intros r s H. pose proof (apply_edits_shows (fst r) s es (c27_live bs)) as X. now rewrite H in X.
  Qed.

  Lemma c27_missing bs l ids es : let r := apply_batches eid vstate_empty bs in
    let s := live_edits nothing (concat (snd r)) in
    ids <> [] -> (forall l' i, l <= l' -> s l' i = None) ->
    apply_edits eid (fst r) (RemoveSsts l ids :: es) = None.
  Proof.
    intros r s HI H.
    destruct (batches_shows bs vstate_empty nothing (or_introl eq_refl) shows_empty) as [T S1].
    pose proof (trimmed_beyond _ _ l T S1 H) as HL.
    unfold apply_edits. simpl. unfold remove_ssts. destruct ids as [|a ids]; [congruence|].
    unfold r. replace (Nat.leb _ l) with true; auto. symmetry. now apply Nat.leb_le.
  Qed.
  (** *** The edits of a compaction *)
  Definition live_of (ls : levels) : live := fun l i => find (fun e => N.eqb (eid e) i) (nth l ls []).
  Lemma find_unique (b : list E) e : NoDup (map eid b) -> In e b -> find (fun x => N.eqb (eid x) (eid e)) b = Some e.
  Proof.
    induction b as [|x b IH]; simpl; intros H HI; [destruct HI|]. inversion H as [|? ? N1 N2]; subst.
    destruct (N.eqb_spec (eid x) (eid e)) as [E1|E1].
    - destruct HI as [->|HI]; auto. exfalso. apply N1. rewrite E1. now apply in_map.
    - destruct HI as [->|HI]; [congruence|auto].
  Qed.
  Lemma shows_of ls : (forall l, NoDup (map eid (nth l ls []))) -> shows ls (live_of ls).
  Proof.
    intros H. split; [|split; auto].
    - intros l e. unfold live_of. split; intros X; [now apply find_unique|]. apply find_some in X. tauto.
    - intros l i e X. unfold live_of in X. apply find_some in X as [_ X]. now apply N.eqb_eq.
  Qed.
  Lemma drops_eq l ids : forall (s : @live E) l' i, fold_left (drop_live l) ids s l' i =
    if Nat.eqb l' l && existsb (N.eqb i) ids then None else s l' i.
  Proof.
    induction ids as [|a ids IH]; intros s l' i; simpl; [now rewrite andb_false_r|]. rewrite IH. unfold drop_live.
    destruct (Nat.eqb l' l), (N.eqb i a), (existsb (N.eqb i) ids); auto.
  Qed.
  Lemma adds_other l es : forall (s : @live E) l' i, (l' <> l \/ ~ In i (map eid es)) -> fold_left (add_live eid l) es s l' i = s l' i.
  Proof.
    induction es as [|a es IH]; intros s l' i H; simpl; auto. rewrite IH by (simpl in H; tauto). unfold add_live.
    destruct (Nat.eqb_spec l' l), (N.eqb_spec i (eid a)); auto. subst. simpl in H. destruct H as [H|H]; [tauto|]. exfalso; auto.
  Qed.
  Lemma adds_eq l es : NoDup (map eid es) -> forall s e, In e es -> fold_left (add_live eid l) es s l (eid e) = Some e.
  Proof.
    induction es as [|a es IH]; intros HN s e He; simpl; [destruct He|]. simpl in HN. inversion HN as [|? ? N1 N2]; subst.
    destruct He as [->|He]; auto. rewrite adds_other by auto. unfold add_live. now rewrite Nat.eqb_refl, N.eqb_refl.
  Qed.
  Lemma removes_eq (ids : nat -> list N) ls : forall (s : @live E) l i,
    live_edits s (map (fun l => RemoveSsts l (ids l)) ls) l i =
    if existsb (Nat.eqb l) ls && existsb (N.eqb i) (ids l) then None else s l i.
  Proof.
    unfold LiveSet.live_edits. induction ls as [|a ls IH]; intros s l i; simpl; auto. rewrite IH, drops_eq.
    destruct (Nat.eqb_spec l a) as [->|H]; simpl; auto.
    destruct (existsb (Nat.eqb a) ls), (existsb (N.eqb i) (ids a)); auto.
  Qed.
  Lemma outcome_levels (v v' : vstate E) ins outs target :
    (forall l, NoDup (map eid (nth l (v_levels v) []))) -> NoDup (map eid outs) ->
    (forall e, In e outs -> ~ In (eid e) (map eid (nth target (v_levels v) []))) ->
    apply_edits eid v (outcome_edits eid ins outs target) = Some v' ->
    forall l e, In e (nth l (v_levels v') []) <->
      (l = target /\ In e outs) \/
      (In e (nth l (v_levels v) []) /\ ~ In (l, eid e) (map (fun p => (fst p, eid (snd p))) ins)).
  Proof.
    intros HN HO HF HE l e. pose proof (apply_edits_shows v _ (outcome_edits eid ins outs target) (shows_of _ HN)) as X.
    rewrite HE in X. destruct X as (X & _ & _). rewrite X. clear X HE v'.
    set (ids := fun l => map (fun p => eid (snd p)) (filter (fun p : nat * E => Nat.eqb (fst p) l) ins)).
    set (s1 := live_edits (live_of (v_levels v)) (remove_edits eid ins)).
    assert (ES : forall l i, s1 l i = if existsb (Nat.eqb l) (nodup Nat.eq_dec (map fst ins)) && existsb (N.eqb i) (ids l)
                                    then None else live_of (v_levels v) l i) by (intros; apply removes_eq).
    assert (EA : live_edits (live_of (v_levels v)) (outcome_edits eid ins outs target) = fold_left (add_live eid target) outs s1).
    { unfold outcome_edits, LiveSet.live_edits. rewrite fold_left_app. now destruct outs. }
    rewrite EA.
    assert (S1 : s1 l (eid e) = Some e <-> In e (nth l (v_levels v) []) /\ ~ In (l, eid e) (map (fun p => (fst p, eid (snd p))) ins)).
    { rewrite ES. assert (EQ : existsb (Nat.eqb l) (nodup Nat.eq_dec (map fst ins)) && existsb (N.eqb (eid e)) (ids l) = true
                             <-> In (l, eid e) (map (fun p => (fst p, eid (snd p))) ins)).
      { rewrite andb_true_iff, !existsb_exists, in_map_iff. split.
        - intros [_ (i & Hi & E1)]. apply N.eqb_eq in E1. subst i. unfold ids in Hi. apply in_map_iff in Hi as (p & P1 & P2).
          apply filter_In in P2 as [P2 P3]. apply Nat.eqb_eq in P3. exists p. now rewrite P1, P3.
        - intros (p & E1 & Hp). inversion E1; subst. split.
          + exists (fst p). rewrite Nat.eqb_refl. split; auto. apply nodup_In. now apply in_map.
          + exists (eid (snd p)). split; [|apply N.eqb_refl]. unfold ids. apply in_map_iff. exists p. split; auto.
            apply filter_In. now rewrite Nat.eqb_refl. }
      destruct (_ && _)%bool eqn:EB.
      - split; [discriminate|]. intros [_ F]. elim F. now apply EQ.
      - assert (NQ : ~ In (l, eid e) (map (fun p => (fst p, eid (snd p))) ins)) by (intros F; apply EQ in F; congruence).
        unfold live_of. split.
        + intros F. apply find_some in F. tauto.
        + intros [F _]. now apply find_unique. }
    destruct (Nat.eq_dec l target) as [->|NL].
    - destruct (in_dec N.eq_dec (eid e) (map eid outs)) as [HI|HI].
      + apply in_map_iff in HI as (x & E1 & Hx). rewrite <- E1, (adds_eq target outs HO s1 x Hx). split.
        * intros F. inversion F; subst. auto.
        * intros [[_ H]|[H _]].
          -- pose proof (adds_eq target outs HO s1 e H) as A. rewrite <- E1, (adds_eq target outs HO s1 x Hx) in A. exact A.
          -- elim (HF x Hx). rewrite E1. now apply in_map.
      + rewrite adds_other by auto. rewrite S1. split; auto. intros [[_ H]|H]; auto. elim HI. now apply in_map.
    - rewrite adds_other by auto. rewrite S1. tauto.
  Qed.
End LiveFacts.
