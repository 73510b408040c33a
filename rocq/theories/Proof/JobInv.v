(** Files and versions under concurrent background jobs: the invariant. *)
From Coq Require Import List Arith NArith Bool Lia Permutation.
From Verif Require Import Base.Order Base.Sub Model.SsTable Model.Version Model.Planner Model.Sched Model.Jobs
     Spec.JobSpec Proof.SstFacts Proof.VersionFacts Proof.LiveFacts.
Import ListNotations.
Local Open Scope N_scope.

(** *** Edits, level by level *)
Lemma tidy_in {E} (eid : E -> N) ls l x : In x (nth l (tidy eid ls) []) <-> In x (nth l ls []).
Proof. rewrite tidy_nth. split; apply Permutation_in; [apply Permutation_sym|]; apply sort_by_perm. Qed.

Lemma levels_of (v : vstate N) : v_levels (normalise (mkVer (v_ts v) (tidy ident (v_levels v)) (v_wal v) (v_floor v) (v_mark v)))
  = tidy ident (v_levels v).
Proof. now rewrite normalise_levels. Qed.

Lemma add_levels v level i : ~ In i (concat v) ->
  exists v', apply_edits ident (mkVer 0 v [] None None) [AddSsts level [i]] = Some v' /\
    adds v (v_levels v') level i /\ Permutation (concat (v_levels v')) (i :: concat v).
Proof.
  intros F. unfold apply_edits. cbn [apply_each apply_edit v_levels]. eexists. split; [reflexivity|].
  rewrite normalise_levels. cbn [v_levels]. split.
  - intros l x. rewrite tidy_in. unfold add_ssts. rewrite level_nth by auto. cbn [fold_left].
    destruct (Nat.eqb_spec l level) as [->|NE].
    + rewrite add_one_fresh.
      * rewrite in_app_iff. cbn. intuition congruence.
      * rewrite map_id. intros H. apply F. apply In_nth_level. eauto.
    + intuition congruence.
  - etransitivity; [apply tidy_perm|]. apply (add_ssts_perm ident level [i] v).
    + constructor; [intros []|constructor].
    + intros e [<-|[]]. now rewrite map_id.
Qed.

Lemma NoDup_levels (ls : list (list N)) i j x : NoDup (concat ls) -> In x (nth i ls []) -> In x (nth j ls []) -> i = j.
Proof. intros H A B. eapply (NoDup_level ident); eauto. now rewrite map_id. Qed.

Lemma replace_levels v ins outs target : NoDup (concat v) -> resolve_inputs ident v ins = Some ins ->
  outs <> [] -> NoDup outs -> (forall o, In o outs -> ~ In o (concat v)) ->
  exists v', apply_edits ident (mkVer 0 v [] None None) (outcome_edits ident ins outs target) = Some v' /\
    replaces v (v_levels v') ins target outs /\ NoDup (concat (v_levels v')) /\
    (forall x, In x (concat (v_levels v')) <-> In x outs \/ (In x (concat v) /\ ~ In x (map snd ins))).
Proof.
  intros ND R NE NO F. destruct (resolve_In _ _ _ _ R) as [_ RF].
  destruct (outcome_spec ident (mkVer 0 v [] None None) ins ins outs target) as (v' & A1 & A2 & A3).
  { cbn. now rewrite map_id. } { exact R. } { now rewrite map_id. } { cbn. rewrite map_id. exact F. }
  exists v'. split; auto. rewrite map_id in A3. split; [|split; auto].
  split.
  { intros l x H. rewrite Forall_forall in RF. apply (RF (l, x) H). }
  intros l x. unfold apply_edits, outcome_edits, remove_edits in A1.
  set (ids := fun l => map (fun p => ident (snd p)) (filter (fun p => Nat.eqb (fst p) l) ins)) in A1.
  destruct (removals_spec ident ids (nodup Nat.eq_dec (map fst ins)) (mkVer 0 v [] None None)) as (v1 & B1 & B2 & _ & _ & _ & _ & B7).
  { intros k Hk. apply nodup_In, in_map_iff in Hk as (p & <- & Hp). rewrite Forall_forall in RF. now apply RF. }
  assert (AE : forall es1 es2 u u1, apply_each ident u es1 = Some u1 ->
            apply_each ident u (es1 ++ es2) = apply_each ident u1 es2).
  { induction es1 as [|e es1 IH]; intros es2 u u1 H; simpl in *; [congruence|].
    destruct (apply_edit ident u e); [|discriminate]. auto. }
  rewrite (AE _ _ _ _ B1) in A1. destruct outs as [|o outs]; [congruence|].
  cbn [apply_each apply_edit] in A1. injection A1 as <-. rewrite normalise_levels. cbn [v_levels]. rewrite tidy_in.
  unfold add_ssts. rewrite level_nth by auto. cbn [v_levels] in B7.
  assert (M : In x (nth l (v_levels v1) []) <-> In x (nth l v []) /\ ~ In (l, x) ins).
  { rewrite B7. split; intros [P Q]; split; auto; intros H; apply Q.
    - split; [apply nodup_In; now apply (in_map fst) in H|]. unfold ids.
      apply (in_map (fun p : nat * N => ident (snd p)) (filter (fun p => Nat.eqb (fst p) l) ins) (l, x)). apply filter_In. split; auto. apply Nat.eqb_refl.
    - destruct H as [_ H]. unfold ids in H. apply in_map_iff in H as ([l' x'] & H1 & H2). apply filter_In in H2 as [H2 H3].
      apply Nat.eqb_eq in H3. cbn in H1, H3. unfold ident in *. now subst. }
  destruct (Nat.eqb_spec l target) as [->|NT].
  - change (fold_left (add_one ident) outs (add_one ident (nth target (v_levels v1) []) o)) with (fold_left (add_one ident) (o :: outs) (nth target (v_levels v1) [])). rewrite (add_all_fresh ident (o :: outs)).
    + rewrite in_app_iff, M. tauto.
    + now rewrite map_id.
    + intros e He H. rewrite map_id in H. apply (F e He). apply B7 in H as [H _]. apply In_nth_level. eauto.
  - rewrite M. tauto.
Qed.

(** *** Files *)
Section Files.
  Context {C : Type}.
  Implicit Types fs : list (N * C).
  Lemma file_erase i j fs : file i (erase j fs) = if i =? j then None else file i fs.
  Proof.
    unfold erase. induction fs as [|[k c] fs IH]; cbn.
    - now destruct (i =? j).
    - destruct (N.eqb_spec k j) as [->|NE]; cbn.
      + rewrite IH. destruct (N.eqb_spec i j) as [->|]; auto. destruct (N.eqb_spec j i); congruence.
      + rewrite IH. destruct (N.eqb_spec k i) as [->|]; auto. destruct (N.eqb_spec i j); congruence.
  Qed.
  Lemma file_write i j c fs : file i (write j c fs) = if i =? j then Some c else file i fs.
  Proof.
    unfold write. cbn [file]. rewrite file_erase. destruct (N.eqb_spec j i) as [->|NE]; [now rewrite N.eqb_refl|].
    destruct (N.eqb_spec i j); congruence.
  Qed.
  (** Nothing outside [P] changed. *)
  Definition keeps (P : list N) fs fs' : Prop := forall i, ~ In i P -> file i fs' = file i fs.
  Lemma keeps_write P i c fs : In i P -> keeps P fs (write i c fs).
  Proof. intros H j Hj. rewrite file_write. destruct (N.eqb_spec j i); congruence. Qed.
  Lemma keeps_erase P i fs : In i P -> keeps P fs (erase i fs).
  Proof. intros H j Hj. rewrite file_erase. destruct (N.eqb_spec j i); congruence. Qed.
  Lemma keeps_refl P fs : keeps P fs fs.
  Proof. intros i _. reflexivity. Qed.

  Lemma contents_keeps P fs fs' is cs : keeps P fs fs' -> (forall i, In i is -> ~ In i P) ->
    contents fs is cs -> contents fs' is cs.
  Proof.
    intros K H E. unfold contents in *. rewrite <- E. apply map_ext_in. intros i Hi. apply K. auto.
  Qed.
  Lemma contents_app fs is cs i c : contents fs is cs -> file i fs = Some c -> contents fs (is ++ [i]) (cs ++ [c]).
  Proof. unfold contents. intros H E. rewrite !map_app, H. cbn. now rewrite E. Qed.
End Files.

Lemma last_nth {A} (l : list A) d : last l d = nth (length l - 1) l d.
Proof.
  induction l as [|a [|b l] IH]; auto. change (last (a :: b :: l) d) with (last (b :: l) d). rewrite IH.
  cbn [length]. replace (S (S (length l)) - 1)%nat with (S (length l)) by lia. cbn. now rewrite Nat.sub_0_r.
Qed.
Lemma last_snoc {A} (l : list A) a d : last (l ++ [a]) d = a.
Proof. apply last_last. Qed.

Lemma ref_snoc vs v i : referenced (vs ++ [v]) i <-> referenced vs i \/ In i (concat v).
Proof.
  split.
  - intros (u & H1 & H2). apply in_app_iff in H1 as [H1|[<-|[]]]; [left; exists u; auto|auto].
  - intros [(u & H1 & H2)|H]; [exists u|exists v]; rewrite in_app_iff; cbn; auto.
Qed.
Lemma current_ref vs i : current vs i -> referenced vs i.
Proof.
  unfold current. destruct vs as [|v vs]; [intros []|]. intros H. exists (last (v :: vs) []). split; auto.
  rewrite last_nth. apply nth_In. cbn. lia.
Qed.

Lemma split_set {A} i (x : A) l : nth_error l i = Some x ->
  exists l1 l2, l = l1 ++ x :: l2 /\ forall y, set_nth i y l = l1 ++ y :: l2.
Proof.
  revert i. induction l as [|a l IH]; intros [|i] H; cbn in *; try discriminate.
  - injection H as ->. exists [], l. auto.
  - destruct (IH _ H) as (l1 & l2 & -> & E). exists (a :: l1), l2. split; auto. intros y. cbn. now rewrite E.
Qed.

Section Inv.
  Context {C : Type}.
  Variable merge : list C -> option (list C).
  Hypothesis MERGE : forall l outs, merge l = Some outs -> outs <> [].

  Definition owned (j : job C) : list N :=
    match j_pc j with
    | JAlloc _ _ _ outs => outs
    | JWrite _ _ id _ _ outs => id :: outs
    | JCas _ _ outs => outs
    | JClean todo _ => todo
    | _ => []
    end.
  Definition fowned (f : fjob C) : list N :=
    match f_pc f with FWrite i | FPublish i => [i] | _ => [] end.

  Notation versions := (list (list (list N))).

  (** Every version is made from the one before it by a flush or a compaction. *)
  Definition step_made (es : list (jevent C)) (fs : files) (vs : versions) (k : nat) : Prop :=
    let s := mkJS fs vs 0 [] [] [] in
    (exists level c i, In (EFlush level c) es /\ flushed s k level c i) \/
    (exists t h, In (EJob t h) es /\ compacted merge s k t).

  Record core (es : list (jevent C)) (fs : files) (vs : versions) (next : N) (O : list N) : Prop := {
    co_nodup : NoDup O;
    co_below : forall o, In o O -> o < next;
    co_unref : forall o, In o O -> ~ referenced vs o;
    co_ref : forall i, referenced vs i -> i < next /\ exists c, file i fs = Some c;
    co_max : forall i, referenced vs i -> exists m, current vs m /\ i <= m;
    co_uniq : forall v, In v vs -> NoDup (concat v);
    co_made : forall k, (k < length vs)%nat -> step_made es fs vs k
  }.

  Definition taken (vs : versions) (j : job C) (head : nat) (ins : list (nat * N)) : Prop :=
    (1 <= head <= length vs)%nat /\ ins <> [] /\ ins = jt_input (j_task j) /\
    resolve_inputs ident (nth (head - 1) vs []) ins = Some ins.
  Definition gone (vs : versions) (i : N) : Prop := referenced vs i /\ ~ current vs i.

  Definition job_ok (es : list (jevent C)) (fs : files) (vs : versions) (next : N) (j : job C) : Prop :=
    (exists h, In (EJob (j_task j) h) es) /\
    match j_pc j with
    | JRead head ins todo got =>
        taken vs j head ins /\ exists dn, map snd ins = dn ++ todo /\ contents fs dn got
    | JAlloc head ins todo outs =>
        taken vs j head ins /\ exists cs dn, contents fs (map snd ins) cs /\ merge cs = Some (dn ++ todo) /\
          contents fs outs dn /\ forall i o, In i (map snd ins) -> In o outs -> i < o
    | JWrite head ins id c todo outs =>
        taken vs j head ins /\ (exists cs dn, contents fs (map snd ins) cs /\ merge cs = Some (dn ++ c :: todo) /\
          contents fs outs dn) /\ forall i o, In i (map snd ins) -> In o (id :: outs) -> i < o
    | JCas head ins outs =>
        taken vs j head ins /\ exists cs dn, contents fs (map snd ins) cs /\ merge cs = Some dn /\
          contents fs outs dn /\ forall i o, In i (map snd ins) -> In o outs -> i < o
    | JPlan ins => forall i, In i (map snd ins) -> gone vs i
    | _ => True
    end.
  Definition flush_ok (es : list (jevent C)) (fs : files) (vs : versions) (f : fjob C) : Prop :=
    In (EFlush (f_level f) (f_content f)) es /\
    match f_pc f with
    | FPublish i => file i fs = Some (f_content f)
    | FDone i => exists k, flushed (mkJS fs vs 0 [] [] []) k (f_level f) (f_content f) i
    | _ => True
    end.

  Definition all_owned (s : jstate C) : list N := flat_map owned (js_jobs s) ++ flat_map fowned (js_flushes s).
  Record Inv (es : list (jevent C)) (s : jstate C) : Prop := {
    in_core : core es (js_files s) (js_versions s) (js_next s) (all_owned s);
    in_jobs : Forall (job_ok es (js_files s) (js_versions s) (js_next s)) (js_jobs s);
    in_flushes : Forall (flush_ok es (js_files s) (js_versions s)) (js_flushes s);
    in_plan : forall i, In i (js_plan s) -> gone (js_versions s) i
  }.

  (** *** Stability *)
  Definition extends (vs vs' : versions) : Prop := exists r, vs' = vs ++ r.
  Lemma extends_refl vs : extends vs vs.
  Proof. exists []. now rewrite app_nil_r. Qed.
  Lemma extends_ref vs vs' i : extends vs vs' -> referenced vs i -> referenced vs' i.
  Proof. intros (r & ->) (v & H1 & H2). exists v. rewrite in_app_iff. auto. Qed.
  Lemma extends_nth vs vs' k : extends vs vs' -> (k < length vs)%nat -> nth k vs' [] = nth k vs [].
  Proof. intros (r & ->) H. now rewrite app_nth1. Qed.
  Lemma extends_nth_error vs vs' k : extends vs vs' -> (k < length vs)%nat -> nth_error vs' k = nth_error vs k.
  Proof. intros (r & ->) H. now rewrite nth_error_app1. Qed.
  Lemma extends_firstn vs vs' k : extends vs vs' -> (k <= length vs)%nat -> firstn k vs' = firstn k vs.
  Proof. intros (r & ->) H. rewrite firstn_app. replace (k - length vs)%nat with 0%nat by lia. cbn. now rewrite app_nil_r. Qed.
  Lemma extends_length vs vs' : extends vs vs' -> (length vs <= length vs')%nat.
  Proof. intros (r & ->). rewrite app_length. lia. Qed.

  Lemma published_mono fs fs' vs vs' k v v' : extends vs vs' -> (k < length vs)%nat ->
    published (mkJS fs vs 0 [] [] [] : jstate C) k v v' -> published (mkJS fs' vs' 0 [] [] [] : jstate C) k v v'.
  Proof.
    intros X L (H1 & H2). cbn in *. split; cbn; [now rewrite (extends_nth_error _ _ _ X)|].
    destruct k; auto. rewrite H2. symmetry. apply extends_nth; auto. lia.
  Qed.
  Lemma flushed_lt fs vs k level c i : flushed (mkJS fs vs 0 [] [] [] : jstate C) k level c i -> (k < length vs)%nat.
  Proof. intros (v & v' & (H & _) & _). apply nth_error_Some. cbn in H. congruence. Qed.
  Lemma flushed_mono fs fs' vs vs' k level c i : extends vs vs' ->
    (forall i, referenced vs i -> file i fs' = file i fs) ->
    flushed (mkJS fs vs 0 [] [] [] : jstate C) k level c i -> flushed (mkJS fs' vs' 0 [] [] [] : jstate C) k level c i.
  Proof.
    intros X K H. pose proof (flushed_lt _ _ _ _ _ _ H) as L. destruct H as (v & v' & P & A & F & U).
    exists v, v'. split; [now apply (published_mono fs fs' vs vs')|]. split; auto. split.
    - unfold file_of in *. cbn in *. rewrite K; auto. exists v'. destruct P as [P _]. cbn in P. split; [eapply nth_error_In; eauto|].
      apply In_nth_level. exists level. apply A. auto.
    - cbn in *. rewrite (extends_firstn _ _ _ X); auto. lia.
  Qed.
  Lemma in_concat_levels (v : list (list N)) l x : In x (nth l v []) -> In x (concat v).
  Proof. intros H. apply In_nth_level. eauto. Qed.
  Lemma published_refs fs vs k v v' : published (mkJS fs vs 0 [] [] [] : jstate C) k v v' ->
    (forall x, In x (concat v) -> referenced vs x) /\ (forall x, In x (concat v') -> referenced vs x).
  Proof.
    intros (P1 & P2). cbn in *. assert (L : (k < length vs)%nat) by (apply nth_error_Some; congruence). split.
    - intros x Hx. destruct k; [subst; destruct Hx|]. exists v. split; auto. subst. apply nth_In. lia.
    - intros x Hx. exists v'. split; auto. eapply nth_error_In; eauto.
  Qed.
  Lemma compacted_mono fs fs' vs vs' k t : extends vs vs' ->
    (forall i, referenced vs i -> file i fs' = file i fs) ->
    compacted merge (mkJS fs vs 0 [] [] [] : jstate C) k t -> compacted merge (mkJS fs' vs' 0 [] [] [] : jstate C) k t.
  Proof.
    intros X K (v & v' & outs & cs & cs' & P & NI & (R1 & R2) & C1 & M & C2 & N1 & U).
    assert (L : (k < length vs)%nat) by (destruct P as [P _]; apply nth_error_Some; cbn in P; congruence).
    destruct (published_refs _ _ _ _ _ P) as [Q1 Q2]. cbn in *.
    assert (KK : forall is ds, (forall i, In i is -> referenced vs i) -> contents fs is ds -> contents fs' is ds).
    { intros is ds H E. unfold contents in *. rewrite <- E. apply map_ext_in. auto. }
    exists v, v', outs, cs, cs'. split; [now apply (published_mono fs fs' vs vs')|]. split; auto. split; [split; auto|]. cbn. split.
    { apply KK; auto. intros i Hi. apply in_map_iff in Hi as ([l x] & <- & Hx). apply Q1. cbn. eapply in_concat_levels. eauto. }
    split; auto. split.
    { apply KK; auto. intros i Hi. apply Q2. apply (in_concat_levels v' (jt_target t)). apply R2. auto. }
    split; auto. intros o Ho. rewrite (extends_firstn _ _ _ X) by lia. auto.
  Qed.
  Lemma made_mono es es' fs fs' vs vs' k : incl es es' -> extends vs vs' ->
    (forall i, referenced vs i -> file i fs' = file i fs) ->
    step_made es fs vs k -> step_made es' fs' vs' k.
  Proof.
    intros I X K [(l & c & i & H1 & H2)|(t & h & H1 & H2)].
    - left. exists l, c, i. split; auto. eapply flushed_mono; eauto.
    - right. exists t, h. split; auto. eapply compacted_mono; eauto.
  Qed.
End Inv.
