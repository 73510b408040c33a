(** Identifiers of published files under concurrent background jobs, whatever calls fail. *)
From Coq Require Import List Arith NArith Bool Lia Permutation.
From Verif Require Import Base.Order Base.Sub Model.SsTable Model.Version Model.Planner Model.Sched Model.Jobs
     Spec.JobSpec Proof.SstFacts Proof.VersionFacts Proof.LiveFacts Proof.JobInv Proof.JobStep.
Import ListNotations.
Local Open Scope N_scope.

Section Ids.
  Context {C : Type}.
  Variable merge : list C -> option (list C).
  Hypothesis MERGE : forall l outs, merge l = Some outs -> outs <> [].
  Notation versions := (list (list (list N))).

  (** The identifiers a job may still publish. *)
  Definition owns (j : job C) : list N :=
    match j_pc j with
    | JAlloc _ _ _ outs => outs
    | JWrite _ _ id _ _ outs => id :: outs
    | JCas _ _ outs => outs
    | _ => []
    end.
  Record base (vs : versions) (next : N) (O : list N) : Prop := {
    ba_nodup : NoDup O;
    ba_below : forall o, In o O -> o < next;
    ba_unref : forall o, In o O -> ~ referenced vs o;
    ba_ref : forall i, referenced vs i -> i < next;
    ba_max : forall i, referenced vs i -> exists m, current vs m /\ i <= m;
    ba_uniq : NoDup (concat (latest vs));
    ba_new : forall k i, (k < length vs)%nat -> In i (concat (nth k vs [])) ->
      In i (concat (match k with O => [] | S p => nth p vs [] end)) \/ ~ referenced (firstn k vs) i
  }.
  Definition job_id (vs : versions) (j : job C) : Prop :=
    match j_pc j with
    | JRead head ins _ _ => taken vs j head ins
    | JAlloc head ins todo outs =>
        taken vs j head ins /\ (length todo + length outs <> 0)%nat /\ forall i o, In i (map snd ins) -> In o outs -> i < o
    | JWrite head ins id _ _ outs => taken vs j head ins /\ forall i o, In i (map snd ins) -> In o (id :: outs) -> i < o
    | JCas head ins outs => taken vs j head ins /\ outs <> [] /\ forall i o, In i (map snd ins) -> In o outs -> i < o
    | _ => True
    end.

  Lemma base_sub vs next O O' : base vs next O -> NoDup O' -> incl O' O -> base vs next O'.
  Proof. intros [A1 A2 A3 A4 A5 A6 A7] H I. constructor; auto. Qed.
  Lemma base_perm vs next O O' : Permutation O O' -> base vs next O -> base vs next O'.
  Proof.
    intros HP H. eapply base_sub; eauto; [eapply Permutation_NoDup; eauto; apply H|]. intros x Hx. eapply Permutation_in; [symmetry|]; eauto.
  Qed.
  Lemma base_alloc vs next O : base vs next O -> base vs (next + 1) (next :: O).
  Proof.
    intros [A1 A2 A3 A4 A5 A6 A7]. constructor; auto.
    - constructor; auto. intros H. apply A2 in H. lia.
    - intros o [<-|H]; [lia|]. apply A2 in H. lia.
    - intros o [<-|H]; [|auto]. intros H. apply A4 in H. lia.
    - intros i H. apply A4 in H. lia.
  Qed.
  Lemma nth_last_in (vs : versions) x : In x (concat (latest vs)) -> referenced vs x.
  Proof. apply current_ref. Qed.

  (** A new version: files of the latest one and files owned. *)
  Lemma base_version vs next P R v' : base vs next (P ++ R) -> NoDup (concat v') ->
    (forall x, In x (concat v') -> In x (concat (latest vs)) \/ In x P) ->
    (forall i, current vs i -> In i (concat v') \/ exists o, In o (concat v') /\ i < o) ->
    base (vs ++ [v']) next R.
  Proof.
    intros [A1 A2 A3 A4 A5 A6 A7] HN HI HM. constructor.
    - clear - A1. induction P as [|x P IH]; auto. apply IH. now inversion A1.
    - intros o H. apply A2. apply in_or_app. auto.
    - intros o H HR. apply ref_snoc in HR as [HR|HR]; [apply (A3 o); auto; apply in_or_app; auto|].
      apply HI in HR as [HR|HR]; [apply (A3 o); [apply in_or_app; auto|now apply nth_last_in]|].
      clear - A1 H HR. induction P as [|x P IH]; [destruct HR|]. inversion A1; subst. destruct HR as [->|HR]; auto. apply H2. apply in_or_app. auto.
    - intros i HR. apply ref_snoc in HR as [HR|HR]; auto. apply HI in HR as [HR|HR]; [apply A4; now apply nth_last_in|]. apply A2. apply in_or_app. auto.
    - intros i HR. unfold current. rewrite last_snoc. apply ref_snoc in HR as [HR|HR]; [|exists i; split; auto; lia].
      apply A5 in HR as (m & M1 & M2). apply HM in M1 as [M1|(o & M1 & M3)]; [exists m; auto|exists o; split; auto; lia].
    - unfold latest. now rewrite last_snoc.
    - intros k i HK Hi. rewrite app_length in HK. cbn in HK. destruct (Nat.eq_dec k (length vs)) as [->|NE].
      + rewrite app_nth2, Nat.sub_diag in Hi by lia. cbn in Hi. rewrite firstn_app, Nat.sub_diag, firstn_O, app_nil_r, firstn_all.
        apply HI in Hi as [Hi|Hi].
        * left. unfold latest in Hi. rewrite last_nth in Hi. destruct vs as [|w vs]; [destruct Hi|]. cbn [length] in *.
          replace (S (length vs) - 1)%nat with (length vs) in Hi by lia. rewrite app_nth1 by (cbn; lia). exact Hi.
        * right. apply A3. apply in_or_app. auto.
      + assert (HK' : (k < length vs)%nat) by lia. rewrite app_nth1 in Hi by lia.
        destruct (A7 k i HK' Hi) as [H|H]; [left; destruct k; auto; rewrite app_nth1 by lia; auto|].
        right. rewrite firstn_app. replace (k - length vs)%nat with 0%nat by lia. now rewrite firstn_O, app_nil_r.
  Qed.

  Lemma job_id_mono vs vs' j : extends vs vs' -> job_id vs j -> job_id vs' j.
  Proof. intros E. unfold job_id. destruct (j_pc j); auto; intuition eauto using taken_mono. Qed.

  Lemma cas_version vs next (j : job C) head ins outs R vs' :
    base vs next (outs ++ R) -> taken vs j head ins -> outs <> [] -> (forall i o, In i (map snd ins) -> In o outs -> i < o) ->
    head = length vs -> publish (outcome_edits ident ins outs (jt_target (j_task j))) vs = Some vs' ->
    base vs' next R /\ extends vs vs'.
  Proof.
    intros HB (HH & HI & HT & HR) HN HL -> HP. unfold publish in HP.
    rewrite <- last_nth in HR. fold (latest vs) in HR.
    destruct (replace_levels (latest vs) ins outs (jt_target (j_task j))) as (v' & E & _ & ND & HX); auto.
    - apply HB.
    - pose proof (ba_nodup _ _ _ HB) as H. clear - H. induction outs as [|o outs IH]; [constructor|]. inversion H; subst. constructor; auto.
      intros X. apply H2. apply in_or_app. auto.
    - intros o Ho Hc. apply (ba_unref _ _ _ HB o); [apply in_or_app; auto|]. now apply nth_last_in.
    - rewrite E in HP. injection HP as <-. split; [|eexists; reflexivity]. eapply base_version; eauto.
      + intros x Hx. apply HX in Hx as [Hx|[Hx _]]; auto.
      + intros i Hi. destruct (in_dec N.eq_dec i (map snd ins)) as [H|H].
        * right. destruct outs as [|o outs]; [congruence|]. exists o. split; [apply HX; left; now left|]. apply HL; auto. now left.
        * left. apply HX. right. auto.
  Qed.

  Lemma job_step_ids s j o R s' j' : base (js_versions s) (js_next s) (owns j ++ R) -> job_id (js_versions s) j ->
    job_step merge s j o = (s', j') ->
    base (js_versions s') (js_next s') (owns j' ++ R) /\ job_id (js_versions s') j' /\
    extends (js_versions s) (js_versions s') /\ js_jobs s' = js_jobs s /\ js_flushes s' = js_flushes s.
  Proof.
    intros HB HJ HS.
    assert (HR : base (js_versions s) (js_next s) R).
    { eapply base_sub; eauto; [|intros x Hx; apply in_or_app; auto]. pose proof (ba_nodup _ _ _ HB) as H. clear - H.
      induction (owns j) as [|x P IH]; auto. apply IH. now inversion H. }
    unfold job_step in HS. unfold owns in HB. unfold job_id in HJ.
    destruct (j_pc j) as [|head ins todo got|head ins todo outs|head ins id c todo outs|head ins outs|todo retry|ins| |] eqn:EP.
    - destruct (js_versions s) as [|v0 vs0] eqn:EV; [injection HS as <- <-; unfold owns, job_id; cbn [with_pc j_pc]; rewrite EV; auto using extends_refl|].
      rewrite <- EV in *. destruct (match j_head j with Some h => Nat.eqb h (length (js_versions s)) | None => true end);
        [|injection HS as <- <-; unfold owns, job_id; cbn [with_pc j_pc]; auto using extends_refl].
      destruct (resolve (latest (js_versions s)) (j_task j)) as [[|x ins]|] eqn:ER;
        injection HS as <- <-; unfold owns, job_id; cbn [with_pc j_pc]; auto using extends_refl.
      split; auto. split; [|auto using extends_refl].
      unfold resolve in ER. destruct (resolve_In _ _ _ _ ER) as [RI RF].
      assert (EI : x :: ins = jt_input (j_task j)).
      { rewrite <- RI. transitivity (map (fun y : nat * N => y) (x :: ins)); [now rewrite map_id|]. apply map_ext. intros [? ?]. reflexivity. }
      unfold taken. cbn [j_task]. split; [rewrite EV; cbn [length]; lia|]. split; [discriminate|]. split; auto.
      rewrite <- last_nth. fold (latest (js_versions s)). rewrite EI. rewrite EI in ER. exact ER.
    - destruct todo as [|i todo].
      + destruct (merge got) as [outs|] eqn:EM; injection HS as <- <-; unfold owns, job_id; cbn [with_pc j_pc]; auto using extends_refl.
        split; auto. split; [|auto using extends_refl]. split; [exact HJ|]. split; [|intros i o' _ []].
        apply MERGE in EM. destruct outs; [congruence|]. cbn. lia.
      + destruct o; try (injection HS as <- <-; unfold owns, job_id; cbn [with_pc j_pc]; auto using extends_refl).
        destruct (file i (js_files s)); injection HS as <- <-; unfold owns, job_id; cbn [with_pc j_pc]; auto using extends_refl.
    - destruct HJ as (HT & HN & HL). destruct todo as [|c todo].
      + injection HS as <- <-; unfold owns, job_id; cbn [with_pc j_pc]. split; auto. split; [|auto using extends_refl].
        split; [exact HT|]. split; auto. cbn in HN. destruct outs; [cbn in HN; lia|discriminate].
      + injection HS as <- <-; unfold owns, job_id; cbn [with_pc j_pc js_versions js_next js_jobs js_flushes].
        split; [apply (base_alloc _ _ (outs ++ R)); auto|]. split; [|auto using extends_refl]. split; [exact HT|].
        intros i o' Hi [<-|Ho]; [|eauto]. apply (ba_ref _ _ _ HR). eapply taken_ref; eauto.
    - destruct HJ as (HT & HL).
      destruct o; injection HS as <- <-; unfold owns, job_id; cbn [with_pc j_pc js_versions js_next js_jobs js_flushes]; auto using extends_refl.
      split.
      + eapply base_perm; [|exact HB]. cbn [app]. rewrite <- app_assoc. apply Permutation_cons_app. apply Permutation_refl.
      + split; [|auto using extends_refl]. split; [exact HT|]. split; [rewrite app_length; cbn; lia|].
        intros i o' Hi Ho. apply HL; auto. apply in_app_or in Ho as [Ho|[->|[]]]; [now right|now left].
    - destruct HJ as (HT & HN & HL). destruct (Nat.eqb_spec head (length (js_versions s))) as [EH|EH]; cbn [negb] in HS;
        [|injection HS as <- <-; unfold owns, job_id; cbn [with_pc j_pc]; auto using extends_refl].
      destruct (publish _ (js_versions s)) as [vs'|] eqn:EPB;
        [|injection HS as <- <-; unfold owns, job_id; cbn [with_pc j_pc]; auto using extends_refl].
      destruct (cas_version _ _ j head ins outs R vs' HB HT HN HL EH EPB) as [B1 B2].
      destruct o; injection HS as <- <-; unfold owns, job_id; cbn [with_pc j_pc js_versions js_next js_jobs js_flushes]; auto using extends_refl.
    - destruct todo as [|i todo]; injection HS as <- <-; unfold owns, job_id; cbn [with_pc j_pc js_versions js_next js_jobs js_flushes].
      + destruct retry; auto using extends_refl.
      + auto using extends_refl.
    - destruct o; injection HS as <- <-; unfold owns, job_id; cbn [with_pc j_pc js_versions js_next js_jobs js_flushes]; auto using extends_refl.
    - injection HS as <- <-. unfold owns, job_id. rewrite EP. auto using extends_refl.
    - injection HS as <- <-. unfold owns, job_id. rewrite EP. auto using extends_refl.
  Qed.

  Lemma flush_step_ids (s : jstate C) f o R s' f' : base (js_versions s) (js_next s) (fowned f ++ R) ->
    flush_job_step s f o = (s', f') ->
    base (js_versions s') (js_next s') (fowned f' ++ R) /\ extends (js_versions s) (js_versions s') /\
    js_jobs s' = js_jobs s /\ js_flushes s' = js_flushes s.
  Proof.
    intros HB HS.
    assert (HR : base (js_versions s) (js_next s) R).
    { eapply base_sub; eauto; [|intros x Hx; apply in_or_app; auto]. pose proof (ba_nodup _ _ _ HB) as H. clear - H.
      induction (fowned f) as [|x P IH]; auto. apply IH. now inversion H. }
    unfold flush_job_step in HS. unfold fowned in HB. destruct (f_pc f) as [|id|id|id|] eqn:EP.
    - injection HS as <- <-. unfold fowned. cbn [with_fpc f_pc js_versions js_next js_jobs js_flushes].
      split; [now apply (base_alloc _ _ R)|auto using extends_refl].
    - destruct o; injection HS as <- <-; unfold fowned; cbn [with_fpc f_pc js_versions js_next js_jobs js_flushes]; auto using extends_refl.
    - assert (PB : forall vs', publish [AddSsts (f_level f) [id]] (js_versions s) = Some vs' -> base vs' (js_next s) R /\ extends (js_versions s) vs').
      { intros vs' HP. unfold publish in HP. destruct (add_levels (latest (js_versions s)) (f_level f) id) as (v' & E & _ & PM).
        - intros H. apply (ba_unref _ _ _ HB id); [now left|]. now apply nth_last_in.
        - rewrite E in HP. injection HP as <-. split; [|eexists; reflexivity]. eapply (base_version _ _ [id]); eauto.
          + eapply Permutation_NoDup; [symmetry; exact PM|]. constructor; [|apply HB].
            intros H. apply (ba_unref _ _ _ HB id); [now left|]. now apply nth_last_in.
          + intros x Hx. eapply Permutation_in in Hx; [|exact PM]. destruct Hx as [<-|Hx]; auto. right. now left.
          + intros i Hi. left. eapply Permutation_in; [symmetry; exact PM|]. now right. }
      destruct (publish [AddSsts (f_level f) [id]] (js_versions s)) as [vs'|];
        [|injection HS as <- <-; unfold fowned; cbn [with_fpc f_pc]; auto using extends_refl].
      destruct (PB vs' eq_refl) as [B1 B2].
      destruct o; injection HS as <- <-; unfold fowned; cbn [with_fpc f_pc js_versions js_next js_jobs js_flushes]; auto using extends_refl.
    - injection HS as <- <-. unfold fowned. rewrite EP. auto using extends_refl.
    - injection HS as <- <-. unfold fowned. rewrite EP. auto using extends_refl.
  Qed.

  Definition all_owns (s : jstate C) : list N := flat_map owns (js_jobs s) ++ flat_map fowned (js_flushes s).
  Definition ids_ok (s : jstate C) : Prop :=
    base (js_versions s) (js_next s) (all_owns s) /\ Forall (job_id (js_versions s)) (js_jobs s).

  Lemma ids_step s e : ids_ok s -> ids_ok (jevent_step merge s e).
  Proof.
    intros [HB HJ]. destruct e as [t h|l c|i o|i o|i|]; cbn [jevent_step].
    - split; cbn [js_versions js_next js_jobs js_flushes].
      + unfold all_owns. cbn [js_jobs js_flushes]. rewrite flat_map_app. cbn. rewrite app_nil_r. exact HB.
      + apply Forall_app. split; auto. constructor; [exact I|constructor].
    - split; cbn [js_versions js_next js_jobs js_flushes]; auto.
      unfold all_owns. cbn [js_jobs js_flushes]. rewrite flat_map_app. cbn. rewrite app_nil_r. exact HB.
    - destruct (nth_error (js_jobs s) i) as [j|] eqn:EN; [|split; auto].
      destruct (job_step merge s j o) as [s' j'] eqn:ES. destruct (split_set _ _ _ EN) as (l1 & l2 & EL & SET).
      set (R := flat_map owns (l1 ++ l2) ++ flat_map fowned (js_flushes s)).
      assert (PM : forall x, Permutation (flat_map owns (l1 ++ x :: l2) ++ flat_map fowned (js_flushes s)) (owns x ++ R)).
      { intros x. unfold R. rewrite app_assoc. apply Permutation_app_tail. apply owned_split. }
      destruct (job_step_ids s j o R s' j') as (B & J & X & E1 & E2); auto.
      { eapply base_perm; [|exact HB]. unfold all_owns. rewrite EL. apply PM. }
      { rewrite Forall_forall in HJ. apply HJ. eapply nth_error_In; eauto. }
      split; unfold all_owns; cbn [js_versions js_next js_jobs js_flushes]; rewrite E1, SET.
      + rewrite E2. eapply base_perm; [|exact B]. apply Permutation_sym, PM.
      + rewrite EL in HJ. apply Forall_app in HJ as [J1 J2]. inversion J2; subst.
        apply Forall_app. split; [|constructor; auto]; eapply Forall_impl; try eassumption; intros; eapply job_id_mono; eauto.
    - destruct (nth_error (js_flushes s) i) as [f|] eqn:EN; [|split; auto].
      destruct (flush_job_step s f o) as [s' f'] eqn:ES. destruct (split_set _ _ _ EN) as (l1 & l2 & EL & SET).
      set (R := flat_map fowned (l1 ++ l2) ++ flat_map owns (js_jobs s)).
      assert (PM : forall x, Permutation (flat_map owns (js_jobs s) ++ flat_map fowned (l1 ++ x :: l2)) (fowned x ++ R)).
      { intros x. unfold R. etransitivity; [apply Permutation_app_comm|]. rewrite app_assoc. apply Permutation_app_tail. apply owned_split. }
      destruct (flush_step_ids s f o R s' f') as (B & X & E1 & E2); auto.
      { eapply base_perm; [|exact HB]. unfold all_owns. rewrite EL. apply PM. }
      split; unfold all_owns; cbn [js_versions js_next js_jobs js_flushes]; rewrite E1.
      + rewrite E2, SET. eapply base_perm; [|exact B]. apply Permutation_sym, PM.
      + eapply Forall_impl; try eassumption; intros; eapply job_id_mono; eauto.
    - destruct (nth_error (js_jobs s) i) as [j|] eqn:EN; [|split; auto].
      destruct (split_set _ _ _ EN) as (l1 & l2 & EL & SET).
      split; unfold all_owns; cbn [js_versions js_next js_jobs js_flushes]; rewrite SET.
      + eapply base_sub; [exact HB| |].
        * pose proof (ba_nodup _ _ _ HB) as H. unfold all_owns in H. rewrite EL in H.
          eapply Permutation_NoDup in H; [|apply Permutation_app_tail, owned_split]. rewrite <- app_assoc in H.
          rewrite flat_map_app. cbn [flat_map]. unfold owns at 2. cbn [with_pc j_pc app]. rewrite <- flat_map_app.
          clear - H. induction (owns j) as [|x P IH]; auto. apply IH. now inversion H.
        * unfold all_owns. rewrite EL. rewrite !flat_map_app. cbn [flat_map]. unfold owns at 2. cbn [with_pc j_pc app].
          intros x. rewrite !in_app_iff. tauto.
      + rewrite EL in HJ. apply Forall_app in HJ as [J1 J2]. inversion J2; subst. apply Forall_app. split; auto. constructor; auto. exact I.
    - split; cbn [js_versions js_next js_jobs js_flushes]; [|constructor]. unfold all_owns. cbn [js_jobs js_flushes flat_map app].
      destruct HB as [A1 A2 A3 A4 A5 A6 A7]. constructor; [apply NoDup_nil|intros o []|intros o []| |auto|auto|auto].
      intros i HR. destruct (A5 i HR) as (m & M1 & M2). unfold restart_id.
      unfold current in M1. fold (latest (js_versions s)) in M1. destruct (latest (js_versions s)) as [|a v] eqn:EL; [destruct M1|].
      assert (m < next_after [a :: v]) by (apply next_after_above; exists (a :: v); cbn; auto). lia.
  Qed.
  Lemma ids_run es : forall s, ids_ok s -> ids_ok (jrun merge s es).
  Proof. induction es as [|e es IH]; intros s H; cbn [jrun]; auto. apply IH. now apply ids_step. Qed.
  Lemma ids_start : ids_ok js_start.
  Proof.
    split; [|constructor]. cbn. constructor.
    - constructor.
    - intros o [].
    - intros o [].
    - intros i (v & [] & _).
    - intros i (v & [] & _).
    - constructor.
    - intros k i H. cbn in H. lia.
  Qed.

  Theorem new_ids es i : referenced (js_versions (jrun merge js_start es)) i -> i < js_next (jrun merge js_start es).
  Proof. apply (ba_ref _ _ _ (proj1 (ids_run es _ ids_start))). Qed.
  Theorem restart_ids es i : let s := jrun merge js_start (es ++ [ERestart]) in
    js_next s = restart_id (js_versions s) /\ (referenced (js_versions s) i -> i <> js_next s).
  Proof.
    intros s. split.
    - unfold s. generalize (@js_start C). induction es as [|e es IH]; intros s0; [reflexivity|]. apply IH.
    - intros H E. pose proof (new_ids (es ++ [ERestart]) i H) as L. fold s in L. lia.
  Qed.
  Theorem never_back es k m n i : let vs := js_versions (jrun merge js_start es) in
    (k < m)%nat -> (m < n)%nat -> (n < length vs)%nat ->
    In i (concat (nth k vs [])) -> ~ In i (concat (nth m vs [])) -> ~ In i (concat (nth n vs [])).
  Proof.
    intros vs HK HM HN HI HO. pose proof (ba_new _ _ _ (proj1 (ids_run es _ ids_start))) as HB. fold vs in HB.
    induction n as [|n IH]; [lia|]. intros HX. destruct (HB (S n) i HN HX) as [H|H].
    - destruct (Nat.eq_dec m n) as [->|NE]; [contradiction|]. apply IH; auto; lia.
    - apply H. exists (nth k vs []). split; auto. rewrite <- (firstn_skipn (S n) vs) at 1. rewrite app_nth1; [apply nth_In|]; rewrite firstn_length; lia.
  Qed.
End Ids.
