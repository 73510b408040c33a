(** Every step of a background job or flush preserves the invariant. *)
From Coq Require Import List Arith NArith Bool Lia Permutation.
From Verif Require Import Base.Order Base.Sub Model.SsTable Model.Version Model.Planner Model.Sched Model.Jobs
     Spec.JobSpec Proof.SstFacts Proof.VersionFacts Proof.LiveFacts Proof.JobInv.
Import ListNotations.
Local Open Scope N_scope.

Section Step.
  Context {C : Type}.
  Variable merge : list C -> option (list C).
  Hypothesis MERGE : forall l outs, merge l = Some outs -> outs <> [].
  Notation versions := (list (list (list N))).
  Notation core := (core merge).
  Notation job_ok := (job_ok merge).

  Lemma core_sub es fs vs next O O' : NoDup O' -> incl O' O -> core es fs vs next O -> core es fs vs next O'.
  Proof. intros N1 I H. destruct H. constructor; auto. Qed.
  Lemma core_perm es fs vs next O O' : Permutation O O' -> core es fs vs next O -> core es fs vs next O'.
  Proof.
    intros P H. apply (core_sub es fs vs next O); auto.
    - eapply Permutation_NoDup; eauto. apply H.
    - intros x Hx. eapply Permutation_in; [apply Permutation_sym|]; eauto.
  Qed.
  Lemma core_files es fs fs' vs next O P : incl P O -> keeps P fs fs' -> core es fs vs next O -> core es fs' vs next O.
  Proof.
    intros I K H. assert (KR : forall i, referenced vs i -> file i fs' = file i fs).
    { intros i Hi. apply K. intros F. apply I in F. eapply co_unref; eauto. }
    destruct H as [H1 H2 H3 H4 H5 H6 H7]. constructor; auto.
    - intros i Hi. rewrite KR by auto. auto.
    - intros k Hk. eapply made_mono; try apply H7; auto using incl_refl, extends_refl.
  Qed.
  Lemma core_next es fs vs next next' O : next <= next' -> core es fs vs next O -> core es fs vs next' O.
  Proof.
    intros L H. destruct H as [H1 H2 H3 H4 H5 H6 H7]. constructor; auto.
    - intros o Ho. apply H2 in Ho. lia.
    - intros i Hi. apply H4 in Hi as [Hi F]. split; auto. lia.
  Qed.
  Lemma core_alloc es fs vs next O : core es fs vs next O -> core es fs vs (next + 1) (next :: O).
  Proof.
    intros H. apply (core_next _ _ _ _ (next + 1)) in H as H'; [|lia]. destruct H' as [H1 H2 H3 H4 H5 H6 H7]. constructor; auto.
    - constructor; auto. intros F. apply (co_below merge _ _ _ _ _ H) in F. lia.
    - intros o [<-|Ho]; auto. lia.
    - intros o [<-|Ho]; auto. intros F. apply (co_ref merge _ _ _ _ _ H) in F as [F _]. lia.
  Qed.
  Lemma core_log es es' fs vs next O : incl es es' -> core es fs vs next O -> core es' fs vs next O.
  Proof.
    intros I H. destruct H as [H1 H2 H3 H4 H5 H6 H7]. constructor; auto.
    intros k Hk. eapply made_mono; try apply H7; eauto using extends_refl.
  Qed.

  Lemma app_unref es fs vs next P R i : core es fs vs next (P ++ R) -> referenced vs i -> ~ In i P.
  Proof. intros H Hi F. eapply co_unref; eauto. apply in_app_iff. auto. Qed.
  Lemma latest_ref es fs vs next O : core es fs vs next O -> NoDup (concat (latest vs)).
  Proof.
    intros H. unfold latest. destruct vs as [|v vs]; [constructor|]. apply (co_uniq merge _ _ _ _ _ H).
    rewrite last_nth. apply nth_In. cbn. lia.
  Qed.
  Lemma published_last (fs : list (N * C)) vs v' : published (mkJS fs (vs ++ [v']) 0 [] [] []) (length vs) (latest vs) v'.
  Proof.
    split; cbn.
    - rewrite nth_error_app2, Nat.sub_diag by lia. reflexivity.
    - unfold latest. rewrite last_nth. destruct vs as [|v vs]; auto. cbn [length]. rewrite app_nth1 by (cbn; lia).
      f_equal. lia.
  Qed.
  Lemma firstn_all_but {A} (l : list A) x : firstn (length l) (l ++ [x]) = l.
  Proof. rewrite firstn_app, Nat.sub_diag, firstn_all. cbn. now rewrite app_nil_r. Qed.

  (** A new version. *)
  Lemma core_version es fs vs next P R v' :
    core es fs vs next (P ++ R) -> NoDup (concat v') ->
    (forall x, In x (concat v') -> In x P \/ current vs x) ->
    (forall x, In x P -> exists c, file x fs = Some c) ->
    (forall m, current vs m -> exists m', In m' (concat v') /\ m <= m') ->
    step_made merge es fs (vs ++ [v']) (length vs) ->
    core es fs (vs ++ [v']) next R.
  Proof.
    intros H ND IN FI MX MD. pose proof (co_nodup merge _ _ _ _ _ H) as NN.
    assert (CUR : forall x, current (vs ++ [v']) x <-> In x (concat v')).
    { intros x. unfold current. rewrite last_snoc. tauto. }
    constructor.
    - revert NN. clear. induction P as [|a P IH]; auto. cbn. intros N1. inversion N1; auto.
    - intros o Ho. apply (co_below merge _ _ _ _ _ H). apply in_app_iff. auto.
    - intros o Ho F. apply ref_snoc in F as [F|F].
      + apply (co_unref merge _ _ _ _ _ H o); auto. apply in_app_iff. auto.
      + apply IN in F as [F|F].
        * clear - NN Ho F. induction P as [|a P IH]; [destruct F|]. cbn in NN. inversion NN; subst.
          destruct F as [->|F]; [|auto]. apply H1, in_app_iff. auto.
        * apply (co_unref merge _ _ _ _ _ H o); [apply in_app_iff; auto|]. now apply current_ref.
    - intros i Hi. apply ref_snoc in Hi as [Hi|Hi]; [now apply (co_ref merge _ _ _ _ _ H)|].
      apply IN in Hi as [Hi|Hi].
      + split; [|auto]. apply (co_below merge _ _ _ _ _ H). apply in_app_iff. auto.
      + apply (co_ref merge _ _ _ _ _ H). now apply current_ref.
    - intros i Hi. apply ref_snoc in Hi as [Hi|Hi].
      + destruct (co_max merge _ _ _ _ _ H i Hi) as (m & M1 & M2). destruct (MX m M1) as (m' & M3 & M4).
        exists m'. split; [now apply CUR|lia].
      + exists i. split; [now apply CUR|lia].
    - intros v Hv. apply in_app_iff in Hv as [Hv|[<-|[]]]; auto. now apply (co_uniq merge _ _ _ _ _ H).
    - intros k Hk. rewrite app_length in Hk. cbn in Hk. destruct (Nat.eq_dec k (length vs)) as [->|NE]; auto.
      eapply made_mono; [apply incl_refl| |reflexivity|apply (co_made merge _ _ _ _ _ H); lia]. eexists. reflexivity.
  Qed.
  Lemma gone_version es fs vs next P R v' i :
    core es fs vs next (P ++ R) -> (forall x, In x (concat v') -> In x P \/ current vs x) ->
    gone vs i -> gone (vs ++ [v']) i.
  Proof.
    intros H IN [G1 G2]. split; [apply ref_snoc; auto|]. unfold current. rewrite last_snoc. intros F.
    apply IN in F as [F|F]; auto. eapply app_unref; eauto.
  Qed.

  Lemma taken_in vs (j : job C) head ins : taken vs j head ins -> In (nth (head - 1) vs []) vs.
  Proof. intros (H & _). apply nth_In. lia. Qed.
  Lemma taken_level vs (j : job C) head ins l x : taken vs j head ins -> In (l, x) ins -> In x (nth l (nth (head - 1) vs []) []).
  Proof.
    intros (_ & _ & _ & R) H. apply resolve_In in R as [_ R]. rewrite Forall_forall in R. apply (R _ H).
  Qed.
  Lemma taken_ref vs (j : job C) head ins x : taken vs j head ins -> In x (map snd ins) -> referenced vs x.
  Proof.
    intros T H. apply in_map_iff in H as ([l y] & <- & H). exists (nth (head - 1) vs []). split; [eapply taken_in; eauto|].
    eapply in_concat_levels. eapply taken_level; eauto.
  Qed.
  Lemma taken_mono vs vs' (j : job C) head ins : extends vs vs' -> taken vs j head ins -> taken vs' j head ins.
  Proof.
    intros X (A & B & D & E). split; [pose proof (extends_length _ _ X); lia|]. split; auto. split; auto.
    rewrite (extends_nth _ _ _ X) by lia. auto.
  Qed.

  (** *** Other jobs and flushes do not notice *)
  Lemma job_stable es fs fs' vs vs' next next' j P :
    job_ok es fs vs next j -> extends vs vs' -> keeps P fs fs' ->
    (forall i, In i (owned j) -> ~ In i P) -> (forall i, referenced vs i -> ~ In i P) ->
    (forall i, gone vs i -> gone vs' i) -> job_ok es fs' vs' next' j.
  Proof.
    intros [H0 H] X K D1 D2 G. split; auto. unfold owned in D1. destruct (j_pc j) eqn:E; auto.
    - destruct H as (T & dn & E1 & E2). split; [eapply taken_mono; eauto|]. exists dn. split; auto.
      eapply contents_keeps; eauto. intros i Hi. apply D2. eapply taken_ref; eauto. rewrite E1. apply in_app_iff. auto.
    - destruct H as (T & cs & dn & E1 & E2 & E3 & E4). split; [eapply taken_mono; eauto|]. exists cs, dn.
      split; [eapply contents_keeps; eauto; intros i Hi; apply D2; eapply taken_ref; eauto|]. split; auto.
      split; auto. eapply contents_keeps; eauto.
    - destruct H as (T & (cs & dn & E1 & E2 & E3) & E4). split; [eapply taken_mono; eauto|]. split; auto. exists cs, dn.
      split; [eapply contents_keeps; eauto; intros i Hi; apply D2; eapply taken_ref; eauto|]. split; auto.
      eapply contents_keeps; eauto. intros i Hi. apply D1. cbn. auto.
    - destruct H as (T & cs & dn & E1 & E2 & E3 & E4). split; [eapply taken_mono; eauto|]. exists cs, dn.
      split; [eapply contents_keeps; eauto; intros i Hi; apply D2; eapply taken_ref; eauto|]. split; auto.
      split; auto. eapply contents_keeps; eauto.
  Qed.
  Lemma flush_stable es (fs fs' : list (N * C)) vs vs' f P :
    flush_ok es fs vs f -> extends vs vs' -> keeps P fs fs' ->
    (forall i, In i (fowned f) -> ~ In i P) -> (forall i, referenced vs i -> ~ In i P) -> flush_ok es fs' vs' f.
  Proof.
    intros [H0 H] X K D1 D2. split; auto. unfold fowned in D1. destruct (f_pc f) eqn:E; auto.
    - rewrite K; auto. apply D1. cbn. auto.
    - destruct H as (k & H). exists k. eapply flushed_mono; [exact X| |exact H]. intros i Hi. apply K. auto.
  Qed.

  (** *** What one step does *)
  Record effect (es : list (jevent C)) (s : jstate C) (P R : list N) (s' : jstate C) (P' : list N) : Prop := {
    ef_core : core es (js_files s') (js_versions s') (js_next s') (P' ++ R);
    ef_keeps : keeps P (js_files s) (js_files s');
    ef_ext : extends (js_versions s) (js_versions s');
    ef_gone : forall i, gone (js_versions s) i -> gone (js_versions s') i;
    ef_plan : forall i, In i (js_plan s') -> In i (js_plan s) \/ gone (js_versions s') i;
    ef_jobs : js_jobs s' = js_jobs s;
    ef_flushes : js_flushes s' = js_flushes s
  }.
  Lemma effect_idle es s P R P' : core es (js_files s) (js_versions s) (js_next s) (P ++ R) ->
    incl P' P -> NoDup P' -> effect es s P R s P'.
  Proof.
    intros H I N1. constructor; auto using keeps_refl, extends_refl.
    apply (core_sub _ _ _ _ (P ++ R)); auto.
    - pose proof (co_nodup merge _ _ _ _ _ H) as N2. revert N1 I. induction P' as [|a P' IH]; intros N1 I; cbn.
      + revert N2. clear. induction P as [|a P IH]; auto. cbn. intros N2. inversion N2; auto.
      + inversion N1; subst. constructor.
        * intros F. apply in_app_iff in F as [F|F]; auto. specialize (I a (or_introl eq_refl)).
          clear - N2 I F. induction P as [|b P IH]; [destruct I|]. cbn in N2. inversion N2; subst.
          destruct I as [->|I]; auto. apply H1, in_app_iff. auto.
        * apply IH; auto. intros x Hx. apply I. cbn. auto.
    - intros x Hx. apply in_app_iff in Hx as [Hx|Hx]; apply in_app_iff; auto.
  Qed.

  Lemma NoDup_left {A} (l l' : list A) : NoDup (l ++ l') -> NoDup l.
  Proof.
    induction l as [|a l IH]; [constructor|]. cbn. intros H. inversion H; subst. constructor; auto. intros F. apply H2, in_app_iff. auto.
  Qed.

  Lemma contents_file (fs : list (N * C)) is cs i : contents fs is cs -> In i is -> exists c, file i fs = Some c.
  Proof.
    unfold contents. revert cs. induction is as [|a is IH]; intros cs H Hi; [destruct Hi|]. destruct cs as [|c cs]; [discriminate|].
    cbn in H. injection H as H1 H2. destruct Hi as [->|Hi]; eauto.
  Qed.
  Lemma contents_nil (fs : list (N * C)) cs : contents fs [] cs -> cs = [].
  Proof. unfold contents. destruct cs; [auto|discriminate]. Qed.

  Lemma publish_job es fs vs next (j : job C) ins outs cs dn R :
    core es fs vs next (outs ++ R) -> (exists h, In (EJob (j_task j) h) es) -> taken vs j (length vs) ins ->
    contents fs (map snd ins) cs -> merge cs = Some dn -> contents fs outs dn ->
    (forall i o, In i (map snd ins) -> In o outs -> i < o) ->
    exists v', publish (outcome_edits ident ins outs (jt_target (j_task j))) vs = Some (vs ++ [v']) /\
      core es fs (vs ++ [v']) next R /\
      (forall x, In x (concat v') -> In x outs \/ current vs x) /\
      (forall i, In i (map snd ins) -> gone (vs ++ [v']) i) /\
      (forall o, In o outs -> referenced (vs ++ [v']) o).
  Proof.
    intros H [h EJ] T E1 E2 E3 LT. pose proof (NoDup_left _ _ (co_nodup merge _ _ _ _ _ H)) as NO.
    assert (NE : outs <> []). { intros ->. apply contents_nil in E3. subst. eapply MERGE; eauto. }
    pose proof T as (T1 & T2 & T3 & T4).
    assert (EL : nth (length vs - 1) vs [] = latest vs) by (unfold latest; now rewrite last_nth). rewrite EL in T4.
    assert (FR : forall o, In o outs -> ~ In o (concat (latest vs))).
    { intros o Ho F. apply (co_unref merge _ _ _ _ _ H o); [apply in_app_iff; auto|]. apply current_ref. exact F. }
    destruct (replace_levels (latest vs) ins outs (jt_target (j_task j)) (latest_ref _ _ _ _ _ H) T4 NE NO FR) as (v' & A1 & A2 & A3 & A4).
    unfold publish. rewrite A1. exists (v_levels v'). split; auto.
    assert (IN : forall x, In x (concat (v_levels v')) -> In x outs \/ current vs x).
    { intros x Hx. apply A4 in Hx as [Hx|[Hx _]]; auto. }
    split; [|split; auto].
    - apply (core_version es fs vs next outs R); auto.
      + intros x Hx. eapply contents_file; eauto.
      + intros m Hm. destruct (in_dec N.eq_dec m (map snd ins)) as [Hi|Hi].
        * destruct outs as [|o outs]; [congruence|]. exists o. split; [apply A4; left; cbn; auto|].
          specialize (LT m o Hi (or_introl eq_refl)). lia.
        * exists m. split; [apply A4; auto|lia].
      + right. exists (j_task j), h. split; auto. exists (latest vs), (v_levels v'), outs, cs, dn.
        split; [apply published_last|]. rewrite <- T3. split; auto. split; auto. split; auto. split; auto. split; auto. split; auto.
        intros o Ho. cbn. rewrite firstn_all_but. apply (co_unref merge _ _ _ _ _ H). apply in_app_iff. auto.
    - split; [|intros x Hx; apply ref_snoc; right; apply A4; auto]. intros i Hi. split.
      + apply ref_snoc. left. eapply taken_ref; eauto.
      + unfold current. rewrite last_snoc. intros F. apply A4 in F as [F|[_ F]]; auto. specialize (LT i i Hi F). lia.
  Qed.

  Lemma publish_flush es fs vs next l c i R :
    core es fs vs next (i :: R) -> In (EFlush l c) es -> file i fs = Some c ->
    exists v', publish [AddSsts l [i]] vs = Some (vs ++ [v']) /\
      core es fs (vs ++ [v']) next R /\
      (forall x, In x (concat v') -> In x [i] \/ current vs x) /\
      flushed (mkJS fs (vs ++ [v']) 0 [] [] []) (length vs) l c i.
  Proof.
    intros H EF E. assert (FR : ~ In i (concat (latest vs))).
    { intros F. apply (co_unref merge _ _ _ _ _ H i); [cbn; auto|]. apply current_ref. exact F. }
    destruct (add_levels (latest vs) l i FR) as (v' & A1 & A2 & A3). unfold publish. rewrite A1. exists (v_levels v'). split; auto.
    assert (IN : forall x, In x (concat (v_levels v')) -> In x [i] \/ current vs x).
    { intros x Hx. apply (Permutation_in _ A3) in Hx as [->|Hx]; cbn; auto. }
    assert (FL : flushed (mkJS fs (vs ++ [v_levels v']) 0 [] [] []) (length vs) l c i).
    { exists (latest vs), (v_levels v'). split; [apply published_last|]. split; auto. split; auto.
      cbn. rewrite firstn_all_but. apply (co_unref merge _ _ _ _ _ H). cbn. auto. }
    split; [|split; auto].
    apply (core_version es fs vs next [i] R); auto.
    - eapply Permutation_NoDup; [apply Permutation_sym, A3|]. constructor; auto. eapply latest_ref; eauto.
    - intros x [<-|[]]. eauto.
    - intros m Hm. exists m. split; [|lia]. eapply Permutation_in; [apply Permutation_sym, A3|]. cbn. auto.
    - left. exists l, c, i. split; auto.
  Qed.

  Lemma job_effect es s j o R s' j' :
    core es (js_files s) (js_versions s) (js_next s) (owned j ++ R) ->
    job_ok es (js_files s) (js_versions s) (js_next s) j -> o <> LostAck ->
    job_step merge s j o = (s', j') ->
    effect es s (owned j) R s' (owned j') /\ job_ok es (js_files s') (js_versions s') (js_next s') j'.
  Proof.
    intros H [OK0 OK] NL ST. pose proof (NoDup_left _ _ (co_nodup merge _ _ _ _ _ H)) as NP.
    assert (IDLE : forall j1, owned j1 = [] -> j_task j1 = j_task j ->
              (match j_pc j1 with JSnap | JDone | JFailed => True | JClean [] _ => True | _ => False end) ->
              (s, j1) = (s', j') -> effect es s (owned j) R s' (owned j') /\ job_ok es (js_files s') (js_versions s') (js_next s') j').
    { intros j1 O1 TK PC E. injection E as <- <-. split.
      - rewrite O1. apply effect_idle; auto; [intros x []|constructor].
      - unfold JobInv.job_ok. rewrite TK. split; auto. destruct (j_pc j1); auto; contradiction. }
    assert (KEEPO : forall j1, owned j1 = owned j -> job_ok es (js_files s) (js_versions s) (js_next s) j1 ->
              (s, j1) = (s', j') -> effect es s (owned j) R s' (owned j') /\ job_ok es (js_files s') (js_versions s') (js_next s') j').
    { intros j1 O1 K1 E. injection E as <- <-. split; auto. rewrite O1. apply effect_idle; auto using incl_refl. }
    assert (CLEAN : forall outs b, owned j = outs -> (s, with_pc j (JClean outs b)) = (s', j') ->
              effect es s (owned j) R s' (owned j') /\ job_ok es (js_files s') (js_versions s') (js_next s') j').
    { intros outs b O1. apply KEEPO; [now rewrite O1|]. split; auto. exact I. }
    unfold job_step in ST. unfold owned in *. destruct (j_pc j) as [|head ins todo got|head ins todo outs|head ins id c todo outs|head ins outs|todo rt|ins| |] eqn:EP.
    - (* snapshot *)
      destruct (js_versions s) as [|v vs] eqn:EV; [eapply IDLE; [..|exact ST]; [reflexivity|reflexivity|exact I]|]. rewrite <- EV in *.
      destruct (match j_head j with Some h => Nat.eqb h (length (js_versions s)) | None => true end); [|eapply IDLE; [..|exact ST]; [reflexivity|reflexivity|exact I]].
      destruct (resolve (latest (js_versions s)) (j_task j)) as [[|p ins]|] eqn:ER; try (eapply IDLE; [..|exact ST]; [reflexivity|reflexivity|exact I]).
      eapply KEEPO; [..|exact ST]; [reflexivity|]. split; auto. cbn [j_pc with_pc]. split.
      + assert (EQ : p :: ins = jt_input (j_task j)).
        { unfold resolve in ER. apply resolve_In in ER as [ER _]. rewrite <- ER.
          transitivity (map (fun x : nat * N => x) (p :: ins)); [now rewrite map_id|]. apply map_ext. intros [? ?]. reflexivity. }
        split; [rewrite EV; cbn; lia|]. split; [discriminate|]. split; auto.
        rewrite EQ at 1. unfold resolve in ER. unfold latest in ER. rewrite last_nth in ER. exact ER.
      + exists []. split; auto. reflexivity.
    - destruct OK as (T & dn & E1 & E2). destruct todo as [|i todo].
      + destruct (merge got) as [outs|] eqn:EM; [|eapply IDLE; [..|exact ST]; [reflexivity|reflexivity|exact I]].
        eapply KEEPO; [..|exact ST]; [reflexivity|]. split; auto. cbn [j_pc with_pc]. split; auto. exists got, []. rewrite app_nil_r in E1.
        rewrite E1. split; auto. split; auto. split; [reflexivity|]. intros ? ? ? [].
      + destruct o; try (eapply IDLE; [..|exact ST]; [reflexivity|reflexivity|exact I]).
        destruct (file i (js_files s)) as [c|] eqn:EF; [|eapply IDLE; [..|exact ST]; [reflexivity|reflexivity|exact I]].
        eapply KEEPO; [..|exact ST]; [reflexivity|]. split; auto. cbn [j_pc with_pc]. split; auto. exists (dn ++ [i]).
        rewrite <- app_assoc. split; auto. now apply contents_app.
    - destruct OK as (T & cs & dn & E1 & E2 & E3 & E4). destruct todo as [|c todo].
      + eapply KEEPO; [..|exact ST]; [reflexivity|]. split; auto. cbn [j_pc with_pc]. split; auto. exists cs, dn. rewrite app_nil_r in E2. auto.
      + injection ST as <- <-. cbn [j_pc with_pc js_files js_versions js_next]. split.
        * constructor; cbn [js_files js_versions js_next js_plan js_jobs js_flushes]; auto using keeps_refl, extends_refl.
          apply core_alloc. exact H.
        * split; auto. cbn [j_pc with_pc]. split; auto. split; [exists cs, dn; auto|].
          intros i x Hi [<-|Hx]; auto. apply (co_ref merge _ _ _ _ _ H). eapply taken_ref; eauto.
    - destruct OK as (T & (cs & dn & E1 & E2 & E3) & E4).
      assert (WR : forall c', keeps (id :: outs) (js_files s) (write id c' (js_files s))) by (intros; apply keeps_write; cbn; auto).
      assert (CW : forall c', core es (write id c' (js_files s)) (js_versions s) (js_next s) ((id :: outs) ++ R)).
      { intros c'. eapply core_files; [|apply WR|exact H]. intros x Hx. apply in_app_iff. auto. }
      assert (NIN : ~ In id outs) by (inversion NP; auto).
      assert (NR : forall i, In i (map snd ins) -> ~ In i [id]).
      { intros i Hi [->|[]]. specialize (E4 i i Hi (or_introl eq_refl)). lia. }
      assert (W1 : forall c', keeps [id] (js_files s) (write id c' (js_files s))) by (intros; apply keeps_write; cbn; auto).
      destruct o as [| |c'|]; [| |  |congruence].
      + injection ST as <- <-. cbn [j_pc with_pc js_files js_versions js_next]. split.
        * constructor; cbn [js_files js_versions js_next js_plan js_jobs js_flushes]; auto using extends_refl.
          eapply core_perm; [|apply CW]. cbn. rewrite <- app_assoc. cbn. apply Permutation_middle.
        * split; auto. cbn [j_pc with_pc]. split; auto. exists cs, (dn ++ [c]). split; [eapply contents_keeps; [apply W1|exact NR|exact E1]|].
          split; [now rewrite <- app_assoc|]. split.
          -- apply contents_app; [|rewrite file_write; now rewrite N.eqb_refl]. eapply contents_keeps; [apply W1| |exact E3]. intros i Hi [->|[]]. auto.
          -- intros i x Hi Hx. apply E4; auto. apply in_app_iff in Hx as [Hx|[<-|[]]]; cbn; auto.
      + injection ST as <- <-. split; [|split; auto; exact I]. cbn [j_pc with_pc]. apply effect_idle; auto; [intros x Hx; cbn; auto|inversion NP; auto].
      + injection ST as <- <-. cbn [j_pc with_pc js_files js_versions js_next]. split; [|split; auto; exact I].
        constructor; cbn [js_files js_versions js_next js_plan js_jobs js_flushes]; auto using extends_refl.
        eapply core_sub; [..|apply CW].
        * pose proof (co_nodup merge _ _ _ _ _ H) as N1. cbn in N1. inversion N1; auto.
        * intros x Hx. cbn. auto.
    - destruct OK as (T & cs & dn & E1 & E2 & E3 & E4).
      destruct (Nat.eqb_spec head (length (js_versions s))) as [EH|NH]; cbn [negb] in ST; [|eapply CLEAN; [reflexivity|exact ST]].
      subst head. destruct (publish_job _ _ _ _ j ins outs cs dn R H OK0 T E1 E2 E3 E4) as (v' & P1 & P2 & P3 & P4 & P5).
      rewrite P1 in ST. destruct o as [| |c'|]; try (eapply CLEAN; [reflexivity|exact ST]); [|congruence].
      injection ST as <- <-. cbn [j_pc with_pc js_files js_versions js_next]. split.
      + constructor; cbn [js_files js_versions js_next js_plan js_jobs js_flushes]; auto using keeps_refl.
        * eexists. reflexivity.
        * intros i G. eapply gone_version; eauto.
      + split; auto.
    - destruct todo as [|i todo].
      + destruct rt; (eapply IDLE; [..|exact ST]; [reflexivity|reflexivity|exact I]).
      + injection ST as <- <-. cbn [j_pc with_pc js_files js_versions js_next]. split; [|split; auto; exact I].
        assert (K : keeps (i :: todo) (js_files s) (match o with Fine => erase i (js_files s) | _ => js_files s end)).
        { destruct o; auto using keeps_refl. apply keeps_erase. cbn. auto. }
        constructor; cbn [js_files js_versions js_next js_plan js_jobs js_flushes]; auto using extends_refl.
        eapply core_sub; [| |eapply core_files; [|exact K|exact H]].
        * pose proof (co_nodup merge _ _ _ _ _ H) as N1. cbn in N1. inversion N1; auto.
        * intros x Hx. cbn. auto.
        * intros x Hx. apply in_app_iff. auto.
    - destruct o; try (eapply IDLE; [..|exact ST]; [reflexivity|reflexivity|exact I]).
      injection ST as <- <-. cbn [j_pc with_pc js_files js_versions js_next]. split; [|split; auto; exact I].
      constructor; cbn [js_files js_versions js_next js_plan js_jobs js_flushes]; auto using keeps_refl, extends_refl.
    - eapply KEEPO; [..|exact ST]; [now rewrite EP|]. split; auto. now rewrite EP.
    - eapply KEEPO; [..|exact ST]; [now rewrite EP|]. split; auto. now rewrite EP.
  Qed.

  Lemma flush_effect es s f o R s' f' :
    core es (js_files s) (js_versions s) (js_next s) (fowned f ++ R) ->
    flush_ok es (js_files s) (js_versions s) f ->
    flush_job_step s f o = (s', f') ->
    effect es s (fowned f) R s' (fowned f') /\ flush_ok es (js_files s') (js_versions s') f'.
  Proof.
    intros H [OK0 OK] ST. assert (IDLE : forall f1, fowned f1 = [] -> f_level f1 = f_level f -> f_content f1 = f_content f ->
              f_pc f1 = FFailed -> (s, f1) = (s', f') ->
              effect es s (fowned f) R s' (fowned f') /\ flush_ok es (js_files s') (js_versions s') f').
    { intros f1 O1 L1 C1 PC E. injection E as <- <-. split.
      - rewrite O1. apply effect_idle; auto; [intros x []|constructor].
      - unfold flush_ok. rewrite L1, C1, PC. auto. }
    unfold flush_job_step in ST. unfold fowned in *. destruct (f_pc f) as [|id|id|id|] eqn:EP.
    - injection ST as <- <-. cbn [f_pc with_fpc js_files js_versions js_next]. split; [|split; auto; exact I].
      constructor; cbn [js_files js_versions js_next js_plan js_jobs js_flushes]; auto using keeps_refl, extends_refl.
      apply core_alloc. exact H.
    - assert (WR : forall c', keeps [id] (js_files s) (write id c' (js_files s))) by (intros; apply keeps_write; cbn; auto).
      assert (CW : forall c', core es (write id c' (js_files s)) (js_versions s) (js_next s) ([id] ++ R)).
      { intros c'. eapply core_files; [|apply WR|exact H]. intros x Hx. apply in_app_iff. auto. }
      destruct o as [| |c'|]; try (eapply IDLE; [..|exact ST]; reflexivity).
      + injection ST as <- <-. cbn [f_pc with_fpc js_files js_versions js_next]. split.
        * constructor; cbn [js_files js_versions js_next js_plan js_jobs js_flushes]; auto using extends_refl.
        * split; auto. cbn [f_pc with_fpc f_content]. rewrite file_write, N.eqb_refl. reflexivity.
      + injection ST as <- <-. cbn [f_pc with_fpc js_files js_versions js_next]. split; [|split; auto; exact I].
        constructor; cbn [js_files js_versions js_next js_plan js_jobs js_flushes]; auto using extends_refl.
        eapply core_sub; [..|apply CW].
        * pose proof (co_nodup merge _ _ _ _ _ H) as N1. cbn in N1. inversion N1; auto.
        * intros x Hx. cbn. auto.
    - destruct (publish_flush _ _ _ _ (f_level f) (f_content f) id R H OK0 OK) as (v' & P1 & P2 & P3 & P4).
      rewrite P1 in ST. assert (EF : forall f1 : fjob C, fowned f1 = [] ->
        effect es s [id] R (mkJS (js_files s) (js_versions s ++ [v']) (js_next s) (js_plan s) (js_jobs s) (js_flushes s)) (fowned f1)).
      { intros f1 O1. rewrite O1. constructor; cbn [js_files js_versions js_next js_plan js_jobs js_flushes]; auto using keeps_refl.
        - eexists. reflexivity.
        - intros i G. eapply (gone_version es (js_files s) (js_versions s) (js_next s) [id]); eauto. }
      destruct o as [| |c'|]; try (eapply IDLE; [..|exact ST]; reflexivity).
      + injection ST as <- <-. split; [apply (EF (with_fpc f (FDone id))); reflexivity|]. split; auto. cbn [f_pc with_fpc]. eauto.
      + injection ST as <- <-. split; [apply (EF (with_fpc f FFailed)); reflexivity|]. split; auto. exact I.
    - injection ST as <- <-. rewrite EP. split; [apply effect_idle; auto using incl_refl; constructor|]. split; auto. now rewrite EP.
    - injection ST as <- <-. rewrite EP. split; [apply effect_idle; auto using incl_refl; constructor|]. split; auto. now rewrite EP.
  Qed.

  (** *** Events *)
  Notation Inv := (Inv merge).
  Lemma owned_app (l l' : list (job C)) : flat_map owned (l ++ l') = flat_map owned l ++ flat_map owned l'.
  Proof. apply flat_map_app. Qed.
  Lemma NoDup_disjoint {A} (l l' : list A) x : NoDup (l ++ l') -> In x l' -> ~ In x l.
  Proof.
    induction l as [|a l IH]; cbn; intros H Hx; [tauto|]. inversion H; subst. intros [->|F]; [|now apply (IH H3)].
    apply H2, in_app_iff. auto.
  Qed.
  Lemma Forall_weaken {A} (P Q : A -> Prop) l : Forall P l -> (forall x, In x l -> P x -> Q x) -> Forall Q l.
  Proof. rewrite !Forall_forall. auto. Qed.
  Lemma job_log es es' fs vs next j : incl es es' -> job_ok es fs vs next j -> job_ok es' fs vs next j.
  Proof. intros I [(h & H0) H]. split; eauto. Qed.
  Lemma flush_log es es' (fs : list (N * C)) vs f : incl es es' -> flush_ok es fs vs f -> flush_ok es' fs vs f.
  Proof. intros I [H0 H]. split; auto. Qed.
  Lemma Inv_log es es' s : incl es es' -> Inv es s -> Inv es' s.
  Proof.
    intros I H. destruct H as [H1 H2 H3 H4]. constructor; auto.
    - eapply core_log; eauto.
    - eapply Forall_weaken; eauto. intros; eapply job_log; eauto.
    - eapply Forall_weaken; eauto. intros; eapply flush_log; eauto.
  Qed.

  Lemma next_after_above vs i : referenced vs i -> i < next_after vs.
  Proof.
    intros (v & H1 & H2). unfold next_after. assert (IN : In i (concat (map ids_of vs))).
    { apply in_concat. exists (ids_of v). split; [now apply in_map|exact H2]. }
    assert (MX : forall l, In i l -> i <= fold_right N.max 0 l).
    { induction l as [|a l IH]; [intros []|]. intros [->|H]; cbn; [lia|]. specialize (IH H). lia. }
    apply MX in IN as M. destruct (concat (map ids_of vs)); [destruct IN|]. lia.
  Qed.
  Lemma restart_above es fs vs next O i : core es fs vs next O -> referenced vs i -> i < restart_id vs.
  Proof.
    intros H R. destruct (co_max merge _ _ _ _ _ H i R) as (m & M1 & M2). unfold restart_id.
    unfold current in M1. fold (latest vs) in M1. destruct (latest vs) as [|a v] eqn:EL; [destruct M1|].
    assert (m < next_after [a :: v]) by (apply next_after_above; exists (a :: v); cbn; auto). lia.
  Qed.
  Lemma Inv_restart es s : Inv es s -> Inv es (jevent_step merge s ERestart).
  Proof.
    intros [H1 H2 H3 H4]. constructor; cbn [jevent_step js_files js_versions js_next js_plan js_jobs js_flushes]; auto.
    assert (AB : forall i, referenced (js_versions s) i -> i < restart_id (js_versions s)) by (intros; eapply restart_above; eauto).
    destruct H1 as [A1 A2 A3 A4 A5 A6 A7]. unfold all_owned. cbn [js_jobs js_flushes flat_map app].
    constructor; [constructor|intros o []|intros o []| |exact A5|exact A6|exact A7].
    intros i Hi. split; auto. apply A4. auto.
  Qed.

  Lemma owned_split {A} (g : A -> list N) l1 x l2 : Permutation (flat_map g (l1 ++ x :: l2)) (g x ++ flat_map g (l1 ++ l2)).
  Proof.
    rewrite !flat_map_app. cbn. rewrite !app_assoc. apply Permutation_app_tail, Permutation_app_comm.
  Qed.

  Lemma Inv_job es s i o : o <> LostAck -> Inv es s -> Inv es (jevent_step merge s (EJobStep i o)).
  Proof.
    intros NL [H1 H2 H3 H4]. cbn [jevent_step]. destruct (nth_error (js_jobs s) i) as [j|] eqn:EN; [|constructor; auto].
    destruct (job_step merge s j o) as [s' j'] eqn:ES. destruct (split_set _ _ _ EN) as (l1 & l2 & EL & SET).
    set (R := flat_map owned (l1 ++ l2) ++ flat_map fowned (js_flushes s)).
    assert (PM : forall x, Permutation (flat_map owned (l1 ++ x :: l2) ++ flat_map fowned (js_flushes s)) (owned x ++ R)).
    { intros x. unfold R. rewrite app_assoc. apply Permutation_app_tail. apply owned_split. }
    assert (HC : core es (js_files s) (js_versions s) (js_next s) (owned j ++ R)).
    { eapply core_perm; [|exact H1]. unfold all_owned. rewrite EL. apply PM. }
    assert (HJ : job_ok es (js_files s) (js_versions s) (js_next s) j).
    { rewrite Forall_forall in H2. apply H2. eapply nth_error_In; eauto. }
    destruct (job_effect es s j o R s' j' HC HJ NL ES) as [EF OK].
    destruct EF as [F1 F2 F3 F4 F5 F6 F7]. pose proof (co_nodup merge _ _ _ _ _ HC) as NN.
    assert (UR : forall i, referenced (js_versions s) i -> ~ In i (owned j)) by (intros; eapply app_unref; eauto).
    constructor; cbn [js_files js_versions js_next js_plan js_jobs js_flushes].
    - eapply core_perm; [|exact F1]. unfold all_owned. cbn [js_jobs js_flushes]. rewrite F6, F7, SET. apply Permutation_sym, PM.
    - rewrite F6, SET. assert (ST : forall x, In x (l1 ++ l2) -> job_ok es (js_files s') (js_versions s') (js_next s') x).
      { intros x Hx. eapply job_stable; eauto.
        - rewrite Forall_forall in H2. apply H2. rewrite EL. apply in_app_iff. apply in_app_iff in Hx as [?|?]; cbn; auto.
        - intros k Hk. apply (NoDup_disjoint (owned j) R); auto. unfold R. apply in_app_iff. left. apply in_flat_map. eauto. }
      apply Forall_forall. intros x Hx. apply in_app_iff in Hx as [Hx|[<-|Hx]]; auto; apply ST; apply in_app_iff; auto.
    - rewrite F7. eapply Forall_weaken; [exact H3|]. intros f Hf OKf. eapply flush_stable; eauto.
      intros k Hk. apply (NoDup_disjoint (owned j) R); auto. unfold R. apply in_app_iff. right. apply in_flat_map. eauto.
    - intros k Hk. apply F5 in Hk as [Hk|Hk]; auto.
  Qed.

  Lemma Inv_flush es s i o : Inv es s -> Inv es (jevent_step merge s (EFlushStep i o)).
  Proof.
    intros [H1 H2 H3 H4]. cbn [jevent_step]. destruct (nth_error (js_flushes s) i) as [f|] eqn:EN; [|constructor; auto].
    destruct (flush_job_step s f o) as [s' f'] eqn:ES. destruct (split_set _ _ _ EN) as (l1 & l2 & EL & SET).
    set (R := flat_map fowned (l1 ++ l2) ++ flat_map owned (js_jobs s)).
    assert (PM : forall x, Permutation (flat_map owned (js_jobs s) ++ flat_map fowned (l1 ++ x :: l2)) (fowned x ++ R)).
    { intros x. unfold R. etransitivity; [apply Permutation_app_comm|]. rewrite app_assoc. apply Permutation_app_tail. apply owned_split. }
    assert (HC : core es (js_files s) (js_versions s) (js_next s) (fowned f ++ R)).
    { eapply core_perm; [|exact H1]. unfold all_owned. rewrite EL. apply PM. }
    assert (HJ : flush_ok es (js_files s) (js_versions s) f).
    { rewrite Forall_forall in H3. apply H3. eapply nth_error_In; eauto. }
    destruct (flush_effect es s f o R s' f' HC HJ ES) as [EF OK].
    destruct EF as [F1 F2 F3 F4 F5 F6 F7]. pose proof (co_nodup merge _ _ _ _ _ HC) as NN.
    assert (UR : forall i, referenced (js_versions s) i -> ~ In i (fowned f)) by (intros; eapply app_unref; eauto).
    constructor; cbn [js_files js_versions js_next js_plan js_jobs js_flushes].
    - eapply core_perm; [|exact F1]. unfold all_owned. cbn [js_jobs js_flushes]. rewrite F6, F7, SET. apply Permutation_sym, PM.
    - rewrite F6. eapply Forall_weaken; [exact H2|]. intros j Hj OKj. eapply job_stable; eauto.
      intros k Hk. apply (NoDup_disjoint (fowned f) R); auto. unfold R. apply in_app_iff. right. apply in_flat_map. eauto.
    - rewrite F7, SET. assert (ST : forall x, In x (l1 ++ l2) -> flush_ok es (js_files s') (js_versions s') x).
      { intros x Hx. eapply flush_stable; eauto.
        - rewrite Forall_forall in H3. apply H3. rewrite EL. apply in_app_iff. apply in_app_iff in Hx as [?|?]; cbn; auto.
        - intros k Hk. apply (NoDup_disjoint (fowned f) R); auto. unfold R. apply in_app_iff. left. apply in_flat_map. eauto. }
      apply Forall_forall. intros x Hx. apply in_app_iff in Hx as [Hx|[<-|Hx]]; auto; apply ST; apply in_app_iff; auto.
    - intros k Hk. apply F5 in Hk as [Hk|Hk]; auto.
  Qed.

  Lemma Inv_abort es s i : Inv es s -> Inv es (jevent_step merge s (EAbort i)).
  Proof.
    intros [H1 H2 H3 H4]. cbn [jevent_step]. destruct (nth_error (js_jobs s) i) as [j|] eqn:EN; [|constructor; auto].
    destruct (split_set _ _ _ EN) as (l1 & l2 & EL & SET).
    constructor; cbn [js_files js_versions js_next js_plan js_jobs js_flushes]; auto.
    - eapply core_sub; [..|exact H1]; unfold all_owned; cbn [js_jobs js_flushes]; rewrite SET; try rewrite EL.
      + pose proof (co_nodup merge _ _ _ _ _ H1) as NN. unfold all_owned in NN. rewrite EL in NN.
        rewrite !flat_map_app in *. cbn in *. rewrite <- !app_assoc in *.
        revert NN. generalize (flat_map owned l1). induction l as [|a l IH]; cbn; intros NN.
        * revert NN. induction (owned j) as [|b r IHr]; auto. cbn. intros NN. inversion NN; auto.
        * inversion NN; subst. constructor; auto. intros F. apply H5. rewrite !in_app_iff in *. tauto.
      + intros x. rewrite !flat_map_app. cbn. rewrite !in_app_iff. tauto.
    - rewrite SET. rewrite EL in H2. apply Forall_app in H2 as [A B]. inversion B as [|? ? B1 B2]; subst. apply Forall_app. split; auto.
      constructor; auto. destruct B1 as [B0 _]. split; auto. exact I.
  Qed.

  Lemma Inv_start : Inv [] js_start.
  Proof.
    constructor; cbn; auto; [|intros i []].
    constructor; cbn; [constructor|intros o []|intros o []| | |intros v []|intros k Hk; lia]; intros i (v & [] & _).
  Qed.
  Lemma Inv_step es s e : (forall i, e <> EJobStep i LostAck) -> Inv es s -> Inv (es ++ [e]) (jevent_step merge s e).
  Proof.
    intros NL H. assert (I0 : incl es (es ++ [e])) by (intros x Hx; apply in_app_iff; auto).
    apply (Inv_log _ _ _ I0) in H. destruct e as [t h|l c|i o|i o|i|].
    - destruct H as [H1 H2 H3 H4]. constructor; cbn [jevent_step js_files js_versions js_next js_plan js_jobs js_flushes]; auto.
      + unfold all_owned. cbn [js_jobs js_flushes]. rewrite flat_map_app. cbn. rewrite app_nil_r. exact H1.
      + apply Forall_app. split; auto. constructor; auto. split; [|exact I]. exists h. apply in_app_iff. cbn. auto.
    - destruct H as [H1 H2 H3 H4]. constructor; cbn [jevent_step js_files js_versions js_next js_plan js_jobs js_flushes]; auto.
      + unfold all_owned. cbn [js_jobs js_flushes]. rewrite flat_map_app. cbn. rewrite app_nil_r. exact H1.
      + apply Forall_app. split; auto. constructor; auto. split; [|exact I]. apply in_app_iff. cbn. auto.
    - apply Inv_job; auto. intros ->. apply (NL i). reflexivity.
    - now apply Inv_flush.
    - now apply Inv_abort.
    - now apply Inv_restart.
  Qed.
  Lemma jrun_app s es es' : jrun merge s (es ++ es') = jrun merge (jrun merge s es) es'.
  Proof. revert s. induction es as [|e es IH]; intros s; cbn; auto. Qed.
  Lemma Inv_run es : (forall i, ~ In (EJobStep i LostAck) es) -> Inv es (jrun merge js_start es).
  Proof.
    induction es as [|e es IH] using rev_ind; intros NL; [apply Inv_start|]. rewrite jrun_app. cbn [jrun]. apply Inv_step.
    - intros i ->. apply (NL i). apply in_app_iff. cbn. auto.
    - apply IH. intros i F. apply (NL i). apply in_app_iff. auto.
  Qed.

  (** Published files stay as they are. *)
  Lemma step_files es s e i : (forall i, e <> EJobStep i LostAck) -> Inv es s -> referenced (js_versions s) i ->
    file i (js_files (jevent_step merge s e)) = file i (js_files s) /\ referenced (js_versions (jevent_step merge s e)) i.
  Proof.
    intros NL H R. destruct e as [t h|l c|n o|n o|n|]; cbn [jevent_step].
    - auto.
    - auto.
    - destruct (nth_error (js_jobs s) n) as [j|] eqn:EN; auto.
      destruct (job_step merge s j o) as [s' j'] eqn:ES. cbn [js_files js_versions].
      destruct (split_set _ _ _ EN) as (l1 & l2 & EL & SET). destruct H as [H1 H2 H3 H4].
      assert (HC : core es (js_files s) (js_versions s) (js_next s) (owned j ++ (flat_map owned (l1 ++ l2) ++ flat_map fowned (js_flushes s)))).
      { eapply core_perm; [|exact H1]. unfold all_owned. rewrite EL, app_assoc. apply Permutation_app_tail, owned_split. }
      assert (HJ : job_ok es (js_files s) (js_versions s) (js_next s) j) by (rewrite Forall_forall in H2; apply H2; eapply nth_error_In; eauto).
      destruct (job_effect es s j o _ s' j' HC HJ) as [EF OK]; [intros ->; apply (NL n); reflexivity|exact ES|].
      split; [|eapply extends_ref; [apply EF|exact R]]. apply EF. eapply app_unref; eauto.
    - destruct (nth_error (js_flushes s) n) as [f|] eqn:EN; auto.
      destruct (flush_job_step s f o) as [s' f'] eqn:ES. cbn [js_files js_versions].
      destruct (split_set _ _ _ EN) as (l1 & l2 & EL & SET). destruct H as [H1 H2 H3 H4].
      assert (HC : core es (js_files s) (js_versions s) (js_next s) (fowned f ++ (flat_map fowned (l1 ++ l2) ++ flat_map owned (js_jobs s)))).
      { eapply core_perm; [|exact H1]. unfold all_owned. rewrite EL. etransitivity; [apply Permutation_app_comm|].
        rewrite app_assoc. apply Permutation_app_tail, owned_split. }
      assert (HJ : flush_ok es (js_files s) (js_versions s) f) by (rewrite Forall_forall in H3; apply H3; eapply nth_error_In; eauto).
      destruct (flush_effect es s f o _ s' f' HC HJ ES) as [EF OK].
      split; [|eapply extends_ref; [apply EF|exact R]]. apply EF. eapply app_unref; eauto.
    - destruct (nth_error (js_jobs s) n); auto.
    - auto.
  Qed.
  Lemma files_kept es1 es2 i : (forall i, ~ In (EJobStep i LostAck) (es1 ++ es2)) ->
    referenced (js_versions (jrun merge js_start es1)) i ->
    exists c, file_of (jrun merge js_start es1) i = Some c /\ file_of (jrun merge js_start (es1 ++ es2)) i = Some c.
  Proof.
    intros NL R. assert (NL1 : forall i, ~ In (EJobStep i LostAck) es1) by (intros k F; apply (NL k), in_app_iff; auto).
    assert (NL2 : forall i, ~ In (EJobStep i LostAck) es2) by (intros k F; apply (NL k), in_app_iff; auto).
    pose proof (Inv_run es1 NL1) as H. rewrite jrun_app. set (s := jrun merge js_start es1) in *.
    destruct (co_ref merge _ _ _ _ _ (in_core merge _ _ H) i R) as [_ [c E]]. exists c. split; auto. unfold file_of in *.
    clearbody s. clear NL1 NL. revert es1 s H R E. induction es2 as [|e es2 IH]; intros es1 s H R E; auto. cbn [jrun].
    assert (NE : forall k, e <> EJobStep k LostAck) by (intros k ->; apply (NL2 k); cbn; auto).
    destruct (step_files es1 s e i NE H R) as [F1 F2]. apply (IH ltac:(intros k F; apply (NL2 k); cbn; auto) (es1 ++ [e])); auto.
    - now apply Inv_step.
    - now rewrite F1.
  Qed.

  Lemma bare_flushed (s : jstate C) k l c i : flushed (mkJS (js_files s) (js_versions s) 0 [] [] []) k l c i -> flushed s k l c i.
  Proof. intros H. exact H. Qed.
  Lemma history_made es : (forall i, ~ In (EJobStep i LostAck) es) ->
    let s := jrun merge js_start es in
    forall k, (k < length (js_versions s))%nat ->
      (exists level c i, In (EFlush level c) es /\ flushed s k level c i) \/
      (exists t h, In (EJob t h) es /\ compacted merge s k t).
  Proof.
    intros NL s k Hk. pose proof (in_core merge _ _ (Inv_run es NL)) as H.
    destruct (co_made merge _ _ _ _ _ H k Hk) as [(l & c & i & A & B)|(t & h & A & B)].
    - left. exists l, c, i. split; auto.
    - right. exists t, h. split; auto.
  Qed.
  Lemma acked_flushed es : (forall i, ~ In (EJobStep i LostAck) es) ->
    let s := jrun merge js_start es in
    forall n f i, nth_error (js_flushes s) n = Some f -> f_pc f = FDone i ->
      exists k, flushed s k (f_level f) (f_content f) i.
  Proof.
    intros NL s n f i EN EP. pose proof (in_flushes merge _ _ (Inv_run es NL)) as H. rewrite Forall_forall in H.
    destruct (H f (nth_error_In _ _ EN)) as [_ OK]. rewrite EP in OK. exact OK.
  Qed.
  Lemma plan_gone es : (forall i, ~ In (EJobStep i LostAck) es) ->
    let s := jrun merge js_start es in
    forall i, In i (js_plan s) -> referenced (js_versions s) i /\ ~ current (js_versions s) i.
  Proof. intros NL s i Hi. exact (in_plan merge _ _ (Inv_run es NL) i Hi). Qed.

  (** *** Leftovers *)
  Lemma job_no_leak es s j R s' j' x :
    core es (js_files s) (js_versions s) (js_next s) (owned j ++ R) ->
    job_ok es (js_files s) (js_versions s) (js_next s) j ->
    job_step merge s j Fine = (s', j') -> In x (owned j) ->
    In x (owned j') \/ referenced (js_versions s') x \/ file x (js_files s') = None.
  Proof.
    intros H [OK0 OK] ST Hx. unfold job_step in ST. unfold owned in *.
    destruct (j_pc j) as [|head ins todo got|head ins todo outs|head ins id c todo outs|head ins outs|todo rt|ins| |] eqn:EP; try destruct Hx.
    - destruct todo as [|c todo]; injection ST as <- <-; cbn; auto.
    - injection ST as <- <-. left. cbn. apply in_app_iff. cbn. subst. auto.
    - injection ST as <- <-. left. cbn. apply in_app_iff. auto.
    - destruct OK as (T & cs & dn & E1 & E2 & E3 & E4).
      destruct (Nat.eqb_spec head (length (js_versions s))) as [EH|NH]; cbn [negb] in ST.
      + subst head. destruct (publish_job _ _ _ _ j ins outs cs dn R H OK0 T E1 E2 E3 E4) as (v' & P1 & P2 & P3 & P4 & P5).
        rewrite P1 in ST. injection ST as <- <-. right. left. cbn. auto.
      + injection ST as <- <-. left. cbn. auto.
    - destruct todo as [|i todo]; [destruct Hx|]. injection ST as <- <-. cbn in Hx. cbn. destruct Hx as [->|Hx]; auto.
      right. right. rewrite file_erase, N.eqb_refl. reflexivity.
  Qed.
  Lemma flush_no_leak es s f R s' f' x :
    core es (js_files s) (js_versions s) (js_next s) (fowned f ++ R) ->
    flush_ok es (js_files s) (js_versions s) f ->
    flush_job_step s f Fine = (s', f') -> In x (fowned f) ->
    In x (fowned f') \/ referenced (js_versions s') x \/ file x (js_files s') = None.
  Proof.
    intros H [OK0 OK] ST Hx. unfold flush_job_step in ST. unfold fowned in *.
    destruct (f_pc f) as [|id|id|id|] eqn:EP; cbn in Hx; try contradiction; destruct Hx as [<-|[]].
    - injection ST as <- <-. cbn. auto.
    - destruct (publish_flush _ _ _ _ (f_level f) (f_content f) id R H OK0 OK) as (v' & P1 & P2 & P3 & (w & w' & P4 & P5 & _)).
      rewrite P1 in ST. injection ST as <- <-. right. left. cbn. apply ref_snoc. right.
      destruct P4 as [P4 _]. cbn in P4. rewrite nth_error_app2, Nat.sub_diag in P4 by lia. injection P4 as <-.
      eapply in_concat_levels with (l := f_level f). apply P5. auto.
  Qed.

  Definition no_leak (s : jstate C) : Prop :=
    forall x c, file x (js_files s) = Some c -> referenced (js_versions s) x \/ In x (all_owned s).
  Lemma plain_not_lost (e : jevent C) : plain e -> forall i, e <> EJobStep i LostAck.
  Proof. intros P i ->. exact P. Qed.
  Lemma no_leak_step es s e : plain e -> Inv es s -> no_leak s -> no_leak (jevent_step merge s e).
  Proof.
    intros PL H L. destruct e as [t h|l c|n o|n o|n|]; cbn [plain] in PL; try contradiction; cbn [jevent_step].
    - intros x d E. destruct (L x d E) as [A|A]; auto. right. unfold all_owned in *. cbn [js_jobs js_flushes]. rewrite flat_map_app.
      cbn. rewrite app_nil_r. auto.
    - intros x d E. destruct (L x d E) as [A|A]; auto. right. unfold all_owned in *. cbn [js_jobs js_flushes]. rewrite flat_map_app.
      cbn. rewrite app_nil_r. auto.
    - destruct (nth_error (js_jobs s) n) as [j|] eqn:EN; auto. destruct o; try contradiction.
      destruct (job_step merge s j Fine) as [s' j'] eqn:ES.
      destruct (split_set _ _ _ EN) as (l1 & l2 & EL & SET). destruct H as [H1 H2 H3 H4].
      assert (HC : core es (js_files s) (js_versions s) (js_next s) (owned j ++ (flat_map owned (l1 ++ l2) ++ flat_map fowned (js_flushes s)))).
      { eapply core_perm; [|exact H1]. unfold all_owned. rewrite EL, app_assoc. apply Permutation_app_tail, owned_split. }
      assert (HJ : job_ok es (js_files s) (js_versions s) (js_next s) j) by (rewrite Forall_forall in H2; apply H2; eapply nth_error_In; eauto).
      destruct (job_effect es s j Fine _ s' j' HC HJ) as [EF OK]; [discriminate|exact ES|].
      destruct EF as [F1 F2 F3 F4 F5 F6 F7].
      intros x d E. cbn [js_files js_versions] in *. unfold all_owned in *. cbn [js_jobs js_flushes]. rewrite F6, F7, SET.
      unfold no_leak, all_owned in L. rewrite EL in L. rewrite !flat_map_app in *. cbn [flat_map]. cbn [flat_map] in L.
      destruct (in_dec N.eq_dec x (owned j)) as [I1|I1].
      + destruct (job_no_leak _ _ _ _ _ _ _ HC HJ ES I1) as [A|[A|A]]; auto; [|congruence]. right. rewrite !in_app_iff. auto.
      + rewrite F2 in E by auto. destruct (L x d E) as [A|A]; [left; eapply extends_ref; eauto|]. right. rewrite !in_app_iff in *. tauto.
    - destruct (nth_error (js_flushes s) n) as [f|] eqn:EN; auto. destruct o; try contradiction.
      destruct (flush_job_step s f Fine) as [s' f'] eqn:ES.
      destruct (split_set _ _ _ EN) as (l1 & l2 & EL & SET). destruct H as [H1 H2 H3 H4].
      assert (HC : core es (js_files s) (js_versions s) (js_next s) (fowned f ++ (flat_map fowned (l1 ++ l2) ++ flat_map owned (js_jobs s)))).
      { eapply core_perm; [|exact H1]. unfold all_owned. rewrite EL. etransitivity; [apply Permutation_app_comm|].
        rewrite app_assoc. apply Permutation_app_tail, owned_split. }
      assert (HJ : flush_ok es (js_files s) (js_versions s) f) by (rewrite Forall_forall in H3; apply H3; eapply nth_error_In; eauto).
      destruct (flush_effect es s f Fine _ s' f' HC HJ ES) as [EF OK].
      destruct EF as [F1 F2 F3 F4 F5 F6 F7].
      intros x d E. cbn [js_files js_versions] in *. unfold all_owned in *. cbn [js_jobs js_flushes]. rewrite F6, F7, SET.
      unfold no_leak, all_owned in L. rewrite EL in L. rewrite !flat_map_app in *. cbn [flat_map]. cbn [flat_map] in L.
      destruct (in_dec N.eq_dec x (fowned f)) as [I1|I1].
      + destruct (flush_no_leak _ _ _ _ _ _ _ HC HJ ES I1) as [A|[A|A]]; auto; [|congruence]. right. rewrite !in_app_iff. auto.
      + rewrite F2 in E by auto. destruct (L x d E) as [A|A]; [left; eapply extends_ref; eauto|]. right. rewrite !in_app_iff in *. tauto.
  Qed.
  Lemma no_leak_run es : Forall plain es -> no_leak (jrun merge js_start es).
  Proof.
    induction es as [|e es IH] using rev_ind; intros F; [intros x c E; discriminate|].
    apply Forall_app in F as [F1 F2]. inversion F2; subst. rewrite jrun_app. cbn [jrun]. apply (no_leak_step es); auto.
    apply Inv_run. intros i Hi. rewrite Forall_forall in F1. apply (F1 _ Hi).
  Qed.
  (** No job or flush is running. *)
  Lemma idle_owned (s : jstate C) :
    Forall (fun j => j_pc j = JDone \/ j_pc j = JFailed) (js_jobs s) ->
    Forall (fun f => f_pc f = FFailed \/ exists i, f_pc f = FDone i) (js_flushes s) -> all_owned s = [].
  Proof.
    intros A B. unfold all_owned. assert (E1 : flat_map owned (js_jobs s) = []).
    { induction A as [|j l [E|E] A IH]; auto; cbn; unfold owned at 1; now rewrite E. }
    assert (E2 : flat_map fowned (js_flushes s) = []).
    { induction B as [|f l [E|[i E]] B IH]; auto; cbn; unfold fowned at 1; now rewrite E. }
    now rewrite E1, E2.
  Qed.
  (** *** No call is published twice *)
  Definition may (j : job C) : nat := match j_pc j with JClean _ false | JPlan _ | JDone | JFailed => 0 | _ => 1 end.
  Definition fmay (f : fjob C) : nat := match f_pc f with FDone _ | FFailed => 0 | _ => 1 end.
  Fixpoint total {A} (g : A -> nat) (l : list A) : nat := match l with [] => 0 | a :: r => g a + total g r end%nat.
  Lemma total_app {A} (g : A -> nat) l l' : total g (l ++ l') = (total g l + total g l')%nat.
  Proof. induction l as [|a l IH]; cbn; auto. rewrite IH. lia. Qed.
  Lemma publish_length es vs vs' : publish es vs = Some vs' -> length vs' = S (length vs).
  Proof. unfold publish. destruct (apply_edits _ _ _); [|discriminate]. intros H. injection H as <-. rewrite app_length. cbn. lia. Qed.
  Lemma job_may s (j : job C) o s' j' : job_step merge s j o = (s', j') ->
    js_jobs s' = js_jobs s /\ js_flushes s' = js_flushes s /\ (length (js_versions s') + may j' <= length (js_versions s) + may j)%nat.
  Proof.
    unfold job_step, may. intros ST.
    destruct (j_pc j) as [|head ins [|? todo] got|head ins [|? todo] outs|head ins id c todo outs|head ins outs|[|? todo] []|ins| |] eqn:EP;
      repeat match type of ST with context [match ?x with _ => _ end] => destruct x eqn:?; try discriminate ST end;
      injection ST as <- <-; cbn [js_jobs js_flushes js_versions j_pc with_pc]; rewrite ?EP; cbn [j_pc with_pc];
      repeat match goal with H : publish _ _ = Some _ |- _ => apply publish_length in H; rewrite H end;
      (split; [reflexivity|split; [reflexivity|try lia]]).
    all: repeat match goal with H : js_versions _ = _ |- _ => rewrite H; clear H | |- context [if ?x then _ else _] => destruct x end; lia.
  Qed.
  Lemma flush_may (s : jstate C) f o s' f' : flush_job_step s f o = (s', f') ->
    js_jobs s' = js_jobs s /\ js_flushes s' = js_flushes s /\ (length (js_versions s') + fmay f' <= length (js_versions s) + fmay f)%nat.
  Proof.
    unfold flush_job_step, fmay. intros ST. destruct (f_pc f) eqn:EP;
      repeat match type of ST with context [match ?x with _ => _ end] => destruct x eqn:?; try discriminate ST end;
      injection ST as <- <-; cbn [js_jobs js_flushes js_versions f_pc with_fpc]; rewrite ?EP;
      repeat match goal with H : publish _ _ = Some _ |- _ => apply publish_length in H; rewrite H end;
      repeat split; lia.
  Qed.
  Lemma once es : (length (js_versions (jrun merge js_start es)) <= started es)%nat.
  Proof.
    enough (H : (length (js_versions (jrun merge js_start es)) + total may (js_jobs (jrun merge js_start es))
                 + total fmay (js_flushes (jrun merge js_start es)) <= started es)%nat) by lia.
    unfold started. induction es as [|e es IH] using rev_ind; [cbn; lia|]. rewrite jrun_app, filter_app, app_length.
    set (s := jrun merge js_start es) in *. cbn [jrun]. destruct e as [t h|l c|n o|n o|n|]; cbn [jevent_step filter length].
    - cbn [js_versions js_jobs js_flushes]. rewrite total_app. cbn. lia.
    - cbn [js_versions js_jobs js_flushes]. rewrite total_app. cbn. lia.
    - destruct (nth_error (js_jobs s) n) as [j|] eqn:EN; [|lia]. destruct (job_step merge s j o) as [s' j'] eqn:ES.
      destruct (job_may _ _ _ _ _ ES) as (E1 & E2 & E3). destruct (split_set _ _ _ EN) as (l1 & l2 & EL & SET).
      cbn [js_versions js_jobs js_flushes]. rewrite E1, E2, SET, total_app. rewrite EL, total_app in IH. cbn in *. lia.
    - destruct (nth_error (js_flushes s) n) as [f|] eqn:EN; [|lia]. destruct (flush_job_step s f o) as [s' f'] eqn:ES.
      destruct (flush_may _ _ _ _ _ ES) as (E1 & E2 & E3). destruct (split_set _ _ _ EN) as (l1 & l2 & EL & SET).
      cbn [js_versions js_jobs js_flushes]. rewrite E1, E2, SET, total_app. rewrite EL, total_app in IH. cbn in *. lia.
    - destruct (nth_error (js_jobs s) n) as [j|] eqn:EN; [|lia]. destruct (split_set _ _ _ EN) as (l1 & l2 & EL & SET).
      cbn [js_versions js_jobs js_flushes]. rewrite SET, total_app. rewrite EL, total_app in IH. cbn in *. lia.
    - cbn [js_versions js_jobs js_flushes]. cbn. lia.
  Qed.

  Lemma idle_clean es i c : Forall plain es -> idle (jrun merge js_start es) ->
    file_of (jrun merge js_start es) i = Some c -> referenced (js_versions (jrun merge js_start es)) i.
  Proof.
    intros P [A B] F. destruct (no_leak_run es P i c F) as [H|H]; auto. now rewrite idle_owned in H by auto.
  Qed.
End Step.
