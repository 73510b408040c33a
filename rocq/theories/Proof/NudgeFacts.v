(** The worker with flushes in between: it is never idle over a limit (queue no longer than
    the concurrency), and left alone it becomes idle. *)
From Coq Require Import List NArith Bool Arith Lia.
From Verif Require Import Base.Order Model.SsTable Model.Version Model.Planner Model.Worker Model.WorkerSteps
     Spec.Plan Spec.RestSpec Spec.NudgeSpec Proof.PlannerFacts Proof.RestFacts Proof.RestProps.
Import ListNotations.

Section Nudge.
  Context {K : Type} {KO : KeyOrd K} {E : Type}.
  Variable eid : E -> N.
  Variable estats : E -> option (option K * option K * nat).
  Variable cfg : pconf.
  Variable wc : wconf.
  Notation worker := (worker K E).
  Notation wsys := (wsys K E).
  Notation plan0 ls := (plan_version eid estats cfg ls 0).
  Notation size ls := (lens (S (length (pc_thresholds cfg))) ls).
  Notation jobs_ok := (jobs_ok eid estats cfg).
  Notation inv := (inv eid estats cfg wc).
  Notation step := (wstep eid estats cfg wc).
  Notation run := (wrun eid estats cfg wc).

  (** *** Triggers of follow-ups *)
  Definition queued (w w' : worker) : Prop :=
    (w_queue w' = w_queue w /\ w_kicks w' = w_kicks w) \/
    (exists j, w_queue w' = w_queue w ++ [j] /\ jb_head j = w_head w' /\ w_kicks w' = S (w_kicks w)).
  Lemma follow_kicks now (w : worker) : queued w (follow_up eid estats cfg wc now w).
  Proof.
    unfold follow_up, queued. destruct (try_acquire wc now (w_cascade w)) as [c ok]. simpl. destruct ok; simpl; auto.
    destruct (plan_version eid estats cfg (w_levels w) 1) as [tk|]; simpl; auto.
    unfold enqueue. simpl. destruct (_ <? _); simpl; auto. right. eexists. eauto.
  Qed.
  Lemma run_queued p j (w w' : worker) a : run_job eid estats cfg wc p j w = (w', a) -> queued w w'.
  Proof.
    unfold run_job. assert (Q : queued w w) by (left; auto).
    destruct (negb _); [intros H; injection H as <- <-; auto|].
    destruct (resolve_inputs _ _ _) as [ins|]; [|intros H; injection H as <- <-; auto].
    destruct (p_outs p) as [outs|]; [|intros H; injection H as <- <-; auto].
    destruct (apply_edits _ _ _) as [v|]; [|intros H; injection H as <- <-; auto].
    intros H; injection H as <- _. destruct (_ && _); [|left; auto].
    exact (follow_kicks (p_now p) (mkWorker (v_levels v) (S (w_head w)) (w_queue w) (w_cascade w) (w_kicks w))).
  Qed.

  (** *** What always holds *)
  Definition phase_jobs (ph : phase K) : list (job K) := match ph with Running js _ => js | _ => [] end.
  Definition sound (s : wsys) : Prop := inv (s_worker s) /\ jobs_ok (s_worker s) (phase_jobs (s_phase s)).

  Lemma jobs_moved (w w' : worker) js : w_head w < w_head w' -> jobs_ok w js -> jobs_ok w' js.
  Proof. intros H J j Hj. destruct (J j Hj) as [J1 _]. unfold fresh. split; [lia|]. intros F. lia. Qed.
  Lemma nth_split_in (js : list (job K)) n j : nth_error js n = Some j ->
    (forall x, In x js <-> x = j \/ In x (firstn n js ++ skipn (S n) js)) /\
    length js = S (length (firstn n js ++ skipn (S n) js)).
  Proof.
    intros EN.
    assert (ES : skipn n js = j :: skipn (S n) js).
    { revert js EN. induction n as [|n IHn]; intros [|b l] H; try discriminate H.
      - simpl in *. congruence.
      - simpl in H. apply IHn in H. exact H. }
    split.
    - intros x. rewrite <- (firstn_skipn n js) at 1. rewrite !in_app_iff, ES. simpl In. intuition.
    - rewrite <- (firstn_skipn n js) at 1. rewrite !app_length, ES. simpl. lia.
  Qed.

  Lemma run_cases p j (w w' : worker) a : p_outs p <> None ->
    (jb_head j <= w_head w /\ (fresh w j -> planned eid estats cfg (w_levels w) (jb_task j))) ->
    run_job eid estats cfg wc p j w = (w', a) ->
    (~ fresh w j /\ w' = w /\ a = false) \/ (fresh w j /\ a = true /\ advances eid estats cfg wc w w' /\ queued w w').
  Proof.
    intros HO [J1 J2] H. destruct (Nat.eq_dec (jb_head j) (w_head w)) as [D|D].
    - right. pose proof (run_queued _ _ _ _ _ H) as Q. destruct (run_fresh eid estats cfg wc p j w D (J2 D) HO) as (w1 & R1 & R2).
      rewrite R1 in H. injection H as <- <-. split; [exact D|auto].
    - left. rewrite run_stale in H by exact D. injection H as <- <-. split; [exact D|auto].
  Qed.

  Lemma sound_step s e s' : smooth e -> sound s -> step s e = Some s' -> sound s'.
  Proof.
    destruct s as [w ph o]. intros HS [[I1 I2] J] H. unfold sound. destruct e; simpl in H; simpl in J, I1, I2.
    - destruct ph; try discriminate. unfold take_kick in H. destruct (w_kicks w); [discriminate|]. injection H as <-.
      simpl. split; [split; auto|intros j []].
    - destruct ph; try discriminate. injection H as <-. simpl. split; [split; auto|intros j []].
    - destruct ph as [|[|n]|]; try discriminate. destruct (plan0 (w_levels w)) as [tk|] eqn:EP.
      + destruct (enqueue wc tk w) as [w1 ok] eqn:EQ. injection H as <-.
        apply enqueue_spec in EQ as (Q1 & Q2 & Q3 & Q4 & Q5). simpl. split; [|intros j []]. destruct ok.
        * destruct Q5 as [Q5 Q6]. split.
          -- intros j. unfold fresh. rewrite Q1, Q2, Q5, in_app_iff. intros [Hj|[<-|[]]]; [now apply I1|].
             simpl. split; auto. intros _. left. auto.
          -- rewrite Q5, app_length. simpl. lia.
        * destruct Q5 as [-> _]. split; auto.
      + injection H as <-. simpl. split; [split; auto|intros j []].
    - destruct ph as [|[|n]|]; try discriminate. injection H as <-. simpl. split; [split|]; simpl.
      + intros j Hj. apply I1. rewrite <- (firstn_skipn (budget wc) (w_queue w)). apply in_app_iff. auto.
      + rewrite skipn_length. lia.
      + intros j Hj. apply I1. rewrite <- (firstn_skipn (budget wc) (w_queue w)). apply in_app_iff. auto.
    - destruct ph as [| |js applied]; try discriminate. destruct (nth_error js (p_index p)) as [j|] eqn:EN; [|discriminate].
      destruct (run_job eid estats cfg wc p j w) as [w1 a] eqn:ER. injection H as <-. simpl in J.
      destruct (nth_split_in _ _ _ EN) as [IN _]. pose proof (J j (proj2 (IN j) (or_introl eq_refl))) as Jj.
      cbn [s_worker s_phase phase_jobs].
      assert (JR : jobs_ok w (firstn (p_index p) js ++ skipn (S (p_index p)) js)).
      { intros x Hx. apply J, IN. auto. }
      destruct (run_cases _ _ _ _ _ HS Jj ER) as [(_ & -> & _)|(_ & _ & A & _)].
      + split; [split; auto|exact JR].
      + split; [apply (advances_inv eid estats cfg wc w); [split; auto|exact A]|].
        apply (jobs_moved w); [|exact JR]. destruct A as [-> _]. lia.
    - destruct ph as [| |[|j js] applied]; try discriminate. destruct (_ && _); injection H as <-; simpl.
      + split; [split; auto|intros j []].
      + split; [split; auto|intros j []].
    - assert (HM : jobs_ok (mkWorker ls (S (w_head w)) (w_queue w) (w_cascade w) (w_kicks w)) (phase_jobs ph)).
      { apply (jobs_moved w); [simpl; lia|]. destruct ph; auto. }
      assert (H0 : s' = mkSys (mkWorker ls (S (w_head w)) (w_queue w) (w_cascade w) (w_kicks w)) ph (S o)) by (destruct ph as [|[|]|[|]]; congruence).
      subst s'. simpl. split; [|exact HM]. split; [|exact I2]. apply (jobs_moved w); [simpl; lia|exact I1].
    - assert (H0 : exists o', o = S o' /\ s' = mkSys (kicked w) ph o').
      { destruct o as [|o']; [destruct ph as [|[|]|[|]]; discriminate|]. exists o'. destruct ph as [|[|]|[|]]; injection H as <-; auto. }
      destruct H0 as (o' & -> & ->). simpl. split; [split; auto|]. destruct ph; auto.
    - assert (H0 : s' = mkSys (kicked w) ph o) by (destruct ph as [|[|]|[|]]; congruence).
      subst s'. simpl. split; [split; auto|]. destruct ph; auto.
    - destruct HS.
  Qed.

  Lemma sound_new ls : sound (sys_new wc ls).
  Proof. split; [apply new_inv|intros j []]. Qed.

  Lemma run_ind (P : wsys -> Prop) : (forall s e s', smooth e -> P s -> step s e = Some s' -> P s') ->
    forall es s s', Forall smooth es -> P s -> run s es = Some s' -> P s'.
  Proof.
    intros HP. induction es as [|e es IH]; intros s s' HF H0 H; simpl in H.
    - injection H as <-. auto.
    - inversion HF; subst. destruct (step s e) as [s1|] eqn:ES; [|discriminate]. eapply IH; [auto| |exact H]. eapply HP; eauto.
  Qed.
  Lemma sound_run es ls s : Forall smooth es -> run (sys_new wc ls) es = Some s -> sound s.
  Proof. intros HF H. eapply (run_ind sound); eauto using sound_step, sound_new. Qed.

  (** *** Never idle over a limit *)
  Definition due (s : wsys) : nat := w_kicks (s_worker s) + s_owed s.
  Definition allfresh (w : worker) (js : list (job K)) : Prop := forall j, In j js -> fresh w j.
  Definition backed (w : worker) (d : nat) : Prop :=
    (w_queue w <> [] -> 1 <= d) /\ (allfresh w (w_queue w) \/ 2 <= d).
  Definition alert (s : wsys) : Prop :=
    let w := s_worker s in let d := due s in
    let over := plan0 (w_levels w) <> None in
    match s_phase s with
    | Waiting => (over -> 1 <= d) /\ backed w d
    | Planning n => over -> 1 <= d \/ (allfresh w (w_queue w) /\ (n <> 0 \/ w_queue w <> []))
    | Running js false => w_queue w = [] /\ (over -> 1 <= d \/ (js <> [] /\ allfresh w js))
    | Running js true => (forall j, In j js -> ~ fresh w j) /\ backed w d
    end.

  Hypothesis short : wc_queue wc <= Nat.max (wc_jobs wc) 1.

  Lemma alert_step s e s' : smooth e -> sound s -> alert s -> step s e = Some s' -> alert s'.
  Proof.
    destruct s as [w ph o]. intros HS [[I1 I2] J] A H. simpl in I1, I2, J.
    assert (HB : 1 <= budget wc) by (unfold budget; lia).
    assert (HQ : length (w_queue w) <= budget wc) by (unfold capacity, budget in *; lia).
    destruct e; simpl in H.
    - destruct ph; try discriminate. unfold take_kick in H. destruct (w_kicks w) as [|k] eqn:EK; [discriminate|]. injection H as <-.
      unfold alert, due in *. simpl in *. destruct A as (A1 & A2 & A3). intros HO. rewrite EK in *.
      destruct A3 as [A3|A3]; [right|left; lia]. split; [exact A3|lia].
    - destruct ph; try discriminate. injection H as <-.
      unfold alert, due in *. simpl in *. destruct A as (A1 & _). auto.
    - destruct ph as [|[|n]|]; try discriminate. unfold alert, due in A. simpl in A.
      destruct (plan0 (w_levels w)) as [tk|] eqn:EP.
      + destruct (enqueue wc tk w) as [w1 ok] eqn:EQ. injection H as <-.
        apply enqueue_spec in EQ as (Q1 & Q2 & Q3 & Q4 & Q5). unfold alert, due. simpl. rewrite Q4. intros _.
        destruct A as [A|[A _]]; [discriminate|auto|]. right. destruct ok.
        * destruct Q5 as [Q5 Q6]. unfold allfresh, fresh. rewrite Q5, Q2. split.
          -- intros j. rewrite in_app_iff. intros [Hj|[<-|[]]]; [now apply A|reflexivity].
          -- right. destruct (w_queue w); discriminate.
        * destruct Q5 as [-> Q5]. split; auto. right. intros F. rewrite F in Q5. simpl in Q5. unfold capacity in Q5. lia.
      + injection H as <-. unfold alert. simpl. rewrite EP. congruence.
    - destruct ph as [|[|n]|]; try discriminate. injection H as <-. unfold alert, due in *. simpl in *.
      rewrite (firstn_all2 _ HQ), (skipn_all2 _ HQ). split; auto. intros HO. destruct (A HO) as [A1|[A1 [A2|A2]]]; auto.
    - destruct ph as [| |js applied]; try discriminate. destruct (nth_error js (p_index p)) as [j|] eqn:EN; [|discriminate].
      destruct (run_job eid estats cfg wc p j w) as [w1 a] eqn:ER. injection H as <-. simpl in J.
      destruct (nth_split_in _ _ _ EN) as [IN _]. pose proof (J j (proj2 (IN j) (or_introl eq_refl))) as Jj.
      unfold alert, due in *. cbn [s_worker s_phase s_owed] in *. set (rest := firstn (p_index p) js ++ skipn (S (p_index p)) js) in *.
      destruct (run_cases _ _ _ _ _ HS Jj ER) as [(NF & -> & ->)|(F & -> & AD & Q)].
      + rewrite orb_false_r. destruct applied.
        * destruct A as [A1 A2]. split; auto. intros x Hx. apply A1, IN. auto.
        * destruct A as [A1 A2]. split; auto. intros HO. destruct (A2 HO) as [A3|[_ A3]]; auto.
          destruct NF. apply A3, IN. auto.
      + rewrite orb_true_r. destruct applied; [destruct A as [A _]; destruct (A j); [apply IN; auto|auto]|].
        destruct A as [A _]. split.
        * intros x Hx. unfold fresh. destruct AD as [-> _]. destruct (J x (proj2 (IN x) (or_intror Hx))). lia.
        * unfold backed, allfresh. destruct Q as [[Q1 Q2]|(j' & Q1 & Q2 & Q3)]; rewrite Q1, A; simpl.
          -- split; [congruence|left; intros x []].
          -- split; [lia|]. left. intros x [<-|[]]. exact Q2.
    - destruct ph as [| |[|j js] applied]; try discriminate. unfold alert, due in *. cbn [s_worker s_phase s_owed] in A.
      destruct (plan0 (w_levels w)) as [tk|] eqn:EP; simpl in H.
      + destruct applied; simpl in H; injection H as <-; simpl.
        * destruct A as (_ & A1 & A2). intros _. destruct A2 as [A2|A2]; [right|left; lia]. split; auto. left. lia.
        * destruct A as (A1 & A2). split; [|split].
          -- intros HO. destruct A2 as [A2|[A2 _]]; auto; congruence.
          -- congruence.
          -- left. rewrite A1. intros x [].
      + rewrite andb_false_r in H. injection H as <-. simpl. rewrite EP. split; [congruence|]. destruct applied; [apply A|].
        destruct A as (A1 & A2). split; [congruence|]. left. rewrite A1. intros x [].
    - assert (H0 : s' = mkSys (mkWorker ls (S (w_head w)) (w_queue w) (w_cascade w) (w_kicks w)) ph (S o)) by (destruct ph as [|[|]|[|]]; congruence).
      subst s'. unfold alert, due in *. simpl in *.
      assert (BK : backed w (w_kicks w + o) ->
        backed (mkWorker ls (S (w_head w)) (w_queue w) (w_cascade w) (w_kicks w)) (w_kicks w + S o)).
      { intros [B1 B2]. split; [lia|]. simpl. destruct (w_queue w) as [|x q] eqn:EW; [left; intros x []|].
        right. assert (1 <= w_kicks w + o) by (apply B1; discriminate). lia. }
      destruct ph as [|n|js [|]].
      + split; [lia|]. apply BK, A.
      + intros _. left. lia.
      + split; [|apply BK, A]. intros x Hx. unfold fresh. simpl. destruct (J x Hx). lia.
      + split; [apply A|]. intros _. left. lia.
    - assert (H0 : exists o', o = S o' /\ s' = mkSys (kicked w) ph o').
      { destruct o as [|o']; [destruct ph as [|[|]|[|]]; discriminate|]. exists o'. destruct ph as [|[|]|[|]]; injection H as <-; auto. }
      destruct H0 as (o' & -> & ->). unfold alert, due in *. simpl in *. rewrite Nat.add_succ_r in A.
      destruct ph as [|n|js [|]]; exact A.
    - assert (H0 : s' = mkSys (kicked w) ph o) by (destruct ph as [|[|]|[|]]; congruence).
      subst s'. unfold alert, due, backed in *. simpl in *. change (allfresh (kicked w)) with (allfresh w).
      destruct ph as [|n|js [|]].
      + split; [lia|]. split; [lia|]. destruct A as (_ & _ & [A|A]); [left; exact A|right; lia].
      + intros _. left. lia.
      + destruct A as (A1 & A2 & A3). split; [exact A1|]. split; [lia|]. destruct A3; [left; auto|right; lia].
      + split; [apply A|]. intros _. left. lia.
    - destruct HS.
  Qed.

  Theorem idle_rests es ls s : Forall smooth es -> run (sys_new wc ls) es = Some s -> idle s ->
    rests estats cfg (w_levels (s_worker s)).
  Proof.
    intros HF H (HP & HK & HO).
    assert (G : sound s /\ alert s).
    { refine (run_ind (fun s => sound s /\ alert s) _ es _ s HF _ H).
      - intros s0 e s1 He [S1 A1] Hs. split; [eapply sound_step; eauto|eapply alert_step; eauto].
      - split; [apply sound_new|]. unfold alert, due, backed. simpl. split; [lia|]. split; [lia|]. left. intros x []. }
    destruct G as [_ G]. unfold alert, due in G. rewrite HP, HK, HO in G. destruct G as [G _].
    apply (plan0_rests eid). destruct (plan0 (w_levels (s_worker s))); auto. assert (1 <= 0) by (apply G; discriminate). lia.
  Qed.
End Nudge.

Section Settle.
  Context {K : Type} {KO : KeyOrd K} {E : Type}.
  Variable eid : E -> N.
  Variable estats : E -> option (option K * option K * nat).
  Variable cfg : pconf.
  Variable wc : wconf.
  Notation wsys := (wsys K E).
  Notation size ls := (lens (S (length (pc_thresholds cfg))) ls).
  Notation step := (wstep eid estats cfg wc).
  Notation run := (wrun eid estats cfg wc).

  (** *** Left alone, it becomes idle *)
  Theorem can_go_on (s : wsys) : s_owed s = 0 -> ~ idle s ->
    exists e s', own e /\ smooth e /\ step s e = Some s'.
  Proof.
    destruct s as [w ph o]. unfold idle. simpl. intros -> HI. destruct ph as [|[|n]|[|j js] applied].
    - exists EWake. simpl. unfold take_kick. destruct (w_kicks w) eqn:EK; [destruct HI; auto|]. eauto.
    - exists ETake. simpl. eauto.
    - exists EPlan. simpl. destruct (plan_version _ _ _ _ _); [|eauto]. destruct (enqueue _ _ _); eauto.
    - exists EDone. simpl. destruct (_ && _); eauto.
    - exists (ERun (mkPick 0 (Some []) 0%N)). simpl. destruct (run_job _ _ _ _ _ _ _) as [w1 a]. eexists.
      split; auto. split; [discriminate|reflexivity].
  Qed.

  Definition rank (ph : phase K) : list nat :=
    match ph with Waiting => [0; 0] | Planning n => [2; n] | Running js a => [if a then 3 else 1; length js] end.
  Definition weigh (s : wsys) : list nat := size (w_levels (s_worker s)) ++ w_kicks (s_worker s) :: rank (s_phase s).
  Lemma lens_length n (ls : list (list E)) : length (lens n ls) = n.
  Proof. unfold lens. rewrite map_length, seq_length. auto. Qed.
  Lemma own_weigh s e s' : own e -> smooth e -> sound eid estats cfg wc s -> step s e = Some s' -> lex (weigh s') (weigh s).
  Proof.
    destruct s as [w ph o]. intros HO HS [_ J] H. simpl in J. unfold weigh.
    destruct e; simpl in HO; try contradiction; simpl in H.
    - destruct ph; try discriminate. unfold take_kick in H. destruct (w_kicks w) as [|k] eqn:EK; [discriminate|]. injection H as <-.
      cbn [s_worker s_phase w_levels w_kicks with_reset]. rewrite EK. apply lex_tail, lex_here; [lia|reflexivity].
    - destruct ph as [|[|n]|]; try discriminate. destruct (plan_version eid estats cfg (w_levels w) 0) as [tk|].
      + destruct (enqueue wc tk w) as [w1 ok] eqn:EQ. injection H as <-.
        apply enqueue_spec in EQ as (Q1 & Q2 & Q3 & Q4 & Q5). cbn [s_worker s_phase rank]. rewrite Q1, Q4.
        apply lex_tail, lex_later, lex_later, lex_here; [destruct ok; lia|reflexivity].
      + injection H as <-. cbn [s_worker s_phase rank]. apply lex_tail, lex_later, lex_later, lex_here; [lia|reflexivity].
    - destruct ph as [|[|n]|]; try discriminate. injection H as <-. cbn [s_worker s_phase rank w_levels w_kicks].
      apply lex_tail, lex_later, lex_here; [lia|reflexivity].
    - destruct ph as [| |js applied]; try discriminate. destruct (nth_error js (p_index p)) as [j|] eqn:EN; [|discriminate].
      destruct (run_job eid estats cfg wc p j w) as [w1 a] eqn:ER. injection H as <-. simpl in J.
      destruct (nth_split_in _ _ _ EN) as [IN IL]. pose proof (J j (proj2 (IN j) (or_introl eq_refl))) as Jj.
      cbn [s_worker s_phase rank].
      destruct (run_cases _ _ _ _ _ _ _ _ _ HS Jj ER) as [(_ & -> & ->)|(_ & _ & A & _)].
      + rewrite orb_false_r. apply lex_tail, lex_later, lex_later, lex_here; [rewrite IL; apply Nat.lt_succ_diag_r|reflexivity].
      + apply lex_app; [apply A|reflexivity].
    - destruct ph as [| |[|j js] applied]; try discriminate. destruct applied; simpl in H.
      + destruct (plan_version _ _ _ _ _); injection H as <-; cbn [s_worker s_phase rank w_levels w_kicks with_reset];
          apply lex_tail, lex_later, lex_here; try lia; reflexivity.
      + injection H as <-. cbn [s_worker s_phase rank]. apply lex_tail, lex_later, lex_here; [lia|reflexivity].
  Qed.

  Theorem not_for_ever es ls (f : nat -> wsys) :
    Forall smooth es -> run (sys_new wc ls) es = Some (f 0) ->
    ~ (forall n, exists e, own e /\ smooth e /\ step (f n) e = Some (f (S n))).
  Proof.
    intros HF H0 HR.
    assert (HS : forall n, sound eid estats cfg wc (f n)).
    { induction n as [|n IH]; [eapply sound_run; eauto|]. destruct (HR n) as (e & _ & He & Hs). eapply sound_step; eauto. }
    assert (G : forall x, Acc lex x -> forall n, weigh (f n) = x -> False).
    { induction 1 as [x _ IH]. intros n <-. destruct (HR n) as (e & Ho & He & Hs).
      apply (IH (weigh (f (S n)))) with (n := S n); auto. eapply own_weigh; eauto. }
    eapply (G (weigh (f 0))); [eapply lex_acc; reflexivity|reflexivity].
  Qed.

  Lemma own_owed s e s' : own e -> step s e = Some s' -> s_owed s' = s_owed s.
  Proof.
    destruct s as [w ph o]. intros HO H. destruct e; simpl in HO; try contradiction; simpl in H.
    - destruct ph; try discriminate. destruct (take_kick w); [|discriminate]. injection H as <-. auto.
    - destruct ph as [|[|n]|]; try discriminate. destruct (plan_version _ _ _ _ _); [destruct (enqueue _ _ _)|]; injection H as <-; auto.
    - destruct ph as [|[|n]|]; try discriminate. injection H as <-. auto.
    - destruct ph; try discriminate. destruct (nth_error _ _); [|discriminate]. destruct (run_job _ _ _ _ _ _ _). injection H as <-. auto.
    - destruct ph as [| |[|j js] applied]; try discriminate. destruct (_ && _); injection H as <-; auto.
  Qed.
  Lemma run_app : forall es es' s s1, run s es = Some s1 -> run s (es ++ es') = run s1 es'.
  Proof.
    induction es as [|e es IH]; intros es' s s1 H; simpl in *; [congruence|].
    destruct (step s e) as [s2|]; [|discriminate]. auto.
  Qed.

  (** From every state the worker reaches an idle one by its own steps. *)
  Theorem settles es ls s : Forall smooth es -> run (sys_new wc ls) es = Some s -> s_owed s = 0 ->
    exists es' s', Forall own es' /\ Forall smooth es' /\ run s es' = Some s' /\ idle s'.
  Proof.
    intros HF H HO.
    assert (HS : sound eid estats cfg wc s) by (eapply sound_run; eauto). clear es HF H.
    assert (HA : Acc lex (weigh s)) by (eapply lex_acc; reflexivity).
    remember (weigh s) as x eqn:EX. revert s HO HS EX. induction HA as [x _ IH]. intros s HO HS ->.
    assert (D : idle s \/ ~ idle s).
    { unfold idle. destruct (s_phase s); [|right; intros (F & _); discriminate..].
      destruct (Nat.eq_dec (w_kicks (s_worker s)) 0); [left; auto|right; intros (_ & F & _); auto]. }
    destruct D as [D|D]; [exists [], s; simpl; auto|].
    destruct (can_go_on s HO D) as (e & s1 & O1 & S1 & H1).
    destruct (IH (weigh s1)) with (s := s1) as (es' & s' & E1 & E2 & E3 & E4); auto.
    - eapply own_weigh; eauto.
    - erewrite own_owed; eauto.
    - eapply sound_step; eauto.
    - exists (e :: es'), s'. split; [constructor; auto|]. split; [constructor; auto|]. split; auto. simpl. rewrite H1. auto.
  Qed.
End Settle.
