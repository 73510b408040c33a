(** The background worker comes to rest; with a queue no longer than its concurrency it
    does so without being woken again. *)
From Coq Require Import List NArith Bool Arith Lia Permutation.
From Verif Require Import Base.Order Model.SsTable Model.Version Model.Planner Model.Worker Spec.Plan Spec.RestSpec
     Proof.PlannerFacts Proof.RestFacts.
Import ListNotations.

Section Props.
  Context {K : Type} {KO : KeyOrd K} {E : Type}.
  Variable eid : E -> N.
  Variable estats : E -> option (option K * option K * nat).
  Variable cfg : pconf.
  Variable wc : wconf.
  Notation worker := (worker K E).
  Notation plan0 ls := (plan_version eid estats cfg ls 0).
  Notation plan1 ls := (plan_version eid estats cfg ls 1).
  Notation size ls := (lens (S (length (pc_thresholds cfg))) ls).

  Definition fresh (w : worker) (j : job K) : Prop := jb_head j = w_head w.
  Definition planned (ls : list (list E)) (tk : task K) : Prop := plan0 ls = Some tk \/ plan1 ls = Some tk.
  (** A queued job is stale or proposed for the levels as they are. *)
  Definition jobs_ok (w : worker) (js : list (job K)) : Prop :=
    forall j, In j js -> jb_head j <= w_head w /\ (fresh w j -> planned (w_levels w) (jb_task j)).
  Definition inv (w : worker) : Prop := jobs_ok w (w_queue w) /\ length (w_queue w) <= capacity wc.
  Definition isstale (w : worker) (j : job K) : bool := negb (Nat.eqb (jb_head j) (w_head w)).
  Definition stale (w : worker) : nat := length (filter (isstale w) (w_queue w)).
  Definition weight (w : worker) : list nat := size (w_levels w) ++ [stale w].

  Lemma plan0_rests ls : plan0 ls = None -> rests estats cfg ls.
  Proof. intros H. pose proof (plan_good eid estats cfg ls 0) as G. rewrite H in G. intros l. apply G. lia. Qed.
  Lemma rests_plan0 ls : rests estats cfg ls -> plan0 ls = None.
  Proof.
    intros H. pose proof (plan_good eid estats cfg ls 0) as G. destruct (plan0 ls) as [tk|]; auto.
    destruct G as (_ & srcs & nexts & G). destruct (H _ (gt_over _ _ _ _ _ _ _ G)).
  Qed.
  Lemma planned_over ls tk : planned ls tk -> plan0 ls <> None.
  Proof.
    intros H F. apply plan0_rests in F.
    assert (exists m, plan_version eid estats cfg ls m = Some tk) as [m HM] by (destruct H; eauto).
    pose proof (plan_good eid estats cfg ls m) as G. rewrite HM in G.
    destruct G as (_ & srcs & nexts & G). exact (F _ (gt_over _ _ _ _ _ _ _ G)).
  Qed.

  (** *** Planning *)
  Lemma enqueue_spec tk (w w' : worker) ok : enqueue wc tk w = (w', ok) ->
    w_levels w' = w_levels w /\ w_head w' = w_head w /\ w_cascade w' = w_cascade w /\ w_kicks w' = w_kicks w /\
    if ok then w_queue w' = w_queue w ++ [mkJob tk (w_head w)] /\ length (w_queue w) < capacity wc
    else w' = w /\ capacity wc <= length (w_queue w).
  Proof.
    unfold enqueue. destruct (Nat.ltb_spec (length (w_queue w)) (capacity wc)); intros H0; injection H0 as <- <-;
      repeat (split; auto).
  Qed.

  Lemma plan_enqueue_spec : forall n (w : worker), inv w ->
    let w' := plan_and_enqueue eid estats cfg wc n w in
    w_levels w' = w_levels w /\ w_head w' = w_head w /\ w_cascade w' = w_cascade w /\ w_kicks w' = w_kicks w /\
    (exists js, w_queue w' = w_queue w ++ js /\ Forall (fresh w) js) /\ inv w' /\
    (n <> 0 -> plan0 (w_levels w) <> None -> w_queue w' <> []) /\
    (plan0 (w_levels w) = None -> w_queue w' = w_queue w).
  Proof.
    induction n as [|n IH]; intros w HI.
    - simpl. split; [auto|]. split; [auto|]. split; [auto|]. split; [auto|]. split.
      { exists []. rewrite app_nil_r. auto. } split; [auto|]. split; [intros F; destruct (F eq_refl)|auto].
    - simpl. destruct (plan0 (w_levels w)) as [tk|] eqn:EP.
      + destruct (enqueue wc tk w) as [w1 ok] eqn:EQ. pose proof (enqueue_spec _ _ _ _ EQ) as (Q1 & Q2 & Q3 & Q4 & Q5).
        destruct ok.
        * destruct Q5 as [Q5 Q6].
          assert (HI1 : inv w1).
          { destruct HI as [H1 H2]. split.
            - intros j. unfold fresh. rewrite Q1, Q2, Q5, in_app_iff. intros [Hj|[<-|[]]]; [now apply H1|].
              simpl. split; auto. intros _. left. auto.
            - rewrite Q5, app_length. simpl. lia. }
          destruct (IH w1 HI1) as (P1 & P2 & P3 & P4 & (js & P5 & P6) & P7 & P8 & P9). cbv zeta in *.
          rewrite P1, P2, P3, P4, Q1, Q2, Q3, Q4. do 4 (split; [auto|]). split.
          { exists (mkJob tk (w_head w) :: js). rewrite P5, Q5, <- app_assoc. split; auto. constructor; [reflexivity|].
            eapply Forall_impl; [|exact P6]. unfold fresh. intros j ->. auto. }
          split; auto. split; [|intros; discriminate]. intros _ _ F. rewrite F, Q5 in P5.
          destruct (w_queue w); discriminate.
        * destruct Q5 as [-> Q5]. do 4 (split; [auto|]). split.
          { exists []. rewrite app_nil_r. auto. } split; auto. split; [|intros; discriminate]. intros _ _ F.
          rewrite F in Q5. simpl in Q5. unfold capacity in Q5. lia.
      + do 4 (split; [auto|]). split; [exists []; rewrite app_nil_r; auto|]. auto.
  Qed.

  (** *** Running *)
  Lemma follow_spec now (w : worker) :
    let w' := follow_up eid estats cfg wc now w in
    w_levels w' = w_levels w /\ w_head w' = w_head w /\
    (w_queue w' = w_queue w \/
     exists tk, plan1 (w_levels w) = Some tk /\ w_queue w' = w_queue w ++ [mkJob tk (w_head w)] /\
                length (w_queue w) < capacity wc).
  Proof.
    unfold follow_up. destruct (try_acquire wc now (w_cascade w)) as [c ok]. simpl. destruct ok; simpl; auto.
    destruct (plan1 (w_levels w)) as [tk|] eqn:EP; simpl; auto.
    destruct (enqueue wc tk _) as [w1 sent] eqn:EQ. apply enqueue_spec in EQ as (Q1 & Q2 & _ & _ & Q5). simpl in *.
    destruct sent; simpl.
    - destruct Q5 as [Q5 Q6]. repeat (split; auto). right. eauto.
    - destruct Q5 as [-> _]. auto.
  Qed.

  Lemma run_stale p j (w : worker) : ~ fresh w j -> run_job eid estats cfg wc p j w = (w, false).
  Proof.
    unfold run_job, fresh. intros H. destruct (Nat.eqb_spec (jb_head j) (w_head w)); [contradiction|reflexivity].
  Qed.

  Definition advances (w w' : worker) : Prop :=
    w_head w' = S (w_head w) /\ lex (size (w_levels w')) (size (w_levels w)) /\
    (w_queue w' = w_queue w \/
     exists tk, plan1 (w_levels w') = Some tk /\ w_queue w' = w_queue w ++ [mkJob tk (w_head w')] /\
                length (w_queue w) < capacity wc).

  Lemma run_fresh p j (w : worker) : fresh w j -> planned (w_levels w) (jb_task j) -> p_outs p <> None ->
    exists w', run_job eid estats cfg wc p j w = (w', true) /\ advances w w'.
  Proof.
    intros HF HP HO. unfold run_job. rewrite HF, Nat.eqb_refl. simpl.
    destruct (p_outs p) as [outs|] eqn:EO; [|congruence].
    assert (exists m, plan_version eid estats cfg (w_levels w) m = Some (jb_task j)) as [m HM] by (destruct HP; eauto).
    destruct (task_shrinks eid estats cfg (w_levels w) m (jb_task j) outs HM) as (ins & v & T1 & T2 & T3 & T4).
    rewrite T1, T3.
    assert (HE : match outcome_edits eid ins outs (tk_target (jb_task j)) with [] => false | _ => true end = true).
    { unfold outcome_edits, remove_edits. destruct ins as [|a ins]; [congruence|].
      destruct (nodup Nat.eq_dec (map fst (a :: ins))) eqn:EN; [|reflexivity].
      exfalso. assert (In (fst a) (nodup Nat.eq_dec (map fst (a :: ins)))) by (apply nodup_In; simpl; auto).
      rewrite EN in H. destruct H. }
    rewrite HE. eexists. split; [reflexivity|].
    set (w1 := mkWorker (v_levels v) (S (w_head w)) (w_queue w) (w_cascade w) (w_kicks w)).
    destruct (_ && _).
    - destruct (follow_spec (p_now p) w1) as (F1 & F2 & F3). unfold advances. rewrite F1, F2. simpl in *. auto.
    - unfold advances. simpl. auto.
  Qed.

  Lemma drain_stale : forall ps js (w w' : worker) a, (forall j, In j js -> ~ fresh w j) ->
    drain eid estats cfg wc ps js w = Some (w', a) -> w' = w /\ a = false.
  Proof.
    induction ps as [|p ps IH]; intros js w w' a HS H; simpl in H.
    - destruct js; [|discriminate]. injection H as <- <-. auto.
    - destruct (nth_error js (p_index p)) as [j|] eqn:EN; [|discriminate].
      rewrite run_stale in H by (apply HS; eapply nth_error_In; eauto).
      destruct (drain eid estats cfg wc ps _ w) as [[w2 a2]|] eqn:ED; [|discriminate]. injection H as <- <-.
      apply IH in ED; auto. intros j' Hj'. apply HS. apply in_app_iff in Hj' as [Hj'|Hj'].
      + rewrite <- (firstn_skipn (p_index p) js). apply in_app_iff. auto.
      + rewrite <- (firstn_skipn (S (p_index p)) js). apply in_app_iff. auto.
  Qed.

  (** Either nothing that runs is fresh and nothing happens, or one job is published. *)
  Lemma drain_spec : forall ps js (w w' : worker) a, jobs_ok w js -> faultless ps ->
    drain eid estats cfg wc ps js w = Some (w', a) ->
    (w' = w /\ a = false /\ (forall j, In j js -> ~ fresh w j)) \/ (a = true /\ advances w w').
  Proof.
    induction ps as [|p ps IH]; intros js w w' a HJ HF H; simpl in H.
    - destruct js; [|discriminate]. injection H as <- <-. left. split; auto.
    - destruct (nth_error js (p_index p)) as [j|] eqn:EN; [|discriminate].
      change (match js with [] => [] | _ :: l => skipn (p_index p) l end) with (skipn (S (p_index p)) js) in H.
      set (rest := firstn (p_index p) js ++ skipn (S (p_index p)) js) in *.
      assert (IN : forall x, In x js <-> x = j \/ In x rest).
      { intros x. unfold rest. rewrite <- (firstn_skipn (p_index p) js) at 1. rewrite !in_app_iff.
        assert (ES : skipn (p_index p) js = j :: skipn (S (p_index p)) js).
        { clear - EN. generalize dependent js. induction (p_index p) as [|n IHn]; intros [|b l] H; try discriminate H.
          - simpl in *. congruence.
          - simpl in H. apply IHn in H. exact H. }
        rewrite ES. simpl In. intuition. }
      inversion HF as [|? ? HF1 HF2]; subst.
      destruct (HJ j (proj2 (IN j) (or_introl eq_refl))) as [J1 J2].
      destruct (Nat.eq_dec (jb_head j) (w_head w)) as [D|D].
      + destruct (run_fresh p j w D (J2 D) HF1) as (w1 & R1 & R2). rewrite R1 in H.
        destruct (drain eid estats cfg wc ps rest w1) as [[w2 a2]|] eqn:ED; [|discriminate]. injection H as <- <-.
        apply drain_stale in ED as [-> ->]; [right; auto|].
        intros x Hx. unfold fresh. destruct R2 as [-> _]. destruct (HJ x (proj2 (IN x) (or_intror Hx))). lia.
      + rewrite run_stale in H by exact D.
        destruct (drain eid estats cfg wc ps rest w) as [[w2 a2]|] eqn:ED; [|discriminate]. injection H as <- <-.
        apply IH in ED; auto.
        * destruct ED as [(-> & -> & ED)|ED]; [left|right]; simpl; auto. split; auto. split; auto.
          intros x Hx. apply IN in Hx as [->|Hx]; auto.
        * intros x Hx. apply HJ, IN. auto.
  Qed.

  Lemma advances_inv (w w' : worker) : inv w -> advances w w' -> inv w'.
  Proof.
    intros [I1 I2] (A1 & A2 & A3). destruct A3 as [A3|(tk & A3 & A4 & A5)]; split.
    - intros j. rewrite A3, A1. unfold fresh. rewrite A1. intros Hj. apply I1 in Hj as [Hj _]. split; [lia|]. lia.
    - now rewrite A3.
    - intros j. rewrite A4. unfold fresh. rewrite A1, in_app_iff. intros [Hj|[<-|[]]].
      + apply I1 in Hj as [Hj _]. split; [lia|]. lia.
      + simpl. split; [lia|]. intros _. right. auto.
    - rewrite A4, app_length. simpl. lia.
  Qed.

  Lemma stale_le (w : worker) n : length (filter (isstale w) (skipn n (w_queue w))) <= stale w.
  Proof.
    unfold stale. rewrite <- (firstn_skipn n (w_queue w)) at 2. rewrite filter_app, app_length. lia.
  Qed.

  (** *** One round *)
  Lemma cycle_spec ps (w w' : worker) again : inv w -> faultless ps ->
    cycle eid estats cfg wc ps w = Some (w', again) ->
    inv w' /\ (plan0 (w_levels w) <> None -> lex (weight w') (weight w)) /\
    (plan0 (w_levels w) = None -> w_levels w' = w_levels w).
  Proof.
    intros HI HF H. unfold cycle, take_jobs in H.
    set (w0 := mkWorker (w_levels w) (w_head w) (w_queue w) (reset_budget wc (w_cascade w)) (w_kicks w)) in *.
    assert (HI0 : inv w0) by exact HI.
    destruct (plan_enqueue_spec (budget wc) w0 HI0) as (P1 & P2 & _ & _ & (js & P5 & P6) & P7 & P8 & P9).
    set (w1 := plan_and_enqueue eid estats cfg wc (budget wc) w0) in *. simpl in P1, P2, P5, P6, P8, P9.
    set (w2 := mkWorker (w_levels w1) (w_head w1) (skipn (budget wc) (w_queue w1)) (w_cascade w1) (w_kicks w1)) in *.
    destruct (drain eid estats cfg wc ps (firstn (budget wc) (w_queue w1)) w2) as [[w3 a]|] eqn:ED; [|discriminate].
    injection H as <- <-.
    assert (HB : 1 <= budget wc) by (unfold budget; lia).
    assert (HJ : jobs_ok w2 (firstn (budget wc) (w_queue w1))).
    { intros j Hj. apply P7. rewrite <- (firstn_skipn (budget wc) (w_queue w1)). apply in_app_iff. auto. }
    assert (HI2 : inv w2).
    { destruct P7 as [P7 P7']. split.
      - intros j Hj. apply P7. rewrite <- (firstn_skipn (budget wc) (w_queue w1)). apply in_app_iff. auto.
      - simpl. rewrite skipn_length. lia. }
    assert (HS : stale w1 = stale w).
    { unfold stale. rewrite P5, filter_app. rewrite app_length.
      replace (filter (isstale w1) js) with (@nil (job K)).
      - simpl. rewrite Nat.add_0_r. f_equal. apply filter_ext. intros j. unfold isstale. now rewrite P2.
      - symmetry. clear - P6 P2. induction P6 as [|j js HJ _ IH]; simpl; auto. unfold isstale at 1. rewrite HJ, P2. simpl.
        rewrite Nat.eqb_refl. auto. }
    destruct (drain_spec _ _ _ _ _ HJ HF ED) as [(-> & -> & D)|(-> & D)].
    - split; auto. split; [|intros; simpl; congruence]. intros HP. unfold weight. change (w_levels w2) with (w_levels w1). rewrite P1. apply lex_tail.
      apply lex_here; auto. rewrite <- HS.
      specialize (P8 ltac:(lia) HP).
      change (stale w2) with (length (filter (isstale w1) (skipn (budget wc) (w_queue w1)))).
      unfold stale. rewrite <- (firstn_skipn (budget wc) (w_queue w1)) at 2. rewrite filter_app, app_length.
      enough (0 < length (filter (isstale w1) (firstn (budget wc) (w_queue w1)))) by lia.
      destruct (w_queue w1) as [|j q]; [congruence|]. destruct (budget wc) as [|b]; [lia|]. simpl in *.
      assert (HX : isstale w1 j = true).
      { unfold isstale. apply negb_true_iff, Nat.eqb_neq. apply (D j). auto. }
      rewrite HX. simpl. lia.
    - split; [now apply (advances_inv w2)|]. split.
      + intros _. destruct D as (_ & D & _). simpl in D. rewrite P1 in D. unfold weight. apply lex_app; auto.
      + intros HP. exfalso. assert (HQ : forall j, In j (firstn (budget wc) (w_queue w1)) -> ~ fresh w2 j).
        { intros j Hj F. destruct (HJ j Hj) as [_ J]. apply J in F. apply planned_over in F. simpl in F. congruence. }
        apply (drain_stale _ _ _ _ _ HQ) in ED as [_ ED]. discriminate.
  Qed.

  Lemma with_kicks_inv n (w : worker) : inv w -> inv (with_kicks n w).
  Proof. auto. Qed.
  Lemma new_inv ls : inv (worker_new wc ls).
  Proof. split; [intros j []|simpl; lia]. Qed.

  (** *** C64 *)
  Theorem comes_to_rest (f : nat -> worker) ls : f 0 = worker_new wc ls ->
    (forall n, rounds eid estats cfg wc (f n) (f (S n))) ->
    exists n, rests estats cfg (w_levels (f n)) /\ forall m, n <= m -> w_levels (f m) = w_levels (f n).
  Proof.
    intros H0 HR.
    assert (HI : forall n, inv (f n)).
    { induction n as [|n IH]; [rewrite H0; apply new_inv|].
      destruct (HR n) as (ps & w1 & again & k & R1 & R2 & R3). rewrite R3. apply with_kicks_inv.
      eapply cycle_spec; eauto. }
    assert (HX : forall n : nat, exists m, plan0 (w_levels (f m)) = None).
    { intros n. remember (weight (f n)) as x eqn:EX.
      assert (HA : Acc lex x) by (eapply lex_acc; reflexivity).
      revert n EX. induction HA as [x _ IH]. intros n ->.
      destruct (plan0 (w_levels (f n))) as [tk|] eqn:EP; [|eauto].
      destruct (HR n) as (ps & w1 & again & k & R1 & R2 & R3).
      destruct (cycle_spec _ _ _ _ (HI n) R1 R2) as (_ & C & _).
      apply (IH (weight (f (S n)))) with (n := S n); auto.
      rewrite R3. apply C. congruence. }
    destruct (HX 0) as [n HN]. exists n. split; [now apply plan0_rests|].
    intros m Hm. induction Hm as [|m Hm IH]; auto.
    destruct (HR m) as (ps & w1 & again & k & R1 & R2 & R3).
    destruct (cycle_spec _ _ _ _ (HI m) R1 R2) as (_ & _ & C). rewrite R3. simpl. rewrite <- IH. apply C. now rewrite IH.
  Qed.

  (** *** C65 *)
  Definition tight (w : worker) : Prop := inv w /\ forall j, In j (w_queue w) -> fresh w j.

  Lemma cycle_tight ps (w w' : worker) again : wc_queue wc <= budget wc -> tight w -> faultless ps ->
    cycle eid estats cfg wc ps w = Some (w', again) ->
    tight w' /\ (again = false -> plan0 (w_levels w') = None).
  Proof.
    intros HC [HI HT] HF H. pose proof (cycle_spec _ _ _ _ HI HF H) as (HI' & _ & _). unfold cycle, take_jobs in H.
    set (w0 := mkWorker (w_levels w) (w_head w) (w_queue w) (reset_budget wc (w_cascade w)) (w_kicks w)) in *.
    assert (HI0 : inv w0) by exact HI.
    destruct (plan_enqueue_spec (budget wc) w0 HI0) as (P1 & P2 & _ & _ & (js & P5 & P6) & P7 & P8 & P9).
    set (w1 := plan_and_enqueue eid estats cfg wc (budget wc) w0) in *. simpl in P1, P2, P5, P6, P8, P9.
    assert (HB : 1 <= budget wc) by (unfold budget; lia).
    assert (HQ : length (w_queue w1) <= budget wc).
    { destruct P7 as [_ P7]. unfold capacity in P7. lia. }
    rewrite (firstn_all2 _ HQ), (skipn_all2 _ HQ) in H.
    set (w2 := mkWorker (w_levels w1) (w_head w1) [] (w_cascade w1) (w_kicks w1)) in *.
    destruct (drain eid estats cfg wc ps (w_queue w1) w2) as [[w3 a]|] eqn:ED; [|discriminate].
    injection H as <- <-.
    assert (HF1 : forall j, In j (w_queue w1) -> fresh w2 j).
    { intros j. unfold fresh. simpl. rewrite P2, P5, in_app_iff. intros [Hj|Hj]; [now apply HT|].
      rewrite Forall_forall in P6. now apply P6. }
    destruct (drain_spec _ _ w2 _ _ (proj1 P7) HF ED) as [(-> & -> & D)|(-> & D)].
    - split; [split; auto; intros j []|]. intros _. simpl. rewrite P1.
      destruct (plan0 (w_levels w)) eqn:EP; auto. exfalso. specialize (P8 ltac:(lia)).
      destruct (w_queue w1) as [|j q]; [apply P8; congruence|]. apply (D j); [simpl; auto|]. apply HF1. simpl; auto.
    - split.
      + split; auto. destruct D as (D1 & _ & D2). destruct D2 as [->|(tk & _ & -> & _)]; simpl; [intros j []|].
        intros j [<-|[]]. reflexivity.
      + simpl. destruct (plan0 (w_levels w3)); auto. discriminate.
  Qed.

  Theorem asleep_rests ls (w : worker) : wc_queue wc <= Nat.max (wc_jobs wc) 1 ->
    asleep eid estats cfg wc ls w -> rests estats cfg (w_levels w).
  Proof.
    intros HC [HA HK].
    assert (G : forall w again, alone eid estats cfg wc ls w again ->
       tight w /\ (again = true \/ plan0 (w_levels w) = None \/ w = worker_new wc ls)).
    { induction 1 as [|w0 ps w1 again H IH HF HCy|w0 w00 ps w1 again H IH HK1 HF HCy].
      - split; auto. split; [apply new_inv|intros j []].
      - destruct IH as [IT _]. destruct (cycle_tight _ _ _ _ HC IT HF HCy) as [T1 T2]. split; auto.
        destruct again; auto.
      - destruct IH as [IT _]. unfold take_kick in HK1. destruct (w_kicks w0); [discriminate|]. injection HK1 as <-.
        assert (IT' : tight (mkWorker (w_levels w0) (w_head w0) (w_queue w0) (w_cascade w0) n)) by exact IT.
        destruct (cycle_tight _ _ _ _ HC IT' HF HCy) as [T1 T2]. split; auto.
        destruct again; auto. }
    destruct (G _ _ HA) as [_ [G1|[G1|G1]]]; [discriminate|now apply plan0_rests|].
    subst w. discriminate.
  Qed.
End Props.

(** *** C66: the follow-up limits *)
Lemma acquire_spec wc now c c' ok : try_acquire wc now c = (c', ok) ->
  if ok then 0 < cs_left c /\ cs_left c = S (cs_left c') /\ cs_last c' = Some now /\
             (forall t, cs_last c = Some t -> (wc_cooldown wc <= now - t)%N)
  else c' = c.
Proof.
  unfold try_acquire. destruct (Nat.eqb_spec (cs_left c) 0) as [E|E]; [intros H; injection H as <- <-; auto|].
  destruct (cs_last c) as [t|] eqn:EL.
  - destruct (N.ltb_spec (now - t) (wc_cooldown wc)); intros H'; injection H' as <- <-; auto.
    simpl. repeat split; try lia. intros t' HT. injection HT as <-. auto.
  - intros H'; injection H' as <- <-. simpl. repeat split; try lia. intros t HT. discriminate.
Qed.

Section Follow.
  Context {K : Type} {KO : KeyOrd K} {E : Type}.
  Variable eid : E -> N.
  Variable estats : E -> option (option K * option K * nat).
  Variable cfg : pconf.
  Variable wc : wconf.
  Notation cd := (wc_cooldown wc).

  Definition later (c : cascade) (x : N) : Prop := forall t, cs_last c = Some t -> (cd <= x - t)%N.

  Lemma run_follow p j (w : worker K E) :
    let w' := fst (run_job eid estats cfg wc p j w) in
    (w_kicks w' = w_kicks w /\ w_cascade w' = w_cascade w) \/
    (cs_left (w_cascade w) = S (cs_left (w_cascade w')) /\ cs_last (w_cascade w') = Some (p_now p) /\
     later (w_cascade w) (p_now p)).
  Proof.
    unfold run_job. destruct (negb _); [left; auto|].
    destruct (resolve_inputs _ _ _) as [ins|]; [|left; auto]. destruct (p_outs p) as [outs|]; [|left; auto].
    destruct (apply_edits _ _ _) as [v|]; [|left; auto]. cbn [fst].
    destruct (_ && _); [|left; auto]. unfold follow_up. cbn [w_cascade w_levels w_head w_queue w_kicks].
    destruct (try_acquire wc (p_now p) (w_cascade w)) as [c ok] eqn:EA. apply acquire_spec in EA. destruct ok.
    - destruct EA as (A1 & A2 & A3 & A4). right.
      destruct (plan_version _ _ _ _ 1) as [tk|]; [|simpl; auto].
      unfold enqueue. destruct (Nat.ltb _ _); simpl; auto.
    - subst c. left. auto.
  Qed.

  Lemma later_trans c x y : later c x -> (cd <= y - x)%N -> later c y.
  Proof. intros H1 H2 t Ht. specialize (H1 t Ht). lia. Qed.

  Lemma sends_spec : forall ps jobs (w : worker K E),
    let xs := sends eid estats cfg wc ps jobs w in
    length xs <= cs_left (w_cascade w) /\ Forall (later (w_cascade w)) xs /\
    ForallOrdPairs (fun a b => (cd <= b - a)%N) xs /\
    forall w' a, drain eid estats cfg wc ps jobs w = Some (w', a) ->
      (cs_last (w_cascade w') = cs_last (w_cascade w) \/
       exists t, cs_last (w_cascade w') = Some t /\ later (w_cascade w) t) /\
      Forall (fun x => exists t, cs_last (w_cascade w') = Some t /\ (x = t \/ cd <= t - x)%N) xs.
  Proof.
    induction ps as [|p ps IH]; intros jobs w; cbn [sends drain].
    - split; [simpl; lia|]. split; [constructor|]. split; [constructor|]. intros w' a H. destruct jobs; [|discriminate].
      injection H as <- <-. auto.
    - destruct (nth_error jobs (p_index p)) as [j|].
      2:{ split; [simpl; lia|]. split; [constructor|]. split; [constructor|]. intros; discriminate. }
      destruct (run_job eid estats cfg wc p j w) as [w1 a1] eqn:ER.
      pose proof (run_follow p j w) as HF. rewrite ER in HF. cbn [fst] in *. cbv zeta in HF.
      destruct (IH (firstn (p_index p) jobs ++ skipn (S (p_index p)) jobs) w1) as (I1 & I2 & I3 & I4). cbv zeta in *.
      destruct HF as [[F1 F2]|(F1 & F2 & F3)].
      + rewrite F1, Nat.eqb_refl. cbn [app]. rewrite F2 in *. split; [auto|]. split; [auto|]. split; [auto|].
        intros w' a H. destruct (drain _ _ _ _ ps _ w1) as [[w2 a2]|] eqn:ED; [|discriminate]. injection H as <- <-.
        now apply (I4 w2 a2).
      + assert (L1 : forall x, later (w_cascade w1) x -> (cd <= x - p_now p)%N) by (intros x Hx; now apply Hx).
        set (xs := sends _ _ _ _ ps _ w1) in *.
        assert (I2' : Forall (fun x => (cd <= x - p_now p)%N) xs) by (eapply Forall_impl; [|exact I2]; auto).
        assert (I2'' : Forall (later (w_cascade w)) xs).
        { eapply Forall_impl; [|exact I2']. cbv beta. intros x. now apply later_trans. }
        assert (HL : forall w' a, drain eid estats cfg wc ps (firstn (p_index p) jobs ++ skipn (S (p_index p)) jobs) w1 = Some (w', a) ->
          exists t, cs_last (w_cascade w') = Some t /\ later (w_cascade w) t /\ (p_now p = t \/ cd <= t - p_now p)%N).
        { intros w' a H. destruct (I4 w' a H) as [[J|(t & J1 & J2)] _].
          - exists (p_now p). rewrite J. auto.
          - exists t. split; auto. split; [eapply later_trans; eauto|]. right. auto. }
        destruct (Nat.eqb (w_kicks w1) (w_kicks w)); cbn [app].
        * split; [lia|]. split; [auto|]. split; [auto|]. intros w' a H.
          destruct (drain _ _ _ _ ps _ w1) as [[w2 a2]|] eqn:ED; [|discriminate]. injection H as <- <-.
          destruct (I4 w2 a2 eq_refl) as [_ J]. destruct (HL w2 a2 eq_refl) as (t & T1 & T2 & _). split; eauto.
        * split; [simpl; lia|]. split; [constructor; auto|]. split; [constructor; auto|]. intros w' a H.
          destruct (drain _ _ _ _ ps _ w1) as [[w2 a2]|] eqn:ED; [|discriminate]. injection H as <- <-.
          destruct (I4 w2 a2 eq_refl) as [_ J]. destruct (HL w2 a2 eq_refl) as (t & T1 & T2 & T3). split; [eauto|].
          constructor; eauto.
  Qed.

  Lemma enqueue_cascade : forall n (w : worker K E), w_cascade (plan_and_enqueue eid estats cfg wc n w) = w_cascade w.
  Proof.
    induction n as [|n IH]; intros w; simpl; auto. destruct (plan_version _ _ _ _ 0); auto.
    unfold enqueue. destruct (Nat.ltb _ _); auto. now rewrite IH.
  Qed.

  Lemma follow_spec' : forall pss r (w : worker K E),
    let gs := follow_ups eid estats cfg wc r pss w in
    Forall (fun g => r <= fst g) gs /\ Forall (fun g => later (w_cascade w) (snd g)) gs /\ few wc gs /\ spaced wc gs.
  Proof.
    induction pss as [|ps pss IH]; intros r w; cbn [follow_ups].
    - split; [constructor|]. split; [constructor|]. split; [intros x; simpl; lia|constructor].
    - assert (HC : w_cascade (snd (take_jobs eid estats cfg wc w)) = reset_budget wc (w_cascade w)).
      { unfold take_jobs. cbn [snd w_cascade]. now rewrite enqueue_cascade. }
      unfold cycle. destruct (take_jobs eid estats cfg wc w) as [jobs w0]. cbn [fst snd] in *.
      destruct (sends_spec ps jobs w0) as (S1 & S2 & S3 & S4). cbv zeta in *.
      set (xs := sends eid estats cfg wc ps jobs w0) in *. rewrite HC in S1, S2, S4. cbn [reset_budget cs_left cs_last] in S1.
      assert (LR : forall x, later (reset_budget wc (w_cascade w)) x -> later (w_cascade w) x) by (intros x Hx; exact Hx).
      assert (FE : forall y, length (filter (fun g => Nat.eqb (fst g) y) (map (pair r) xs)) = if Nat.eqb r y then length xs else 0).
      { intros y. clear. induction xs as [|x xs IH]; simpl; [now destruct (Nat.eqb r y)|]. destruct (Nat.eqb r y); simpl; auto. }
      assert (PP : ForallOrdPairs (fun a b : nat * N => (cd <= snd b - snd a)%N) (map (pair r) xs)).
      { clear - S3. induction S3 as [|x xs H _ IH]; simpl; constructor; auto. rewrite Forall_map. auto. }
      destruct (drain eid estats cfg wc ps jobs w0) as [[w1 a]|] eqn:ED.
      + destruct (S4 w1 a eq_refl) as [T1 T2].
        destruct (IH (S r) w1) as (I1 & I2 & I3 & I4). cbv zeta in *.
        set (gs := follow_ups eid estats cfg wc (S r) pss w1) in *.
        split; [|split; [|split]].
        * apply Forall_app. split; [rewrite Forall_map; apply Forall_forall; simpl; auto|].
          eapply Forall_impl; [|exact I1]. cbv beta. intros; lia.
        * apply Forall_app. split; [rewrite Forall_map; eapply Forall_impl; [|exact S2]; auto|].
          eapply Forall_impl; [|exact I2]. cbv beta. intros g Hg. destruct T1 as [T1|(t & T1 & T3)].
          -- intros t Ht. apply Hg. rewrite T1. exact Ht.
          -- apply LR in T3. eapply later_trans; eauto.
        * intros y. rewrite filter_app, app_length, FE. destruct (Nat.eqb_spec r y) as [<-|D]; [|apply I3].
          replace (filter (fun g => Nat.eqb (fst g) r) gs) with (@nil (nat * N)); [simpl; lia|].
          symmetry. clear - I1. induction I1 as [|g gs H _ IH]; simpl; auto.
          destruct (Nat.eqb_spec (fst g) r); [lia|auto].
        * unfold spaced in *. clear - PP T2 I2 I4.
          induction xs as [|x xs IH]; simpl; auto. inversion PP as [|? ? P1 P2]; subst. inversion T2 as [|? ? Q1 Q2]; subst.
          constructor; [|apply IH; auto]. apply Forall_app. split; auto. destruct Q1 as (t & Q1 & Q3).
          eapply Forall_impl; [|exact I2]. cbv beta. intros g Hg. specialize (Hg t Q1). cbn [snd]. destruct Q3 as [->|Q3]; lia.
      + rewrite app_nil_r. split; [|split; [|split]]; auto.
        * rewrite Forall_map. apply Forall_forall. simpl. auto.
        * rewrite Forall_map. eapply Forall_impl; [|exact S2]. auto.
        * intros y. rewrite FE. destruct (Nat.eqb r y); lia.
  Qed.

  Theorem follow_limits ls pss :
    few wc (follow_ups eid estats cfg wc 0 pss (worker_new wc ls)) /\
    spaced wc (follow_ups eid estats cfg wc 0 pss (worker_new wc ls)).
  Proof. destruct (follow_spec' pss 0 (worker_new wc ls)) as (_ & _ & H1 & H2). auto. Qed.
End Follow.
