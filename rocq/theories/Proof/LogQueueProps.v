(** The statements of C71, from the invariant of Proof/LogQueueFacts.v. *)
From Coq Require Import List Arith Bool Lia.
From Verif Require Import Spec.QueueSpec Model.LogQueue Proof.LogQueueFacts.
Import ListNotations.

Lemma qrun_inv qs : forall ls s t s' u, QInv s t -> qrun qs ls s = (s', u) ->
  QInv s' (t ++ u).
Proof.
  induction ls as [|l ls IH]; simpl; intros s t s' u I E.
  - injection E as <- <-. now rewrite app_nil_r.
  - destruct (qstep qs l s) as [s1 t1] eqn:E1.
    destruct (qrun qs ls s1) as [s2 t2] eqn:E2. injection E as <- <-.
    rewrite app_assoc. eapply IH; eauto. eapply qinv_step; eauto.
Qed.

Lemma reach_inv qs ls s t : qrun qs ls q_init = (s, t) -> QInv s t.
Proof. intros E. apply (qrun_inv _ _ _ _ _ _ qinv_init E). Qed.

Lemma life_dec s : q_life s = Running \/ q_life s <> Running.
Proof. destruct (q_life s); auto; right; discriminate. Qed.

Lemma order qs ls s t : qrun qs ls q_init = (s, t) ->
  beginning (done t) (accepted t) /\
  beginning (map fst (answers t)) (map fst (accepted t)) /\
  NoDup (calls t) /\ incl (map fst (accepted t)) (calls t).
Proof.
  intros E. apply reach_inv in E. destruct E. repeat split; auto.
  - destruct (life_dec s) as [L|L].
    + destruct (iv_run L) as (A & _). eexists; eauto.
    + destruct (iv_end L) as (A & _). exact A.
  - destruct (life_dec s) as [L|L].
    + destruct (iv_run L) as (A & B & _). exists (map fst (q_wait s)).
      rewrite A, B, map_app, map_map. auto.
    + destruct (iv_end L) as (_ & A & _). exists []. rewrite app_nil_r. auto.
  - rewrite iv_calls. apply seq_NoDup.
Qed.

Lemma truth qs ls s t : qrun qs ls q_init = (s, t) ->
  (forall a c b, t = a ++ EAnswer c AOk :: b -> In c (map fst (done a))) /\
  (forall c, In (c, AGone) (answers t) -> ~ In c (map fst (done t))).
Proof. intros E. apply reach_inv in E. destruct E. split; auto. Qed.

Lemma at_end qs ls s t ok : qrun qs ls q_init = (s, t) -> ended t ok ->
  map fst (answers t) = map fst (accepted t) /\
  ~ ended t (negb ok) /\
  (ok = true ->
     done t = accepted t /\ forall p, In p (answers t) -> snd p = AOk).
Proof.
  intros E H. apply reach_inv in E. destruct E. unfold ended in *.
  destruct (life_dec s) as [L|L].
  - destruct (iv_run L) as (_ & _ & A & _). now apply A in H.
  - destruct (iv_end L) as (A1 & A2 & A3 & A4 & A5). repeat split; auto.
    + intros X. apply A4 in H. apply A4 in X. destruct ok; simpl in *; congruence.
    + subst ok. apply A4 in H. now apply A5.
    + subst ok. apply A4 in H. destruct (A5 H) as (_ & B & _). rewrite B.
      intros p P. apply in_map_iff in P. now destruct P as (m & <- & _).
Qed.

(** The step at which an event of a run happens. *)
Lemma at_step qs : forall ls s s' t, qrun qs ls s = (s', t) ->
  forall a e b, t = a ++ e :: b ->
  exists ls1 l ls2 s1 t1 s2 a2 b2,
    ls = ls1 ++ l :: ls2 /\ qrun qs ls1 s = (s1, t1) /\
    qstep qs l s1 = (s2, a2 ++ e :: b2) /\ a = t1 ++ a2.
Proof.
  induction ls as [|l ls IH]; simpl; intros s s' t E a e b T.
  - injection E as <- <-. destruct a; discriminate.
  - destruct (qstep qs l s) as [s1 t1] eqn:E1.
    destruct (qrun qs ls s1) as [s2 t2] eqn:E2. injection E as <- <-.
    apply split_app in T. destruct T as [[b1 ->]|[a2 [-> ->]]].
    + exists [], l, ls, s, [], s1, a, b1. repeat split; auto.
    + destruct (IH _ _ _ E2 _ _ _ eq_refl)
        as (ls1 & l' & ls2 & s3 & t3 & s4 & a3 & b3 & -> & Q1 & Q2 & ->).
      exists (l :: ls1), l', ls2, s3, (t1 ++ t3), s4, a3, b3.
      simpl. rewrite E1, Q1. repeat split; auto. now rewrite app_assoc.
Qed.

Lemma in_calls t c r : In (EAccept c r) t \/ In (ERefuse c) t -> In c (calls t).
Proof.
  intros H. unfold calls. apply in_flat_map.
  destruct H as [H|H]; eexists; (split; [exact H|simpl; auto]).
Qed.

Lemma writer_no_calls qs l s s' t : qstep qs l s = (s', t) -> writer_move l -> calls t = [].
Proof.
  intros E M. destruct (writer_cases _ _ _ _ _ E M) as [[-> ->]|[L [K|[ok K]]]]; auto;
    now destruct K.
Qed.

Lemma admission qs ls s t : qrun qs ls q_init = (s, t) ->
  (forall a c r b, t = a ++ EAccept c r :: b ->
     ~ In EClose a /\ forall ok, ~ ended a ok) /\
  (forall a c b, t = a ++ ERefuse c :: b ->
     In EClose a \/ exists ok, ended a ok).
Proof.
  intros E. split.
  - intros a c r b T.
    destruct (at_step _ _ _ _ _ E _ _ _ T)
      as (ls1 & l & ls2 & s1 & t1 & s2 & a2 & b2 & -> & Q1 & Q2 & ->).
    assert (NW : ~ writer_move l).
    { intros M. apply (writer_no_calls _ _ _ _ _ Q2) in M.
      assert (X : In c (calls (a2 ++ EAccept c r :: b2))).
      { apply (in_calls _ c r). left. apply in_app_iff. right. now left. }
      rewrite M in X. destruct X. }
    destruct (reach_inv _ _ _ _ Q1).
    destruct l as [r'| | |tm n out|ok|ok]; try (exfalso; apply NW; exact I); simpl in Q2.
    + destruct (q_open s1 && running s1) eqn:O.
      * apply andb_true_iff in O. destruct O as [O R]. apply running_spec in R.
        injection Q2 as _ Q. destruct a2 as [|? a2]; [|destruct a2; discriminate].
        rewrite app_nil_r. split.
        -- intros H. apply iv_closed in H. congruence.
        -- now destruct (iv_run R) as (_ & _ & A & _).
      * injection Q2 as _ Q. destruct a2 as [|? a2]; [discriminate|destruct a2; discriminate].
    + exfalso. destruct (q_join s1); [destruct (q_life s1)|]; injection Q2 as _ Q;
        destruct a2 as [|? [|? [|? a2]]]; discriminate.
    + exfalso. injection Q2 as _ Q. destruct a2 as [|? [|? a2]]; discriminate.
  - intros a c b T.
    destruct (at_step _ _ _ _ _ E _ _ _ T)
      as (ls1 & l & ls2 & s1 & t1 & s2 & a2 & b2 & -> & Q1 & Q2 & ->).
    assert (NW : ~ writer_move l).
    { intros M. apply (writer_no_calls _ _ _ _ _ Q2) in M.
      assert (X : In c (calls (a2 ++ ERefuse c :: b2))).
      { apply (in_calls _ c RCmd). right. apply in_app_iff. right. now left. }
      rewrite M in X. destruct X. }
    destruct (reach_inv _ _ _ _ Q1).
    destruct l as [r'| | |tm n out|ok|ok]; try (exfalso; apply NW; exact I); simpl in Q2.
    + destruct (q_open s1 && running s1) eqn:O.
      * injection Q2 as _ Q. destruct a2 as [|? a2]; [discriminate|destruct a2; discriminate].
      * injection Q2 as _ Q. destruct a2 as [|? a2]; [|destruct a2; discriminate].
        rewrite app_nil_r. apply andb_false_iff in O. destruct O as [O|R].
        -- left. now apply iv_closed.
        -- right. unfold running in R. destruct (q_life s1) eqn:L; [discriminate| |].
           ++ exists true. apply iv_end; auto. discriminate.
           ++ exists false. apply iv_end; auto. discriminate.
    + exfalso. destruct (q_join s1); [destruct (q_life s1)|]; injection Q2 as _ Q;
        destruct a2 as [|? [|? [|? a2]]]; discriminate.
    + exfalso. injection Q2 as _ Q. destruct a2 as [|? [|? a2]]; discriminate.
Qed.

Lemma join_step qs l s s' t : qstep qs l s = (s', t) -> is_shutdown l = false ->
  q_join s' = q_join s.
Proof.
  intros E H. destruct l as [r| | |tm n out|ok|ok]; try discriminate.
  2: simpl in E; injection E as <- <-; auto.
  2-4: destruct (writer_cases _ _ _ _ _ E I) as [[-> ->]|[L [K|[ok' K]]]]; auto; now destruct K.
  simpl in E. destruct (q_open s && running s); injection E as <- <-; auto.
Qed.

Lemma join_run qs : forall ls s s' t, qrun qs ls s = (s', t) -> shutdowns ls = 0 ->
  q_join s' = q_join s.
Proof.
  induction ls as [|l ls IH]; simpl; intros s s' t E H.
  - injection E as <- <-. auto.
  - destruct (qstep qs l s) as [s1 t1] eqn:E1.
    destruct (qrun qs ls s1) as [s2 t2] eqn:E2. injection E as <- <-.
    unfold shutdowns in H. simpl in H. destruct (is_shutdown l) eqn:L; [discriminate|].
    rewrite (IH _ _ _ E2 H). eapply join_step; eauto.
Qed.

(** What a shutdown call is told, if it is the only one. *)
Lemma shutdown_told qs ls s t : qrun qs ls q_init = (s, t) -> shutdowns ls <= 1 ->
  forall a b, t = a ++ EShut true :: b ->
  ended a true /\ done a = accepted a /\
  map fst (answers a) = map fst (accepted a) /\
  (forall p, In p (answers a) -> snd p = AOk).
Proof.
  intros E N a b T.
  destruct (at_step _ _ _ _ _ E _ _ _ T)
    as (ls1 & l & ls2 & s1 & t1 & s2 & a2 & b2 & -> & Q1 & Q2 & ->).
  assert (F : ended t1 true \/ (q_life s1 = Running /\ q_wait s1 = [] /\ a2 = [EEnd true]) ->
    done a2 = [] -> accepted a2 = [] -> answers a2 = [] ->
    ended (t1 ++ a2) true /\ done (t1 ++ a2) = accepted (t1 ++ a2) /\
    map fst (answers (t1 ++ a2)) = map fst (accepted (t1 ++ a2)) /\
    (forall p, In p (answers (t1 ++ a2)) -> snd p = AOk)).
  { intros C D A W. rewrite done_app, accepted_app, answers_app, D, A, W, !app_nil_r.
    destruct C as [C|(L & W0 & ->)].
    - destruct (at_end _ _ _ _ _ Q1 C) as (B1 & B2 & B3). destruct B3; auto.
      repeat split; auto. apply in_app_iff. auto.
    - destruct (reach_inv _ _ _ _ Q1). destruct (iv_run L) as (B1 & B2 & _).
      rewrite W0, app_nil_r in B1. repeat split; auto.
      + apply in_app_iff. right. now left.
      + rewrite B2, B1, map_map. auto.
      + rewrite B2. intros p P. apply in_map_iff in P. now destruct P as (m & <- & _). }
  assert (X : writer_move l -> a2 = [EEnd true] /\ q_life s1 = Running /\ q_wait s1 = []).
  { intros M. destruct (writer_cases _ _ _ _ _ Q2 M) as [[-> Z]|[L [K|[ok K]]]].
    - destruct a2; discriminate.
    - destruct K. exfalso. apply (k_noshut true). apply in_app_iff. right. now left.
    - destruct K. destruct (e_told true) as [O S].
      { apply in_app_iff. right. now left. }
      subst ok. destruct (e_ok eq_refl) as [W _]. specialize (e_form eq_refl).
      rewrite S in e_form. repeat split; auto.
      destruct a2 as [|? [|? [|? a2]]]; try discriminate.
      simpl in e_form. injection e_form as -> _. reflexivity. }
  destruct l as [r| | |tm n out|ok|ok];
    try (destruct (X I) as (-> & L & W); apply F; auto); clear X; simpl in Q2.
  - exfalso. destruct (q_open s1 && running s1); injection Q2 as _ Q;
      destruct a2 as [|? [|? a2]]; discriminate.
  - assert (J : q_join s1 = true).
    { apply (join_run _ _ _ _ _ Q1). unfold shutdowns in *.
      rewrite filter_app, app_length in N. simpl in N. lia. }
    rewrite J in Q2. destruct (reach_inv _ _ _ _ Q1).
    destruct (q_life s1) eqn:L; injection Q2 as _ Q;
      destruct a2 as [|? [|? [|? a2]]]; try discriminate.
    injection Q as <- Q. apply F; auto. left. apply iv_end; auto. discriminate.
  - exfalso. injection Q2 as _ Q. destruct a2 as [|? [|? a2]]; discriminate.
Qed.

(** A writer whose channel is closed stops. *)
Definition is_round (l : qlabel) : Prop :=
  match l with QRound _ _ _ => True | _ => False end.

Lemma rounds_stop qs : forall ls s ok s' t, Forall is_round ls ->
  q_open s = false -> q_life s = Running -> List.length (q_wait s) <= List.length ls ->
  qrun qs (ls ++ [QStop ok]) s = (s', t) -> q_life s' <> Running.
Proof.
  assert (Z : forall l s s' t, qstep qs l s = (s', t) -> is_round l \/ (exists ok, l = QStop ok) ->
     q_life s <> Running -> q_life s' <> Running).
  { intros l s s' t E R H.
    assert (M : writer_move l).
    { destruct R as [R|[ok ->]]; [destruct l; auto; destruct R|exact I]. }
    destruct (writer_cases _ _ _ _ _ E M) as [[-> ->]|[L _]]; [auto|congruence]. }
  assert (ZZ : forall ls ok s s' t, Forall is_round ls ->
     qrun qs (ls ++ [QStop ok]) s = (s', t) -> q_life s <> Running -> q_life s' <> Running).
  { induction ls as [|l ls IH]; intros ok s s' t F E H; cbn [qrun app] in E.
    - destruct (qstep qs (QStop ok) s) as [s1 t1] eqn:E1. injection E as <- <-.
      eapply Z; eauto.
    - destruct (qstep qs l s) as [s1 t1] eqn:E1.
      destruct (qrun qs (ls ++ [QStop ok]) s1) as [s2 t2] eqn:E2. injection E as <- <-.
      inversion F; subst. eapply IH; eauto. }
  induction ls as [|l ls IH]; intros s ok s' t F O L W E; cbn [qrun app] in E.
  - destruct (qstep qs (QStop ok) s) as [s1 t1] eqn:E1. injection E as <- <-.
    simpl in E1. destruct (q_wait s) eqn:Q; [|simpl in W; lia].
    unfold running in E1. rewrite L, O in E1. simpl in E1.
    injection E1 as <- <-. simpl. destruct ok; discriminate.
  - destruct (qstep qs l s) as [s1 t1] eqn:E1.
    destruct (qrun qs (ls ++ [QStop ok]) s1) as [s2 t2] eqn:E2. injection E as <- <-.
    inversion F as [|? ? F1 F2]; subst.
    destruct l as [r| | |tm n out|k|k]; try destruct F1.
    simpl in E1. unfold running in E1. rewrite L in E1.
    destruct (round_cases _ _ _ _ _ _ E1 L) as [[K D]|K].
    + destruct K. apply (IH s1 ok s2 t2); auto; try congruence.
      destruct D as [D|D]; [|simpl in W; lia].
      rewrite D in k_wait. symmetry in k_wait. apply app_eq_nil in k_wait.
      destruct k_wait as [_ ->]. simpl. lia.
    + destruct K. eapply ZZ; eauto. rewrite e_life. discriminate.
Qed.

Lemma qrun_app qs : forall a b s s1 t1 s2 t2,
  qrun qs a s = (s1, t1) -> qrun qs b s1 = (s2, t2) ->
  qrun qs (a ++ b) s = (s2, t1 ++ t2).
Proof.
  induction a as [|l a IH]; simpl; intros b s s1 t1 s2 t2 A B.
  - injection A as <- <-. auto.
  - destruct (qstep qs l s) as [s3 t3]. destruct (qrun qs a s3) as [s4 t4] eqn:E.
    injection A as <- <-. rewrite (IH _ _ _ _ _ _ E B). now rewrite app_assoc.
Qed.

Lemma stops qs ls s t rounds ok s' u :
  qrun qs ls q_init = (s, t) -> In EClose t ->
  Forall is_round rounds ->
  List.length (accepted t) - List.length (answers t) <= List.length rounds ->
  qrun qs (rounds ++ [QStop ok]) s = (s', u) ->
  exists res, ended (t ++ u) res.
Proof.
  intros E C F N R.
  pose proof (reach_inv _ _ _ _ E) as I. pose proof (qrun_inv _ _ _ _ _ _ I R) as I'.
  assert (L : q_life s' <> Running).
  { destruct I. destruct (life_dec s) as [L|L].
    - destruct (iv_run L) as (A1 & A2 & _). apply (rounds_stop qs rounds s ok s' u); auto.
      + now apply iv_closed.
      + rewrite A1, A2, app_length, map_length in N. unfold msg in *. lia.
    - clear - F L R. revert s s' u L R. induction rounds as [|l rounds IH];
        intros s s' u L R; cbn [qrun app] in R.
      + destruct (qstep qs (QStop ok) s) as [s1 t1] eqn:E1. injection R as <- <-.
        destruct (writer_cases _ _ _ _ _ E1 I) as [[-> _]|[L' _]]; [exact L|congruence].
      + destruct (qstep qs l s) as [s1 t1] eqn:E1.
        destruct (qrun qs (rounds ++ [QStop ok]) s1) as [s2 t2] eqn:E2.
        injection R as <- <-. inversion F as [|? ? F1 F2]; subst.
        apply (IH F2 s1 s2 t2); auto. destruct l; try destruct F1.
        destruct (writer_cases _ _ _ _ _ E1 I) as [[-> _]|[L' _]]; [exact L|congruence]. }
  destruct I'. destruct (q_life s') eqn:Q; [congruence| |].
  - exists true. apply iv_end; auto.
  - exists false. apply iv_end; auto.
Qed.

(** Commands among requests, said without the model. *)
Definition is_cmd (p : nat * req) : bool :=
  match snd p with RCmd => true | _ => false end.

Lemma commands_filter l : commands l = List.length (filter is_cmd l).
Proof. induction l as [|[c []] l IH]; simpl; auto. Qed.

Lemma depth qs ls s t : qrun qs ls q_init = (s, t) ->
  ((forall ok, ~ ended t ok) ->
     q_depth s + List.length (filter is_cmd (done t)) =
     List.length (filter is_cmd (accepted t))) /\
  (ended t true -> q_depth s = 0).
Proof.
  intros E. apply reach_inv in E. destruct E. split.
  - intros H. destruct (life_dec s) as [L|L].
    + destruct (iv_run L) as (A & _ & _ & D).
      rewrite <- !commands_filter, A, commands_app, D. lia.
    + destruct (iv_end L) as (_ & _ & _ & A & _). exfalso.
      destruct (q_life s) eqn:Q; [congruence| |].
      * apply (H true). now apply A.
      * apply (H false). now apply A.
  - intros H. destruct (life_dec s) as [L|L].
    + destruct (iv_run L) as (_ & _ & A & _). now apply A in H.
    + destruct (iv_end L) as (_ & _ & _ & A & B). apply B. now apply A in H.
Qed.

(** While the log has not stopped, nothing has failed. *)
Lemma while_running qs ls s t : qrun qs ls q_init = (s, t) ->
  (forall ok, ~ ended t ok) ->
  answers t = map (fun p => (fst p, AOk)) (done t).
Proof.
  intros E H. apply reach_inv in E. destruct E. destruct (life_dec s) as [L|L].
  - now destruct (iv_run L) as (_ & A & _).
  - destruct (iv_end L) as (_ & _ & _ & A & _). exfalso.
    destruct (q_life s) eqn:Q; [congruence| |].
    + apply (H true). now apply A.
    + apply (H false). now apply A.
Qed.

(** Without failures of the storage nothing fails. *)
Lemma write_all_good out b : (forall c, out c = OutOk) -> write_all out b = (b, true).
Proof.
  intros H. induction b as [|m b IH]; simpl; auto. now rewrite H, IH.
Qed.

Lemma other_good out s m depth wait s' t : (forall c, out c = OutOk) ->
  other_msg out s m depth wait = (s', t) -> q_life s' = Running.
Proof.
  unfold other_msg. intros H E. rewrite H in E.
  destruct (snd m); injection E as <- <-; auto.
Qed.

Lemma step_good qs l s s' t : qstep qs l s = (s', t) -> sound l ->
  q_life s <> EndedErr -> q_life s' <> EndedErr.
Proof.
  intros E H L. destruct l as [r| | |tm n out|ok|ok]; simpl in E, H.
  - destruct (q_open s && running s); injection E as <- <-; auto.
  - destruct (q_join s); [destruct (q_life s) eqn:Q|]; injection E as <- <-; simpl;
      congruence.
  - injection E as <- <-. auto.
  - destruct (running s) eqn:R; [|injection E as <- <-; auto].
    unfold round in E. destruct (q_wait s) as [|m w]; [injection E as <- <-; auto|].
    destruct (snd m).
    2,3: rewrite (other_good _ _ _ _ _ _ _ H E); discriminate.
    destruct (collect _ _ [m] w) as [[b d] rest]. rewrite (write_all_good _ _ H) in E.
    destruct d as [d|].
    + destruct (other_msg out s d _ rest) as [s2 t2] eqn:O.
      injection E as <- <-. rewrite (other_good _ _ _ _ _ _ _ H O). discriminate.
    + injection E as <- <-. discriminate.
  - subst ok. simpl in E. rewrite andb_false_r in E. injection E as <- <-. auto.
  - subst ok. destruct (q_wait s); [|injection E as <- <-; auto].
    destruct (running s && negb (q_open s)); injection E as <- <-; simpl; auto.
    discriminate.
Qed.

Lemma run_good qs : forall ls s s' t, qrun qs ls s = (s', t) -> Forall sound ls ->
  q_life s <> EndedErr -> q_life s' <> EndedErr.
Proof.
  induction ls as [|l ls IH]; simpl; intros s s' t E F L.
  - injection E as <- <-. auto.
  - destruct (qstep qs l s) as [s1 t1] eqn:E1.
    destruct (qrun qs ls s1) as [s2 t2] eqn:E2. injection E as <- <-.
    inversion F; subst. eapply IH; eauto. eapply step_good; eauto.
Qed.

Lemma no_failure qs ls s t : qrun qs ls q_init = (s, t) -> Forall sound ls ->
  ~ ended t false /\ forall p, In p (answers t) -> snd p = AOk.
Proof.
  intros E F. assert (L : q_life s <> EndedErr) by (eapply run_good; eauto; discriminate).
  destruct (reach_inv _ _ _ _ E). unfold ended. destruct (life_dec s) as [R|R].
  - destruct (iv_run R) as (_ & A & B & _). split; [apply B|].
    rewrite A. intros p P. apply in_map_iff in P. now destruct P as (m & <- & _).
  - destruct (iv_end R) as (_ & _ & _ & A & B). split.
    + intros X. now apply A in X.
    + destruct (q_life s) eqn:Q; [congruence| |congruence].
      destruct (B eq_refl) as (_ & C & _). rewrite C.
      intros p P. apply in_map_iff in P. now destruct P as (m & <- & _).
Qed.

(** Witnesses. *)
Definition good (c : nat) : outcome := OutOk.
Definition fail_at (k : nat) (o : outcome) (c : nat) : outcome :=
  if c =? k then o else OutOk.

(** Five requests, a shutdown, two rounds and the end: all answered. *)
Definition orderly : list qlabel :=
  [QSend RCmd; QSend RCmd; QSend RSnapshot; QSend RCmd; QRound false 1 good;
   QSend RRotate; QShutdown; QSend RCmd; QRound true 9 good; QRound true 9 good;
   QStop true].

Lemma orderly_trace : snd (qrun 8 orderly q_init) =
  [EAccept 0 RCmd; EAccept 1 RCmd; EAccept 2 RSnapshot; EAccept 3 RCmd;
   EDone 0 RCmd; EDone 1 RCmd; EAnswer 0 AOk; EAnswer 1 AOk;
   EAccept 4 RRotate; EClose; ERefuse 5; EDone 2 RSnapshot; EAnswer 2 AOk;
   EDone 3 RCmd; EAnswer 3 AOk; EDone 4 RRotate; EAnswer 4 AOk;
   EEnd true; EShut true].
Proof. reflexivity. Qed.

Lemma orderly_sound : Forall sound orderly.
Proof. repeat constructor. Qed.

(** Three commands in one batch; the second cannot be encoded. *)
Definition spoiled : list qlabel :=
  [QSend RCmd; QSend RCmd; QSend RCmd; QSend RRotate;
   QRound false 9 (fail_at 1 FailBefore); QSend RCmd].

Lemma spoiled_trace : snd (qrun 8 spoiled q_init) =
  [EAccept 0 RCmd; EAccept 1 RCmd; EAccept 2 RCmd; EAccept 3 RRotate;
   EDone 0 RCmd; EAnswer 0 AErr; EAnswer 1 AErr; EAnswer 2 AErr;
   EAnswer 3 AGone; EEnd false; ERefuse 4].
Proof. reflexivity. Qed.

Lemma error_absent_wrong : exists qs ls s t c,
  qrun qs ls q_init = (s, t) /\ In (c, AErr) (answers t) /\ In c (map fst (done t)).
Proof.
  exists 8, spoiled. eexists _, _, 0. split; [reflexivity|].
  split; vm_compute; auto.
Qed.

(** One request that fails makes others fail that would not. *)
Lemma isolation_wrong : exists qs ls out s t c,
  qrun qs ls q_init = (s, t) /\
  (forall l, In l ls -> match l with
     | QRound _ _ o => o = out | QTimer ok => ok = true | QStop ok => ok = true
     | _ => True end) /\
  out c = OutOk /\ ~ In EClose t /\
  (In (c, AErr) (answers t) /\ ~ In c (map fst (done t))).
Proof.
  exists 8, spoiled, (fail_at 1 FailBefore). eexists _, _, 2.
  split; [reflexivity|]. split.
  { intros l H. simpl in H. repeat (destruct H as [<-|H]; [exact I || reflexivity|]).
    destruct H. }
  split; [reflexivity|]. split.
  { vm_compute. intuition discriminate. }
  split; vm_compute; [auto|]. intuition discriminate.
Qed.

(** Two shutdowns at once: the second returns before anything is written, and
    the writer then fails. *)
Definition twice : list qlabel :=
  [QSend RCmd; QShutdown; QShutdown; QRound false 0 (fail_at 0 FailBefore)].

Lemma second_wrong : exists qs ls s t a b c,
  qrun qs ls q_init = (s, t) /\ t = a ++ EShut true :: b /\
  In (c, RCmd) (accepted a) /\ ~ In (c, RCmd) (done t) /\ In (c, AErr) (answers b).
Proof.
  exists 8, twice. eexists _, _.
  exists [EAccept 0 RCmd; EClose; EClose], [EAnswer 0 AErr; EEnd false; EShut false], 0.
  split; [reflexivity|]. split; [reflexivity|]. split; [simpl; auto|].
  split; simpl; intuition.
Qed.
