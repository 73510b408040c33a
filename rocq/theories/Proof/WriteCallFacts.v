(** Write calls over the log: invariants (C73). *)
From Coq Require Import List Arith Bool Lia Sorted.
From Verif Require Import Spec.QueueSpec Model.LogQueue Model.WriteCall Proof.LogQueueFacts
  Proof.LogQueueProps.
Import ListNotations.

(** *** Lists *)
Lemma update_length {A} : forall i (a : A) l, List.length (update i a l) = List.length l.
Proof. induction i; intros a [|x l]; simpl; auto. Qed.

Lemma update_same {A} : forall i (a : A) l b, nth_error l i = Some b ->
  nth_error (update i a l) i = Some a.
Proof. induction i; intros a [|x l] b; simpl; try discriminate; eauto. Qed.

Lemma update_other {A} : forall i j (a : A) l, i <> j ->
  nth_error (update i a l) j = nth_error l j.
Proof. induction i; intros [|j] a [|x l] N; simpl; auto; congruence. Qed.

Lemma sorted_snoc l x : StronglySorted lt l -> (forall y, In y l -> y < x) ->
  StronglySorted lt (l ++ [x]).
Proof.
  induction 1 as [|a l S IH F]; intros B; simpl; constructor; auto.
  - constructor.
  - apply IH. intros y Y. apply B. now right.
  - apply Forall_app. split; auto. constructor; auto. apply B. now left.
Qed.

Lemma sorted_nth l : StronglySorted lt l -> forall p q x y, p < q ->
  nth_error l p = Some x -> nth_error l q = Some y -> x < y.
Proof.
  induction 1 as [|a l S IH F]; intros [|p] [|q] x y L X Y; simpl in *; try lia;
    try discriminate.
  - injection X as <-. apply nth_error_In in Y.
    rewrite Forall_forall in F. auto.
  - apply (IH p q); auto. lia.
Qed.

Lemma sorted_seq : forall n a, StronglySorted lt (seq a n).
Proof.
  induction n; intros a; simpl; constructor; auto.
  apply Forall_forall. intros x X. apply in_seq in X. lia.
Qed.

Lemma accepted_in_calls t c : In c (map fst (accepted t)) -> In c (calls t).
Proof.
  intros H. apply in_map_iff in H. destruct H as ([c' r] & <- & H).
  apply in_flat_map in H. destruct H as (e & E & H). destruct e; simpl in H; try tauto.
  destruct H as [[= -> ->]|[]]. apply in_flat_map. exists (EAccept c' r). simpl. auto.
Qed.

Lemma sorted_app_r (a b : list nat) : StronglySorted lt (a ++ b) -> StronglySorted lt b.
Proof. induction a; simpl; auto. intros H. inversion H; auto. Qed.

Lemma accepted_sorted : forall t, StronglySorted lt (calls t) ->
  StronglySorted lt (map fst (accepted t)).
Proof.
  induction t as [|e t IH]; intros S; simpl; [constructor|].
  unfold calls in S. simpl in S. fold (calls t) in S.
  assert (S' : StronglySorted lt (calls t)) by now apply sorted_app_r in S.
  unfold accepted. simpl. fold (accepted t). rewrite map_app.
  destruct e; simpl; auto.
  inversion S; subst. constructor; auto.
  apply Forall_forall. intros x X. rewrite Forall_forall in H2.
  apply H2. now apply accepted_in_calls.
Qed.

Lemma prefix_lower : forall (d r : list nat) x y, StronglySorted lt (d ++ r) ->
  In y (d ++ r) -> In x d -> y < x -> In y d.
Proof.
  intros d r x y S Y X L. apply in_app_iff in Y. destruct Y as [Y|Y]; auto. exfalso.
  induction d as [|a d IH]; [destruct X|].
  simpl in S. inversion S; subst. destruct X as [->|X].
  - rewrite Forall_forall in H2.
    assert (x < y) by (apply H2; apply in_app_iff; auto). lia.
  - auto.
Qed.

(** What has been written of the accepted requests has no holes. *)
Lemma done_prefix s t : QInv s t -> exists r, accepted t = done t ++ r.
Proof.
  intros I. destruct (life_dec s) as [L|L].
  - destruct (iv_run _ _ I L) as (A & _). eauto.
  - destruct (iv_end _ _ I L) as (A & _). exact A.
Qed.

Lemma done_lower s t x y : QInv s t -> In y (map fst (accepted t)) ->
  In x (map fst (done t)) -> y < x -> In y (map fst (done t)).
Proof.
  intros I Y X L. destruct (done_prefix s t I) as (r & E).
  assert (S : StronglySorted lt (map fst (accepted t))).
  { apply accepted_sorted. rewrite (iv_calls _ _ I). apply sorted_seq. }
  rewrite E, map_app in S, Y. eapply prefix_lower; eauto.
Qed.

Lemma answered_done s t x : QInv s t -> In (x, AOk) (answers t) -> In x (map fst (done t)).
Proof.
  intros I H. apply in_flat_map in H. destruct H as (e & E & H).
  destruct e; simpl in H; try tauto. destruct H as [[= -> ->]|[]].
  apply in_split in E. destruct E as (a & b & E).
  pose proof (iv_honest _ _ I a x b E) as H. simpl in H.
  rewrite E, done_app, map_app. apply in_app_iff. auto.
Qed.

Lemma answer_of_in t x a : answer_of t x = Some a -> In (x, a) (answers t).
Proof.
  unfold answer_of. destruct (find _ _) as [[y b]|] eqn:F; [|discriminate].
  intros [= <-]. apply find_some in F. destruct F as [F E]. simpl in E.
  apply Nat.eqb_eq in E. now subst.
Qed.

(** *** Programs *)
Definition sends (p : list action) : list frame :=
  flat_map (fun a => match a with ASend f => [f] | _ => [] end) p.

Lemma sends_app a b : sends (a ++ b) = sends a ++ sends b.
Proof. apply flat_map_app. Qed.

Lemma sends_cons_send f l : sends (ASend f :: l) = f :: sends l.
Proof. reflexivity. Qed.

Lemma sends_repeat f n : sends (repeat (ASend f) n) = repeat f n.
Proof. induction n; simpl; auto. f_equal. exact IHn. Qed.

Lemma sends_map_wait l : sends (map AWait l) = [].
Proof. induction l; simpl; auto. Qed.

Definition frames (m : mode) (n : nat) : list frame :=
  match m with
  | MIngest => repeat FAppend n ++ [FCommit]
  | _ => FBegin :: repeat FAppend n ++ [FCommit]
  end.

(** The position of the commit frame. *)
Definition last_frame (m : mode) (n : nat) : nat :=
  match m with MIngest => n | _ => S n end.

Lemma program_sends m n : sends (program m n) = frames m n.
Proof.
  destruct m; unfold program, waits, frames.
  - rewrite !sends_app, sends_repeat, sends_map_wait. reflexivity.
  - rewrite sends_cons_send.
    rewrite !sends_app, sends_repeat, sends_map_wait. reflexivity.
  - rewrite sends_cons_send.
    rewrite !sends_app, sends_repeat. reflexivity.
Qed.

Lemma nth_repeat_snoc {A} (a b : A) n p : nth_error (repeat a n ++ [b]) p =
  if p <? n then Some a else if p =? n then Some b else None.
Proof.
  revert p. induction n; intros [|p]; simpl; auto.
  - now rewrite (proj2 (nth_error_None _ _)) by (simpl; lia).
  - rewrite IHn. reflexivity.
Qed.

Lemma frames_last m n p : nth_error (frames m n) p = Some FCommit <-> p = last_frame m n.
Proof.
  assert (H : forall q, nth_error (repeat FAppend n ++ [FCommit]) q = Some FCommit <-> q = n).
  { intros q. rewrite nth_repeat_snoc. destruct (Nat.ltb_spec q n).
    - split; [discriminate|lia].
    - destruct (Nat.eqb_spec q n); split; auto; try discriminate; lia. }
  destruct m; unfold frames, last_frame; auto;
    destruct p; simpl; try (split; discriminate);
    rewrite H; lia.
Qed.

Lemma frames_append m n p : nth_error (frames m n) p = Some FAppend <->
  last_frame m n - n <= p < last_frame m n.
Proof.
  assert (H : forall q, nth_error (repeat FAppend n ++ [FCommit]) q = Some FAppend <-> q < n).
  { intros q. rewrite nth_repeat_snoc. destruct (Nat.ltb_spec q n).
    - split; auto.
    - destruct (Nat.eqb_spec q n); split; try discriminate; lia. }
  destruct m; unfold frames, last_frame.
  - rewrite H. lia.
  - destruct p; [split; [discriminate|intros; exfalso; lia]|cbn [nth_error]]. rewrite H. lia.
  - destruct p; [split; [discriminate|intros; exfalso; lia]|cbn [nth_error]]. rewrite H. lia.
Qed.

Lemma no_apply_repeat f n : ~ In AApply (repeat (ASend f) n).
Proof. intros H. apply repeat_spec in H. discriminate. Qed.

Lemma no_apply_waits n : ~ In AApply (waits n).
Proof. intros H. apply in_map_iff in H. destruct H as (x & E & _). discriminate. Qed.

(** Before it is applied a call has sent its commit frame, and waited for it
    unless it is a fast one. *)
Lemma program_shape m n : exists a b,
  program m n = a ++ AApply :: b /\ ~ In AApply a /\ ~ In AApply b /\
  sends a = frames m n /\ (m <> MFast -> In (AWait (last_frame m n)) a).
Proof.
  destruct m; unfold program.
  - exists (repeat (ASend FAppend) n ++ waits n ++ [ASend FCommit; AWait n]), [AAfter].
    rewrite <- !app_assoc. repeat split; auto.
    + intros H. rewrite !in_app_iff in H. destruct H as [H|[H|[H|[H|[]]]]].
      * now apply no_apply_repeat in H.
      * now apply no_apply_waits in H.
      * discriminate.
      * discriminate.
    + intros [H|[]]. discriminate.
    + unfold waits. rewrite !sends_app, sends_repeat, sends_map_wait. reflexivity.
    + intros _. rewrite !in_app_iff. simpl. auto.
  - exists (ASend FBegin :: repeat (ASend FAppend) n ++ [ASend FCommit] ++ waits (S (S n))),
      [AAfter].
    split; [simpl; rewrite <- !app_assoc; reflexivity|]. repeat split.
    + intros [H|H]; [discriminate|]. rewrite !in_app_iff in H.
      destruct H as [H|[[H|[]]|H]].
      * now apply no_apply_repeat in H.
      * discriminate.
      * now apply no_apply_waits in H.
    + intros [H|[]]. discriminate.
    + unfold waits.
      rewrite sends_cons_send.
      rewrite !sends_app, sends_repeat, sends_map_wait. reflexivity.
    + intros _. right. rewrite !in_app_iff. right. right. unfold waits. apply in_map.
      apply in_seq. unfold last_frame. lia.
  - exists (ASend FBegin :: repeat (ASend FAppend) n ++ [ASend FCommit]), [].
    split; [simpl; rewrite <- !app_assoc; reflexivity|]. repeat split; auto.
    + intros [H|H]; [discriminate|]. rewrite !in_app_iff in H.
      destruct H as [H|[H|[]]]; [now apply no_apply_repeat in H|discriminate].
    + rewrite sends_cons_send.
      rewrite !sends_app, sends_repeat. reflexivity.
    + congruence.
Qed.

(** What precedes a step is done when the step is. *)
Lemma prefix_has {A} (x : A) : forall a b p r, a ++ x :: b = p ++ r -> ~ In x a -> In x p ->
  exists q, p = a ++ x :: q.
Proof.
  induction a as [|y a IH]; intros b p r E N P.
  - destruct p as [|z p]; [destruct P|]. simpl in E. injection E as <- E. simpl. eauto.
  - destruct p as [|z p]; [destruct P|]. simpl in E. injection E as <- E.
    destruct P as [->|P]; [exfalso; apply N; now left|].
    destruct (IH b p r E) as (q & ->); auto.
    + intros H. apply N. now right.
    + exists q. reflexivity.
Qed.

(** *** The invariant *)
Record CInv (t : trace) (own : list (nat * (nat * frame))) (mem : list nat) (i : nat)
    (c : client) : Prop := {
  ci_prog : exists pre, program (cl_mode c) (cl_n c) = pre ++ cl_prog c /\
    List.length (cl_sent c) = List.length (sends pre) /\
    (forall j, In (AWait j) pre ->
       exists x, nth_error (cl_sent c) j = Some x /\ In (x, AOk) (answers t)) /\
    (In AApply pre <-> In i mem);
  ci_ret : cl_st c = Returned true <-> cl_prog c = [];
  ci_sorted : StronglySorted lt (cl_sent c);
  ci_acc : forall x, In x (cl_sent c) -> In (x, RCmd) (accepted t);
  ci_own : forall x f, In (x, (i, f)) own <->
    exists p, nth_error (cl_sent c) p = Some x /\
              nth_error (frames (cl_mode c) (cl_n c)) p = Some f
}.

Record WInv (w : world) : Prop := {
  wi_q : QInv (w_q w) (w_t w);
  wi_c : forall i c, nth_error (w_calls w) i = Some c ->
    CInv (w_t w) (w_own w) (w_mem w) i c;
  wi_mem : forall i, In i (w_mem w) -> i < List.length (w_calls w);
  wi_own : forall x i f, In (x, (i, f)) (w_own w) -> i < List.length (w_calls w);
  wi_one : NoDup (map fst (w_own w))
}.

Lemma winv_init : WInv w_init.
Proof.
  split; simpl; auto.
  - apply qinv_init.
  - intros [|i] c H; discriminate.
  - intros i [].
  - intros x i f [].
  - constructor.
Qed.

Lemma cinv_more t u own mem i c : CInv t own mem i c -> CInv (t ++ u) own mem i c.
Proof.
  intros [P R S A O]. split; auto.
  - destruct P as (pre & E & L & W & M). exists pre. repeat split; auto; try apply M.
    intros j J. destruct (W j J) as (x & X & H). exists x. split; auto.
    rewrite answers_app. apply in_app_iff. auto.
  - intros x X. rewrite accepted_app. apply in_app_iff. auto.
Qed.

Lemma program_nonempty m n : program m n <> [].
Proof.
  destruct (program_shape m n) as (a & b & E & _). rewrite E. destruct a; discriminate.
Qed.

Lemma winv_other w q u : WInv w -> QInv q (w_t w ++ u) ->
  WInv (World q (w_t w ++ u) (w_calls w) (w_own w) (w_mem w)).
Proof.
  intros [Q C M O N] Q'. split; simpl; auto.
  intros i c H. apply cinv_more. auto.
Qed.

(** Replacing one client. *)
Lemma winv_update w q u i c c' own mem :
  WInv w -> nth_error (w_calls w) i = Some c -> QInv q (w_t w ++ u) ->
  CInv (w_t w ++ u) own mem i c' ->
  (forall j, j <> i -> (In j mem <-> In j (w_mem w))) ->
  (forall x j f, j <> i -> (In (x, (j, f)) own <-> In (x, (j, f)) (w_own w))) ->
  NoDup (map fst own) ->
  WInv (World q (w_t w ++ u) (update i c' (w_calls w)) own mem).
Proof.
  intros [Q C M O N] E Q' C' HM HO HN.
  assert (B : i < List.length (w_calls w)) by (apply nth_error_Some; congruence).
  split; simpl; auto.
  - intros j d D. destruct (Nat.eq_dec j i) as [->|NE].
    + rewrite (update_same _ _ _ _ E) in D. injection D as <-. exact C'.
    + rewrite update_other in D by auto.
      pose proof (cinv_more _ u _ _ _ _ (C j d D)) as [P R S A W].
      split; auto.
      * destruct P as (pre & E1 & E2 & E3 & E4). exists pre. repeat split; auto.
        -- intros H. apply HM; auto. now apply E4.
        -- intros H. apply E4. now apply HM.
      * intros x f. rewrite HO by auto. apply W.
  - intros j J. rewrite update_length. destruct (Nat.eq_dec j i) as [->|NE]; auto.
    apply M. now apply HM.
  - intros x j f J. rewrite update_length. destruct (Nat.eq_dec j i) as [->|NE]; auto.
    apply (O x j f). now apply HO.
Qed.

Lemma qstep_send qs s : exists q,
  (qstep qs (QSend RCmd) s = (q, [EAccept (q_next s) RCmd]) /\ q_open s && running s = true) \/
  (qstep qs (QSend RCmd) s = (q, [ERefuse (q_next s)]) /\ q_open s && running s = false).
Proof.
  simpl. destruct (q_open s && running s) eqn:E; eexists; [left|right]; eauto.
Qed.

Lemma cinv_fails t own mem i c : CInv t own mem i c -> cl_st c = Active ->
  CInv t own mem i (fails c).
Proof.
  intros [P R S A O] Z. split; simpl; auto.
  split; intros H; [discriminate|]. apply R in H. congruence.
Qed.

Lemma go_on_fields c rest sent :
  cl_mode (go_on c rest sent) = cl_mode c /\ cl_n (go_on c rest sent) = cl_n c /\
  cl_prog (go_on c rest sent) = rest /\ cl_sent (go_on c rest sent) = sent /\
  (cl_st (go_on c rest sent) = Returned true <-> rest = []) /\
  cl_st (go_on c rest sent) <> Returned false /\ cl_st (go_on c rest sent) <> Dropped.
Proof.
  unfold go_on, settle. destruct rest; simpl; repeat split; auto; try discriminate;
    intros; discriminate.
Qed.

Lemma cinv_go t own mem i c rest sent :
  (exists pre, program (cl_mode c) (cl_n c) = pre ++ rest /\
    List.length sent = List.length (sends pre) /\
    (forall j, In (AWait j) pre ->
       exists x, nth_error sent j = Some x /\ In (x, AOk) (answers t)) /\
    (In AApply pre <-> In i mem)) ->
  StronglySorted lt sent -> (forall x, In x sent -> In (x, RCmd) (accepted t)) ->
  (forall x f, In (x, (i, f)) own <->
    exists p, nth_error sent p = Some x /\
              nth_error (frames (cl_mode c) (cl_n c)) p = Some f) ->
  CInv t own mem i (go_on c rest sent).
Proof.
  intros P S A O. destruct (go_on_fields c rest sent) as (F1 & F2 & F3 & F4 & F5 & _).
  split; rewrite ?F1, ?F2, ?F3, ?F4; auto.
Qed.

Lemma nth_snoc {A} (l : list A) a p x : nth_error (l ++ [a]) p = Some x <->
  nth_error l p = Some x \/ (p = List.length l /\ x = a).
Proof.
  destruct (Nat.lt_trichotomy p (List.length l)) as [L|[->|L]].
  - rewrite nth_error_app1 by auto. split; auto. intros [H|[-> _]]; auto. lia.
  - rewrite nth_error_app2, Nat.sub_diag by auto. simpl.
    rewrite (proj2 (nth_error_None l _)) by auto.
    split; [intros [= ->]; auto|intros [H|[_ ->]]; congruence].
  - rewrite (proj2 (nth_error_None _ _)) by (rewrite app_length; simpl; lia).
    rewrite (proj2 (nth_error_None _ _)) by lia.
    split; [discriminate|]. intros [H|[-> _]]; [discriminate|lia].
Qed.

Lemma winv_step qs l w : WInv w -> WInv (wstep qs l w).
Proof.
  intros I. destruct l as [m n|i ok|i|l].
  - (* a call begins *)
    destruct I as [Q C M O N]. split; simpl; auto.
    + intros j d D.
      destruct (Nat.lt_trichotomy j (List.length (w_calls w))) as [L|[->|L]].
      * rewrite nth_error_app1 in D by auto. auto.
      * rewrite nth_error_app2, Nat.sub_diag in D by auto. injection D as <-.
        split; simpl.
        -- exists []. simpl. repeat split; auto.
           ++ intros j [].
           ++ intros [].
           ++ intros H. apply M in H. lia.
        -- split; intros H; [discriminate|]. now apply program_nonempty in H.
        -- constructor.
        -- intros x [].
        -- intros x f. split.
           ++ intros H. apply O in H. lia.
           ++ intros (p & H & _). destruct p; discriminate.
      * rewrite (proj2 (nth_error_None _ _)) in D; [discriminate|].
        rewrite app_length. simpl. lia.
    + intros i H. rewrite app_length. apply M in H. lia.
    + intros x i f H. rewrite app_length. apply O in H. lia.
  - (* a call goes on *)
    cbn [wstep]. destruct (nth_error (w_calls w) i) as [c|] eqn:E; auto.
    destruct (cl_st c) eqn:Z; auto. destruct (cl_prog c) as [|a rest] eqn:P; auto.
    pose proof (wi_c _ I i c E) as CI.
    assert (ID : forall own, (forall (x : nat) (j : nat) (f : frame), j <> i ->
              (In (x, (j, f)) own <-> In (x, (j, f)) own)))
      by (intros; reflexivity).
    destruct a as [f|j| |].
    + (* send *)
      destruct (qstep_send qs (w_q w)) as (q & [[EQ OP]|[EQ OP]]); rewrite EQ.
      * assert (Q' : QInv q (w_t w ++ [EAccept (q_next (w_q w)) RCmd]))
          by (eapply qinv_step; [apply (wi_q _ I)|exact EQ]).
        assert (FR : forall x, In (x, RCmd) (accepted (w_t w)) -> x < q_next (w_q w)).
        { intros x X. apply (in_map fst) in X. apply (iv_acc _ _ (wi_q _ I)) in X.
          rewrite (iv_calls _ _ (wi_q _ I)) in X. apply in_seq in X. simpl in X. lia. }
        assert (FO : forall x j g, In (x, (j, g)) (w_own w) -> x < q_next (w_q w)).
        { intros x j g H. pose proof (wi_own _ I _ _ _ H) as B.
          destruct (nth_error (w_calls w) j) as [d|] eqn:D;
            [|apply nth_error_None in D; lia].
          pose proof (wi_c _ I j d D) as CD. apply (ci_own _ _ _ _ _ CD) in H.
          destruct H as (p & H & _). apply FR. apply (ci_acc _ _ _ _ _ CD).
          eapply nth_error_In; eauto. }
        eapply winv_update; eauto.
        -- destruct CI as [(pre & E1 & E2 & E3 & E4) R S A O].
           rewrite P in E1.
           apply cinv_go.
           ++ exists (pre ++ [ASend f]). rewrite <- app_assoc. split; [exact E1|].
              rewrite sends_app, !app_length, E2. split; [simpl; lia|]. split.
              ** intros k K. apply in_app_iff in K. destruct K as [K|[K|[]]]; [|discriminate].
                 destruct (E3 k K) as (x & X & H). exists x. split.
                 --- apply nth_snoc. auto.
                 --- rewrite answers_app. apply in_app_iff. auto.
              ** rewrite in_app_iff. split.
                 --- intros [H|[H|[]]]; [now apply E4|discriminate].
                 --- intros H. left. now apply E4.
           ++ apply sorted_snoc; auto.
           ++ intros x X. rewrite accepted_app. apply in_app_iff in X. apply in_app_iff.
              destruct X as [X|[<-|[]]]; [auto|right; simpl; auto].
           ++ intros x g.
              assert (FN : nth_error (frames (cl_mode c) (cl_n c)) (List.length (cl_sent c))
                           = Some f).
              { rewrite <- program_sends, E1, sends_app, E2, nth_error_app2, Nat.sub_diag by auto.
                reflexivity. }
              rewrite in_app_iff, O. split.
              ** intros [(p & X & G)|[H|[]]].
                 --- exists p. split; auto. apply nth_snoc. auto.
                 --- injection H as <- <-. exists (List.length (cl_sent c)). split; auto.
                     apply nth_snoc. auto.
              ** intros (p & X & G). apply nth_snoc in X. destruct X as [X|[-> ->]].
                 --- left. eauto.
                 --- right. left. rewrite FN in G. injection G as <-. reflexivity.
        -- intros; reflexivity.
        -- intros x j g NE. rewrite in_app_iff. split; auto.
           intros [H|[H|[]]]; auto. injection H as _ <- _. congruence.
        -- rewrite map_app. simpl. apply NoDup_app_iff_tail; [apply (wi_one _ I)|].
           intros H. apply in_map_iff in H. destruct H as ((x & j & g) & H1 & H2).
           simpl in H1. apply FO in H2. lia.
      * eapply winv_update; eauto.
        -- eapply qinv_step; [apply (wi_q _ I)|exact EQ].
        -- apply cinv_fails; auto. now apply cinv_more.
        -- intros; reflexivity.
        -- apply (wi_one _ I).
    + (* wait *)
      destruct (nth_error (cl_sent c) j) as [x|] eqn:X; auto.
      destruct (answer_of (w_t w) x) as [[]|] eqn:A; auto;
        rewrite <- (app_nil_r (w_t w));
        (eapply winv_update; eauto;
         [rewrite app_nil_r; apply (wi_q _ I)| |intros; reflexivity|apply (wi_one _ I)]);
        rewrite app_nil_r; try (apply cinv_fails; assumption).
      apply answer_of_in in A. destruct CI as [(pre & E1 & E2 & E3 & E4) R S AC O].
      rewrite P in E1. apply cinv_go; auto.
      exists (pre ++ [AWait j]). rewrite <- app_assoc. split; [exact E1|].
      rewrite sends_app. simpl. rewrite app_nil_r. split; [exact E2|]. split.
      * intros k K. apply in_app_iff in K. destruct K as [K|[K|[]]]; auto.
        injection K as <-. eauto.
      * rewrite in_app_iff. split.
        -- intros [H|[H|[]]]; [now apply E4|discriminate].
        -- intros H. left. now apply E4.
    + (* apply *)
      destruct ok; rewrite <- (app_nil_r (w_t w)).
      * eapply winv_update; eauto.
        -- rewrite app_nil_r. apply (wi_q _ I).
        -- rewrite app_nil_r.
           destruct CI as [(pre & E1 & E2 & E3 & E4) R S AC O].
           rewrite P in E1. apply cinv_go; auto.
           exists (pre ++ [AApply]). rewrite <- app_assoc. split; [exact E1|].
           rewrite sends_app. simpl. rewrite app_nil_r. split; [exact E2|]. split.
           ++ intros k K. apply in_app_iff in K. destruct K as [K|[K|[]]]; [auto|discriminate].
           ++ rewrite !in_app_iff. simpl. split; auto.
        -- intros j NE. rewrite in_app_iff. simpl. intuition congruence.
        -- apply (wi_one _ I).
      * eapply winv_update; eauto.
        -- rewrite app_nil_r. apply (wi_q _ I).
        -- rewrite app_nil_r. now apply cinv_fails.
        -- intros; reflexivity.
        -- apply (wi_one _ I).
    + (* what follows *)
      rewrite <- (app_nil_r (w_t w)). eapply winv_update; eauto.
      * rewrite app_nil_r. apply (wi_q _ I).
      * rewrite app_nil_r. destruct ok; [|now apply cinv_fails].
        destruct CI as [(pre & E1 & E2 & E3 & E4) R S AC O].
        rewrite P in E1. apply cinv_go; auto.
        exists (pre ++ [AAfter]). rewrite <- app_assoc. split; [exact E1|].
        rewrite sends_app. simpl. rewrite app_nil_r. split; [exact E2|]. split.
        -- intros k K. apply in_app_iff in K. destruct K as [K|[K|[]]]; [auto|discriminate].
        -- rewrite in_app_iff. split.
           ++ intros [H|[H|[]]]; [now apply E4|discriminate].
           ++ intros H. left. now apply E4.
      * intros; reflexivity.
      * apply (wi_one _ I).
  - (* a call is dropped *)
    cbn [wstep]. destruct (nth_error (w_calls w) i) as [c|] eqn:E; auto.
    destruct (cl_st c) eqn:Z; auto.
    rewrite <- (app_nil_r (w_t w)). eapply winv_update; eauto.
    + rewrite app_nil_r. apply (wi_q _ I).
    + rewrite app_nil_r. pose proof (wi_c _ I i c E) as [P R S A O]. split; simpl; auto.
      split; intros H; [discriminate|]. apply R in H. congruence.
    + intros; reflexivity.
    + intros; reflexivity.
    + apply (wi_one _ I).
  - (* the log moves *)
    assert (G : forall k, WInv (let (q, t) := qstep qs k (w_q w) in
              World q (w_t w ++ t) (w_calls w) (w_own w) (w_mem w))).
    { intros k. destruct (qstep qs k (w_q w)) as [q u] eqn:EQ. apply winv_other; auto.
      eapply qinv_step; [apply (wi_q _ I)|exact EQ]. }
    destruct l as [[]| | | | |];
      match goal with
      | |- WInv (wstep qs (WLog (QSend RCmd)) w) => exact I
      | |- WInv (wstep qs (WLog ?k) w) => exact (G k)
      end.
Qed.

Lemma wrun_app qs a b : wrun qs (a ++ b) = fold_left (fun w l => wstep qs l w) b (wrun qs a).
Proof. apply fold_left_app. Qed.

Lemma winv_fold qs : forall ls w, WInv w -> WInv (fold_left (fun w l => wstep qs l w) ls w).
Proof.
  induction ls as [|l ls IH]; intros w I; auto. apply (IH (wstep qs l w)). now apply winv_step.
Qed.

Lemma winv_run qs ls : WInv (wrun qs ls).
Proof. apply winv_fold. apply winv_init. Qed.
