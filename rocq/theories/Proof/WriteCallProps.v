(** Write calls over the log: what they leave behind (C73). *)
From Coq Require Import List Arith Bool Lia Sorted.
From Verif Require Import Spec.QueueSpec Model.LogQueue Model.WriteCall Proof.LogQueueFacts
  Proof.LogQueueProps Proof.WriteCallFacts.
Import ListNotations.

Lemma in_log w i f x : In x (frames_in_log w i f) <->
  In (x, (i, f)) (w_own w) /\ In x (map fst (done (w_t w))).
Proof.
  unfold frames_in_log. rewrite in_map_iff. split.
  - intros ([y [j g]] & <- & H). apply filter_In in H. simpl in H. destruct H as [H1 H2].
    apply andb_true_iff in H2. destruct H2 as [H2 H3]. apply andb_true_iff in H2.
    destruct H2 as [H2 H4]. apply Nat.eqb_eq in H2. subst j. apply existsb_exists in H3.
    destruct H3 as (z & H3 & H5). apply Nat.eqb_eq in H5. subst z. simpl.
    destruct g, f; try discriminate; auto.
  - intros [H1 H2]. exists (x, (i, f)). split; auto. apply filter_In. split; auto.
    simpl. rewrite Nat.eqb_refl. simpl. apply andb_true_iff. split; [destruct f; auto|].
    apply existsb_exists. exists x. split; auto. apply Nat.eqb_refl.
Qed.

Lemma survives_spec w i : survives w i <->
  exists x, In (x, (i, FCommit)) (w_own w) /\ In x (map fst (done (w_t w))).
Proof.
  unfold survives. split.
  - intros H. destruct (frames_in_log w i FCommit) as [|x l] eqn:E; [congruence|].
    exists x. apply in_log. rewrite E. now left.
  - intros (x & H) E. apply in_log in H. rewrite E in H. destruct H.
Qed.

Lemma nodup_filter_fst {A B} (p : A * B -> bool) : forall l, NoDup (map fst l) ->
  NoDup (map fst (filter p l)).
Proof.
  induction l as [|x l IH]; simpl; intros H; [constructor|]. inversion H; subst.
  destruct (p x); simpl; auto. constructor; auto. intros C. apply H2.
  apply in_map_iff in C. destruct C as (y & E & Y). apply filter_In in Y.
  apply in_map_iff. exists y. tauto.
Qed.

Lemma log_nodup w i f : WInv w -> NoDup (frames_in_log w i f).
Proof. intros I. apply nodup_filter_fst. apply (wi_one _ I). Qed.

Lemma same_length (a b : list nat) : NoDup a -> NoDup b -> (forall x, In x a <-> In x b) ->
  List.length a = List.length b.
Proof.
  intros A B E. apply Nat.le_antisymm; apply NoDup_incl_length; auto; intros x X; now apply E.
Qed.

Lemma sorted_nodup l : StronglySorted lt l -> NoDup l.
Proof.
  induction 1 as [|a l S IH F]; constructor; auto. intros H.
  rewrite Forall_forall in F. apply F in H. lia.
Qed.

Lemma in_slice {A} (l : list A) a b x : In x (skipn a (firstn b l)) <->
  exists p, a <= p < b /\ nth_error l p = Some x.
Proof.
  assert (N : forall k (m : list A) p, nth_error (skipn k m) p = nth_error m (k + p)).
  { induction k; intros [|y m] p; simpl; auto. destruct p; auto. }
  assert (F : forall k (m : list A) p, p < k -> nth_error (firstn k m) p = nth_error m p).
  { induction k; intros [|y m] [|p] L; simpl; auto; try lia. apply IHk. lia. }
  split.
  - intros H. apply In_nth_error in H. destruct H as (p & H). rewrite N in H.
    assert (a + p < List.length (firstn b l)) by (apply nth_error_Some; congruence).
    rewrite firstn_length in H0. exists (a + p). split; [lia|].
    rewrite <- (F b) by lia. exact H.
  - intros (p & L & H). apply nth_error_In with (n := p - a). rewrite N.
    replace (a + (p - a)) with p by lia. rewrite F by lia. exact H.
Qed.

Lemma nodup_skipn {A} (l : list A) : forall k, NoDup l -> NoDup (skipn k l).
Proof. intros k H. rewrite <- (firstn_skipn k l) in H. revert H.
  generalize (firstn k l). induction l0; simpl; auto. intros H. inversion H; auto. Qed.
Lemma nodup_firstn {A} (l : list A) : forall k, NoDup l -> NoDup (firstn k l).
Proof.
  induction l as [|a l IH]; intros [|k] H; simpl; try constructor; inversion H; subst; auto.
  intros C. apply H2. rewrite <- (firstn_skipn k l). apply in_app_iff. auto.
Qed.

(** *** A replayed write is whole *)
Lemma whole qs ls i c : nth_error (w_calls (wrun qs ls)) i = Some c ->
  survives (wrun qs ls) i ->
  List.length (frames_in_log (wrun qs ls) i FAppend) = cl_n c /\
  (forall a k, In a (frames_in_log (wrun qs ls) i FAppend) ->
               In k (frames_in_log (wrun qs ls) i FCommit) -> a < k) /\
  List.length (frames_in_log (wrun qs ls) i FCommit) = 1.
Proof.
  intros E S. pose proof (winv_run qs ls) as I. revert E S I.
  generalize (wrun qs ls) as w. intros w E S I.
  pose proof (wi_c _ I i c E) as CI. apply survives_spec in S. destruct S as (x & X & D).
  pose proof (proj1 (ci_own _ _ _ _ _ CI _ _) X) as (p & P & F).
  apply frames_last in F. subst p.
  set (L := last_frame (cl_mode c) (cl_n c)) in *.
  assert (LN : cl_n c <= L) by (unfold L, last_frame; destruct (cl_mode c); lia).
  assert (B : L < List.length (cl_sent c)) by (apply nth_error_Some; congruence).
  assert (ND : NoDup (cl_sent c)) by (apply sorted_nodup; apply (ci_sorted _ _ _ _ _ CI)).
  split; [|split].
  - rewrite (same_length _ (skipn (L - cl_n c) (firstn L (cl_sent c)))).
    + rewrite skipn_length, firstn_length. lia.
    + now apply log_nodup.
    + apply nodup_skipn. now apply nodup_firstn.
    + intros y. rewrite in_log, in_slice, (ci_own _ _ _ _ _ CI). split.
      * intros [(p & Y & F) _]. apply frames_append in F. eauto.
      * intros (p & Q & Y). split.
        -- exists p. split; auto. now apply frames_append.
        -- apply (done_lower _ _ x y (wi_q _ I)); auto.
           ++ apply in_map_iff. exists (y, RCmd). split; auto.
              apply (ci_acc _ _ _ _ _ CI). eapply nth_error_In; eauto.
           ++ eapply (sorted_nth _ (ci_sorted _ _ _ _ _ CI) p L); eauto. lia.
  - intros a k A K. apply in_log in A. apply in_log in K. destruct A as [A _], K as [K _].
    apply (ci_own _ _ _ _ _ CI) in A. apply (ci_own _ _ _ _ _ CI) in K.
    destruct A as (p & A & FA), K as (q & K & FK).
    apply frames_append in FA. apply frames_last in FK. subst q.
    apply (sorted_nth _ (ci_sorted _ _ _ _ _ CI) p L); auto. lia.
  - rewrite (same_length _ [x]); auto.
    + now apply log_nodup.
    + constructor; [intros []|constructor].
    + intros y. rewrite in_log. split.
      * intros [Y _]. apply (ci_own _ _ _ _ _ CI) in Y. destruct Y as (p & Y & F).
        apply frames_last in F. fold L in F. subst p. left. congruence.
      * intros [<-|[]]. auto.
Qed.

(** *** What can be read has been logged *)
Lemma logged w i c : WInv w -> nth_error (w_calls w) i = Some c -> In i (w_mem w) ->
  cl_mode c <> MFast -> survives w i.
Proof.
  intros I E M F. pose proof (wi_c _ I i c E) as CI.
  destruct (ci_prog _ _ _ _ _ CI) as (pre & E1 & E2 & E3 & E4). apply E4 in M.
  destruct (program_shape (cl_mode c) (cl_n c)) as (a & b & S1 & S2 & S3 & S4 & S5).
  rewrite S1 in E1. destruct (prefix_has _ _ _ _ _ E1 S2 M) as (q & ->).
  destruct (E3 (last_frame (cl_mode c) (cl_n c))) as (x & X & A).
  { apply in_app_iff. left. auto. }
  apply survives_spec. exists x. split.
  - apply (ci_own _ _ _ _ _ CI). exists (last_frame (cl_mode c) (cl_n c)). split; auto.
    now apply frames_last.
  - eapply answered_done; eauto. apply (wi_q _ I).
Qed.

Lemma visible qs ls i c : nth_error (w_calls (wrun qs ls)) i = Some c ->
  In i (w_mem (wrun qs ls)) -> cl_mode c <> MFast -> survives (wrun qs ls) i.
Proof. intros. eapply logged; eauto. apply winv_run. Qed.

Lemma returned_applied w i c : WInv w -> nth_error (w_calls w) i = Some c ->
  cl_st c = Returned true -> In i (w_mem w).
Proof.
  intros I E R. pose proof (wi_c _ I i c E) as CI. apply (ci_ret _ _ _ _ _ CI) in R.
  destruct (ci_prog _ _ _ _ _ CI) as (pre & E1 & _ & _ & E4). apply E4.
  rewrite R, app_nil_r in E1. subst pre.
  destruct (program_shape (cl_mode c) (cl_n c)) as (a & b & S1 & _). rewrite S1.
  apply in_app_iff. right. now left.
Qed.

Lemma success qs ls i c : nth_error (w_calls (wrun qs ls)) i = Some c ->
  cl_st c = Returned true ->
  In i (w_mem (wrun qs ls)) /\ (cl_mode c <> MFast -> survives (wrun qs ls) i).
Proof.
  intros E R. pose proof (winv_run qs ls) as I.
  assert (In i (w_mem (wrun qs ls))) by (eapply returned_applied; eauto).
  split; auto. intros F. eapply logged; eauto.
Qed.

(** *** A fast commit, when the log has been shut down in order *)
Lemma fast_shutdown qs ls i c : nth_error (w_calls (wrun qs ls)) i = Some c ->
  cl_st c = Returned true -> ended (w_t (wrun qs ls)) true -> survives (wrun qs ls) i.
Proof.
  intros E R N. pose proof (winv_run qs ls) as I.
  pose proof (wi_c _ I i c E) as CI. apply (ci_ret _ _ _ _ _ CI) in R.
  destruct (ci_prog _ _ _ _ _ CI) as (pre & E1 & E2 & _ & _).
  rewrite R, app_nil_r in E1. subst pre. rewrite program_sends in E2.
  assert (FL : nth_error (frames (cl_mode c) (cl_n c)) (last_frame (cl_mode c) (cl_n c))
               = Some FCommit) by now apply frames_last.
  destruct (nth_error (cl_sent c) (last_frame (cl_mode c) (cl_n c))) as [x|] eqn:X.
  2:{ apply nth_error_None in X. rewrite E2 in X. apply nth_error_None in X. congruence. }
  apply survives_spec. exists x. split.
  - apply (ci_own _ _ _ _ _ CI). eauto.
  - destruct (life_dec (w_q (wrun qs ls))) as [L|L].
    + destruct (iv_run _ _ (wi_q _ I) L) as (_ & _ & H & _). now apply H in N.
    + destruct (iv_end _ _ (wi_q _ I) L) as (_ & _ & _ & H & K). apply H in N.
      destruct (K N) as (-> & _). apply in_map_iff. exists (x, RCmd). split; auto.
      apply (ci_acc _ _ _ _ _ CI). eapply nth_error_In; eauto.
Qed.

(** *** After a call has ended *)
Lemma step_fixed qs l w i c : nth_error (w_calls w) i = Some c -> cl_st c <> Active ->
  nth_error (w_calls (wstep qs l w)) i = Some c.
Proof.
  intros E N.
  assert (U : forall j d d', nth_error (w_calls w) j = Some d -> cl_st d = Active ->
              nth_error (update j d' (w_calls w)) i = Some c).
  { intros j d d' D A. destruct (Nat.eq_dec j i) as [->|NE].
    - rewrite E in D. injection D as <-. congruence.
    - now rewrite update_other. }
  destruct l as [m n|j ok|j|l].
  - simpl. rewrite nth_error_app1; auto. apply nth_error_Some. congruence.
  - cbn [wstep]. destruct (nth_error (w_calls w) j) as [d|] eqn:D; auto.
    destruct (cl_st d) eqn:A; auto. destruct (cl_prog d) as [|[f|k| |] rest]; auto.
    + destruct (qstep_send qs (w_q w)) as (q & [[EQ _]|[EQ _]]); rewrite EQ; simpl; eauto.
    + destruct (nth_error (cl_sent d) k); auto.
      destruct (answer_of (w_t w) n) as [[]|]; simpl; eauto.
    + destruct ok; simpl; eauto.
    + simpl. eauto.
  - cbn [wstep]. destruct (nth_error (w_calls w) j) as [d|] eqn:D; auto.
    destruct (cl_st d) eqn:A; simpl; eauto.
  - assert (G : forall k, nth_error (w_calls (let (q, t) := qstep qs k (w_q w) in
        World q (w_t w ++ t) (w_calls w) (w_own w) (w_mem w))) i = Some c).
    { intros k. destruct (qstep qs k (w_q w)). exact E. }
    destruct l as [[]| | | | |];
      match goal with
      | |- nth_error (w_calls (wstep qs (WLog (QSend RCmd)) w)) _ = _ => exact E
      | |- nth_error (w_calls (wstep qs (WLog ?k) w)) _ = _ => exact (G k)
      end.
Qed.

Lemma fold_fixed qs : forall ls w i c, nth_error (w_calls w) i = Some c -> cl_st c <> Active ->
  nth_error (w_calls (fold_left (fun w l => wstep qs l w) ls w)) i = Some c.
Proof.
  induction ls as [|l ls IH]; intros w i c E N; auto.
  apply (IH (wstep qs l w)); auto. now apply step_fixed.
Qed.

(** The trace only grows. *)
Lemma step_grows qs l w : exists u, w_t (wstep qs l w) = w_t w ++ u.
Proof.
  assert (Z : exists u, w_t w = w_t w ++ u) by (exists []; now rewrite app_nil_r).
  destruct l as [m n|j ok|j|l].
  - exact Z.
  - cbn [wstep]. destruct (nth_error (w_calls w) j) as [d|]; auto.
    destruct (cl_st d); auto. destruct (cl_prog d) as [|[f|k| |] rest]; auto.
    + destruct (qstep_send qs (w_q w)) as (q & [[EQ _]|[EQ _]]); rewrite EQ; simpl; eauto.
    + destruct (nth_error (cl_sent d) k); auto.
      destruct (answer_of (w_t w) n) as [[]|]; simpl; eauto.
    + destruct ok; simpl; eauto.
  - cbn [wstep]. destruct (nth_error (w_calls w) j) as [d|]; auto.
    destruct (cl_st d); simpl; eauto.
  - assert (G : forall k, exists u, w_t (let (q, t) := qstep qs k (w_q w) in
        World q (w_t w ++ t) (w_calls w) (w_own w) (w_mem w)) = w_t w ++ u).
    { intros k. destruct (qstep qs k (w_q w)) as [q t]. exists t. reflexivity. }
    destruct l as [[]| | | | |];
      match goal with
      | |- exists u, w_t (wstep qs (WLog (QSend RCmd)) w) = _ => exact Z
      | |- exists u, w_t (wstep qs (WLog ?k) w) = _ => exact (G k)
      end.
Qed.

Lemma fold_grows qs : forall ls w, exists u,
  w_t (fold_left (fun w l => wstep qs l w) ls w) = w_t w ++ u.
Proof.
  induction ls as [|l ls IH]; intros w.
  - exists []. now rewrite app_nil_r.
  - destruct (IH (wstep qs l w)) as (u & E). destruct (step_grows qs l w) as (v & F).
    exists (v ++ u). simpl. rewrite E, F. now rewrite app_assoc.
Qed.

Lemma fixed_own w w' i c x f : WInv w -> WInv w' -> nth_error (w_calls w) i = Some c ->
  nth_error (w_calls w') i = Some c ->
  (In (x, (i, f)) (w_own w') <-> In (x, (i, f)) (w_own w)).
Proof.
  intros I I' E E'. rewrite (ci_own _ _ _ _ _ (wi_c _ I' i c E')).
  now rewrite (ci_own _ _ _ _ _ (wi_c _ I i c E)).
Qed.

Lemma fixed_mem w w' i c : WInv w -> WInv w' -> nth_error (w_calls w) i = Some c ->
  nth_error (w_calls w') i = Some c -> (In i (w_mem w') <-> In i (w_mem w)).
Proof.
  intros I I' E E'.
  destruct (ci_prog _ _ _ _ _ (wi_c _ I' i c E')) as (p' & A' & _ & _ & M').
  destruct (ci_prog _ _ _ _ _ (wi_c _ I i c E)) as (p & A & _ & _ & M).
  rewrite A in A'. apply app_inv_tail in A'. subst p'. now rewrite <- M', M.
Qed.

Lemma stable qs ls more i c : nth_error (w_calls (wrun qs ls)) i = Some c ->
  cl_st c <> Active ->
  nth_error (w_calls (wrun qs (ls ++ more))) i = Some c /\
  (In i (w_mem (wrun qs (ls ++ more))) <-> In i (w_mem (wrun qs ls))) /\
  (survives (wrun qs ls) i -> survives (wrun qs (ls ++ more)) i).
Proof.
  intros E N. pose proof (winv_run qs ls) as I. pose proof (winv_run qs (ls ++ more)) as I'.
  assert (E' : nth_error (w_calls (wrun qs (ls ++ more))) i = Some c).
  { rewrite wrun_app. now apply fold_fixed. }
  split; [exact E'|]. split; [eapply fixed_mem; eauto|].
  rewrite !survives_spec. intros (x & X & D). exists x. split.
  - apply (fixed_own _ _ _ _ x FCommit I I' E E'). exact X.
  - rewrite wrun_app. destruct (fold_grows qs more (wrun qs ls)) as (u & ->).
    rewrite done_app, map_app. apply in_app_iff. auto.
Qed.

Lemma before_commit qs ls more i c : nth_error (w_calls (wrun qs ls)) i = Some c ->
  cl_st c <> Active -> (forall x, ~ In (x, (i, FCommit)) (w_own (wrun qs ls))) ->
  ~ survives (wrun qs (ls ++ more)) i /\ ~ In i (w_mem (wrun qs (ls ++ more))).
Proof.
  intros E N H. pose proof (winv_run qs ls) as I. pose proof (winv_run qs (ls ++ more)) as I'.
  destruct (stable qs ls more i c E N) as (E' & M & _). split.
  - rewrite survives_spec. intros (x & X & _).
    apply (H x). apply (fixed_own _ _ _ _ x FCommit I I' E E'). exact X.
  - rewrite M. intros K. pose proof (wi_c _ I i c E) as CI.
    destruct (ci_prog _ _ _ _ _ CI) as (pre & E1 & E2 & _ & E4). apply E4 in K.
    destruct (program_shape (cl_mode c) (cl_n c)) as (a & b & S1 & S2 & S3 & S4 & S5).
    rewrite S1 in E1. destruct (prefix_has _ _ _ _ _ E1 S2 K) as (q & ->).
    rewrite sends_app, S4, app_length in E2.
    assert (FL : nth_error (frames (cl_mode c) (cl_n c)) (last_frame (cl_mode c) (cl_n c))
                 = Some FCommit) by now apply frames_last.
    assert (last_frame (cl_mode c) (cl_n c) < List.length (frames (cl_mode c) (cl_n c)))
      by (apply nth_error_Some; congruence).
    destruct (nth_error (cl_sent c) (last_frame (cl_mode c) (cl_n c))) as [x|] eqn:X.
    + apply (H x). apply (ci_own _ _ _ _ _ CI). eauto.
    + apply nth_error_None in X. lia.
Qed.

(** *** Order *)
Lemma qstep_next qs l s s' t : qstep qs l s = (s', t) -> q_next s <= q_next s'.
Proof.
  intros E.
  assert (F : forall s ok d w s' t, finish s ok d w = (s', t) -> q_next s' = q_next s).
  { intros. unfold finish in H. now injection H as <- <-. }
  assert (O : forall out s m d w s' t, other_msg out s m d w = (s', t) -> q_next s' = q_next s).
  { intros out s0 m d w s1 t1. unfold other_msg.
    destruct (snd m), (out (fst m)); intros H;
      repeat match type of H with
      | (let (_, _) := finish ?a ?b ?c ?d in _) = _ =>
          let Q := fresh in destruct (finish a b c d) eqn:Q; apply F in Q
      end; injection H as <- <-; auto. }
  destruct l as [r| | |timer n out|ok|ok]; simpl in E.
  - destruct (q_open s && running s); injection E as <- <-; simpl; lia.
  - destruct (q_join s); [destruct (q_life s)|]; injection E as <- <-; simpl; lia.
  - injection E as <- <-; simpl; lia.
  - destruct (running s); [|injection E as <- <-; lia].
    unfold round in E. destruct (q_wait s) as [|m rest]; [injection E as <- <-; lia|].
    destruct (snd m).
    + destruct (collect n _ [m] rest) as [[b d] rest'].
      destruct (write_all out b) as [w []].
      * destruct d.
        -- destruct (other_msg out s m0 _ rest') eqn:Q. apply O in Q.
           injection E as <- <-. simpl in *. lia.
        -- injection E as <- <-. simpl. lia.
      * destruct (finish s false _ _) eqn:Q. apply F in Q. injection E as <- <-. lia.
    + apply O in E. lia.
    + apply O in E. lia.
  - destruct (running s && negb ok); [apply F in E; lia|injection E as <- <-; lia].
  - destruct (q_wait s); [|injection E as <- <-; lia].
    destruct (running s && negb (q_open s)); [apply F in E; lia|injection E as <- <-; lia].
Qed.

Lemma step_own qs l w : q_next (w_q w) <= q_next (w_q (wstep qs l w)) /\
  forall x j f, In (x, (j, f)) (w_own (wstep qs l w)) ->
    In (x, (j, f)) (w_own w) \/ q_next (w_q w) <= x.
Proof.
  destruct l as [m n|j ok|j|l].
  - simpl. auto.
  - cbn [wstep]. destruct (nth_error (w_calls w) j) as [d|]; auto.
    destruct (cl_st d); auto. destruct (cl_prog d) as [|[f|k| |] rest]; auto.
    + destruct (qstep_send qs (w_q w)) as (q & [[EQ _]|[EQ _]]); rewrite EQ.
      * split; [eapply qstep_next; exact EQ|]. simpl. intros x i g H.
        apply in_app_iff in H. destruct H as [H|[[= <- <- <-]|[]]]; auto.
      * split; [eapply qstep_next; exact EQ|]. simpl. auto.
    + destruct (nth_error (cl_sent d) k); auto.
      destruct (answer_of (w_t w) n) as [[]|]; simpl; auto.
    + destruct ok; simpl; auto.
  - cbn [wstep]. destruct (nth_error (w_calls w) j) as [d|]; auto.
    destruct (cl_st d); simpl; auto.
  - assert (G : forall k, let w' := (let (q, t) := qstep qs k (w_q w) in
        World q (w_t w ++ t) (w_calls w) (w_own w) (w_mem w)) in
        q_next (w_q w) <= q_next (w_q w') /\
        forall x j f, In (x, (j, f)) (w_own w') -> In (x, (j, f)) (w_own w) \/ q_next (w_q w) <= x).
    { intros k. destruct (qstep qs k (w_q w)) as [q t] eqn:EQ. simpl.
      split; auto. eapply qstep_next; exact EQ. }
    destruct l as [[]| | | | |];
      match goal with
      | |- context [wstep qs (WLog (QSend RCmd)) w] => split; [apply Nat.le_refl|intros; left; assumption]
      | |- context [wstep qs (WLog ?k) w] => exact (G k)
      end.
Qed.

Lemma fold_own qs : forall ls w,
  let w' := fold_left (fun w l => wstep qs l w) ls w in
  q_next (w_q w) <= q_next (w_q w') /\
  forall x j f, In (x, (j, f)) (w_own w') -> In (x, (j, f)) (w_own w) \/ q_next (w_q w) <= x.
Proof.
  induction ls as [|l ls IH]; intros w; cbn [fold_left]; [simpl; auto|].
  destruct (IH (wstep qs l w)) as (A & B). destruct (step_own qs l w) as (C & D).
  split; [cbn zeta in A; lia|]. intros x j f H. apply B in H.
  destruct H as [H|H]; [apply D in H; auto|right; lia].
Qed.

Lemma own_below w x i f : WInv w -> In (x, (i, f)) (w_own w) -> x < q_next (w_q w).
Proof.
  intros I H. pose proof (wi_own _ I _ _ _ H) as B.
  destruct (nth_error (w_calls w) i) as [d|] eqn:D; [|apply nth_error_None in D; lia].
  pose proof (wi_c _ I i d D) as CD. apply (ci_own _ _ _ _ _ CD) in H.
  destruct H as (p & H & _). apply nth_error_In in H. apply (ci_acc _ _ _ _ _ CD) in H.
  apply (in_map fst) in H. apply (iv_acc _ _ (wi_q _ I)) in H.
  rewrite (iv_calls _ _ (wi_q _ I)) in H. apply in_seq in H. simpl in H. lia.
Qed.

Lemma in_order qs ls more i c j : nth_error (w_calls (wrun qs ls)) i = Some c ->
  cl_st c <> Active -> List.length (w_calls (wrun qs ls)) <= j ->
  StronglySorted lt (map fst (done (w_t (wrun qs (ls ++ more))))) /\
  forall f g x y, In x (frames_in_log (wrun qs (ls ++ more)) i f) ->
    In y (frames_in_log (wrun qs (ls ++ more)) j g) -> x < y.
Proof.
  intros E N J. pose proof (winv_run qs ls) as I. pose proof (winv_run qs (ls ++ more)) as I'.
  destruct (stable qs ls more i c E N) as (E' & _). split.
  - destruct (done_prefix _ _ (wi_q _ I')) as (r & A).
    assert (S : StronglySorted lt (map fst (accepted (w_t (wrun qs (ls ++ more)))))).
    { apply accepted_sorted. rewrite (iv_calls _ _ (wi_q _ I')). apply sorted_seq. }
    rewrite A, map_app in S. revert S. generalize (map fst (done (w_t (wrun qs (ls ++ more))))).
    induction l as [|a l IH]; simpl; intros S; constructor; inversion S; subst; auto.
    apply Forall_app in H2. tauto.
  - intros f g x y X Y. apply in_log in X. apply in_log in Y. destruct X as [X _], Y as [Y _].
    apply (fixed_own _ _ _ _ x f I I' E E') in X.
    apply own_below in X; auto.
    rewrite wrun_app in Y. destruct (fold_own qs more (wrun qs ls)) as (_ & H).
    apply H in Y. destruct Y as [Y|Y]; [|lia].
    apply (wi_own _ I) in Y. lia.
Qed.

(** *** Without failures *)
Lemma as_queue qs ls : exists k, qrun qs k q_init = (w_q (wrun qs ls), w_t (wrun qs ls)) /\
  (Forall all_sound ls -> Forall sound k).
Proof.
  induction ls as [|l ls IH] using rev_ind.
  - exists []. split; auto.
  - destruct IH as (k & E & S). rewrite wrun_app. cbn [fold_left].
    assert (ST : forall q q' u, qstep qs q (w_q (wrun qs ls)) = (q', u) ->
              qrun qs (k ++ [q]) q_init = (q', w_t (wrun qs ls) ++ u)).
    { intros q q' u Q. rewrite <- (app_nil_r u).
      eapply qrun_app; [exact E|]. simpl. now rewrite Q. }
    assert (ID : exists k', qrun qs k' q_init = (w_q (wrun qs ls), w_t (wrun qs ls)) /\
               (Forall all_sound (ls ++ [l]) -> Forall sound k')).
    { exists k. split; auto. intros F. apply S. now apply Forall_app in F. }
    assert (SN : forall q, sound q -> Forall all_sound (ls ++ [l]) -> Forall sound (k ++ [q])).
    { intros q Q F. apply Forall_app in F. apply Forall_app. split; [tauto|]. auto. }
    destruct l as [m n|j ok|j|l].
    + exact ID.
    + cbn [wstep]. destruct (nth_error (w_calls (wrun qs ls)) j) as [d|]; auto.
      destruct (cl_st d); auto. destruct (cl_prog d) as [|[f|i| |] rest]; auto.
      * destruct (qstep_send qs (w_q (wrun qs ls))) as (q & [[EQ _]|[EQ _]]); rewrite EQ;
          cbn [w_q w_t]; exists (k ++ [QSend RCmd]); split; auto; apply SN; exact Logic.I.
      * destruct (nth_error (cl_sent d) i); auto.
        destruct (answer_of _ n) as [[]|]; simpl; auto.
      * destruct ok; simpl; auto.
    + cbn [wstep]. destruct (nth_error (w_calls (wrun qs ls)) j) as [d|]; auto.
      destruct (cl_st d); simpl; auto.
    + assert (G : let w' := (let (q, t) := qstep qs l (w_q (wrun qs ls)) in
          World q (w_t (wrun qs ls) ++ t) (w_calls (wrun qs ls)) (w_own (wrun qs ls))
            (w_mem (wrun qs ls))) in
          exists k', qrun qs k' q_init = (w_q w', w_t w') /\
                     (Forall all_sound (ls ++ [WLog l]) -> Forall sound k')).
      { destruct (qstep qs l (w_q (wrun qs ls))) as [q t] eqn:EQ. cbn zeta. cbn [w_q w_t].
        exists (k ++ [l]). split; [auto|]. intros F. apply SN; auto.
        apply Forall_app in F. destruct F as [_ F]. inversion F; subst. exact H1. }
      destruct l as [[]| | | | |];
        match goal with
        | |- context [wstep qs (WLog (QSend RCmd)) _] => exact ID
        | _ => exact G
        end.
Qed.

Lemma other_not_ok out s m d w s' t : other_msg out s m d w = (s', t) -> q_life s' <> EndedOk.
Proof.
  unfold other_msg, finish. destruct (snd m), (out (fst m)); intros H; injection H as <- <-;
    simpl; discriminate.
Qed.

Lemma ended_closed qs : forall k s s' t, qrun qs k s = (s', t) ->
  (q_life s = EndedOk -> q_open s = false) -> q_life s' = EndedOk -> q_open s' = false.
Proof.
  induction k as [|l k IH]; intros s s' t E H; simpl in E; [injection E as <- <-; auto|].
  destruct (qstep qs l s) as [s1 t1] eqn:Q. destruct (qrun qs k s1) as [s2 t2] eqn:R.
  injection E as <- <-. apply (IH _ _ _ R). clear IH R. intros N.
  destruct l as [r| | |timer n out|ok|ok]; simpl in Q.
  - destruct (q_open s && running s) eqn:O; injection Q as <- <-; simpl in *; auto.
    apply andb_true_iff in O. destruct O as [_ O]. apply running_spec in O. congruence.
  - destruct (q_join s); [destruct (q_life s)|]; injection Q as <- <-; auto.
  - injection Q as <- <-. auto.
  - destruct (running s) eqn:RU; [|injection Q as <- <-; auto]. apply running_spec in RU.
    exfalso. revert N. unfold round in Q.
    destruct (q_wait s) as [|m rest]; [injection Q as <- <-; congruence|].
    destruct (snd m); try (eapply other_not_ok; exact Q).
    destruct (collect n _ [m] rest) as [[b d] rest'].
    destruct (write_all out b) as [w []].
    + destruct d.
      * destruct (other_msg out s m0 _ rest') eqn:P. injection Q as <- <-.
        eapply other_not_ok; exact P.
      * injection Q as <- <-. simpl. discriminate.
    + unfold finish in Q. injection Q as <- <-. simpl. discriminate.
  - destruct (running s && negb ok); [|injection Q as <- <-; auto].
    unfold finish in Q. injection Q as <- <-. simpl in N. discriminate.
  - destruct (q_wait s); [|injection Q as <- <-; auto].
    destruct (running s && negb (q_open s)) eqn:O; [|injection Q as <- <-; auto].
    apply andb_true_iff in O. destruct O as [_ O]. apply negb_true_iff in O.
    unfold finish in Q. injection Q as <- <-. exact O.
Qed.

Lemma quiet_running qs ls : Forall all_sound ls -> ~ In EClose (w_t (wrun qs ls)) ->
  q_open (w_q (wrun qs ls)) && running (w_q (wrun qs ls)) = true /\
  forall p, In p (answers (w_t (wrun qs ls))) -> snd p = AOk.
Proof.
  intros F C. destruct (as_queue qs ls) as (k & E & S). specialize (S F).
  destruct (no_failure _ _ _ _ E S) as [NE AK]. split; auto.
  pose proof (reach_inv _ _ _ _ E) as I.
  assert (O : q_open (w_q (wrun qs ls)) = true).
  { destruct (q_open (w_q (wrun qs ls))) eqn:O; auto. exfalso. apply C.
    now apply (iv_closed _ _ I). }
  rewrite O. simpl. destruct (q_life (w_q (wrun qs ls))) eqn:L.
  - now apply running_spec.
  - exfalso. pose proof (ended_closed _ _ _ _ _ E) as X. rewrite X in O; auto; discriminate.
  - exfalso. apply NE. assert (N : q_life (w_q (wrun qs ls)) <> Running) by congruence.
    destruct (iv_end _ _ I N) as (_ & _ & _ & H & _). apply (H false). exact L.
Qed.

Lemma no_error qs ls : Forall all_sound ls -> ~ In EClose (w_t (wrun qs ls)) ->
  forall i c, nth_error (w_calls (wrun qs ls)) i = Some c -> cl_st c <> Returned false.
Proof.
  induction ls as [|l ls IH] using rev_ind; intros F C i c E.
  - destruct i; discriminate.
  - apply Forall_app in F. destruct F as [F FL]. inversion FL as [|? ? SL _]; subst.
    rewrite wrun_app in C, E. cbn [fold_left] in C, E.
    assert (C0 : ~ In EClose (w_t (wrun qs ls))).
    { intros H. apply C. destruct (step_grows qs l (wrun qs ls)) as (u & ->).
      apply in_app_iff. auto. }
    specialize (IH F C0). destruct (quiet_running qs ls F C0) as [RUN AK].
    revert C E IH RUN AK. generalize (wrun qs ls) as w. intros w C E IH RUN AK.
    assert (U : forall j d d', nth_error (w_calls w) j = Some d -> cl_st d' <> Returned false ->
              nth_error (update j d' (w_calls w)) i = Some c -> cl_st c <> Returned false).
    { intros j d d' D N H. destruct (Nat.eq_dec j i) as [->|NE].
      - rewrite (update_same _ _ _ _ D) in H. injection H as <-. exact N.
      - rewrite update_other in H by auto. eauto. }
    assert (GO : forall d rest sent, cl_st (go_on d rest sent) <> Returned false)
      by (intros; apply go_on_fields).
    destruct l as [m n|j ok|j|l].
    + simpl in E. destruct (Nat.lt_trichotomy i (List.length (w_calls w))) as [L|[->|L]].
      * rewrite nth_error_app1 in E by auto. eauto.
      * rewrite nth_error_app2, Nat.sub_diag in E by auto. injection E as <-. discriminate.
      * rewrite (proj2 (nth_error_None _ _)) in E; [discriminate|].
        rewrite app_length. simpl. lia.
    + cbn [wstep] in E. destruct (nth_error (w_calls w) j) as [d|] eqn:D; eauto.
      destruct (cl_st d); eauto. destruct (cl_prog d) as [|[f|k| |] rest]; eauto.
      * destruct (qstep_send qs (w_q w)) as (q & [[EQ _]|[EQ R]]); [|congruence].
        rewrite EQ in E. cbn [w_calls] in E. eauto.
      * destruct (nth_error (cl_sent d) k); eauto.
        destruct (answer_of (w_t w) n) as [a|] eqn:A; eauto.
        apply answer_of_in in A. apply AK in A. simpl in A. subst a.
        cbn [w_calls] in E. eauto.
      * simpl in SL. subst ok. cbn [w_calls] in E. eauto.
      * simpl in SL. subst ok. cbn [w_calls] in E. eauto.
    + cbn [wstep] in E. destruct (nth_error (w_calls w) j) as [d|] eqn:D; eauto.
      destruct (cl_st d); eauto. cbn [w_calls] in E.
      eapply (U j d); [exact D| |exact E]. simpl. discriminate.
    + assert (G : forall k, nth_error (w_calls (let (q, t) := qstep qs k (w_q w) in
          World q (w_t w ++ t) (w_calls w) (w_own w) (w_mem w))) i = Some c ->
          cl_st c <> Returned false).
      { intros k. destruct (qstep qs k (w_q w)). simpl. apply IH. }
      destruct l as [[]| | | | |];
        match type of E with
        | nth_error (w_calls (wstep qs (WLog (QSend RCmd)) w)) _ = _ => exact (IH i c E)
        | nth_error (w_calls (wstep qs (WLog ?k) w)) _ = _ => exact (G k E)
        end.
Qed.

(** *** Calls end *)
Fixpoint wf (p : list action) (k : nat) : Prop :=
  match p with
  | [] => True
  | ASend _ :: r => wf r (S k)
  | AWait j :: r => j < k /\ wf r k
  | _ :: r => wf r k
  end.

Lemma wf_sends f l : forall n k, wf l (n + k) -> wf (repeat (ASend f) n ++ l) k.
Proof. induction n; simpl; intros k H; auto. apply IHn. now rewrite Nat.add_succ_r. Qed.

Lemma wf_waits l k : forall n a, a + n <= k -> wf l k -> wf (map AWait (seq a n) ++ l) k.
Proof.
  induction n; simpl; intros a L H; auto. split; [lia|]. apply IHn; auto. lia.
Qed.

Lemma wf_program m n : wf (program m n) 0.
Proof.
  destruct m; unfold program, waits.
  - apply wf_sends. apply wf_waits; [lia|]. simpl. repeat split; auto. lia.
  - simpl wf at 1. apply wf_sends. simpl app. cbn [wf]. apply (wf_waits _ _ (S (S n)) 0); [lia|].
    simpl. auto.
  - simpl wf at 1. apply wf_sends. simpl. auto.
Qed.

Lemma wf_suffix : forall a b k, wf (a ++ b) k -> wf b (List.length (sends a) + k).
Proof.
  induction a as [|x a IH]; intros b k H; auto. destruct x; simpl in *.
  - apply IH in H. now rewrite Nat.add_succ_r in H.
  - apply IH. tauto.
  - apply IH. exact H.
  - apply IH. exact H.
Qed.

Lemma find_answer t x : In x (map fst (answers t)) -> exists a, answer_of t x = Some a.
Proof.
  intros H. unfold answer_of. destruct (find _ _) as [[y b]|] eqn:F; [simpl; eauto|].
  apply in_map_iff in H. destruct H as ([y b] & E & H). simpl in E. subst y.
  apply (find_none _ _ F) in H. simpl in H. now rewrite Nat.eqb_refl in H.
Qed.

Lemma move_less qs i ok w c : WInv w -> (exists r, ended (w_t w) r) ->
  nth_error (w_calls w) i = Some c -> cl_st c = Active ->
  exists c', nth_error (w_calls (wstep qs (WMove i ok) w)) i = Some c' /\
    (cl_st c' <> Active \/ S (List.length (cl_prog c')) <= List.length (cl_prog c)).
Proof.
  intros I [r N] E A. pose proof (wi_c _ I i c E) as CI.
  destruct (ci_prog _ _ _ _ _ CI) as (pre & E1 & E2 & _).
  pose proof (wf_program (cl_mode c) (cl_n c)) as WF. rewrite E1 in WF.
  apply wf_suffix in WF. rewrite Nat.add_0_r, <- E2 in WF.
  cbn [wstep]. rewrite E, A.
  assert (GO : forall rest sent, List.length (cl_prog c) = S (List.length rest) ->
     cl_st (go_on c rest sent) <> Active \/
     S (List.length (cl_prog (go_on c rest sent))) <= List.length (cl_prog c)).
  { intros rest sent L. right. destruct (go_on_fields c rest sent) as (_ & _ & -> & _). lia. }
  assert (FA : cl_st (fails c) <> Active \/
     S (List.length (cl_prog (fails c))) <= List.length (cl_prog c))
    by (left; discriminate).
  destruct (cl_prog c) as [|[f|j| |] rest] eqn:P.
  - exfalso. apply (ci_ret _ _ _ _ _ CI) in P. congruence.
  - destruct (qstep_send qs (w_q w)) as (q & [[EQ _]|[EQ _]]); rewrite EQ; cbn [w_calls];
      rewrite (update_same _ _ _ _ E); eauto.
  - simpl in WF. destruct WF as [WF _].
    destruct (nth_error (cl_sent c) j) as [x|] eqn:X; [|apply nth_error_None in X; lia].
    assert (AN : In x (map fst (answers (w_t w)))).
    { destruct (life_dec (w_q w)) as [L|L].
      - destruct (iv_run _ _ (wi_q _ I) L) as (_ & _ & H & _). now apply H in N.
      - destruct (iv_end _ _ (wi_q _ I) L) as (_ & -> & _).
        apply in_map_iff. exists (x, RCmd). split; auto. apply (ci_acc _ _ _ _ _ CI).
        eapply nth_error_In; eauto. }
    destruct (find_answer _ _ AN) as (a & ->).
    destruct a; cbn [w_calls]; rewrite (update_same _ _ _ _ E); eauto.
  - destruct ok; cbn [w_calls]; rewrite (update_same _ _ _ _ E); eauto.
  - destruct ok; cbn [w_calls]; rewrite (update_same _ _ _ _ E); eauto.
Qed.

Lemma moves_end qs i : forall oks w c, WInv w -> (exists r, ended (w_t w) r) ->
  nth_error (w_calls w) i = Some c -> List.length (cl_prog c) < List.length oks ->
  exists c', nth_error (w_calls (fold_left (fun w l => wstep qs l w) (map (WMove i) oks) w)) i
             = Some c' /\ cl_st c' <> Active.
Proof.
  induction oks as [|ok oks IH]; intros w c I N E L; [simpl in L; lia|].
  cbn [map fold_left].
  assert (D : cl_st c = Active \/ cl_st c <> Active)
    by (destruct (cl_st c); auto; right; discriminate).
  destruct D as [A|A].
  - destruct (move_less qs i ok w c I N E A) as (c' & E' & [H|H]).
    + exists c'. split; auto. now apply fold_fixed.
    + apply (IH _ c'); auto.
      * now apply winv_step.
      * destruct N as (r & N). exists r. destruct (step_grows qs (WMove i ok) w) as (u & ->).
        apply in_app_iff. auto.
      * simpl in L. lia.
  - exists c. split; auto. apply fold_fixed; auto. now apply step_fixed.
Qed.

Lemma program_length m n : List.length (program m n) <= 2 * n + 6.
Proof.
  destruct m; unfold program, waits;
    repeat (rewrite ?app_length, ?repeat_length, ?map_length, ?seq_length; simpl); lia.
Qed.

Lemma calls_end qs ls r i c oks : nth_error (w_calls (wrun qs ls)) i = Some c ->
  ended (w_t (wrun qs ls)) r -> 2 * cl_n c + 6 < List.length oks ->
  exists c', nth_error (w_calls (wrun qs (ls ++ map (WMove i) oks))) i = Some c' /\
             cl_st c' <> Active.
Proof.
  intros E N L. rewrite wrun_app. pose proof (winv_run qs ls) as I.
  apply (moves_end qs i oks _ c); eauto.
  destruct (ci_prog _ _ _ _ _ (wi_c _ I i c E)) as (pre & P & _).
  pose proof (program_length (cl_mode c) (cl_n c)) as B. rewrite P, app_length in B. lia.
Qed.

(** *** Examples *)
Definition moves (i k : nat) : list wlabel := repeat (WMove i true) k.

(** An ingest of rows and deletes, a strict commit and a fast one, mixed. *)
Definition busy : list wlabel :=
  [WCall MIngest 2; WCall MStrict 1; WCall MFast 1] ++
  moves 0 2 ++ moves 1 2 ++ moves 2 4 ++ [WLog (QRound true 3 good)] ++ moves 0 3 ++
  moves 1 1 ++ [WLog (QRound true 9 good)] ++ moves 0 3 ++ moves 1 5 ++
  [WLog (QSend RRotate); WLog (QRound true 9 good)].

Lemma busy_sound : Forall all_sound busy.
Proof. repeat (constructor; [simpl; auto; try exact Logic.I|]). constructor. Qed.

Lemma busy_end : w_mem (wrun 4 busy) = [2; 0; 1] /\
  map cl_st (w_calls (wrun 4 busy)) = [Returned true; Returned true; Returned true] /\
  frames_in_log (wrun 4 busy) 0 FAppend = [0; 1] /\
  frames_in_log (wrun 4 busy) 0 FCommit = [7] /\
  frames_in_log (wrun 4 busy) 1 FCommit = [8] /\
  frames_in_log (wrun 4 busy) 2 FCommit = [6].
Proof. vm_compute. repeat split. Qed.

(** The future of a write is dropped while it waits for its commit frame. *)
Definition given_up : list wlabel :=
  [WCall MIngest 1] ++ moves 0 1 ++ [WLog (QRound true 9 good)] ++ moves 0 2 ++
  [WDrop 0; WLog (QRound true 9 good)].

Lemma given_up_wrong : exists qs ls i c,
  Forall all_sound ls /\ ~ In EClose (w_t (wrun qs ls)) /\
  nth_error (w_calls (wrun qs ls)) i = Some c /\ cl_st c = Dropped /\
  survives (wrun qs ls) i /\
  forall more, ~ In i (w_mem (wrun qs (ls ++ more))).
Proof.
  exists 4, given_up, 0. eexists. split; [|split; [|split; [|split; [|split]]]].
  - repeat (constructor; [simpl; auto; try exact Logic.I|]). constructor.
  - vm_compute. intuition discriminate.
  - vm_compute. reflexivity.
  - reflexivity.
  - vm_compute. discriminate.
  - intros more. rewrite (proj1 (proj2 (stable 4 given_up more 0 _ eq_refl ltac:(discriminate)))).
    vm_compute. auto.
Qed.

(** A transaction whose frames are all in the log is told that it failed, because a frame of
    another one in the same batch failed. *)
Definition shared : list wlabel :=
  [WCall MStrict 1; WCall MStrict 1] ++ moves 0 3 ++ moves 1 3 ++
  [WLog (QRound true 9 (fail_at 4 FailBefore))] ++ moves 0 1.

Lemma shared_wrong : exists qs ls out i c,
  (forall l, In l ls -> match l with
     | WLog (QRound _ _ o) => o = out | WLog (QTimer ok) | WLog (QStop ok) => ok = true
     | WMove _ ok => ok = true | _ => True end) /\
  nth_error (w_calls (wrun qs ls)) i = Some c /\
  (forall x, In x (cl_sent c) -> out x = OutOk) /\ cl_st c = Returned false /\
  survives (wrun qs ls) i /\
  forall more, ~ In i (w_mem (wrun qs (ls ++ more))).
Proof.
  exists 4, shared, (fail_at 4 FailBefore), 0. eexists.
  split; [|split; [|split; [|split; [|split]]]].
  - intros l L. repeat (destruct L as [<-|L]; [try exact Logic.I; reflexivity|]). destruct L.
  - vm_compute. reflexivity.
  - simpl. intros x [<-|[<-|[<-|[]]]]; reflexivity.
  - reflexivity.
  - vm_compute. discriminate.
  - intros more. rewrite (proj1 (proj2 (stable 4 shared more 0 _ eq_refl ltac:(discriminate)))).
    vm_compute. auto.
Qed.

(** What follows the change of the memtable fails. *)
Definition late_failure : list wlabel :=
  [WCall MStrict 1] ++ moves 0 3 ++ [WLog (QRound true 9 good)] ++ moves 0 4 ++ [WMove 0 false].

Lemma late_failure_wrong : exists qs ls i c,
  nth_error (w_calls (wrun qs ls)) i = Some c /\ cl_st c = Returned false /\
  In i (w_mem (wrun qs ls)) /\ survives (wrun qs ls) i.
Proof.
  exists 4, late_failure, 0. eexists. split; [vm_compute; reflexivity|].
  split; [reflexivity|]. split; [vm_compute; auto|vm_compute; discriminate].
Qed.

(** A fast commit succeeds and the log fails afterwards. *)
Definition too_fast : list wlabel :=
  [WCall MFast 1] ++ moves 0 4 ++
  [WLog (QRound true 0 (fail_at 0 FailBefore))].

Lemma fast_wrong : exists qs ls i c,
  nth_error (w_calls (wrun qs ls)) i = Some c /\ cl_st c = Returned true /\
  In i (w_mem (wrun qs ls)) /\
  forall more, ~ survives (wrun qs (ls ++ more)) i.
Proof.
  assert (E0 : nth_error (w_calls (wrun 4 too_fast)) 0 =
               Some (Client MFast 1 [] [0; 1; 2] (Returned true))) by (vm_compute; reflexivity).
  exists 4, too_fast, 0. eexists. split; [exact E0|].
  split; [reflexivity|]. split; [vm_compute; auto|].
  intros more. rewrite survives_spec. intros (x & X & D).
  pose proof (winv_run 4 too_fast) as I. pose proof (winv_run 4 (too_fast ++ more)) as I'.
  destruct (stable 4 too_fast more 0 _ E0 ltac:(discriminate)) as (E & _).
  apply (fixed_own _ _ _ _ x FCommit I I' E0 E) in X.
  assert (X2 : x = 2) by (revert X; vm_compute; intuition congruence). subst x.
  refine (iv_gone _ _ (wi_q _ I') 2 _ D).
  rewrite wrun_app. destruct (fold_grows 4 more (wrun 4 too_fast)) as (u & ->).
  rewrite answers_app. apply in_app_iff. left. vm_compute. auto.
Qed.
