(** Proofs about the queue of the log (C71). *)
From Coq Require Import List Arith Bool Lia.
From Verif Require Import Spec.QueueSpec Model.LogQueue.
Import ListNotations.

Lemma accepted_app a b : accepted (a ++ b) = accepted a ++ accepted b.
Proof. apply flat_map_app. Qed.
Lemma done_app a b : done (a ++ b) = done a ++ done b.
Proof. apply flat_map_app. Qed.
Lemma answers_app a b : answers (a ++ b) = answers a ++ answers b.
Proof. apply flat_map_app. Qed.
Lemma calls_app a b : calls (a ++ b) = calls a ++ calls b.
Proof. apply flat_map_app. Qed.

Lemma acc_effects l : accepted (effects l) = [].
Proof. induction l; simpl; auto. Qed.
Lemma acc_answered a l : accepted (answered a l) = [].
Proof. induction l; simpl; auto. Qed.
Lemma acc_gone l : accepted (gone l) = [].
Proof. induction l; simpl; auto. Qed.
Lemma done_effects l : done (effects l) = l.
Proof. induction l as [|[c r] l IH]; simpl; [auto|f_equal; exact IH]. Qed.
Lemma done_answered a l : done (answered a l) = [].
Proof. induction l; simpl; auto. Qed.
Lemma done_gone l : done (gone l) = [].
Proof. induction l; simpl; auto. Qed.
Lemma ans_effects l : answers (effects l) = [].
Proof. induction l; simpl; auto. Qed.
Lemma ans_answered a l : answers (answered a l) = map (fun m => (fst m, a)) l.
Proof. induction l as [|m l IH]; simpl; [auto|f_equal; exact IH]. Qed.
Lemma ans_gone l : answers (gone l) = map (fun m => (fst m, AGone)) l.
Proof. induction l as [|m l IH]; simpl; [auto|f_equal; exact IH]. Qed.
Lemma calls_effects l : calls (effects l) = [].
Proof. induction l; simpl; auto. Qed.
Lemma calls_answered a l : calls (answered a l) = [].
Proof. induction l; simpl; auto. Qed.
Lemma calls_gone l : calls (gone l) = [].
Proof. induction l; simpl; auto. Qed.

Lemma write_all_spec out : forall b w ok, write_all out b = (w, ok) ->
  (ok = true -> w = b) /\ (exists r, b = w ++ r).
Proof.
  induction b as [|m b IH]; simpl; intros w ok E.
  - injection E as <- <-. split; [auto|]. now exists [].
  - destruct (out (fst m)).
    + destruct (write_all out b) as [w' ok'] eqn:E'.
      injection E as <- <-. destruct (IH _ _ eq_refl) as [A [r B]]. split.
      * intros ->. now rewrite A.
      * exists r. simpl. congruence.
    + injection E as <- <-. split; [discriminate|]. now exists (m :: b).
    + injection E as <- <-. split; [discriminate|]. now exists b.
Qed.

Lemma collect_spec : forall n limit b0 wait b d rest,
  collect n limit b0 wait = (b, d, rest) ->
  exists more,
    b = b0 ++ more /\ Forall (fun m => snd m = RCmd) more /\
    wait = more ++ match d with Some m => m :: rest | None => rest end /\
    (forall m, d = Some m -> snd m <> RCmd).
Proof.
  induction n as [|n IH]; simpl; intros limit b0 wait b d rest E.
  - injection E as <- <- <-. exists []. rewrite app_nil_r.
    repeat split; auto. discriminate.
  - destruct wait as [|m wait].
    { injection E as <- <- <-. exists []. rewrite app_nil_r.
      repeat split; auto. discriminate. }
    destruct (snd m) eqn:Em.
    2,3: injection E as <- <- <-; exists []; rewrite app_nil_r;
         repeat split; auto; intros x Hx; injection Hx as <-; congruence.
    destruct (limit <=? _).
    + injection E as <- <- <-. exists [m]. repeat split; auto. discriminate.
    + destruct (IH _ _ _ _ _ _ E) as (more & -> & F & -> & D).
      exists (m :: more). rewrite <- app_assoc. repeat split; auto.
Qed.

Lemma commands_app a b : commands (a ++ b) = commands a + commands b.
Proof. induction a as [|[c []] a IH]; simpl; auto. Qed.

(** The batch is never longer than its limit, or two if the limit is less. *)
Lemma collect_len : forall n limit b0 wait b d rest,
  collect n limit b0 wait = (b, d, rest) ->
  List.length b0 < limit \/ List.length b0 <= 1 ->
  List.length b <= Nat.max limit 2.
Proof.
  induction n as [|n IH]; simpl; intros limit b0 wait b d rest E H.
  - injection E as <- <- <-. lia.
  - destruct wait as [|m wait]; [injection E as <- <- <-; lia|].
    destruct (snd m).
    2,3: injection E as <- <- <-; lia.
    destruct (limit <=? _) eqn:L.
    + injection E as <- <- <-. rewrite app_length. simpl. lia.
    + apply Nat.leb_gt in L. eapply IH; eauto.
Qed.

Lemma ended_in_finish s ok depth wait s' t :
  finish s ok depth wait = (s', t) ->
  accepted t = [] /\ done t = [] /\ calls t = [] /\
  answers t = map (fun m => (fst m, AGone)) wait /\
  In (EEnd ok) t /\ (forall x, In (EEnd x) t -> x = ok) /\
  q_life s' = (if ok then EndedOk else EndedErr) /\ q_wait s' = [] /\
  q_next s' = q_next s /\ q_depth s' = depth /\ q_open s' = q_open s.
Proof.
  unfold finish. intros E. injection E as <- <-.
  rewrite accepted_app, done_app, calls_app, answers_app.
  rewrite acc_gone, done_gone, calls_gone, ans_gone.
  assert (X : forall ok', accepted (EEnd ok' :: (if q_shut s then [EShut ok'] else [])) = []
     /\ done (EEnd ok' :: (if q_shut s then [EShut ok'] else [])) = []
     /\ calls (EEnd ok' :: (if q_shut s then [EShut ok'] else [])) = []
     /\ answers (EEnd ok' :: (if q_shut s then [EShut ok'] else [])) = []).
  { intros; destruct (q_shut s); simpl; auto. }
  destruct (X ok) as (-> & -> & -> & ->).
  rewrite !app_nil_r. repeat split; auto.
  - apply in_app_iff. right. now left.
  - intros x H. apply in_app_iff in H. destruct H as [H|[H|H]].
    + unfold gone in H. apply in_map_iff in H. destruct H as (m & H & _).
      discriminate.
    + congruence.
    + destruct (q_shut s); simpl in H; [|contradiction].
      destruct H as [H|[]]. discriminate.
Qed.

(** Success is told only of what has taken effect before. *)
Definition honest (before t : trace) : Prop :=
  forall a c b, t = a ++ EAnswer c AOk :: b ->
    In c (map fst (done (before ++ a))).

Lemma split_app {A} : forall (t1 t2 a : list A) x b,
  t1 ++ t2 = a ++ x :: b ->
  (exists b1, t1 = a ++ x :: b1) \/ (exists a2, a = t1 ++ a2 /\ t2 = a2 ++ x :: b).
Proof.
  induction t1 as [|y t1 IH]; simpl; intros t2 a x b E.
  - right. now exists a.
  - destruct a as [|z a]; simpl in E; injection E as -> E.
    + left. now exists t1.
    + destruct (IH _ _ _ _ E) as [[b1 ->]|[a2 [-> ->]]].
      * left. now exists b1.
      * right. now exists a2.
Qed.

Lemma honest_app p t1 t2 : honest p t1 -> honest (p ++ t1) t2 -> honest p (t1 ++ t2).
Proof.
  intros H1 H2 a c b E. apply split_app in E.
  destruct E as [[b1 ->]|[a2 [-> ->]]].
  - eapply H1; reflexivity.
  - rewrite app_assoc. eapply H2; reflexivity.
Qed.

Lemma honest_none p t : (forall c, ~ In (EAnswer c AOk) t) -> honest p t.
Proof.
  intros H a c b ->. exfalso. apply (H c). apply in_app_iff. right. now left.
Qed.

Lemma honest_answered p l : (forall c, In c (map fst l) -> In c (map fst (done p))) ->
  honest p (answered AOk l).
Proof.
  intros H a c b E.
  rewrite done_app, map_app. apply in_app_iff. left. apply H.
  assert (X : In (EAnswer c AOk) (answered AOk l)).
  { rewrite E. apply in_app_iff. right. now left. }
  unfold answered in X. apply in_map_iff in X. destruct X as (m & X & I).
  injection X as <-. now apply in_map.
Qed.

Lemma no_ok_effects l c : ~ In (EAnswer c AOk) (effects l).
Proof. unfold effects. intros H. apply in_map_iff in H. destruct H as (? & H & _). discriminate. Qed.
Lemma no_ok_gone l c : ~ In (EAnswer c AOk) (gone l).
Proof. unfold gone. intros H. apply in_map_iff in H. destruct H as (? & H & _). discriminate. Qed.
Lemma no_ok_err l c : ~ In (EAnswer c AOk) (answered AErr l).
Proof. unfold answered. intros H. apply in_map_iff in H. destruct H as (? & H & _). discriminate. Qed.
Lemma no_ok_finish s ok depth wait s' t c :
  finish s ok depth wait = (s', t) -> ~ In (EAnswer c AOk) t.
Proof.
  unfold finish. intros E. injection E as <- <-. intros H.
  apply in_app_iff in H. destruct H as [H|[H|H]].
  - now apply no_ok_gone in H.
  - discriminate.
  - destruct (q_shut s); simpl in H; intuition discriminate.
Qed.

Lemma NoDup_app_iff_tail {A} (l : list A) x : NoDup l -> ~ In x l -> NoDup (l ++ [x]).
Proof.
  induction l as [|y l IH]; simpl; intros N H.
  - constructor; [auto|constructor].
  - inversion N as [|? ? N1 N2]; subst. constructor.
    + intros I. apply in_app_iff in I. destruct I as [I|[I|[]]]; [auto|].
      apply H. auto.
    + apply IH; auto.
Qed.

Lemma NoDup_app_disj {A} (l r : list A) x : NoDup (l ++ r) -> In x l -> In x r -> False.
Proof.
  induction l as [|y l IH]; simpl; intros N X H; [contradiction|].
  inversion N as [|? ? N1 N2]; subst. destruct X as [->|X]; [|auto].
  apply N1. apply in_app_iff. auto.
Qed.

(** What one move of the writer does. *)
Record Keeps (s s' : qstate) (t : trace) : Prop := {
  k_acc : accepted t = [];
  k_calls : calls t = [];
  k_wait : q_wait s = done t ++ q_wait s';
  k_ans : answers t = map (fun m => (fst m, AOk)) (done t);
  k_end : forall ok, ~ In (EEnd ok) t;
  k_close : ~ In EClose t;
  k_life : q_life s' = q_life s;
  k_next : q_next s' = q_next s;
  k_open : q_open s' = q_open s;
  k_shut : q_shut s' = q_shut s;
  k_noshut : forall ok, ~ In (EShut ok) t;
  k_join : q_join s' = q_join s;
  k_depth : q_depth s = commands (q_wait s) -> q_depth s' = commands (q_wait s');
  k_honest : forall p, honest p t
}.

Record Ends (ok : bool) (s s' : qstate) (t : trace) : Prop := {
  e_acc : accepted t = [];
  e_calls : calls t = [];
  e_wait : exists r, q_wait s = done t ++ r;
  e_ans : map fst (answers t) = map fst (q_wait s);
  e_end : In (EEnd ok) t;
  e_only : forall x, In (EEnd x) t -> x = ok;
  e_open : q_open s' = q_open s;
  e_close : ~ In EClose t;
  e_life : q_life s' = (if ok then EndedOk else EndedErr);
  e_next : q_next s' = q_next s;
  e_none : q_wait s' = [];
  e_ok : ok = true -> q_wait s = [] /\ q_depth s' = 0;
  e_join : q_join s' = q_join s;
  e_shut : q_shut s' = false;
  e_told : forall x, In (EShut x) t -> x = ok /\ q_shut s = true;
  e_gone : exists r g, q_wait s = done t ++ r ++ g /\
    forall c, In (c, AGone) (answers t) -> In c (map fst g);
  e_form : ok = true -> t = EEnd true :: (if q_shut s then [EShut true] else []);
  e_honest : forall p, honest p t
}.

Lemma keep_trans s s1 s2 t1 t2 : Keeps s s1 t1 -> Keeps s1 s2 t2 -> Keeps s s2 (t1 ++ t2).
Proof.
  intros A B. destruct A, B. split.
  - now rewrite accepted_app, k_acc0, k_acc1.
  - now rewrite calls_app, k_calls0, k_calls1.
  - rewrite done_app, <- app_assoc. congruence.
  - rewrite answers_app, done_app, map_app. congruence.
  - intros ok H. apply in_app_iff in H. firstorder.
  - intros H. apply in_app_iff in H. firstorder.
  - congruence.
  - congruence.
  - congruence.
  - congruence.
  - intros ok H. apply in_app_iff in H. firstorder.
  - congruence.
  - auto.
  - intros p. apply honest_app; auto.
Qed.

Lemma keep_end s s1 s2 t1 t2 : Keeps s s1 t1 -> Ends false s1 s2 t2 ->
  Ends false s s2 (t1 ++ t2).
Proof.
  intros A B. destruct A, B. split.
  - now rewrite accepted_app, k_acc0, e_acc0.
  - now rewrite calls_app, k_calls0, e_calls0.
  - destruct e_wait0 as [r R]. exists r. rewrite done_app, <- app_assoc. congruence.
  - rewrite answers_app, map_app, k_ans0, map_map, e_ans0, k_wait0, map_app. auto.
  - apply in_app_iff. auto.
  - intros x H. apply in_app_iff in H. destruct H as [H|H]; [|auto].
    now apply k_end0 in H.
  - congruence.
  - intros H. apply in_app_iff in H. firstorder.
  - auto.
  - congruence.
  - auto.
  - discriminate.
  - congruence.
  - auto.
  - intros x H. apply in_app_iff in H. destruct H as [H|H].
    + now apply k_noshut0 in H.
    + apply e_told0 in H. intuition congruence.
  - destruct e_gone0 as (r & g & G1 & G2). exists r, g. split.
    + rewrite done_app, <- app_assoc. congruence.
    + intros c H. rewrite answers_app in H. apply in_app_iff in H.
      destruct H as [H|H]; [|auto]. rewrite k_ans0 in H. apply in_map_iff in H.
      destruct H as (? & H & _). discriminate.
  - discriminate.
  - intros p. apply honest_app; auto.
Qed.

Lemma finish_told s ok depth wait s' t : finish s ok depth wait = (s', t) ->
  q_shut s' = false /\ q_join s' = q_join s /\
  (forall x, In (EShut x) t -> x = ok /\ q_shut s = true) /\ ~ In EClose t.
Proof.
  unfold finish. intros E. injection E as <- <-. simpl. repeat split; auto;
    try intros H;
  apply in_app_iff in H; destruct H as [H|[H|H]];
    try (unfold gone in H; apply in_map_iff in H; destruct H as (? & H & _); discriminate);
    try discriminate;
    destruct (q_shut s); simpl in H; try contradiction; destruct H as [H|[]];
    congruence.
Qed.

(** Ending after some effects and errors. *)
Lemma ends_fail s s' t e w b wait depth :
  finish s false depth wait = (s', t) ->
  q_wait s = b ++ wait -> (exists r, b = w ++ r) ->
  e = effects w ++ answered AErr b ->
  Ends false s s' (e ++ t).
Proof.
  intros F W [r R] ->.
  pose proof (fun c => no_ok_finish _ _ _ _ _ _ c F) as NO.
  pose proof (finish_told _ _ _ _ _ _ F) as (T1 & T2 & T3 & T4).
  apply ended_in_finish in F.
  destruct F as (F1 & F2 & F3 & F4 & F5 & F6 & F7 & F8 & F9 & F10 & F11).
  split.
  - now rewrite !accepted_app, acc_effects, acc_answered, F1.
  - now rewrite !calls_app, calls_effects, calls_answered, F3.
  - exists (r ++ wait). rewrite !done_app, done_effects, done_answered, F2, !app_nil_r.
    rewrite W, R, <- app_assoc. auto.
  - rewrite !answers_app, ans_effects, ans_answered, F4. simpl.
    rewrite map_app, !map_map, W, map_app. auto.
  - apply in_app_iff. auto.
  - intros x H. apply in_app_iff in H. destruct H as [H|H]; [|auto].
    exfalso. apply in_app_iff in H. unfold effects, answered in H.
    destruct H as [H|H]; apply in_map_iff in H; destruct H as (? & H & _);
      discriminate.
  - auto.
  - intros H. apply in_app_iff in H. destruct H as [H|H]; [|auto].
    exfalso. apply in_app_iff in H. unfold effects, answered in H.
    destruct H as [H|H]; apply in_map_iff in H; destruct H as (? & H & _);
      discriminate.
  - auto.
  - auto.
  - auto.
  - discriminate.
  - auto.
  - auto.
  - intros x H. apply in_app_iff in H. destruct H as [H|H]; [|auto].
    exfalso. apply in_app_iff in H. unfold effects, answered in H.
    destruct H as [H|H]; apply in_map_iff in H; destruct H as (? & H & _);
      discriminate.
  - exists r, wait. split.
    + rewrite !done_app, done_effects, done_answered, F2, !app_nil_r.
      rewrite W, R, <- app_assoc. auto.
    + intros c H. rewrite !answers_app, ans_effects, ans_answered, F4 in H.
      apply in_app_iff in H. destruct H as [H|H]; apply in_map_iff in H;
        destruct H as (m & H & M); [discriminate|]. injection H as <-. now apply in_map.
  - discriminate.
  - intros p. apply honest_none. intros c H.
    apply in_app_iff in H. destruct H as [H|H]; [|now apply NO in H].
    apply in_app_iff in H. destruct H as [H|H].
    + now apply no_ok_effects in H.
    + now apply no_ok_err in H.
Qed.

Lemma keeps_ok s b rest depth :
  q_wait s = b ++ rest -> q_life s = Running ->
  (q_depth s = commands (q_wait s) -> depth = commands rest) ->
  Keeps s (QState (q_open s) rest depth Running (q_next s) (q_join s) (q_shut s))
    (effects b ++ answered AOk b).
Proof.
  intros W L D. split; simpl; auto.
  - now rewrite accepted_app, acc_effects, acc_answered.
  - now rewrite calls_app, calls_effects, calls_answered.
  - now rewrite done_app, done_effects, done_answered, app_nil_r.
  - now rewrite answers_app, done_app, done_effects, done_answered, app_nil_r,
      ans_effects, ans_answered.
  - intros ok H. apply in_app_iff in H. unfold effects, answered in H.
    destruct H as [H|H]; apply in_map_iff in H; destruct H as (? & H & _);
      discriminate.
  - intros H. apply in_app_iff in H. unfold effects, answered in H.
    destruct H as [H|H]; apply in_map_iff in H; destruct H as (? & H & _);
      discriminate.
  - intros ok H. apply in_app_iff in H. unfold effects, answered in H.
    destruct H as [H|H]; apply in_map_iff in H; destruct H as (? & H & _);
      discriminate.
  - intros p. apply honest_app.
    + apply honest_none. intros c. apply no_ok_effects.
    + apply honest_answered. intros c H. rewrite done_app, done_effects, map_app.
      apply in_app_iff. auto.
Qed.

Lemma other_cases out s m depth wait s' t :
  other_msg out s m depth wait = (s', t) ->
  snd m <> RCmd ->
  q_life s = Running -> q_wait s = m :: wait ->
  (q_depth s = commands (q_wait s) -> depth = commands wait) ->
  (Keeps s s' t /\ List.length (q_wait s') < List.length (q_wait s)) \/
  Ends false s s' t.
Proof.
  unfold other_msg. intros E NC L W D.
  assert (K : Keeps s (QState (q_open s) wait depth Running (q_next s) (q_join s) (q_shut s))
                (effects [m] ++ answered AOk [m])).
  { apply keeps_ok; auto. }
  assert (F : forall w, (exists r, [m] = w ++ r) ->
     Ends false s (fst (finish s false depth wait))
       ((effects w ++ answered AErr [m]) ++ snd (finish s false depth wait))).
  { intros w R. apply (ends_fail s _ _ _ w [m] wait depth); auto. }
  destruct (finish s false depth wait) as [sf tf]. simpl fst in F. simpl snd in F.
  assert (F1 := F [] (ex_intro _ [m] eq_refl)).
  assert (F2 := F [m] (ex_intro _ [] eq_refl)).
  destruct (snd m); [congruence| |]; destruct (out (fst m)); injection E as <- <-;
    try (left; split; [exact K|simpl; rewrite W; simpl; lia]); right.
  - exact F1.
  - exact F2.
Qed.

Lemma round_cases limit n out s s' t :
  round limit n out s = (s', t) -> q_life s = Running ->
  (Keeps s s' t /\
   (q_wait s = [] \/ List.length (q_wait s') < List.length (q_wait s))) \/
  Ends false s s' t.
Proof.
  unfold round. intros E L.
  destruct (q_wait s) as [|m rest] eqn:W.
  { injection E as <- <-. left. split; [|auto]. split; simpl; auto.
    intros p. apply honest_none. auto. }
  destruct (snd m) eqn:Em.
  2,3: destruct (other_cases _ _ _ _ _ _ _ E) as [[K Z]|K]; auto; try congruence;
    [ intros D; rewrite D, W; destruct m as [c r]; simpl in Em; subst r; auto
    | left; split; auto; rewrite W in Z; auto ].
  destruct (collect n limit [m] rest) as [[b d] rest'] eqn:C.
  destruct (collect_spec _ _ _ _ _ _ _ C) as (more & B & FM & R & ND).
  destruct (write_all out b) as [w ok] eqn:WA.
  destruct (write_all_spec _ _ _ _ WA) as [WO WP].
  assert (FB : Forall (fun m => snd m = RCmd) b).
  { subst b. constructor; auto. }
  assert (WB : q_wait s = b ++ match d with Some m => m :: rest' | None => rest' end).
  { rewrite W, R, B. auto. }
  assert (CD : match d with Some m => commands (m :: rest') | None => commands rest' end
               = commands rest').
  { destruct d as [[c r]|]; auto. specialize (ND _ eq_refl). simpl in *.
    destruct r; congruence. }
  assert (DD : q_depth s = commands (q_wait s) -> q_depth s - commands b = commands rest').
  { intros D. rewrite D, WB, commands_app, <- CD. destruct d; lia. }
  destruct ok.
  - rewrite WO in * by auto.
    destruct d as [d|].
    + pose (s0 := QState (q_open s) (d :: rest') (q_depth s - commands b) Running
                    (q_next s) (q_join s) (q_shut s)).
      assert (K0 : Keeps s s0 (effects b ++ answered AOk b)).
      { apply keeps_ok; auto. intros D. rewrite CD. auto. }
      assert (EO : other_msg out s d (q_depth s - commands b) rest' =
                   other_msg out s0 d (q_depth s - commands b) rest') by reflexivity.
      rewrite EO in E.
      destruct (other_msg out s0 d (q_depth s - commands b) rest') as [s2 t2] eqn:E2.
      injection E as <- <-.
      destruct (other_cases _ _ _ _ _ _ _ E2) as [[K Z]|K]; auto.
      * intros D. simpl in D. rewrite D. auto.
      * left. split; [eapply keep_trans; eauto|]. right.
        rewrite <- W, WB, app_length. simpl in Z. rewrite B. simpl. lia.
      * right. eapply keep_end; eauto.
    + injection E as <- <-. left. split; [apply keeps_ok; auto|].
      right. rewrite <- W, WB, app_length, B. simpl. lia.
  - destruct (finish s false _ _) as [sf tf] eqn:F. injection E as <- <-.
    right. rewrite app_assoc. eapply ends_fail; eauto.
Qed.

(** Agreement of the state and the trace so far. *)
Record QInv (s : qstate) (t : trace) : Prop := {
  iv_calls : calls t = seq 0 (q_next s);
  iv_acc : incl (map fst (accepted t)) (calls t);
  iv_nodup : NoDup (map fst (accepted t));
  iv_run : q_life s = Running ->
    accepted t = done t ++ q_wait s /\
    answers t = map (fun m => (fst m, AOk)) (done t) /\
    (forall ok, ~ In (EEnd ok) t) /\
    q_depth s = commands (q_wait s);
  iv_end : q_life s <> Running ->
    (exists r, accepted t = done t ++ r) /\
    map fst (answers t) = map fst (accepted t) /\ q_wait s = [] /\
    (forall ok, In (EEnd ok) t <-> q_life s = (if ok then EndedOk else EndedErr)) /\
    (q_life s = EndedOk ->
       done t = accepted t /\ answers t = map (fun m => (fst m, AOk)) (done t) /\
       q_depth s = 0);
  iv_honest : honest [] t;
  iv_gone : forall c, In (c, AGone) (answers t) -> ~ In c (map fst (done t));
  iv_closed : In EClose t <-> q_open s = false
}.

Lemma qinv_init : QInv q_init [].
Proof.
  split; simpl; auto.
  - intros x [].
  - constructor.
  - congruence.
  - apply honest_none. auto.
  - split; [intros []|discriminate].
Qed.


Lemma qinv_keep s t s' u : QInv s t -> q_life s = Running -> Keeps s s' u ->
  QInv s' (t ++ u).
Proof.
  intros I L K. destruct I, K.
  destruct (iv_run0 L) as (A1 & A2 & A3 & A4).
  split.
  - rewrite calls_app, k_calls0, app_nil_r. congruence.
  - rewrite accepted_app, calls_app, k_acc0, k_calls0, !app_nil_r. auto.
  - rewrite accepted_app, k_acc0, app_nil_r. auto.
  - intros _. repeat split.
    + rewrite accepted_app, done_app, k_acc0, app_nil_r, <- app_assoc. congruence.
    + rewrite answers_app, done_app, map_app. congruence.
    + intros ok H. apply in_app_iff in H. destruct H as [H|H].
      * now apply A3 in H.
      * now apply k_end0 in H.
    + auto.
  - intros X. congruence.
  - apply honest_app; simpl; auto.
  - intros c H. rewrite answers_app, A2, k_ans0, <- map_app in H.
    apply in_map_iff in H. destruct H as (? & H & _). discriminate.
  - rewrite in_app_iff, k_open0, <- iv_closed0. intuition.
Qed.

Lemma qinv_end ok s t s' u : QInv s t -> q_life s = Running -> Ends ok s s' u ->
  QInv s' (t ++ u).
Proof.
  intros I L K. destruct I, K.
  destruct (iv_run0 L) as (A1 & A2 & A3 & A4).
  split.
  - rewrite calls_app, e_calls0, app_nil_r. congruence.
  - rewrite accepted_app, calls_app, e_acc0, e_calls0, !app_nil_r. auto.
  - rewrite accepted_app, e_acc0, app_nil_r. auto.
  - rewrite e_life0. destruct ok; discriminate.
  - intros _. repeat split.
    + destruct e_wait0 as [r R]. exists r.
      rewrite accepted_app, done_app, e_acc0, app_nil_r, <- app_assoc. congruence.
    + rewrite answers_app, accepted_app, e_acc0, app_nil_r, !map_app, A2, map_map, e_ans0,
        A1, map_app. auto.
    + auto.
    + intros H. rewrite in_app_iff in H. destruct H as [H|H].
      * now apply A3 in H.
      * apply e_only0 in H. now subst.
    + intros H. rewrite in_app_iff. right.
      assert (ok0 = ok) by (rewrite e_life0 in H; destruct ok, ok0; congruence).
      now subst.
    + assert (ok = true) by (rewrite e_life0 in H; destruct ok; congruence).
      destruct e_ok0 as [W D]; auto.
      rewrite done_app, accepted_app, e_acc0, A1.
      destruct e_wait0 as [r R]. rewrite W in R. symmetry in R.
      apply app_eq_nil in R. destruct R as [-> _]. now rewrite W, !app_nil_r.
    + assert (ok = true) by (rewrite e_life0 in H; destruct ok; congruence).
      destruct e_ok0 as [W D]; auto.
      rewrite W in e_ans0. destruct e_wait0 as [r R]. rewrite W in R. symmetry in R.
      apply app_eq_nil in R. destruct R as [R _].
      rewrite answers_app, done_app, R, app_nil_r, A2.
      destruct (answers u); [apply app_nil_r|discriminate].
    + apply e_ok0. rewrite e_life0 in H. destruct ok; congruence.
  - apply honest_app; simpl; auto.
  - intros c H. rewrite answers_app, A2 in H. apply in_app_iff in H.
    destruct H as [H|H]; [apply in_map_iff in H; destruct H as (? & H & _); discriminate|].
    destruct e_gone0 as (r & g & G1 & G2). apply G2 in H.
    rewrite A1, G1 in iv_nodup0. rewrite done_app, map_app.
    rewrite !app_assoc, map_app in iv_nodup0.
    intros X. eapply NoDup_app_disj; [exact iv_nodup0| |exact H].
    rewrite !map_app. apply in_app_iff. left. exact X.
  - rewrite in_app_iff, e_open0, <- iv_closed0. intuition.
Qed.

Lemma finish_ends s depth s' t ok :
  finish s ok depth [] = (s', t) -> q_wait s = [] -> (ok = true -> depth = 0) ->
  Ends ok s s' t.
Proof.
  intros F W D.
  assert (FF : ok = true -> t = EEnd true :: (if q_shut s then [EShut true] else [])).
  { intros ->. unfold finish in F. injection F as _ <-. reflexivity. }
  pose proof (fun c => no_ok_finish _ _ _ _ _ _ c F) as NO.
  pose proof (finish_told _ _ _ _ _ _ F) as (T1 & T2 & T3 & T4).
  apply ended_in_finish in F.
  destruct F as (F1 & F2 & F3 & F4 & F5 & F6 & F7 & F8 & F9 & F10 & F11).
  split; auto.
  - exists []. now rewrite F2, W.
  - now rewrite F4, W.
  - intros X. split; auto. rewrite F10. auto.
  - exists [], []. rewrite F2, W, F4. split; auto.
  - intros p. apply honest_none. exact NO.
Qed.

Lemma running_spec s : running s = true <-> q_life s = Running.
Proof. unfold running. destruct (q_life s); intuition discriminate. Qed.

(** A move of the writer. *)
Definition writer_move (l : qlabel) : Prop :=
  match l with QRound _ _ _ | QTimer _ | QStop _ => True | _ => False end.

Lemma writer_cases qs l s s' t : qstep qs l s = (s', t) -> writer_move l ->
  (s' = s /\ t = []) \/
  (q_life s = Running /\
   (Keeps s s' t \/ exists ok, Ends ok s s' t)).
Proof.
  intros E M. destruct l as [r| | |timer n out|ok|ok]; try destruct M; simpl in E.
  - destruct (running s) eqn:R; [|injection E as <- <-; auto].
    apply running_spec in R. right. split; auto.
    destruct (round_cases _ _ _ _ _ _ E R) as [[K _]|K]; eauto.
  - destruct (running s && negb ok) eqn:R; [|injection E as <- <-; auto].
    apply andb_true_iff in R. destruct R as [R _]. apply running_spec in R.
    right. split; auto. right. exists false.
    eapply (ends_fail s s' t [] [] []); eauto. now exists [].
  - destruct (q_wait s) as [|m w] eqn:W; [|injection E as <- <-; auto].
    destruct (running s && negb (q_open s)) eqn:R; [|injection E as <- <-; auto].
    apply andb_true_iff in R. destruct R as [R _]. apply running_spec in R.
    right. split; auto. right. exists ok. eapply finish_ends; eauto.
    intros ->. auto.
Qed.

Lemma qinv_step qs l s t s' u : QInv s t -> qstep qs l s = (s', u) ->
  QInv s' (t ++ u).
Proof.
  intros I E.
  assert (MV : writer_move l -> QInv s' (t ++ u)).
  { intros M. destruct (writer_cases _ _ _ _ _ E M) as [[-> ->]|[L [K|[ok K]]]].
    - now rewrite app_nil_r.
    - eapply qinv_keep; eauto.
    - eapply qinv_end; eauto. }
  destruct l as [r| | |timer n out|ok|ok]; try (apply MV; exact Logic.I); clear MV; simpl in E.
  - destruct I.
    assert (FR : ~ In (q_next s) (calls t)).
    { rewrite iv_calls0. intros H. apply in_seq in H. lia. }
    destruct (q_open s && running s) eqn:O.
    + apply andb_true_iff in O. destruct O as [O R]. apply running_spec in R.
      injection E as <- <-. destruct (iv_run0 R) as (A1 & A2 & A3 & A4).
      split; simpl q_life; simpl q_next; simpl q_wait; simpl q_depth; simpl q_open.
      * rewrite calls_app, iv_calls0, seq_S. reflexivity.
      * rewrite accepted_app, calls_app, map_app. apply incl_app_app; auto.
        simpl. apply incl_refl.
      * rewrite accepted_app, map_app. simpl. apply NoDup_app_iff_tail; auto.
      * intros _. rewrite accepted_app, done_app, answers_app. simpl.
        rewrite !app_nil_r, A1, <- app_assoc. repeat split; auto.
        -- intros ok H. apply in_app_iff in H. destruct H as [H|[H|[]]].
           ++ now apply A3 in H.
           ++ discriminate.
        -- rewrite commands_app. destruct r; simpl; lia.
      * congruence.
      * apply honest_app; auto. apply honest_none. intros c [H|[]]. discriminate.
      * rewrite answers_app, done_app. simpl. rewrite !app_nil_r. auto.
      * rewrite in_app_iff, iv_closed0. simpl. rewrite O. intuition discriminate.
    + injection E as <- <-.
      split; simpl q_life; simpl q_next; simpl q_wait; simpl q_depth; simpl q_open.
      * rewrite calls_app, iv_calls0, seq_S. reflexivity.
      * rewrite accepted_app, calls_app. simpl. rewrite app_nil_r.
        intros x X. apply in_app_iff. auto.
      * rewrite accepted_app. simpl. now rewrite app_nil_r.
      * intros L. destruct (iv_run0 L) as (A1 & A2 & A3 & A4).
        rewrite accepted_app, done_app, answers_app. simpl. rewrite !app_nil_r.
        repeat split; auto. intros ok H. apply in_app_iff in H.
        destruct H as [H|[H|[]]]; [now apply A3 in H|discriminate].
      * intros L. destruct (iv_end0 L) as (A1 & A2 & A3 & A4 & A5).
        rewrite accepted_app, done_app, answers_app. simpl. rewrite !app_nil_r.
        repeat split; auto; try (intros; apply A5; auto).
        -- intros H. apply in_app_iff in H. destruct H as [H|[H|[]]];
             [now apply A4|discriminate].
        -- intros H. apply in_app_iff. left. now apply A4.
      * apply honest_app; auto. apply honest_none. intros c [H|[]]. discriminate.
      * rewrite answers_app, done_app. simpl. rewrite !app_nil_r. auto.
      * rewrite in_app_iff, iv_closed0. simpl. intuition discriminate.
  - assert (G : exists sh jn, s' = QState false (q_wait s) (q_depth s) (q_life s) (q_next s) jn sh
             /\ (u = [EClose] \/ exists v, u = [EClose; EShut v])).
    { destruct (q_join s); [destruct (q_life s) eqn:L|]; injection E as <- <-;
        do 2 eexists; split; try reflexivity; eauto. }
    clear E. destruct G as (sh & jn & -> & U). destruct I.
    assert (A : accepted u = [] /\ done u = [] /\ answers u = [] /\ calls u = []
       /\ (forall ok, ~ In (EEnd ok) u) /\ (forall c, ~ In (EAnswer c AOk) u) /\ In EClose u).
    { destruct U as [-> |[v ->]]; simpl; intuition discriminate. }
    destruct A as (U1 & U2 & U3 & U4 & U5 & U6 & U7).
    split; simpl q_life; simpl q_next; simpl q_wait; simpl q_depth; simpl q_open;
      rewrite ?calls_app, ?accepted_app, ?done_app, ?answers_app, ?U1, ?U2, ?U3, ?U4,
        ?app_nil_r; auto.
    + intros L. destruct (iv_run0 L) as (A1 & A2 & A3 & A4). repeat split; auto.
      intros ok H. apply in_app_iff in H. destruct H as [H|H]; [now apply A3 in H|].
      now apply U5 in H.
    + intros L. destruct (iv_end0 L) as (A1 & A2 & A3 & A4 & A5).
      repeat split; auto; try (intros; apply A5; auto).
      * intros H. apply in_app_iff in H. destruct H as [H|H]; [now apply A4|].
        now apply U5 in H.
      * intros H. apply in_app_iff. left. now apply A4.
    + apply honest_app; auto. now apply honest_none.
    + rewrite in_app_iff. intuition.
  - injection E as <- <-. destruct I.
    split; simpl q_life; simpl q_next; simpl q_wait; simpl q_depth; simpl q_open;
      rewrite ?calls_app, ?accepted_app, ?done_app, ?answers_app; simpl;
        rewrite ?app_nil_r; auto.
    + intros L. destruct (iv_run0 L) as (A1 & A2 & A3 & A4). repeat split; auto.
      intros ok H. apply in_app_iff in H. destruct H as [H|[H|[]]]; [now apply A3 in H|].
      discriminate.
    + intros L. destruct (iv_end0 L) as (A1 & A2 & A3 & A4 & A5).
      repeat split; auto; try (intros; apply A5; auto).
      * intros H. apply in_app_iff in H. destruct H as [H|[H|[]]]; [now apply A4|].
        discriminate.
      * intros H. apply in_app_iff. left. now apply A4.
    + apply honest_app; auto. apply honest_none. intros c [H|[]]. discriminate.
    + rewrite in_app_iff. simpl. intuition.
Qed.
