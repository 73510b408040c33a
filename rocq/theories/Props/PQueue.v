(** Requests to the log (C71) and commit times of data files (C72). *)
From Coq Require Import List NArith Arith Bool String.
From Verif Require Import Spec.QueueSpec Model.LogQueue Model.Columns Model.Stored Proof.LogQueueProps
  Proof.StoredFacts.
Import ListNotations.
Local Open Scope nat_scope.

(** *** C71.  In what follows [qs] is the size of the queue, [ls] any schedule of calls,
    rounds of the writer with any failures, timers, shutdowns and drops, and [t] what is
    observed.

    Requests take effect in the order in which they were accepted, none is passed over, and
    they are answered in that order, each at most once. *)
Theorem C71_order :
  forall qs ls s t, qrun qs ls q_init = (s, t) ->
    beginning (done t) (accepted t) /\
    beginning (map fst (answers t)) (map fst (accepted t)) /\
    NoDup (calls t) /\ incl (map fst (accepted t)) (calls t).
Proof. exact order. Qed.
Print Assumptions C71_order.

(** A call is told of success only after its request has taken effect; a call told that the
    log is gone left nothing in it. *)
Theorem C71_truth :
  forall qs ls s t, qrun qs ls q_init = (s, t) ->
    (forall a c b, t = a ++ EAnswer c AOk :: b -> In c (map fst (done a))) /\
    (forall c, In (c, AGone) (answers t) -> ~ In c (map fst (done t))).
Proof. exact truth. Qed.
Print Assumptions C71_truth.

(** Once the log has stopped every accepted call has been answered; if it stopped with
    success, every accepted request has taken effect and been answered so. *)
Theorem C71_end :
  forall qs ls s t ok, qrun qs ls q_init = (s, t) -> ended t ok ->
    map fst (answers t) = map fst (accepted t) /\
    ~ ended t (negb ok) /\
    (ok = true -> done t = accepted t /\ forall p, In p (answers t) -> snd p = AOk).
Proof. exact at_end. Qed.
Print Assumptions C71_end.

(** Until then no call has been told of an error. *)
Theorem C71_running :
  forall qs ls s t, qrun qs ls q_init = (s, t) -> (forall ok, ~ ended t ok) ->
    answers t = map (fun p => (fst p, AOk)) (done t).
Proof. exact while_running. Qed.
Print Assumptions C71_running.

(** If the storage never fails, no accepted call ever fails. *)
Theorem C71_no_failure :
  forall qs ls s t, qrun qs ls q_init = (s, t) -> Forall sound ls ->
    ~ ended t false /\ forall p, In p (answers t) -> snd p = AOk.
Proof. exact no_failure. Qed.
Print Assumptions C71_no_failure.

(** Calls are accepted exactly while the log is neither closed nor stopped. *)
Theorem C71_admission :
  forall qs ls s t, qrun qs ls q_init = (s, t) ->
    (forall a c r b, t = a ++ EAccept c r :: b -> ~ In EClose a /\ forall ok, ~ ended a ok) /\
    (forall a c b, t = a ++ ERefuse c :: b -> In EClose a \/ exists ok, ended a ok).
Proof. exact admission. Qed.
Print Assumptions C71_admission.

(** A shutdown call that succeeds, if it is the only one: every request accepted before it
    returned had taken effect and been answered with success by then. *)
Theorem C71_shutdown :
  forall qs ls s t, qrun qs ls q_init = (s, t) -> shutdowns ls <= 1 ->
    forall a b, t = a ++ EShut true :: b ->
      ended a true /\ done a = accepted a /\ map fst (answers a) = map fst (accepted a) /\
      (forall p, In p (answers a) -> snd p = AOk).
Proof. exact shutdown_told. Qed.
Print Assumptions C71_shutdown.

(** A closed log stops after at most as many rounds as there are unanswered requests. *)
Theorem C71_stops :
  forall qs ls s t rounds ok s' u,
    qrun qs ls q_init = (s, t) -> In EClose t ->
    Forall (fun l => match l with QRound _ _ _ => True | _ => False end) rounds ->
    List.length (accepted t) - List.length (answers t) <= List.length rounds ->
    qrun qs (rounds ++ [QStop ok]) s = (s', u) ->
    exists res, ended (t ++ u) res.
Proof. exact stops. Qed.
Print Assumptions C71_stops.

(** The reported depth of the queue is the number of commands accepted and not yet written. *)
Theorem C71_depth :
  forall qs ls s t, qrun qs ls q_init = (s, t) ->
    ((forall ok, ~ ended t ok) ->
       q_depth s + List.length (filter (fun p => match snd p with RCmd => true | _ => false end) (done t)) =
       List.length (filter (fun p => match snd p with RCmd => true | _ => false end) (accepted t))) /\
    (ended t true -> q_depth s = 0).
Proof. exact depth. Qed.
Print Assumptions C71_depth.

(** A call told of an error may have taken effect. *)
Theorem C71_error_absent_refuted :
  exists qs ls s t c,
    qrun qs ls q_init = (s, t) /\ In (c, AErr) (answers t) /\ In c (map fst (done t)).
Proof. exact error_absent_wrong. Qed.
Print Assumptions C71_error_absent_refuted.

(** A request that nothing is wrong with fails because of another one. *)
Theorem C71_isolation_refuted :
  exists qs ls out s t c,
    qrun qs ls q_init = (s, t) /\
    (forall l, In l ls -> match l with
       | QRound _ _ o => o = out | QTimer ok => ok = true | QStop ok => ok = true
       | _ => True end) /\
    out c = OutOk /\ ~ In EClose t /\
    (In (c, AErr) (answers t) /\ ~ In c (map fst (done t))).
Proof. exact isolation_wrong. Qed.
Print Assumptions C71_isolation_refuted.

(** A second shutdown call succeeds at once, while accepted requests wait that will fail. *)
Theorem C71_second_shutdown_refuted :
  exists qs ls s t a b c,
    qrun qs ls q_init = (s, t) /\ t = a ++ EShut true :: b /\
    In (c, RCmd) (accepted a) /\ ~ In (c, RCmd) (done t) /\ In (c, AErr) (answers b).
Proof. exact second_wrong. Qed.
Print Assumptions C71_second_shutdown_refuted.

Example C71_applies :
  shutdowns orderly <= 1 /\ Forall sound orderly /\
  snd (qrun 8 orderly q_init) =
    [EAccept 0 RCmd; EAccept 1 RCmd; EAccept 2 RSnapshot; EAccept 3 RCmd;
     EDone 0 RCmd; EDone 1 RCmd; EAnswer 0 AOk; EAnswer 1 AOk;
     EAccept 4 RRotate; EClose; ERefuse 5; EDone 2 RSnapshot; EAnswer 2 AOk;
     EDone 3 RCmd; EAnswer 3 AOk; EDone 4 RRotate; EAnswer 4 AOk;
     EEnd true; EShut true].
Proof. exact (conj (le_n 1) (conj orderly_sound orderly_trace)). Qed.
Example C71_failure_applies :
  snd (qrun 8 spoiled q_init) =
    [EAccept 0 RCmd; EAccept 1 RCmd; EAccept 2 RCmd; EAccept 3 RRotate;
     EDone 0 RCmd; EAnswer 0 AErr; EAnswer 1 AErr; EAnswer 2 AErr;
     EAnswer 3 AGone; EEnd false; ERefuse 4].
Proof. exact spoiled_trace. Qed.

(** *** C72: the commit times of the rows of a data file. *)
Theorem C72_times :
  forall array array_len (b : batch array) ts,
    batch_valid array array_len b -> List.length ts = b_rows b ->
    has_field commit_col b = false ->
    (exists w, store_columns array array_len b ts = COk w /\
       firstn (List.length (b_cols b)) (b_cols w) = b_cols b) /\
    times_back array array_len b ts = COk ts.
Proof. exact times_kept. Qed.
Print Assumptions C72_times.
Example C72_applies : batch_valid unit (fun _ => O)
    (mkBatch [(mkField "id"%string false, U64 [Some 1%N; Some 2%N])] 2 []) /\
  times_back unit (fun _ => O) (mkBatch [(mkField "id"%string false, U64 [Some 1%N; Some 2%N])] 2 []) [9%N; 7%N]
    = COk [9%N; 7%N].
Proof. split; [split; [discriminate|repeat constructor]|reflexivity]. Qed.

(** Whatever the file: if it is read, every row has a time and it is its own, the one beside
    it in the file.  A file with a missing time is not read. *)
Theorem C72_own :
  forall array array_len (b : batch array) ts,
    batch_valid array array_len b -> stored_times array b = COk ts ->
    List.length ts = b_rows b /\
    exists f, In (f, U64 (map Some ts)) (b_cols b) /\ f_name f = commit_col.
Proof. exact times_own. Qed.
Print Assumptions C72_own.
Example C72_own_applies :
  let col l := mkBatch [(mkField "id"%string false, U64 [Some 1%N; Some 2%N]); (mkField commit_col true, U64 l)] 2 [] in
  batch_valid unit (fun _ => O) (col [Some 9%N; Some 7%N]) /\
  stored_times unit (col [Some 9%N; Some 7%N]) = COk [9%N; 7%N] /\
  stored_times unit (col [None; Some 7%N]) = CErr NullTs.
Proof. split; [split; [discriminate|repeat constructor; discriminate]|split; reflexivity]. Qed.

(** A table may have a column of its own of the reserved name: the numbers in it are then
    taken for the commit times. *)
Theorem C72_reserved_refuted :
  exists array array_len (b : batch array) ts got,
    batch_valid array array_len b /\ List.length ts = b_rows b /\
    times_back array array_len b ts = COk got /\ got <> ts.
Proof. exact clash_wrong. Qed.
Print Assumptions C72_reserved_refuted.
