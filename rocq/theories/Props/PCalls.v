(** What a write call leaves behind when it succeeds, fails or is given up (C73). *)
From Coq Require Import List Arith Bool Sorted.
From Verif Require Import Spec.QueueSpec Model.LogQueue Model.WriteCall Proof.LogQueueProps
  Proof.WriteCallProps.
Import ListNotations.

(** *** C73.  In what follows [ls] is any mixture of calls of [ingest] and of commits in both
    acknowledgement modes, each going on, failing or being given up (its future dropped) at
    any point, with any moves, failures and shutdowns of the log; [wrun qs ls] is what it
    leads to.  [w_mem] lists the calls that can be read; a call [survives] if a restart finds
    it in the log.

    A call that returned success can be read, and is there after a restart unless it was a
    fast commit. *)
Theorem C73_success :
  forall qs ls i c,
    nth_error (w_calls (wrun qs ls)) i = Some c -> cl_st c = Returned true ->
    In i (w_mem (wrun qs ls)) /\ (cl_mode c <> MFast -> survives (wrun qs ls) i).
Proof. exact success. Qed.
Print Assumptions C73_success.

(** What can be read is there after a restart, whether its call has returned or not; fast
    commits excepted. *)
Theorem C73_visible :
  forall qs ls i c,
    nth_error (w_calls (wrun qs ls)) i = Some c -> In i (w_mem (wrun qs ls)) ->
    cl_mode c <> MFast -> survives (wrun qs ls) i.
Proof. exact visible. Qed.
Print Assumptions C73_visible.

(** Every commit that returned success, the fast ones too, is there after a restart if the
    log was shut down with success. *)
Theorem C73_shutdown :
  forall qs ls i c,
    nth_error (w_calls (wrun qs ls)) i = Some c -> cl_st c = Returned true ->
    ended (w_t (wrun qs ls)) true -> survives (wrun qs ls) i.
Proof. exact fast_shutdown. Qed.
Print Assumptions C73_shutdown.

(** A write that a restart finds is found whole: all its parts, before its one commit
    frame; also when its call failed or was given up. *)
Theorem C73_whole :
  forall qs ls i c,
    nth_error (w_calls (wrun qs ls)) i = Some c -> survives (wrun qs ls) i ->
    List.length (frames_in_log (wrun qs ls) i FAppend) = cl_n c /\
    (forall a k, In a (frames_in_log (wrun qs ls) i FAppend) ->
                 In k (frames_in_log (wrun qs ls) i FCommit) -> a < k) /\
    List.length (frames_in_log (wrun qs ls) i FCommit) = 1.
Proof. exact whole. Qed.
Print Assumptions C73_whole.

(** A call that failed or was given up before it handed over its commit frame never has any
    effect, before or after a restart. *)
Theorem C73_no_effect :
  forall qs ls more i c,
    nth_error (w_calls (wrun qs ls)) i = Some c -> cl_st c <> Active ->
    (forall x, ~ In (x, (i, FCommit)) (w_own (wrun qs ls))) ->
    ~ survives (wrun qs (ls ++ more)) i /\ ~ In i (w_mem (wrun qs (ls ++ more))).
Proof. exact before_commit. Qed.
Print Assumptions C73_no_effect.

(** When a call is over, what can be read of it does not change any more, and what a restart
    finds of it is not lost. *)
Theorem C73_stable :
  forall qs ls more i c,
    nth_error (w_calls (wrun qs ls)) i = Some c -> cl_st c <> Active ->
    nth_error (w_calls (wrun qs (ls ++ more))) i = Some c /\
    (In i (w_mem (wrun qs (ls ++ more))) <-> In i (w_mem (wrun qs ls))) /\
    (survives (wrun qs ls) i -> survives (wrun qs (ls ++ more)) i).
Proof. exact stable. Qed.
Print Assumptions C73_stable.

(** The frames of a call that begins after another one is over are after those of the other
    one in the log. *)
Theorem C73_order :
  forall qs ls more i c j,
    nth_error (w_calls (wrun qs ls)) i = Some c -> cl_st c <> Active ->
    List.length (w_calls (wrun qs ls)) <= j ->
    StronglySorted lt (map fst (done (w_t (wrun qs (ls ++ more))))) /\
    forall f g x y, In x (frames_in_log (wrun qs (ls ++ more)) i f) ->
      In y (frames_in_log (wrun qs (ls ++ more)) j g) -> x < y.
Proof. exact in_order. Qed.
Print Assumptions C73_order.

(** No call fails while nothing does and the log is open. *)
Theorem C73_no_failure :
  forall qs ls, Forall all_sound ls -> ~ In EClose (w_t (wrun qs ls)) ->
    forall i c, nth_error (w_calls (wrun qs ls)) i = Some c -> cl_st c <> Returned false.
Proof. exact no_error. Qed.
Print Assumptions C73_no_failure.

(** No call hangs when the log has stopped: each ends after finitely many of its own steps. *)
Theorem C73_ends :
  forall qs ls r i c oks,
    nth_error (w_calls (wrun qs ls)) i = Some c -> ended (w_t (wrun qs ls)) r ->
    2 * cl_n c + 6 < List.length oks ->
    exists c', nth_error (w_calls (wrun qs (ls ++ map (WMove i) oks))) i = Some c' /\
               cl_st c' <> Active.
Proof. exact calls_end. Qed.
Print Assumptions C73_ends.

(** Nothing fails, but a call is given up: nobody can ever read its write, until a restart
    brings it up. *)
Theorem C73_given_up_refuted :
  exists qs ls i c,
    Forall all_sound ls /\ ~ In EClose (w_t (wrun qs ls)) /\
    nth_error (w_calls (wrun qs ls)) i = Some c /\ cl_st c = Dropped /\
    survives (wrun qs ls) i /\
    forall more, ~ In i (w_mem (wrun qs (ls ++ more))).
Proof. exact given_up_wrong. Qed.
Print Assumptions C73_given_up_refuted.

(** A commit returns an error although nothing is wrong with its own frames, cannot be read,
    and a restart brings it up. *)
Theorem C73_error_refuted :
  exists qs ls out i c,
    (forall l, In l ls -> match l with
       | WLog (QRound _ _ o) => o = out | WLog (QTimer ok) | WLog (QStop ok) => ok = true
       | WMove _ ok => ok = true | _ => True end) /\
    nth_error (w_calls (wrun qs ls)) i = Some c /\
    (forall x, In x (cl_sent c) -> out x = OutOk) /\ cl_st c = Returned false /\
    survives (wrun qs ls) i /\
    forall more, ~ In i (w_mem (wrun qs (ls ++ more))).
Proof. exact shared_wrong. Qed.
Print Assumptions C73_error_refuted.

(** A call returns an error although its write can be read and is durable. *)
Theorem C73_late_error_refuted :
  exists qs ls i c,
    nth_error (w_calls (wrun qs ls)) i = Some c /\ cl_st c = Returned false /\
    In i (w_mem (wrun qs ls)) /\ survives (wrun qs ls) i.
Proof. exact late_failure_wrong. Qed.
Print Assumptions C73_late_error_refuted.

(** A fast commit that returned success and can be read is never found after a restart. *)
Theorem C73_fast_refuted :
  exists qs ls i c,
    nth_error (w_calls (wrun qs ls)) i = Some c /\ cl_st c = Returned true /\
    In i (w_mem (wrun qs ls)) /\
    forall more, ~ survives (wrun qs (ls ++ more)) i.
Proof. exact fast_wrong. Qed.
Print Assumptions C73_fast_refuted.

(** An ingest of rows and deletes, a strict commit and a fast one run side by side. *)
Example C73_busy :
  Forall all_sound busy /\ w_mem (wrun 4 busy) = [2; 0; 1] /\
  map cl_st (w_calls (wrun 4 busy)) = [Returned true; Returned true; Returned true] /\
  frames_in_log (wrun 4 busy) 0 FAppend = [0; 1] /\
  frames_in_log (wrun 4 busy) 0 FCommit = [7] /\
  frames_in_log (wrun 4 busy) 1 FCommit = [8] /\
  frames_in_log (wrun 4 busy) 2 FCommit = [6].
Proof. exact (conj busy_sound busy_end). Qed.

(** Shut down afterwards, the log has ended with success: C73_shutdown applies. *)
Example C73_shut :
  ended (w_t (wrun 4 (busy ++ [WLog QShutdown; WLog (QStop true)]))) true.
Proof. vm_compute. tauto. Qed.

(** A call given up between its append and its commit: C73_no_effect applies. *)
Example C73_early :
  let ls := [WCall MIngest 2; WMove 0 true; WLog (QRound true 9 good); WDrop 0] in
  map cl_st (w_calls (wrun 4 ls)) = [Dropped] /\ w_own (wrun 4 ls) = [(0, (0, FAppend))] /\
  frames_in_log (wrun 4 ls) 0 FAppend = [0].
Proof. vm_compute. auto. Qed.
