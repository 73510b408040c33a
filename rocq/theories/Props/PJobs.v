(** Flushes and compactions running in the background at the same time: C33, C57, C58, C59.  An
    event starts a flush or a compaction, lets one of them take its next step with the given
    outcome of the storage call, stops a worker, or restarts the process.
    [jrun merge js_start es] is the state after the events [es] from an empty table; [merge]
    is what a compaction makes of the contents of its inputs.  The other notions are in
    [Spec.JobSpec]. *)
From Coq Require Import List NArith Bool.
From Verif Require Import Base.Order Model.SsTable Model.Compact Model.DbCompact Model.Jobs Spec.JobSpec
  Proof.Demo Proof.JobStep Proof.JobIds Proof.JobWit.
Import ListNotations.

(** The condition on [merge] below holds for the merge of the code. *)
Example C57_merge_applies : forall cf ch ins outs,
  exec_merge row_key row_size del_size cf ch ins = Some outs -> outs <> [].
Proof. exact (exec_nonempty row_key row_size del_size). Qed.

(** *** C33: an identifier is never given out twice. *)
(** For every schedule: concurrent jobs, failing calls and calls that fail after taking
    effect, stopped workers, restarts at any point.  [js_next] is the identifier the next
    table written will get: it is above every identifier in any version published so far,
    in particular right after a restart, which computes it from the manifest alone. *)
Theorem C33_new_identifier :
  forall (C : Type) (merge : list C -> option (list C)),
    (forall l outs, merge l = Some outs -> outs <> []) ->
  forall es i, referenced (js_versions (jrun merge js_start es)) i -> (i < js_next (jrun merge js_start es))%N.
Proof. exact @new_ids. Qed.
Print Assumptions C33_new_identifier.
Theorem C33_after_restart :
  forall (C : Type) (merge : list C -> option (list C)),
    (forall l outs, merge l = Some outs -> outs <> []) ->
  forall es i, let s := jrun merge js_start (es ++ [ERestart]) in
    js_next s = restart_id (js_versions s) /\ (referenced (js_versions s) i -> i <> js_next s).
Proof. exact @restart_ids. Qed.
Print Assumptions C33_after_restart.
(** An identifier that has left the current version never comes back in a later one. *)
Theorem C33_never_back :
  forall (C : Type) (merge : list C -> option (list C)),
    (forall l outs, merge l = Some outs -> outs <> []) ->
  forall es k m n i, let vs := js_versions (jrun merge js_start es) in
    (k < m)%nat -> (m < n)%nat -> (n < length vs)%nat ->
    In i (concat (nth k vs [])) -> ~ In i (concat (nth m vs [])) -> ~ In i (concat (nth n vs [])).
Proof. exact @never_back. Qed.
Print Assumptions C33_never_back.
(** With a commit that was taken although its caller saw an error, and a restart: 1 and 2 are
    replaced by 6 and 7, the next table is 8. *)
Example C33_applies :
  js_versions (after (busy ++ [EJobStep 0 LostAck; ERestart; EFlush 0 [9]%N] ++ flush3 0)) =
    [[[1]]; [[1; 2]]; [[1; 2; 4]]; [[4]; [6; 7]]; [[4; 8]; [6; 7]]]%N.
Proof. exact lost_ids. Qed.

(** *** C57: a file a published version refers to exists and never changes. *)
(** For every schedule, with failing and torn writes, stopped workers and restarts.  Full
    statement: without [no_lost_ack]; refuted below. *)
Theorem C57_files_kept_partial :
  forall (C : Type) (merge : list C -> option (list C)),
    (forall l outs, merge l = Some outs -> outs <> []) ->
  forall es es' i, no_lost_ack (es ++ es') ->
    referenced (js_versions (jrun merge js_start es)) i ->
    exists c, file_of (jrun merge js_start es) i = Some c /\
              file_of (jrun merge js_start (es ++ es')) i = Some c.
Proof. exact @files_kept. Qed.
Print Assumptions C57_files_kept_partial.
(** A compaction overtaken by a flush, its outputs 3 and 5 removed and its work done again; a
    second one stopped in the middle; a restart, after which its file 8 is written again. *)
Example C57_files_kept_applies :
  no_lost_ack (busy ++ busy_more) /\
  js_versions (after busy) = [[[1]]; [[1; 2]]; [[1; 2; 4]]]%N /\
  js_versions (after (busy ++ busy_more)) =
    [[[1]]; [[1; 2]]; [[1; 2; 4]]; [[4]; [6; 7]]; [[4; 8]; [6; 7]]; [[4; 8]; [6; 7; 9]]]%N /\
  map (fun i => file_of (after (busy ++ busy_more)) i) [1; 2; 3; 4; 5; 6; 7; 8; 9]%N =
    [Some [1; 2]; Some [3]; None; Some [4]; None; Some [1]; Some [2; 3]; Some [5]; Some [6]]%N.
Proof. exact busy_fits. Qed.

(** The manifest takes a compaction's commit but the caller sees an error: the files of the
    version that is now current are removed. *)
Theorem C57_lost_ack_refuted :
  exists es i c,
    file_of (after es) i = Some c /\ referenced (js_versions (after (es ++ [EJobStep 0 LostAck]))) i /\
    current (js_versions (after (es ++ [EJobStep 0 LostAck; EJobStep 0 Fine]))) i /\
    file_of (after (es ++ [EJobStep 0 LostAck; EJobStep 0 Fine])) i = None.
Proof. exact lost_gone. Qed.
Print Assumptions C57_lost_ack_refuted.

(** *** C58: overlapping flushes and compactions act one after the other. *)
(** Every published version is its predecessor with one flush or one whole compaction done:
    the inputs are files of the predecessor, the outputs are what the merge makes of them. *)
Theorem C58_history :
  forall (C : Type) (merge : list C -> option (list C)),
    (forall l outs, merge l = Some outs -> outs <> []) ->
  forall es, no_lost_ack es ->
    let s := jrun merge js_start es in
    forall k, k < length (js_versions s) ->
      (exists level c i, In (EFlush level c) es /\ flushed s k level c i) \/
      (exists t h, In (EJob t h) es /\ compacted merge s k t).
Proof. exact @history_made. Qed.
Print Assumptions C58_history.
(** A flush that reported success is in the history. *)
Theorem C58_acknowledged :
  forall (C : Type) (merge : list C -> option (list C)),
    (forall l outs, merge l = Some outs -> outs <> []) ->
  forall es, no_lost_ack es ->
    let s := jrun merge js_start es in
    forall n f i, nth_error (js_flushes s) n = Some f -> f_pc f = FDone i ->
      exists k, flushed s k (f_level f) (f_content f) i.
Proof. exact @acked_flushed. Qed.
Print Assumptions C58_acknowledged.
(** Nothing is published twice. *)
Theorem C58_once :
  forall (C : Type) (merge : list C -> option (list C)) es,
    length (js_versions (jrun merge js_start es)) <= started es.
Proof. exact @once. Qed.
Print Assumptions C58_once.
(** The schedule of C57: five flushes and one compaction make the six versions (the stopped
    compaction makes none); two of the flushes are after the restart. *)
Example C58_history_applies :
  no_lost_ack (busy ++ busy_more) /\ started (busy ++ busy_more) = 7 /\
  length (js_versions (after (busy ++ busy_more))) = 6 /\
  map f_pc (js_flushes (after (busy ++ busy_more))) = [FDone 8; FDone 9]%N.
Proof. exact busy_counts. Qed.

(** *** C59: the clean-up plan is safe, and nothing is left behind without failures. *)
(** The recorded plan only lists files a version once had and the current one has not. *)
Theorem C59_plan_safe :
  forall (C : Type) (merge : list C -> option (list C)),
    (forall l outs, merge l = Some outs -> outs <> []) ->
  forall es, no_lost_ack es ->
    let s := jrun merge js_start es in
    forall i, In i (js_plan s) -> referenced (js_versions s) i /\ ~ current (js_versions s) i.
Proof. exact @plan_gone. Qed.
Print Assumptions C59_plan_safe.
Example C59_plan_safe_applies :
  js_plan (after (busy ++ busy_more)) = [1; 2]%N /\ current (js_versions (after (busy ++ busy_more))) 6%N.
Proof. exact busy_plan. Qed.
(** When no call fails and nothing is stopped, then once all jobs are over every file is one
    that some version refers to, however many compactions were overtaken.  Full statement:
    the current version refers to it or the plan lists it; refuted below. *)
Theorem C59_no_leftovers_partial :
  forall (C : Type) (merge : list C -> option (list C)),
    (forall l outs, merge l = Some outs -> outs <> []) ->
  forall es i c, Forall plain es -> idle (jrun merge js_start es) ->
    file_of (jrun merge js_start es) i = Some c -> referenced (js_versions (jrun merge js_start es)) i.
Proof. exact @idle_clean. Qed.
Print Assumptions C59_no_leftovers_partial.
Example C59_no_leftovers_applies :
  Forall plain two_plans /\ idle (after two_plans) /\
  js_versions (after two_plans) = [[[1]]; [[1; 2]]; [[2]; [3]]; [[]; [3; 4]]]%N /\ js_plan (after two_plans) = [2]%N.
Proof. exact two_plans_fits. Qed.
(** The second compaction's plan replaces the first one's: an obsolete file is forgotten. *)
Theorem C59_forgotten_refuted :
  exists es i, Forall plain es /\ idle (after es) /\
    file_of (after es) i <> None /\ ~ current (js_versions (after es)) i /\ ~ In i (js_plan (after es)).
Proof. exact forgotten. Qed.
Print Assumptions C59_forgotten_refuted.
(** A worker stopped between writing an output and its commit leaves the output behind. *)
Theorem C59_stopped_refuted :
  exists es i, no_lost_ack es /\ (forall j o, In (EJobStep j o) es -> o = Fine) /\ (forall j o, In (EFlushStep j o) es -> o = Fine) /\
    idle (after es) /\ file_of (after es) i <> None /\ ~ referenced (js_versions (after es)) i.
Proof. exact leftover. Qed.
Print Assumptions C59_stopped_refuted.
