(** Durable writes, seals, flushes and log pruning that overlap: C56.  A schedule is a list of
    events: an ingest or a commit starts, a call takes one atomic step, the flush takes one
    step.  [lrun ls_start es] is the state after the schedule from an empty database.
    [acked], [survives] and the conditions on schedules are defined in [Spec.RaceSpec]. *)
From Coq Require Import List NArith Bool.
From Verif Require Import Model.LogRace Spec.RaceSpec Proof.RaceLog Proof.RaceWit.
Import ListNotations.

(** *** C56: an acknowledged durable write survives a crash, also when calls overlap. *)
(** When seals, commits and the first half of a flush do not overlap other steps and start
    with no write half done, and the memtable has room, every acknowledged write survives a
    crash after every schedule.  Full statement: without [all_apart]; refuted below. *)
Theorem C56_apart_partial :
  forall es i, all_apart ls_start es ->
    acked (lrun ls_start es) i -> survives (lrun ls_start es) i.
Proof. exact apart_survives. Qed.
Print Assumptions C56_apart_partial.
(** Two overlapping ingests, seals, rotations, a commit, an ingest overlapping a flush; the floor
    is at segment 3, the older ones are pruned, and write 4 is in no table. *)
Example C56_apart_applies :
  all_apart ls_start calm /\
  ls_floor (lrun ls_start calm) = Some 3%N /\ map fst (ls_log (lrun ls_start calm)) = [3%N] /\
  (forall i, i < 5 -> acked (lrun ls_start calm) i) /\ ls_sst (lrun ls_start calm) = [0; 1; 2; 3].
Proof. exact calm_fits. Qed.

(** A flush while a write is in the log but not yet recorded. *)
Theorem C56_in_flight_refuted :
  exists es i, all_room ls_start es /\ acked (lrun ls_start es) i /\ ~ survives (lrun ls_start es) i.
Proof. exact (ex_intro _ in_flight (ex_intro _ 1 in_flight_lost)). Qed.
Print Assumptions C56_in_flight_refuted.
(** A seal after the flush captured the segments: also with no write in flight when the flush
    starts. *)
Theorem C56_seal_during_flush_refuted :
  exists es es' i, (forall j t, nth_error (ls_threads (lrun ls_start es)) j = Some t -> open_write t = false) /\
    enters (lrun ls_start es) VFlush = true /\ all_room ls_start (es ++ VFlush :: es') /\
    acked (lrun ls_start (es ++ VFlush :: es')) i /\ ~ survives (lrun ls_start (es ++ VFlush :: es')) i.
Proof. exact seal_during_flush. Qed.
Print Assumptions C56_seal_during_flush_refuted.
(** A write between the two steps of a seal: the flush only starts when no call is running. *)
Theorem C56_range_taken_refuted :
  exists es i, Forall (fun t => lt_pc t = LDone) (ls_threads (lrun ls_start es)) /\
    ls_flush (lrun ls_start es) = LFNone /\
    all_room ls_start (es ++ flush_all) /\
    acked (lrun ls_start (es ++ flush_all)) i /\ ~ survives (lrun ls_start (es ++ flush_all)) i.
Proof. exact range_taken. Qed.
Print Assumptions C56_range_taken_refuted.
(** Two overlapping commits, no flush after they started. *)
Theorem C56_two_commits_refuted :
  exists es es' i, Forall (fun t => lt_pc t = LDone) (ls_threads (lrun ls_start es)) /\
    ls_flush (lrun ls_start es) = LFNone /\ ~ In VFlush es' /\ (forall n, ~ In (VIngest n) es') /\
    all_room ls_start (es ++ es') /\
    acked (lrun ls_start (es ++ es')) i /\ ~ survives (lrun ls_start (es ++ es')) i.
Proof. exact commits_overlap. Qed.
Print Assumptions C56_two_commits_refuted.
