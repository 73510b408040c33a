(** C78: automatic flushing.  A table is opened with [with_minor_compaction(th, level)]; an
    ingest that was accepted then runs the trigger.  First one call after the other on the full
    database model; then the triggers of overlapping calls. *)
From Coq Require Import List NArith Bool Arith.
From Verif Require Import Base.Order Model.MemTable Model.Immutable Model.SsTable Model.Db Model.DbScan
     Spec.History Model.Run Spec.Valid Model.Minor Spec.MinorSpec Proof.Demo Proof.MinorFacts.
Import ListNotations.

(** An accepted ingest leaves fewer than [th] sealed segments in memory, whatever the state it
    was made in. *)
Theorem C78_bound_partial :
  forall (K : Type) (KO : KeyOrd K) (R : Type) (key_of : R -> option K) row_bytes del_bytes th level s c,
    ingests c ->
    snd (acall_step key_of row_bytes del_bytes (minor_with th level) s c) = true ->
    length (d_imm (st_db (fst (acall_step key_of row_bytes del_bytes (minor_with th level) s c)))) < Nat.max th 1.
Proof. exact @minor_bound. Qed.
Print Assumptions C78_bound_partial.

(** No write is refused on account of the flush that follows it. *)
Theorem C78_answer :
  forall (K : Type) (KO : KeyOrd K) (R : Type) (key_of : R -> option K) row_bytes del_bytes th level capacity cs c,
    1 <= capacity -> (N.of_nat (2 * S (length cs)) < 2 ^ 64)%N ->
    calls_ok key_of row_bytes del_bytes (minor_with th level) (start capacity) (cs ++ [c]) ->
    let s := acall_run key_of row_bytes del_bytes (minor_with th level) (start capacity) cs in
    snd (acall_step key_of row_bytes del_bytes (minor_with th level) s c) = bare_ok key_of s c.
Proof. exact @minor_answer. Qed.
Print Assumptions C78_answer.

(** The latest read is the table made by the writes, whatever was flushed and to which level. *)
Theorem C78_reads :
  forall (K : Type) (KO : KeyOrd K) (R : Type) (key_of : R -> option K) row_bytes del_bytes mi capacity cs,
    1 <= capacity -> (N.of_nat (2 * length cs) < 2 ^ 64)%N ->
    calls_ok key_of row_bytes del_bytes mi (start capacity) cs ->
    let s := acall_run key_of row_bytes del_bytes mi (start capacity) cs in
    exists out, read_all key_of (st_db s) = Some out /\
                lists_table key_of (final key_of (st_hist s)) (fun _ => true) out.
Proof. exact @minor_reads. Qed.
Print Assumptions C78_reads.

Example C78_applies :
  calls_ok row_key row_size del_size (minor_with 2 1) (start 4) auto_calls /\
  let s := acall_run row_key row_size del_size (minor_with 2 1) (start 4) auto_calls in
  map (fun l => map (@t_id N row) l) (d_levels (st_db s)) = [[]; [1%N]] /\ length (d_imm (st_db s)) = 1 /\
  read_all row_key (st_db s) = Some [((1, 1), rw 1 11); ((3, 2), rw 3 30); ((4, 3), rw 4 40)]%N.
Proof. exact auto_shown. Qed.

(** Commits do not run the trigger: six commits, threshold one, five sealed segments, no table. *)
Theorem C78_bound_refuted :
  exists cs, calls_ok row_key row_size del_size (minor_with 1 0) (start 1) cs /\
    let s := acall_run row_key row_size del_size (minor_with 1 0) (start 1) cs in
    length (st_hist s) = 6 /\ length (d_imm (st_db s)) = 5 /\ d_levels (st_db s) = [].
Proof. exact commits_refute. Qed.
Print Assumptions C78_bound_refuted.

(** Overlapping calls: no call finds that another one has flushed the segments it was going to
    flush, under any schedule, with failures of file operations and dropped futures. *)
Theorem C78_no_race :
  forall th es, ~ In (MEnd MNoSegments) (mc_calls (mevent_run th minors_start es)).
Proof. exact minor_no_race. Qed.
Print Assumptions C78_no_race.

(** When all calls have ended, none by a failure or a drop, fewer than [th] segments wait. *)
Theorem C78_quiet_partial :
  forall th es, Forall smooth es -> all_ended (mevent_run th minors_start es) ->
    mc_waiting (mevent_run th minors_start es) < Nat.max th 1.
Proof. exact minor_quiet. Qed.
Print Assumptions C78_quiet_partial.

(** No schedule, with failures and drops, leaves calls stuck: all can still end. *)
Theorem C78_ends : forall th es, exists order, all_ended (mevent_run th minors_start (es ++ map (fun i => MGo i true) order)).
Proof. exact minor_ends. Qed.
Print Assumptions C78_ends.

(** What is sealed while a call writes a table stays for the next one, and what the table holds
    is taken away only if it was written. *)
Theorem C78_sealed_stay : forall th es i es2,
  nth_error (mc_calls (mevent_run th minors_start es)) i = Some MEnough -> Forall (of_others i) es2 ->
  mc_waiting (mevent_run th minors_start (es ++ MGo i true :: es2 ++ [MGo i true])) = seals es2 /\
  mc_waiting (mevent_run th minors_start (es ++ MGo i true :: es2 ++ [MGo i false])) = mc_waiting (mevent_run th minors_start es) + seals es2.
Proof. exact sealed_stay. Qed.
Print Assumptions C78_sealed_stay.
Example C78_sealed_stay_applies :
  nth_error (mc_calls (mevent_run 2 minors_start stay_events)) 0 = Some MEnough /\
  Forall (of_others 0) [MSealCall; MGo 1 true; MSealCommit; MDrop 1].
Proof. exact stay_fits. Qed.

Example C78_meeting :
  Forall smooth meeting /\ all_ended (mevent_run 2 minors_start meeting) /\
  mc_calls (mevent_run 2 minors_start meeting) = [MEnd MFlushed; MEnd MNothing; MEnd MNothing; MEnd MNothing] /\
  mc_waiting (mevent_run 2 minors_start meeting) = 1.
Proof. exact meeting_ends. Qed.

(** With commits there is no bound. *)
Theorem C78_quiet_refuted :
  forall th n, exists es, all_ended (mevent_run th minors_start es) /\ mc_waiting (mevent_run th minors_start es) = n.
Proof. exact (fun th n => ex_intro _ (repeat MSealCommit n) (commits_unbounded th n)). Qed.
Print Assumptions C78_quiet_refuted.
