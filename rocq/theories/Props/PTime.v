(** Time travel: snapshots at the timestamps that version listing returns (C30). *)
From Coq Require Import List NArith Bool Sorted.
From Verif Require Import Base.Order Model.MemTable Model.Immutable Model.SsTable Model.DbScan Model.Version
     Model.Compact Model.Planner Model.Db Model.DbCompact Spec.Mvcc Spec.History Model.Run Spec.Valid Model.TimeTravel
     Model.Sessions Model.Manifest Spec.ManifestSpec Proof.Demo Proof.TimeFacts Proof.TimeDemo.
Import ListNotations.

(** The full property: for every version [v] of every run, at every later point,
    [scan_at (tv_ts v)] lists [final (tv_hist v)]. *)

(** The tables pinned are those of the version. *)
Theorem C30_pins_version_partial :
  forall (K : Type) (KO : KeyOrd K) (R : Type) (key_of : R -> option K) row_bytes del_bytes capacity ops v,
    let t := tt_run key_of row_bytes del_bytes (tt_start capacity) ops in
    In v (tt_vers t) -> snapshot_at (tv_ts v) t = mkSnap (tv_ts v) (tv_levels v).
Proof. exact @c30_pins. Qed.
Print Assumptions C30_pins_version_partial.
(** In the manifest: of the versions not newer than the timestamp, the newest. *)
Theorem C30_manifest_choice_partial :
  forall E (eid : E -> N) es t ts, (N.of_nat (length es) < 2 ^ 64 - 1)%N ->
    let s := mrun vkey_eqb (vexec eid) mstart es in
    forall v, loads s t (v_ts v) v -> (v_ts v <= ts)%N ->
      (forall u, loads s t (v_ts u) u -> (v_ts u <= ts)%N -> (v_ts u <= v_ts v)%N) ->
      exists h, version_at t ts (m_kv s) = MOk (h, Some v).
Proof. intros E eid. exact (c30_version_at eid). Qed.
Print Assumptions C30_manifest_choice_partial.
(** The rows are those of the version's creation, whatever comes later, if memory was empty
    then and the newest commit timestamp was the timestamp of the version.  Missing: all
    other versions (refuted below). *)
Theorem C30_reads_version_partial :
  forall (K : Type) (KO : KeyOrd K) (R : Type) (key_of : R -> option K) row_bytes del_bytes capacity ops1 o ops2 v,
    1 <= capacity -> (N.of_nat (length (ops1 ++ o :: ops2)) < 2 ^ 64)%N ->
    ops_ok key_of row_bytes del_bytes (start capacity) (ops1 ++ o :: ops2) ->
    let t0 := tt_run key_of row_bytes del_bytes (tt_start capacity) ops1 in
    let t1 := tt_step key_of row_bytes del_bytes t0 o in
    let t2 := tt_run key_of row_bytes del_bytes t1 ops2 in
    tt_vers t1 = tt_vers t0 ++ [v] ->
    m_index (d_mem (st_db (tt_st t1))) = [] -> d_imm (st_db (tt_st t1)) = [] ->
    d_clock (st_db (tt_st t1)) = (tv_ts v + 1)%N ->
    In v (tt_vers t2) /\ tv_hist v = st_hist (tt_st t1) /\
    exists out, scan_at key_of (tv_ts v) t2 = Some out /\
      lists_table key_of (final key_of (tv_hist v)) (fun _ => true) out.
Proof. intros. eapply c30_reads; try eassumption. repeat split; assumption. Qed.
Print Assumptions C30_reads_version_partial.

(** Version timestamps count versions, commit timestamps count commits.  A snapshot at the
    timestamp of version 1 ... *)
(** ... misses a row that was in the tables of the version; *)
Theorem C30_fewer_rows_refuted :
  exists v out, In v (tt_vers (travel three_then_flush)) /\ tv_ts v = 1%N /\ scan_at row_key 1 (travel three_then_flush) = Some out /\
    ~ lists_table row_key (final row_key (tv_hist v)) (fun _ => true) out.
Proof. exact three_misread. Qed.
Print Assumptions C30_fewer_rows_refuted.
(** ... shows a row written after the version was created; *)
Theorem C30_later_row_refuted :
  exists v out, In v (tt_vers (travel flush_then_write)) /\ tv_ts v = 1%N /\ scan_at row_key 1 (travel flush_then_write) = Some out /\
    ~ lists_table row_key (final row_key (tv_hist v)) (fun _ => true) out.
Proof. exact write_misread. Qed.
Print Assumptions C30_later_row_refuted.
(** ... shows nothing when a commit published the version and its row was flushed since. *)
Theorem C30_commit_version_refuted :
  exists v out, In v (tt_vers (travel commit_then_flush)) /\ tv_ts v = 1%N /\ scan_at row_key 1 (travel commit_then_flush) = Some out /\
    ~ lists_table row_key (final row_key (tv_hist v)) (fun _ => true) out.
Proof. exact commit_misread. Qed.
Print Assumptions C30_commit_version_refuted.

Example C30_applies :
  let t1 := travel (lucky_before ++ [OFlush 0]) in
  let t2 := travel (lucky_before ++ OFlush 0 :: lucky_after) in
  map (@tv_ts N row) (tt_vers (travel lucky_before)) = [] /\ map (@tv_ts N row) (tt_vers t1) = [1%N] /\
  m_index (d_mem (st_db (tt_st t1))) = [] /\ d_imm (st_db (tt_st t1)) = [] /\ d_clock (st_db (tt_st t1)) = 2%N /\
  map (@tv_ts N row) (tt_vers t2) = [1; 2; 3; 4]%N /\
  scan_at row_key 1 t2 = Some [((1, 0), rw 1 10); ((2, 1), rw 2 20)]%N /\
  read_all row_key (st_db (tt_st t2)) = Some [((1, 2), rw 1 11); ((4, 4), rw 4 40)]%N.
Proof. exact lucky_facts. Qed.
Example C30_applies_ok : ops_ok row_key row_size del_size (start 1024) (lucky_before ++ OFlush 0 :: lucky_after).
Proof. exact (proj2 (proj2 lucky_ok)). Qed.
