(** Crashes and restarts: recovery (C17), over-replay (C18), commit timestamps (C19), pruning
    (C28), retention (C29), table identifiers (C33), frame numbers (C43, C48), transaction
    identifiers (C44).

    The runs: any sequence of writes, flushes, compactions, segment rotations and restarts
    (with or without a call interrupted at any point), each step meeting [yop_ok]
    (Spec/Recover.v).  No retention budget, a state store for the log, as by default. *)
From Coq Require Import List NArith Bool Sorted.
From Verif Require Import Base.Order Model.MemTable Model.Immutable Model.SsTable Model.DbScan Model.Compact Model.Planner
     Model.Db Model.DbCompact Spec.Mvcc Spec.History Model.Run Spec.Valid Model.WalScan Model.Replay Model.WalWriter
     Model.WalDb Spec.ReplaySpec Spec.Recover Spec.WriterSpec Proof.Demo Proof.Reads Proof.WalDbProps Proof.WriterRun Proof.WriterLife
     Proof.WalDbDemo Proof.RecoverProps.
Import ListNotations.
Local Open Scope N_scope.

(** *** C17: a crash at any later point does not change what is read. *)
(** Missing: the hypotheses [mem_slots], [restart_ok] and [write_ok] inside [yops_ok]; each
    is needed (below).  [fl] is the call interrupted by the crash: if its commit record was
    written, the reopened database has all of it, otherwise nothing. *)
Theorem C17_recovery_partial :
  forall K (KO : KeyOrd K) R (key_of : R -> option K) row_bytes del_bytes size cf cap ops,
    c_retention cf = None -> c_state cf = true -> (1 <= cap)%nat ->
    yops_ok key_of row_bytes del_bytes size cf (ystart cf cap) ops ->
    exists y, yrun key_of row_bytes del_bytes size cf (ystart cf cap) ops = Some y /\
      (room y -> forall fl decs, inflight_ok key_of fl ->
        exists y0 y1 before after, crash key_of size cf fl y = Some y0 /\ reopen key_of size cf decs y0 = Some y1 /\
          read_all key_of (st_db (y_st y)) = Some before /\ read_all key_of (st_db (y_st y1)) = Some after /\
          lists_table key_of (final key_of (st_hist (y_st y))) (fun _ => true) before /\
          lists_table key_of (final key_of (st_hist (y_st y) ++ survives key_of y fl)) (fun _ => true) after /\
          (survives key_of y fl = [] -> after = before)).
Proof. intros. eapply run_crash; eassumption. Qed.
Print Assumptions C17_recovery_partial.
(** The history is what was acknowledged: every write is, with the next timestamp. *)
Theorem C17_write_acknowledged :
  forall K (KO : KeyOrd K) R (key_of : R -> option K) row_bytes del_bytes size cf cap ops,
    c_retention cf = None -> c_state cf = true -> (1 <= cap)%nat ->
    yops_ok key_of row_bytes del_bytes size cf (ystart cf cap) ops ->
    exists y, yrun key_of row_bytes del_bytes size cf (ystart cf cap) ops = Some y /\
      forall w dec n, room y -> Recover.write_ok key_of w -> mem_slots (st_db (y_st y)) ->
        exists y', write key_of row_bytes del_bytes size cf w dec n y = Some y' /\
          st_hist (y_st y') = st_hist (y_st y) ++
            match recs key_of (st_db (y_st y)) w (y_prov y) (d_clock (st_db (y_st y))) with
            | [] => []
            | _ => [(d_clock (st_db (y_st y)), wr_muts key_of w)]
            end.
Proof. intros. eapply run_write; eassumption. Qed.
Print Assumptions C17_write_acknowledged.
(** A batch with a null key is refused after it was logged; the database never opens again. *)
Theorem C17_null_key_refuted :
  exists y before, wrun conf 4 ops_null = Some y /\ read_all row_key (st_db (y_st y)) = Some before /\ before <> [] /\
    forall decs, reopen row_key fsize conf decs y = None.
Proof. exact c17_null. Qed.
Print Assumptions C17_null_key_refuted.
(** The memtable is full: the batch that makes it seal is lost by the next restart after a
    flush. *)
Theorem C17_full_memtable_refuted :
  exists y y1 before after, wrun conf 2 ops_full = Some y /\ reopen row_key fsize conf [] y = Some y1 /\
    read_all row_key (st_db (y_st y)) = Some before /\ read_all row_key (st_db (y_st y1)) = Some after /\ after <> before.
Proof. exact c17_full. Qed.
Print Assumptions C17_full_memtable_refuted.
(** A seal during replay, then a flush: rows replayed after the seal are lost. *)
Theorem C17_replay_seal_refuted :
  exists y y1 before after, wrun conf60 4 ops_replay_seal = Some y /\ reopen row_key fsize conf60 [] y = Some y1 /\
    read_all row_key (st_db (y_st y)) = Some before /\ read_all row_key (st_db (y_st y1)) = Some after /\ after <> before.
Proof. exact c17_seal. Qed.
Print Assumptions C17_replay_seal_refuted.
(** The clock after a restart can be behind the tables: a committed row is not read. *)
Theorem C17_clock_refuted :
  exists y y1 before after, wrun conf 4 (firstn 6 ops_clock) = Some y /\ reopen row_key fsize conf [] y = Some y1 /\
    read_all row_key (st_db (y_st y)) = Some before /\ read_all row_key (st_db (y_st y1)) = Some after /\ after <> before.
Proof. exact c19_hidden. Qed.
Print Assumptions C17_clock_refuted.
Example C17_applies :
  c_retention conf = None /\ c_state conf = true /\ yops_ok row_key row_size del_size fsize conf (ystart conf 4) demo_log /\
  reads (wrun conf 4 demo_log) = Some [(1, 1, 11); (4, 2, 40); (6, 3, 60); (7, 4, 70); (8, 5, 80); (9, 6, 90)].
Proof. exact (conj eq_refl (conj eq_refl (conj demo_log_ok (proj1 demo_reads)))). Qed.

(** *** C18: replaying records that are already in tables changes no scan. *)
(** [l] is any selection of committed payloads of the log that has every replayed one which
    is not in the tables; from [l] and from all that is replayed the scans are the same, at
    every timestamp from which compaction has dropped nothing. *)
Theorem C18_over_replay_partial :
  forall K (KO : KeyOrd K) R (key_of : R -> option K) row_bytes del_bytes size cf cap ops,
    c_retention cf = None -> c_state cf = true -> (1 <= cap)%nat ->
    yops_ok key_of row_bytes del_bytes size cf (ystart cf cap) ops ->
    exists y, yrun key_of row_bytes del_bytes size cf (ystart cf cap) ops = Some y /\
      (room y -> forall l hint hint' decs decs' nid ts,
        Forall (fun t => t_id t < nid) (concat (d_levels (st_db (y_st y)))) ->
        (forall p t, logged l p t -> logged (records (y_log y)) p t) ->
        (forall p t, logged (replayed y) p t -> logged l p t \/
           forall k o, changes key_of (pay_changes p) k o -> in_tables key_of (st_horizon (y_st y)) (d_levels (st_db (y_st y))) k t o) ->
        st_horizon (y_st y) <= ts ->
        exists d d',
          recover_db key_of (m_capacity (d_mem (st_db (y_st y)))) (d_levels (st_db (y_st y))) nid (floor_of (y_refs y)) hint decs (replayed y) = Some d /\
          recover_db key_of (m_capacity (d_mem (st_db (y_st y)))) (d_levels (st_db (y_st y))) nid (floor_of (y_refs y)) hint' decs' l = Some d' /\
          (Forall (seg_safe ts) (d_imm d) -> Forall (seg_safe ts) (d_imm d') ->
           exists out, scan_all key_of ts d = Some out /\ scan_all key_of ts d' = Some out /\
             lists_table key_of (as_of key_of (st_hist (y_st y)) ts) (fun _ => true) out)).
Proof. intros. eapply run_over; eassumption. Qed.
Print Assumptions C18_over_replay_partial.

(** *** C19: commit timestamps increase, across restarts too. *)
(** Missing: restarts outside [restart_ok] (refuted below). *)
Theorem C19_timestamps_partial :
  forall K (KO : KeyOrd K) R (key_of : R -> option K) row_bytes del_bytes size cf cap ops,
    c_retention cf = None -> c_state cf = true -> (1 <= cap)%nat ->
    yops_ok key_of row_bytes del_bytes size cf (ystart cf cap) ops ->
    exists y, yrun key_of row_bytes del_bytes size cf (ystart cf cap) ops = Some y /\
      StronglySorted (fun a b => fst a < fst b) (st_hist (y_st y)) /\
      Forall (fun c => fst c < d_clock (st_db (y_st y))) (st_hist (y_st y)).
Proof. intros. eapply run_times; eassumption. Qed.
Print Assumptions C19_timestamps_partial.
Theorem C19_timestamps_refuted :
  exists y, wrun conf 4 (ops_clock ++ [put1 4 40]) = Some y /\ ~ StronglySorted (fun a b => fst a < fst b) (st_hist (y_st y)).
Proof. exact c19_back. Qed.
Print Assumptions C19_timestamps_refuted.

(** *** C28: what is only in memory is in the log and will be replayed. *)
Theorem C28_unflushed_replayed_partial :
  forall K (KO : KeyOrd K) R (key_of : R -> option K) row_bytes del_bytes size cf cap ops,
    c_retention cf = None -> c_state cf = true -> (1 <= cap)%nat ->
    yops_ok key_of row_bytes del_bytes size cf (ystart cf cap) ops ->
    exists y, yrun key_of row_bytes del_bytes size cf (ystart cf cap) ops = Some y /\
      forall c ms k o, In (c, ms) (st_hist (y_st y)) -> changes key_of ms k o ->
        in_tables key_of (st_horizon (y_st y)) (d_levels (st_db (y_st y))) k c o \/ in_log key_of (replayed y) k c o.
Proof. intros. eapply run_found; eassumption. Qed.
Print Assumptions C28_unflushed_replayed_partial.
(** Without a free slot in the memtable an acknowledged batch is in neither. *)
Theorem C28_unflushed_replayed_refuted :
  exists y, wrun conf 2 ops_full = Some y /\ In (3, [Put (rw 4 40)]) (st_hist (y_st y)) /\
    ~ in_tables row_key (st_horizon (y_st y)) (d_levels (st_db (y_st y))) 4 3 (Some (rw 4 40)) /\
    ~ in_log row_key (replayed y) 4 3 (Some (rw 4 40)).
Proof. exact c28_full. Qed.
Print Assumptions C28_unflushed_replayed_refuted.

(** *** C29: a retention budget removes records that are in no table. *)
(** Although every step meets the hypotheses of the theorems above. *)
Theorem C29_budget_refuted :
  yops_ok row_key row_size del_size fsize conf_budget (ystart conf_budget 4) ops_budget /\
  exists y, wrun conf_budget 4 ops_budget = Some y /\ In (0, [Put (rw 1 10)]) (st_hist (y_st y)) /\
    ~ in_tables row_key (st_horizon (y_st y)) (d_levels (st_db (y_st y))) 1 0 (Some (rw 1 10)) /\
    ~ in_log row_key (records (y_log y)) 1 0 (Some (rw 1 10)).
Proof. exact (conj budget_ok c29_gone). Qed.
Print Assumptions C29_budget_refuted.
Theorem C29_restart_loses_refuted :
  exists y y1 before after, wrun conf_budget 4 ops_budget = Some y /\ reopen row_key fsize conf_budget [] y = Some y1 /\
    read_all row_key (st_db (y_st y)) = Some before /\ read_all row_key (st_db (y_st y1)) = Some after /\ after <> before.
Proof. exact c29_lost. Qed.
Print Assumptions C29_restart_loses_refuted.

(** *** C33: an identifier names one table for ever, across restarts. *)
Theorem C33_ids_across_restarts_partial :
  forall K (KO : KeyOrd K) R (key_of : R -> option K) row_bytes del_bytes size cf cap ops1 ops2,
    c_retention cf = None -> c_state cf = true -> (1 <= cap)%nat ->
    yops_ok key_of row_bytes del_bytes size cf (ystart cf cap) (ops1 ++ ops2) ->
    exists y1 y2, yrun key_of row_bytes del_bytes size cf (ystart cf cap) ops1 = Some y1 /\
      yrun key_of row_bytes del_bytes size cf (ystart cf cap) (ops1 ++ ops2) = Some y2 /\
      forall t t', In t (concat (d_levels (st_db (y_st y1)))) -> In t' (concat (d_levels (st_db (y_st y2)))) -> t_id t = t_id t' -> t = t'.
Proof. intros. eapply run_ids; eassumption. Qed.
Print Assumptions C33_ids_across_restarts_partial.

(** *** C43: consecutive frame numbers in order of acceptance, each acknowledgement names its
    frame, rotation neither drops nor repeats one. *)
(** Every list of commands, every segment size, with or without a retention budget (which
    removes a prefix). *)
Theorem C43_frames :
  forall A (size : A -> N) commit_of cf cmds w0,
    open size cf [] wstate0 = Some w0 -> N.of_nat (length cmds) + 1 < 2 ^ 64 ->
    exists w acks frames k, wexec size commit_of cf cmds w0 = Some (w, acks) /\
      numbered_from_1 frames (appended cmds) /\ acks_from_1 acks (appended cmds) /\
      flat (w_files w) = skipn k frames /\ (c_retention cf = None -> k = 0%nat) /\
      StronglySorted N.lt (map fst (w_files w)).
Proof. intros. eapply writer_frames; eassumption. Qed.
Print Assumptions C43_frames.
Example C43_applies :
  exists w0 w acks, open fsize (conf20 true) [] wstate0 = Some w0 /\ wexec fsize commit_of (conf20 true) cmds_demo w0 = Some (w, acks) /\
    map (fun s => (fst s, map fst (snd s))) (w_files w) = [(0, [1; 2]); (1, [3; 4]); (2, [])] /\ acks = [(1, 1); (2, 2); (3, 3); (4, 4)].
Proof. exact cmds_applies. Qed.

(** *** C44: no identifier of an unfinished transaction is given out again. *)
(** Missing: an active segment without an append or commit frame at its end (refuted below). *)
Theorem C44_identifiers_partial :
  forall K (KO : KeyOrd K) R (key_of : R -> option K) row_bytes del_bytes size cf cap ops,
    c_retention cf = None -> c_state cf = true -> (1 <= cap)%nat ->
    yops_ok key_of row_bytes del_bytes size cf (ystart cf cap) ops ->
    exists y, yrun key_of row_bytes del_bytes size cf (ystart cf cap) ops = Some y /\
      (room y -> forall fl decs, inflight_ok key_of fl ->
       exists y0 y1, crash key_of size cf fl y = Some y0 /\ reopen key_of size cf decs y0 = Some y1 /\
         ((exists f i, last_frame (w_cur (y_log y0)) = Some f /\ tail_id (snd f) = Some i /\ i + 1 < 2 ^ 64) ->
          forall i p, dangling (records (y_log y0)) i p -> i < y_prov y1)).
Proof. intros. eapply run_prov; eassumption. Qed.
Print Assumptions C44_identifiers_partial.
Theorem C44_identifiers_refuted :
  exists y0 y1 i p, crash row_key fsize conf10 (Some (WIngest [rw 1 10], 0%nat, Persisted)) (ystart conf10 4) = Some y0 /\
    reopen row_key fsize conf10 [] y0 = Some y1 /\ dangling (records (y_log y0)) i p /\ y_prov y1 = i.
Proof. exact c44_reused. Qed.
Print Assumptions C44_identifiers_refuted.
(** Its rows, never committed, appear after the next restart. *)
Theorem C44_uncommitted_row_refuted :
  exists y out, wrun conf10 4 (ops_reuse ++ [put1 2 20; YRestart None []]) = Some y /\
    st_hist (y_st y) = [(0, [Put (rw 2 20)])] /\ read_all row_key (st_db (y_st y)) = Some out /\
    ~ lists_table row_key (final row_key (st_hist (y_st y))) (fun _ => true) out.
Proof. exact c44_resurrected. Qed.
Print Assumptions C44_uncommitted_row_refuted.

(** *** C48: frame numbers are not repeated after a restart. *)
(** Commands, deletions of old files and restarts in any order, a restart interrupting a
    command at any point.  Missing: at a restart the newest file is not empty, or the saved
    state names the last frame ([number_known]); refuted without. *)
Theorem C48_numbers_partial :
  forall A (size : A -> N) commit_of cf es w0 w,
    open size cf [] wstate0 = Some w0 -> 1 + N.of_nat (length es) < 2 ^ 64 ->
    numbers_known size commit_of cf es w0 -> wlife_run size commit_of cf es w0 = Some w ->
    StronglySorted N.lt (map fst (flat (w_files w))).
Proof. exact @c48_known. Qed.
Print Assumptions C48_numbers_partial.
(** With a state store, when no command is interrupted. *)
Theorem C48_orderly_partial :
  forall A (size : A -> N) commit_of cf es w0 w,
    open size cf [] wstate0 = Some w0 -> 1 + N.of_nat (length es) < 2 ^ 64 ->
    c_state cf = true -> Forall orderly es -> wlife_run size commit_of cf es w0 = Some w ->
    StronglySorted N.lt (map fst (flat (w_files w))).
Proof. exact @c48_orderly. Qed.
Print Assumptions C48_orderly_partial.
Example C48_applies : exists w0, open (fun n : N => n) life_conf [] wstate0 = Some w0 /\
  numbers_known (fun n => n) (fun _ => None) life_conf life_ok w0 /\
  option_map (fun w => map (fun s => (fst s, map fst (snd s))) (w_files w)) (wlife_run (fun n => n) (fun _ => None) life_conf life_ok w0)
    = Some [(1, [3; 4; 5]); (2, [6])].
Proof. exact life_ok_known. Qed.
(** False with a state store: a crash right after a rotation; a crash after a frame was
    written, followed by a rotation before the next write; and without one. *)
Theorem C48_numbers_refuted :
  exists y, wrun (conf20 true) 4 [YRestart (Some (WIngest [rw 1 10], 1%nat, Rotated)) []; put1 2 20] = Some y /\
    ~ NoDup (map fst (flat (w_files (y_log y)))).
Proof. exact c48_state. Qed.
Print Assumptions C48_numbers_refuted.
Theorem C48_stale_state_refuted :
  exists w0 w, open (fun n : N => n) life_conf [] wstate0 = Some w0 /\
    wlife_run (fun n => n) (fun _ => None) life_conf life_bad w0 = Some w /\ ~ NoDup (map fst (flat (w_files w))).
Proof. exact c48_stale. Qed.
Print Assumptions C48_stale_state_refuted.
Theorem C48_numbers_no_state_refuted :
  exists y, wrun (conf20 false) 4 [put1 1 10; YRestart None []; put1 2 20] = Some y /\ ~ NoDup (map fst (flat (w_files (y_log y)))).
Proof. exact c48_no_state. Qed.
Print Assumptions C48_numbers_no_state_refuted.
