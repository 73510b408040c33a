(** Properties of concurrent calls: C50 to C55.  A schedule is a list of events: a call
    starts, a transaction begins, a call takes one atomic step, a flush takes one step, the
    future of a call or of a flush is dropped while it waits.
    [cstart capacity] is an empty database; [crun c es] the state after the schedule.
    The conditions on schedules are defined in [Spec.ConcSpec]. *)
From Coq Require Import List NArith Bool Permutation.
From Verif Require Import Base.Order Model.MemTable Model.Immutable Model.SsTable Model.DbScan Model.Db
     Spec.Mvcc Spec.History Model.Run Spec.Valid Model.Sched Spec.ConcSpec
     Proof.Demo Proof.SchedLive Proof.SchedReads Proof.SchedTxn Proof.SchedScan Proof.SchedDemo Proof.SchedWrap.
Import ListNotations.

(** *** C50: concurrent calls never deadlock. *)
(** In every state, if no call can take a step then all calls have returned. *)
Theorem C50_no_deadlock :
  forall (K : Type) (KO : KeyOrd K) (R : Type) (key_of : R -> option K) (c : conc K R),
    (forall i, cstep key_of c (EStep i) = c) -> Forall (@returned K R) (c_threads c).
Proof. exact @stuck_returned. Qed.
Print Assumptions C50_no_deadlock.
(** The calls in flight can take a bounded number of steps in all: whatever the order,
    after that many steps all have returned. *)
Theorem C50_bounded :
  forall (K : Type) (KO : KeyOrd K) (R : Type) (key_of : R -> option K) (c : conc K R),
    exists n, forall is, effective key_of c is -> length is <= n.
Proof. exact @steps_bounded. Qed.
Print Assumptions C50_bounded.
Theorem C50_all_can_return :
  forall (K : Type) (KO : KeyOrd K) (R : Type) (key_of : R -> option K) (c : conc K R),
    exists is, Forall (@returned K R) (c_threads (crun key_of c (map EStep is))).
Proof. exact @all_return. Qed.
Print Assumptions C50_all_can_return.
(** Two transactions staged keys 1 and 2 in opposite orders; one waits for the other. *)
Example C50_applies :
  map (@t_pc _ _) (c_threads (go crossing)) = [PLock 2; PLock 0] /\
  cstep row_key (go crossing) (EStep 1) = go crossing /\ effective row_key (go crossing) (repeat 0 8 ++ repeat 1 5).
Proof. exact crossing_ok. Qed.

(** *** C51: of two acknowledged transactions that write one key, one began after the other
    was acknowledged. *)
Theorem C51_no_lost_update_partial :
  forall (K : Type) (KO : KeyOrd K) (R : Type) (key_of : R -> option K) capacity es i j t u ti tj k,
    sched_hyp key_of capacity es -> Forall (@not_flush K R) es ->
    calm_checks key_of (cstart capacity) es -> calm_begins key_of (cstart capacity) es ->
    let c := crun key_of (cstart capacity) es in
    i <> j -> nth_error (c_threads c) i = Some t -> nth_error (c_threads c) j = Some u ->
    acked_at t ti -> acked_at u tj -> txn_writes key_of k t -> txn_writes key_of k u ->
    began_after key_of (cstart capacity) es i j \/ began_after key_of (cstart capacity) es j i.
Proof. exact @no_lost_update. Qed.
Print Assumptions C51_no_lost_update_partial.
Example C51_applies :
  sched_hyp row_key 1024 in_turn /\ Forall (@not_flush N row) in_turn /\
  calm_checks row_key (cstart 1024) in_turn /\ calm_begins row_key (cstart 1024) in_turn /\
  map (@t_pc _ _) (c_threads (go in_turn)) = map (fun ts => PDone (Acked ts)) [0; 2; 1; 3]%N.
Proof. exact in_turn_ok. Qed.
(** Each condition is needed.  A transaction begins after another took its commit timestamp
    and before it inserted its rows: *)
Theorem C51_begin_in_window_refuted :
  exists es, sched_hyp row_key 1024 es /\ Forall (@not_flush N row) es /\
    calm_checks row_key (cstart 1024) es /\ lost_update row_key 1024 es.
Proof. exact (ex_intro _ lost_window lost_window_ok). Qed.
Print Assumptions C51_begin_in_window_refuted.
(** Both begin before the first write of the database's life; they run one after the other: *)
Theorem C51_empty_database_refuted :
  exists ms ms' is, let es := [EBegin ms; EBegin ms'] ++ map EStep is in
    sched_hyp row_key 1024 es /\ lost_update row_key 1024 es.
Proof. exact lost_empty_wit. Qed.
Print Assumptions C51_empty_database_refuted.
(** The first commit was flushed before the second checks: *)
Theorem C51_flushed_refuted :
  exists es, sched_hyp row_key 1024 es /\ calm_begins row_key (cstart 1024) es /\
    calm_checks row_key (cstart 1024) es /\ lost_update row_key 1024 es.
Proof. exact (ex_intro _ lost_flush lost_flush_ok). Qed.
Print Assumptions C51_flushed_refuted.
(** The first commit is in a sealed segment not yet added when the second checks: *)
Theorem C51_sealed_refuted :
  exists es, sched_hyp row_key 1024 es /\ Forall (@not_flush N row) es /\
    calm_begins row_key (cstart 1024) es /\ lost_update row_key 1024 es.
Proof. exact (ex_intro _ lost_seal lost_seal_ok). Qed.
Print Assumptions C51_sealed_refuted.
(** Ingests take no locks: the transaction with read timestamp [snap] commits at [tj] over an
    ingest of its key that committed at [ti] in between. *)
Theorem C51_ingest_refuted :
  exists es i j t u snap ms rows dec r ti tj k,
    sched_hyp row_key 1024 es /\
    nth_error (c_threads (crun row_key (cstart 1024) es)) i = Some t /\
    nth_error (c_threads (crun row_key (cstart 1024) es)) j = Some u /\
    t_call t = CIngest rows dec /\ In r rows /\ row_key r = Some k /\ acked_at t ti /\
    t_call u = CTxn snap ms /\ txn_writes row_key k u /\ acked_at u tj /\ (snap < ti)%N /\ (ti < tj)%N.
Proof. exact lost_ingest_wit. Qed.
Print Assumptions C51_ingest_refuted.

(** *** C52: a snapshot reads the writes acknowledged when it was taken, all of each of them
    and nothing else, however later writes interleave. *)
(** Taken while no write is in flight: *)
Theorem C52_snapshot_stable_partial :
  forall (K : Type) (KO : KeyOrd K) (R : Type) (key_of : R -> option K) capacity es es' prune cp limit,
    sched_hyp key_of capacity (es ++ es') ->
    let c := crun key_of (cstart capacity) es in
    let c' := crun key_of (cstart capacity) (es ++ es') in
    let sn := begin_snapshot (c_db c) in
    acked key_of c <> [] -> Forall (fun t => ~ writing t) (c_threads c) ->
    Forall (@not_flush K R) es' -> Forall (fun t => ~ sealing t) (c_threads c') ->
    Forall (seg_safe (sn_ts sn)) (d_imm (c_db c')) ->
    cp_sound key_of cp -> push_ok key_of prune cp (sn_ts sn) (d_levels (c_db c')) ->
    exists h full, Permutation h (acked key_of c) /\ by_time h /\
      scan key_of prune cp sn limit (c_db c')
        = Some (match limit with Some n => firstn n full | None => full end) /\
      lists_table key_of (final key_of h) (c_full cp) full.
Proof. exact @calm_snapshot. Qed.
Print Assumptions C52_snapshot_stable_partial.
Example C52_applies :
  let es := split_before in
  sched_hyp row_key 1024 (es ++ later) /\ acked row_key (go es) <> [] /\
  Forall (fun t => ~ writing t) (c_threads (go es)) /\ Forall (@not_flush N row) later /\
  Forall (fun t => ~ sealing t) (c_threads (go (es ++ later))) /\
  d_imm (c_db (go (es ++ later))) = d_imm (c_db (go es)) /\
  map (@t_pc _ _) (c_threads (go (es ++ later))) = [PDone (Acked 0); PDone (Acked 1)].
Proof. exact calm_ok. Qed.
Example C52_applies_sealed :
  Forall (fun t => ~ sealing t) (c_threads (go (split_before ++ split_seal))) /\
  Forall (seg_safe (sn_ts (begin_snapshot (c_db (go split_before))))) (d_imm (c_db (go (split_before ++ split_seal)))) /\
  length (d_imm (c_db (go (split_before ++ split_seal)))) = 1.
Proof. exact calm_seal_ok. Qed.
(** Two scans of one snapshot differ: it was taken between the timestamp of a commit and the
    insert of its rows. *)
Theorem C52_snapshot_changes_refuted :
  exists es es' o o', sched_hyp row_key 1024 (es ++ es') /\ Forall (@not_flush N row) es' /\
    let c := crun row_key (cstart 1024) es in
    let c' := crun row_key (cstart 1024) (es ++ es') in
    Forall (fun t => ~ sealing t) (c_threads c) /\ Forall (fun t => ~ sealing t) (c_threads c') /\
    scan_at row_key (begin_snapshot (c_db c)) c = Some o /\
    scan_at row_key (begin_snapshot (c_db c)) c' = Some o' /\ o <> o'.
Proof. exact changes_wit. Qed.
Print Assumptions C52_snapshot_changes_refuted.
(** A snapshot sees the upsert of a transaction and not its delete. *)
Theorem C52_half_applied_refuted :
  exists es t snap ms o k r k' r' ts u, sched_hyp row_key 1024 es /\
    let c := crun row_key (cstart 1024) es in
    In t (c_threads c) /\ t_call t = CTxn snap ms /\ In (Put r) ms /\ In (Del k') ms /\
    scan_at row_key (begin_snapshot (c_db c)) c = Some o /\
    In ((k, ts), r) o /\ In ((k', u), r') o /\ (u < ts)%N.
Proof. exact half_wit. Qed.
Print Assumptions C52_half_applied_refuted.
(** An acknowledged row disappears from fresh snapshots while an ingest of another key seals
    the memtable. *)
Theorem C52_acknowledged_row_missing_refuted :
  exists es es' o o' k ts r, sched_hyp row_key 1024 (es ++ es') /\
    let c := crun row_key (cstart 1024) es in
    let c' := crun row_key (cstart 1024) (es ++ es') in
    Forall (@is_ingest N row) (c_threads c') /\ Forall (@returned N row) (c_threads c) /\
    scan_at row_key (begin_snapshot (c_db c)) c = Some o /\ In ((k, ts), r) o /\
    scan_at row_key (begin_snapshot (c_db c')) c' = Some o' /\ (forall e, In e o' -> fst (fst e) <> k).
Proof. exact gap_wit. Qed.
Print Assumptions C52_acknowledged_row_missing_refuted.

(** *** C53: when all calls have returned, a scan lists the result of the acknowledged calls
    in the order of their commit timestamps; nothing of the others. *)
Theorem C53_settled :
  forall (K : Type) (KO : KeyOrd K) (R : Type) (key_of : R -> option K) capacity es prune cp limit,
    sched_hyp key_of capacity es ->
    let c := crun key_of (cstart capacity) es in
    Forall (@returned K R) (c_threads c) -> cp_sound key_of cp ->
    push_ok key_of prune cp (sn_ts (begin_snapshot (c_db c))) (d_levels (c_db c)) ->
    exists h full, Permutation h (acked key_of c) /\ by_time h /\
      scan key_of prune cp (begin_snapshot (c_db c)) limit (c_db c)
        = Some (match limit with Some n => firstn n full | None => full end) /\
      lists_table key_of (final key_of h) (c_full cp) full.
Proof. exact @settled_scan. Qed.
Print Assumptions C53_settled.
Example C53_applies :
  sched_hyp row_key 1024 busy /\ Forall (@returned N row) (c_threads (go busy)) /\
  map (@t_pc _ _) (c_threads (go busy)) = [PDone (Acked 0); PDone Conflict; PDone (Acked 1); PDone (Acked 2)] /\
  length (concat (d_levels (c_db (go busy)))) = 1.
Proof. exact busy_ok. Qed.
(** With calls and flushes that were given up half-way. *)
Example C53_applies_dropped :
  sched_hyp row_key 1024 dropped /\ Forall (@returned N row) (c_threads (go dropped)) /\
  map (@t_pc _ _) (c_threads (go dropped)) =
    [PDone (Acked 0); PDone GaveUp; PDone (Acked 2); PDone GaveUp; PDone (Acked 3)] /\
  length (concat (d_levels (c_db (go dropped)))) = 2.
Proof. exact dropped_ok. Qed.

(** *** C54: a scan that plans in one state and reads in a later one returns the rows of its
    snapshot. *)
Theorem C54_plan_then_read_partial :
  forall (K : Type) (KO : KeyOrd K) (R : Type) (key_of : R -> option K) capacity es es',
    sched_hyp key_of capacity (es ++ es') ->
    let c := crun key_of (cstart capacity) es in
    let c' := crun key_of (cstart capacity) (es ++ es') in
    acked key_of c <> [] -> Forall (fun t => ~ writing t) (c_threads c) ->
    Forall (@not_flush K R) es' -> Forall (fun t => ~ sealing t) (c_threads c') ->
    d_imm (c_db c') = d_imm (c_db c) ->
    exists h out, Permutation h (acked key_of c) /\ by_time h /\
      scan_split key_of (begin_snapshot (c_db c)) c c' = Some out /\
      lists_table key_of (final key_of h) (fun _ => true) out.
Proof. exact @calm_split. Qed.
Print Assumptions C54_plan_then_read_partial.
Example C54_applies :
  let es := split_before in
  sched_hyp row_key 1024 (es ++ later) /\ acked row_key (go es) <> [] /\
  Forall (fun t => ~ writing t) (c_threads (go es)) /\ Forall (@not_flush N row) later /\
  Forall (fun t => ~ sealing t) (c_threads (go (es ++ later))) /\
  d_imm (c_db (go (es ++ later))) = d_imm (c_db (go es)) /\
  map (@t_pc _ _) (c_threads (go (es ++ later))) = [PDone (Acked 0); PDone (Acked 1)].
Proof. exact calm_ok. Qed.
(** An ingest sealed the memtable in between: the scan returns nothing. *)
Theorem C54_sealed_between_refuted :
  exists es es' a l, sched_hyp row_key 1024 (es ++ es') /\
    let c := crun row_key (cstart 1024) es in
    let c' := crun row_key (cstart 1024) (es ++ es') in
    Forall (@returned N row) (c_threads c) /\ Forall (@returned N row) (c_threads c') /\
    Forall (@not_flush N row) es' /\
    scan_at row_key (begin_snapshot (c_db c)) c = Some (a :: l) /\
    scan_split row_key (begin_snapshot (c_db c)) c c' = Some [].
Proof. exact split_seal_wit. Qed.
Print Assumptions C54_sealed_between_refuted.
(** A flush moved the segment to a table file in between: the scan returns nothing, although
    no call ran. *)
Theorem C54_flushed_between_refuted :
  exists es es' a l, sched_hyp row_key 1024 (es ++ es') /\
    let c := crun row_key (cstart 1024) es in
    let c' := crun row_key (cstart 1024) (es ++ es') in
    Forall (@returned N row) (c_threads c) /\ c_threads c' = c_threads c /\
    scan_at row_key (begin_snapshot (c_db c)) c = Some (a :: l) /\
    scan_split row_key (begin_snapshot (c_db c)) c c' = Some [].
Proof. exact split_flush_wit. Qed.
Print Assumptions C54_flushed_between_refuted.

(** *** C55: a call that starts after another was acknowledged gets a later timestamp. *)
Theorem C55_real_time :
  forall (K : Type) (KO : KeyOrd K) (R : Type) (key_of : R -> option K) capacity es es' i j t u ts ts',
    sched_hyp key_of capacity (es ++ es') ->
    let c := crun key_of (cstart capacity) es in
    let c' := crun key_of (cstart capacity) (es ++ es') in
    nth_error (c_threads c) i = Some t -> acked_at t ts ->
    nth_error (c_threads c) j = None -> nth_error (c_threads c') j = Some u -> acked_at u ts' ->
    (ts < ts')%N.
Proof. exact @real_time. Qed.
Print Assumptions C55_real_time.
(** No two acknowledged calls share a timestamp. *)
Theorem C55_distinct :
  forall (K : Type) (KO : KeyOrd K) (R : Type) (key_of : R -> option K) capacity es i j t u ts,
    sched_hyp key_of capacity es ->
    let c := crun key_of (cstart capacity) es in
    nth_error (c_threads c) i = Some t -> nth_error (c_threads c) j = Some u ->
    acked_at t ts -> acked_at u ts -> i = j.
Proof. exact @stamps_distinct. Qed.
Print Assumptions C55_distinct.
Example C55_applies :
  sched_hyp row_key 1024 (split_before ++ later) /\
  map (@t_pc _ _) (c_threads (go split_before)) = [PDone (Acked 0)] /\
  map (@t_pc _ _) (c_threads (go (split_before ++ later))) = [PDone (Acked 0); PDone (Acked 1)].
Proof. exact real_time_ok. Qed.
