(** What the log's sync policies promise: C61, C62, C63.  [srun cf es (sstart cf t)] is the log
    writer with configuration [cf] after the events [es] from an empty directory: batches of
    writes, requested rotations, timer ticks, orderly restarts, and stops of the process or the
    machine at any point of a batch, each followed by a reopen.  [z_acked] holds the answered
    writes: number, size, time of the answer.  [safe power z i]: write [i] is read back
    whatever is left of the files when the machine ([power]) or only the process stops now.
    [prompt cf]: written bytes reach the operating system before the answer.  These notions are
    in [Spec.SyncSpec]. *)
From Coq Require Import List NArith Bool.
From Verif Require Import Model.WalSync Spec.SyncSpec Proof.SyncInv Proof.SyncProps Proof.SyncBytes Proof.SyncWit.
Import ListNotations.
Local Open Scope N_scope.

(** *** C61: with the policy "always", an answered write survives a power loss. *)
(** When the log is opened after a stop in the middle of a frame, its last file is emptied and
    written again, without a sync.  [repairs_last false es]: no opening stops while doing that,
    and the machine does not stop before the next sync; [pending false es = false]: that sync
    has happened.  Full statement: without these and [prompt]; refuted below. *)
Theorem C61_always_partial : forall cf t0 es, prompt cf -> y_policy cf = Always -> events_fit cf (sstart cf t0) es -> repairs_last false es ->
  forall i n a, In (i, n, a) (z_acked (srun cf es (sstart cf t0))) ->
  safe false (srun cf es (sstart cf t0)) i /\ (pending false es = false -> safe true (srun cf es (sstart cf t0)) i).
Proof. exact always_safe. Qed.
Print Assumptions C61_always_partial.
Example C61_always_applies : prompt cf_always /\ y_policy cf_always = Always /\ events_fit cf_always (sstart cf_always 0) ev_always /\
  repairs_last false ev_always /\ pending false ev_always = false /\
  z_acked (srun cf_always ev_always (sstart cf_always 0)) = [(1, 60, 3); (2, 70, 3); (3, 80, 5); (4, 50, 7); (7, 20, 12); (8, 25, 15)] /\
  map f_frames (y_files (z_w (srun cf_always ev_always (sstart cf_always 0)))) =
    [[(1, 60); (2, 70); (3, 80)]; [(4, 50); (5, 40); (7, 20)]; [(8, 25)]].
Proof. exact always_fits. Qed.

(** With the default flush interval and a file handle that keeps written bytes to itself, the
    sync opens the file again and finds nothing to sync: an answered write is lost, even when
    only the process stops. *)
Theorem C61_always_refuted : exists es i n a,
  events_fit cf_always_default (sstart cf_always_default 0) es /\ Forall (fun e => crash e = false) es /\
  In (i, n, a) (z_acked (srun cf_always_default es (sstart cf_always_default 0))) /\
  forall power, ~ safe power (srun cf_always_default es (sstart cf_always_default 0)) i.
Proof. exact always_refuted. Qed.
Print Assumptions C61_always_refuted.

(** An opening that stops while it repairs the log loses answered writes, although only
    processes stop and every write was synced. *)
Theorem C61_repair_refuted : exists es i n a, events_fit cf_always (sstart cf_always 0) es /\ Forall (fun e => power_loss e = false) es /\
  In (i, n, a) (z_acked (srun cf_always es (sstart cf_always 0))) /\ ~ In i (map fst (written_now (srun cf_always es (sstart cf_always 0)))).
Proof. exact repair_lost. Qed.
Print Assumptions C61_repair_refuted.
(** After a repair that ended, a power loss loses writes that were synced before. *)
Theorem C61_repair_sync_refuted : exists es i n a, events_fit cf_always (sstart cf_always 0) es /\
  Forall (fun e => power_loss e = false /\ repair_stopped e = false) es /\
  In (i, n, a) (z_acked (srun cf_always es (sstart cf_always 0))) /\ ~ safe true (srun cf_always es (sstart cf_always 0)) i.
Proof. exact repair_unsynced. Qed.
Print Assumptions C61_repair_sync_refuted.

(** With any policy, also without syncs, an answered write survives when processes stop, but not
    while they repair the log. *)
Theorem C61_process_partial : forall cf t0 es, prompt cf -> events_fit cf (sstart cf t0) es ->
  Forall (fun e => power_loss e = false /\ repair_stopped e = false) es ->
  forall i n a, In (i, n, a) (z_acked (srun cf es (sstart cf t0))) -> safe false (srun cf es (sstart cf t0)) i.
Proof. exact process_safe. Qed.
Print Assumptions C61_process_partial.
Example C61_process_applies : prompt cf_off /\ events_fit cf_off (sstart cf_off 0) ev_off /\ Forall (fun e => power_loss e = false /\ repair_stopped e = false) ev_off /\
  z_acked (srun cf_off ev_off (sstart cf_off 0)) = [(1, 60, 3); (2, 70, 3); (5, 20, 12)].
Proof. exact process_fits. Qed.

(** After an orderly shutdown every answered write is on the disk, unless syncs are disabled;
    no condition on flushing. *)
Theorem C61_shutdown : forall cf t0 es t, y_policy cf <> Disabled -> events_fit cf (sstart cf t0) es ->
  Forall (fun e => crash e = false) es ->
  forall i n a, In (i, n, a) (z_acked (srun cf es (sstart cf t0))) ->
  forall power, safe power (srun cf (es ++ [EShutdown t]) (sstart cf t0)) i.
Proof. exact shutdown_safe. Qed.
Print Assumptions C61_shutdown.
Example C61_shutdown_applies : y_policy cf_default <> Disabled /\ events_fit cf_default (sstart cf_default 0) ev_default /\
  Forall (fun e => crash e = false) ev_default /\
  z_acked (srun cf_default ev_default (sstart cf_default 0)) = [(1, 60, 3); (2, 30, 3); (3, 20, 56)] /\
  ~ safe true (srun cf_default ev_default (sstart cf_default 0)) 3.
Proof. exact shutdown_fits. Qed.

(** *** C62: with "every [n] bytes", less than [n] bytes of answered writes are lost. *)
(** Full statement: without [prompt], with stops in the middle of a frame, and without the
    factor for the crashes before the last; the latter is refuted below, the others as in C61. *)
Theorem C62_bytes_partial : forall cf n t0 es, prompt cf -> y_policy cf = IntervalBytes n -> events_fit cf (sstart cf t0) es ->
  Forall (fun e => torn e = false) es ->
  let z := srun cf es (sstart cf t0) in
  forall power kept, survives power (y_files (z_w z)) kept ->
    lost_bytes (z_acked z) (read_back (y_files (z_w z)) kept) < N.max 1 n * (1 + N.of_nat (crashes es)).
Proof. exact bytes_bound. Qed.
Print Assumptions C62_bytes_partial.
Example C62_bytes_applies : prompt cf_bytes /\ y_policy cf_bytes = IntervalBytes 100 /\ events_fit cf_bytes (sstart cf_bytes 0) ev_bytes /\
  Forall (fun e => torn e = false) ev_bytes /\ crashes ev_bytes = 1%nat /\
  z_acked (srun cf_bytes ev_bytes (sstart cf_bytes 0)) = [(1, 60, 3); (2, 30, 3); (5, 50, 7); (6, 40, 9)] /\
  survives true (y_files (z_w (srun cf_bytes ev_bytes (sstart cf_bytes 0)))) [0%nat] /\
  lost_bytes (z_acked (srun cf_bytes ev_bytes (sstart cf_bytes 0))) (read_back (y_files (z_w (srun cf_bytes ev_bytes (sstart cf_bytes 0)))) [0%nat]) = 180.
Proof. exact bytes_fits. Qed.
(** A restart of the process forgets the bytes not yet synced: one power loss after it loses
    more than [n] bytes. *)
Theorem C62_bytes_restart_refuted : exists cf n es kept,
  prompt cf /\ y_policy cf = IntervalBytes n /\ 0 < n /\ events_fit cf (sstart cf 0) es /\ Forall (fun e => power_loss e = false /\ torn e = false) es /\
  survives true (y_files (z_w (srun cf es (sstart cf 0)))) kept /\
  n < lost_bytes (z_acked (srun cf es (sstart cf 0))) (read_back (y_files (z_w (srun cf es (sstart cf 0)))) kept).
Proof. exact bytes_refuted. Qed.
Print Assumptions C62_bytes_restart_refuted.

(** *** C63: with "every [d] time units", a write answered longer than [d] ago survives. *)
(** [late]: how long after it is due the timer is handled.  Full statement: without [prompt]
    and with restarts of the process; both refuted below. *)
Theorem C63_time_partial : forall cf d t0 es, prompt cf -> y_policy cf = IntervalTime d -> events_fit cf (sstart cf t0) es ->
  Forall (fun e => crash e = false) es ->
  let z := srun cf es (sstart cf t0) in
  forall late now, on_time late z now ->
  forall i n a, In (i, n, a) (z_acked z) -> a + d + late < now -> forall power, safe power z i.
Proof. exact time_safe. Qed.
Print Assumptions C63_time_partial.
Example C63_time_applies : prompt cf_time /\ y_policy cf_time = IntervalTime 50 /\ events_fit cf_time (sstart cf_time 0) ev_time /\
  Forall (fun e => crash e = false) ev_time /\
  z_acked (srun cf_time ev_time (sstart cf_time 0)) = [(1, 60, 3); (2, 30, 3); (3, 20, 11); (4, 25, 61)] /\
  y_timer (z_w (srun cf_time ev_time (sstart cf_time 0))) = Some 111 /\
  on_time 2 (srun cf_time ev_time (sstart cf_time 0)) 70 /\ 11 + 50 + 2 < 70 /\ ~ safe true (srun cf_time ev_time (sstart cf_time 0)) 4.
Proof. exact time_fits. Qed.
(** The timer can be on time: handling it at [t] leaves none that is due at [t]. *)
Theorem C63_timer : forall cf t w, match y_timer (timer_elapsed cf t w) with Some x => t < x | None => True end.
Proof. exact tick_clears. Qed.
Print Assumptions C63_timer.

(** The default configuration with a file handle that keeps written bytes to itself: the timer
    syncs nothing and is not set again; the write is never safe. *)
Theorem C63_default_refuted : exists es i n a,
  events_fit cf_default (sstart cf_default 0) es /\ Forall (fun e => crash e = false) es /\
  let z := srun cf_default es (sstart cf_default 0) in
  In (i, n, a) (z_acked z) /\ (forall now, on_time 0 z now) /\ forall power, ~ safe power z i.
Proof. exact default_refuted. Qed.
Print Assumptions C63_default_refuted.
(** A restart of the process forgets that a sync is due. *)
Theorem C63_restart_refuted : exists es i n a,
  events_fit cf_time (sstart cf_time 0) es /\ Forall (fun e => power_loss e = false) es /\
  let z := srun cf_time es (sstart cf_time 0) in
  In (i, n, a) (z_acked z) /\ a + 50 < 1000 /\ on_time 0 z 1000 /\ ~ safe true z i.
Proof. exact restart_refuted. Qed.
Print Assumptions C63_restart_refuted.
