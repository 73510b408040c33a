(** What a stop of the machine leaves of the log is a point in time, and the log works on
    afterwards (C77). *)
From Coq Require Import List NArith Bool.
From Verif Require Import Model.Columns Model.Frame Model.WalScan Model.WalWriter Model.WalBoot Spec.WalSpec Spec.BootSpec
     Proof.FrameFacts Proof.WalDemo Proof.BootFacts.
From Verif Require Import Model.WalSync Spec.SyncSpec Spec.PointSpec Proof.SyncWit Proof.PointFacts.
Import ListNotations.
Local Open Scope N_scope.

(** *** C77: recovery finds the writes up to a point in time. *)
(** Unless syncs are disabled (refuted below): after any history with crashes, whatever a stop
    of the process or the machine now leaves of the files, with or without half frames, recovery
    reads an initial part of the log. *)
Theorem C77_point_partial : forall cf t0 es, y_policy cf <> Disabled -> events_fit cf (sstart cf t0) es ->
  let z := srun cf es (sstart cf t0) in
  forall power left, survives power (y_files (z_w z)) (map fst left) ->
    initial_part (read_files (y_files (z_w z)) left) (written_now z).
Proof. exact point_power. Qed.
Print Assumptions C77_point_partial.
Example C77_point_applies : y_policy cf_always <> Disabled /\ events_fit cf_always (sstart cf_always 0) ev_always /\
  survives true (y_files (z_w (srun cf_always ev_always (sstart cf_always 0)))) [3; 3; 1]%nat.
Proof. exact point_fits. Qed.
(** With any policy when the process stops. *)
Theorem C77_process : forall cf t0 es, events_fit cf (sstart cf t0) es ->
  let z := srun cf es (sstart cf t0) in
  forall left, survives false (y_files (z_w z)) (map fst left) ->
    initial_part (read_files (y_files (z_w z)) left) (written_now z).
Proof. exact point_process. Qed.
Print Assumptions C77_process.
(** The log holds writes in the order in which they came, after any history. *)
Theorem C77_order : forall cf t0 es, events_fit cf (sstart cf t0) es -> in_order (written_now (srun cf es (sstart cf t0))).
Proof. exact run_order. Qed.
Print Assumptions C77_order.
(** With syncs disabled a power loss can take writes of a closed segment and leave later
    ones: recovery applies the later ones without the earlier. *)
Theorem C77_hole_refuted : exists cf es left,
  y_policy cf = Disabled /\ prompt cf /\ events_fit cf (sstart cf 0) es /\ Forall (fun e => crash e = false) es /\
  survives true (y_files (z_w (srun cf es (sstart cf 0)))) (map fst left) /\
  ~ initial_part (read_files (y_files (z_w (srun cf es (sstart cf 0)))) left) (written_now (srun cf es (sstart cf 0))).
Proof. exact hole_refuted. Qed.
Print Assumptions C77_hole_refuted.

(** *** C77: the log can be opened again and continued. *)
(** Closed segments with whole frames and a last one cut anywhere: opening succeeds, cuts the
    half frame off, knows the first and last frame of every segment that has frames (and so does
    the state file), and continues with higher numbers. *)
Theorem C77_open :
  forall first st segs s last k n,
    Forall (fun x => Forall frame_ok (snd x)) segs -> Forall frame_ok last -> Forall long_enough last ->
    (k <= length (log_bytes last))%nat -> whole_frames last k n -> honest segs st ->
    exists b, boot first st (dir_of segs ++ [(s, firstn k (log_bytes last))]) = Ok b /\
      bt_files b = dir_of segs ++ [(s, log_bytes (firstn n last))] /\
      bt_closed b = all_bounds segs /\ bt_active b = bounds_of s (firstn n last) /\
      bt_seg b = s /\ bt_bytes b = length (log_bytes (firstn n last)) /\
      (forall f, In f (match rev (firstn n last) with f :: _ => [f] | [] => [] end) -> sat1 (wf_seq f) <= bt_frame b) /\
      (forall w x, st = Some w -> st_frame w = Some x -> sat1 x <= bt_frame b) /\
      sat1 s <= bt_next b /\ (forall w x, st = Some w -> st_seg w = Some x -> sat1 x <= bt_next b) /\
      match st with
      | Some _ => exists w', bt_state b = Some w' /\ st_sealed w' = all_bounds segs /\ st_active w' = bounds_of s (firstn n last)
      | None => bt_state b = None
      end.
Proof. exact boot_ok. Qed.
Print Assumptions C77_open.
(** In an empty directory the first segment is made. *)
Theorem C77_open_empty : forall first st, exists b, boot first st [] = Ok b /\
  bt_files b = [(first, [])] /\ bt_closed b = [] /\ bt_active b = None /\ bt_seg b = first /\ bt_bytes b = 0%nat /\ 1 <= bt_frame b /\
  (forall w x, st = Some w -> st_frame w = Some x -> sat1 x <= bt_frame b) /\
  sat1 first <= bt_next b /\ (forall w x, st = Some w -> st_seg w = Some x -> sat1 x <= bt_next b) /\
  match st with Some _ => exists w', bt_state b = Some w' /\ st_sealed w' = [] /\ st_active w' = None | None => bt_state b = None end.
Proof. exact boot_empty. Qed.
Print Assumptions C77_open_empty.
(** The state written then is right about the closed segments, as the next opening needs it. *)
Theorem C77_state : forall segs w, NoDup (map fst segs) -> st_sealed w = all_bounds segs -> honest segs (Some w).
Proof. exact all_honest. Qed.
Print Assumptions C77_state.
Example C77_open_applies :
  Forall frame_ok demo_frames /\ Forall long_enough demo_frames /\ whole_frames demo_frames 180 4 /\
  honest [(2, demo_frames)] (Some boot_state) /\
  exists b, boot 0 (Some boot_state) (dir_of [(2, demo_frames)] ++ [(3, firstn 180 (log_bytes demo_frames))]) = Ok b /\
    bt_closed b = [mkRef 2 1 7] /\ bt_active b = Some (mkRef 3 1 4) /\ bt_frame b = 6 /\ bt_next b = 4.
Proof. exact boot_demo. Qed.
(** A closed segment that ends in the middle of a frame (syncs disabled, power loss) is not
    repaired.  If the state file does not list it the log cannot be opened. *)
Theorem C77_closed_refuted :
  forall first st a q l k n b s last,
    Forall (fun x => Forall frame_ok (snd x)) a -> honest a st ->
    Forall frame_ok l -> (k <= length (log_bytes l))%nat -> whole_frames l k n -> k <> length (log_bytes (firstn n l)) ->
    (forall w r, st = Some w -> In r (st_sealed w) -> r_seq r <> q) ->
    Forall frame_ok last -> Forall long_enough last ->
    boot first st (torn_inside a q l k (b ++ [(s, log_bytes last)])) = Err TruncHeader.
Proof. exact torn_closed_fails. Qed.
Print Assumptions C77_closed_refuted.
(** If it does, the log is opened as it is; but recovery stops at that segment, now and later:
    whatever is written to the segments after it is never recovered. *)
Theorem C77_closed_opens_refuted :
  forall first w a q l k n s last r,
    Forall (fun x => Forall frame_ok (snd x)) a -> honest a (Some w) ->
    Forall frame_ok l -> (k <= length (log_bytes l))%nat -> whole_frames l k n -> k <> length (log_bytes (firstn n l)) ->
    In r (st_sealed w) -> r_seq r = q -> Forall frame_ok last -> Forall long_enough last ->
    exists b, boot first (Some w) (torn_inside a q l k [(s, log_bytes last)]) = Ok b /\
      bt_files b = torn_inside a q l k [(s, log_bytes last)].
Proof. exact torn_closed_opens. Qed.
Print Assumptions C77_closed_opens_refuted.
Theorem C77_stuck_refuted :
  forall array array_len ipc_write ipc_read floor a q l k n later evs,
    Forall (fun x => Forall frame_ok (snd x)) a -> Forall frame_ok l ->
    (k <= length (log_bytes l))%nat -> whole_frames l k n -> k <> length (log_bytes (firstn n l)) ->
    (match floor with Some f => r_seq f <= q | None => True end) ->
    Forall2 (carries array array_len ipc_write ipc_read) (kept_frames floor (a ++ [(q, firstn n l)])) evs ->
    scan_segments array array_len ipc_read floor (torn_inside a q l k later) = Ok evs.
Proof. exact torn_closed_stuck. Qed.
Print Assumptions C77_stuck_refuted.
Example C77_closed_applies :
  whole_frames demo_frames 180 4 /\ 180%nat <> length (log_bytes (firstn 4 demo_frames)) /\
  boot 0 None (torn_inside [(1, demo_frames)] 2 demo_frames 180 ([] ++ [(3, log_bytes demo_frames)])) = Err TruncHeader /\
  Forall2 (carries unit demo_len demo_write demo_read) (kept_frames (Some (mkRef 2 1 7)) ([(1, demo_frames)] ++ [(2, firstn 4 demo_frames)]))
    (firstn 4 demo_events) /\
  scan_segments unit demo_len demo_read (Some (mkRef 2 1 7)) (torn_inside [(1, demo_frames)] 2 demo_frames 180 [(3, log_bytes demo_frames)])
    = Ok (firstn 4 demo_events).
Proof. exact torn_demo. Qed.
