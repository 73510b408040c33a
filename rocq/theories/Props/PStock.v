(** Looking at the log while it is written (C75) and logs with a damaged end (C76). *)
From Coq Require Import List NArith Bool.
From Verif Require Import Model.Columns Model.Frame Model.WalScan Spec.WalSpec Model.LogStock Spec.LogStockSpec Spec.DamageSpec
     Proof.FrameFacts Proof.WalDemo Proof.LogStockFacts Proof.DamageFacts.
Import ListNotations.
Local Open Scope N_scope.

(** *** C75: looking at the log while it is being written leaves it as it is. *)
(** Whatever the order of the steps, as long as no call reads the segment while a part of a
    frame is in it: every frame written is found, in order, and no call changes the segment.
    The missing part is refuted below. *)
Theorem C75_quiet_partial :
  forall n es, sound_frames es -> undisturbed (lstart n) es ->
    let s := lrun es (lstart n) in
    (exists e, found s = (as_found (k_done s), e) /\ (e = AtEnd \/ e = Torn)) /\
    (k_cur s = None -> found s = (as_found (k_done s), AtEnd)) /\ Forall (eq TIdle) (k_takers s).
Proof. exact c75_quiet. Qed.
Print Assumptions C75_quiet_partial.
Example C75_quiet_applies :
  sound_frames quiet_run_demo /\ undisturbed (lstart 2) quiet_run_demo /\
  k_done (lrun quiet_run_demo (lstart 2)) = [fr1] /\ snd (found (lrun quiet_run_demo (lstart 2))) = Torn.
Proof. exact quiet_demo. Qed.

(** A call that reads the segment while a frame is half written writes the segment anew
    without that frame, although the frame was completed and answered meanwhile. *)
Theorem C75_lost_refuted :
  exists es, sound_frames es /\ at_rest (lrun es (lstart 1)) /\
    exists f g, k_done (lrun es (lstart 1)) = [f; g] /\ found (lrun es (lstart 1)) = (as_found [f], AtEnd).
Proof. exact c75_lost. Qed.
Print Assumptions C75_lost_refuted.
(** Or the rest of the frame is added behind the rewritten segment: recovery fails. *)
Theorem C75_broken_refuted :
  exists es, sound_frames es /\ at_rest (lrun es (lstart 1)) /\
    exists f g, k_done (lrun es (lstart 1)) = [f; g] /\ found (lrun es (lstart 1)) = (as_found [f], Broken BadMagic).
Proof. exact c75_broken. Qed.
Print Assumptions C75_broken_refuted.

(** *** C76: damage at the end of the log costs only what follows it. *)
(** Whatever bytes follow the good frames: recovery either fails, or returns the events of
    all good frames, unchanged and first. *)
Theorem C76_prefix :
  forall array array_len ipc_write ipc_read floor segs s good d evs,
    Forall (fun x => Forall frame_ok (snd x)) segs -> Forall frame_ok good ->
    Forall2 (carries array array_len ipc_write ipc_read) (kept_frames floor (segs ++ [(s, good)])) evs ->
    (exists e, scan_segments array array_len ipc_read floor (damaged segs s good d) = Err e) \/
    (exists more, scan_segments array array_len ipc_read floor (damaged segs s good d) = Ok (evs ++ more)).
Proof. exact c76_prefix. Qed.
Print Assumptions C76_prefix.
(** Fewer bytes than a frame header: recovery returns exactly the events before them. *)
Theorem C76_short :
  forall array array_len ipc_write ipc_read floor segs s good evs d,
    Forall (fun x => Forall frame_ok (snd x)) segs -> Forall frame_ok good ->
    Forall2 (carries array array_len ipc_write ipc_read) (kept_frames floor (segs ++ [(s, good)])) evs ->
    looked_at floor s -> d <> [] -> (length d < 24)%nat ->
    scan_segments array array_len ipc_read floor (damaged segs s good d) = Ok evs.
Proof. exact c76_short. Qed.
Print Assumptions C76_short.
(** The documented behaviour "stop at the first truncated or unreadable frame and surface
    the events up to that point" does not hold for unreadable frames.  After any good log, a
    tail of 24 or more zero bytes (space the file system has allocated but not filled) makes
    recovery fail, and the log cannot be opened for writing either. *)
Theorem C76_zeros_refuted :
  forall array array_len ipc_write ipc_read floor segs s good evs n,
    Forall (fun x => Forall frame_ok (snd x)) segs -> Forall frame_ok good ->
    Forall2 (carries array array_len ipc_write ipc_read) (kept_frames floor (segs ++ [(s, good)])) evs ->
    looked_at floor s -> (24 <= n)%nat ->
    scan_segments array array_len ipc_read floor (damaged segs s good (repeat 0 n)) = Err BadMagic /\
    tail_metadata (damaged segs s good (repeat 0 n)) = Err BadMagic.
Proof. exact c76_zeros. Qed.
Print Assumptions C76_zeros_refuted.
(** The same for a frame with another payload, if the checksums differ. *)
Theorem C76_payload_refuted :
  forall array array_len ipc_write ipc_read floor segs s good evs f p rest,
    Forall (fun x => Forall frame_ok (snd x)) segs -> Forall frame_ok good ->
    Forall2 (carries array array_len ipc_write ipc_read) (kept_frames floor (segs ++ [(s, good)])) evs ->
    looked_at floor s -> frame_ok f -> length p = length (wf_payload f) -> crc32c p <> crc32c (wf_payload f) ->
    scan_segments array array_len ipc_read floor (damaged segs s good (other_payload f p ++ rest)) = Err BadCrc /\
    tail_metadata (damaged segs s good (other_payload f p ++ rest)) = Err BadCrc.
Proof. exact c76_payload. Qed.
Print Assumptions C76_payload_refuted.
(** A length field that is too large is taken for the end of the log, although it is not
    covered by the checksum and good frames may follow: they are skipped without an error, and
    opening the log for writing removes them. *)
Theorem C76_length_refuted :
  forall array array_len ipc_write ipc_read floor segs s good evs f len rest,
    Forall (fun x => Forall frame_ok (snd x)) segs -> Forall frame_ok good ->
    Forall (fun f => match wf_type f with TxnAppend | TxnCommit => (8 <= length (wf_payload f))%nat | _ => True end) good ->
    Forall2 (carries array array_len ipc_write ipc_read) (kept_frames floor (segs ++ [(s, good)])) evs ->
    looked_at floor s -> frame_ok f -> Forall frame_ok rest ->
    N.of_nat (length (wf_payload f ++ log_bytes rest)) < len -> len < 2 ^ 32 ->
    scan_segments array array_len ipc_read floor (damaged segs s good (other_length f len ++ log_bytes rest)) = Ok evs /\
    exists tm, tail_metadata (damaged segs s good (other_length f len ++ log_bytes rest)) =
      Ok (Some tm, dir_of segs ++ [(s, log_bytes good)]).
Proof. exact c76_length. Qed.
Print Assumptions C76_length_refuted.
Example C76_applies :
  Forall frame_ok demo_frames /\
  Forall2 (carries unit demo_len demo_write demo_read) (kept_frames None ([(2, demo_frames)] ++ [(3, firstn 3 demo_frames)]))
    (demo_events ++ firstn 3 demo_events) /\
  scan_segments unit demo_len demo_read None (damaged [(2, demo_frames)] 3 (firstn 3 demo_frames) [7; 7; 7])
    = Ok (demo_events ++ firstn 3 demo_events).
Proof. exact c76_demo. Qed.
Example C76_kinds_apply :
  frame_ok fr1 /\ List.length (map (fun x => (x + 1) mod 256) (wf_payload fr1)) = List.length (wf_payload fr1) /\
  crc32c (map (fun x => (x + 1) mod 256) (wf_payload fr1)) <> crc32c (wf_payload fr1) /\
  N.of_nat (List.length (wf_payload fr1 ++ log_bytes [fr2])) < 1000.
Proof. exact c76_kinds. Qed.
