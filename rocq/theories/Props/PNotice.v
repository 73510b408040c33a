(** Damage to a record of the log is noticed (C85). *)
From Coq Require Import List NArith.
From Verif Require Import Model.Columns Model.Frame Model.WalScan Spec.WalSpec Spec.DamageSpec
     Proof.WalDemo Proof.NoticeFacts Proof.NoticeWit.
Import ListNotations.
Local Open Scope N_scope.

(** *** C85: a damaged record is never taken for a good one. *)
(** Any damage of a payload that is confined to four consecutive bytes: recovery fails, and so
    does opening the log.  Missing: damage further apart, and the header (below). *)
Theorem C85_payload_partial :
  forall array array_len ipc_write ipc_read floor segs s good evs f pre mid mid' post rest,
    Forall (fun x => Forall frame_ok (snd x)) segs -> Forall frame_ok good ->
    Forall2 (carries array array_len ipc_write ipc_read) (kept_frames floor (segs ++ [(s, good)])) evs ->
    looked_at floor s -> frame_ok f -> wf_payload f = pre ++ mid ++ post ->
    length mid' = length mid -> (length mid <= 4)%nat -> mid' <> mid -> Forall byte_ok mid' ->
    scan_segments array array_len ipc_read floor (damaged segs s good (other_payload f (pre ++ mid' ++ post) ++ rest)) = Err BadCrc /\
    tail_metadata (damaged segs s good (other_payload f (pre ++ mid' ++ post) ++ rest)) = Err BadCrc.
Proof. exact c85_burst. Qed.
Print Assumptions C85_payload_partial.
(** Any damage of the checksum itself. *)
Theorem C85_checksum :
  forall array array_len ipc_write ipc_read floor segs s good evs f crc rest,
    Forall (fun x => Forall frame_ok (snd x)) segs -> Forall frame_ok good ->
    Forall2 (carries array array_len ipc_write ipc_read) (kept_frames floor (segs ++ [(s, good)])) evs ->
    looked_at floor s -> frame_ok f -> crc < 2 ^ 32 -> crc <> crc32c (wf_payload f) ->
    scan_segments array array_len ipc_read floor (damaged segs s good (other_checksum f crc ++ rest)) = Err BadCrc /\
    tail_metadata (damaged segs s good (other_checksum f crc ++ rest)) = Err BadCrc.
Proof. exact c85_checksum. Qed.
Print Assumptions C85_checksum.
(** The number of a record is not covered: a record whose number is damaged to one below the
    first that recovery still needs is left out without an error, whatever it says. *)
Theorem C85_number_refuted :
  forall array array_len ipc_write ipc_read fl segs s good evs f n,
    Forall (fun x => Forall frame_ok (snd x)) segs -> Forall frame_ok good ->
    Forall2 (carries array array_len ipc_write ipc_read) (kept_frames (Some fl) (segs ++ [(s, good)])) evs ->
    frame_ok f -> r_seq fl = s -> 1 <= n -> n < r_first fl -> n < 2 ^ 64 ->
    scan_segments array array_len ipc_read (Some fl) (damaged segs s good (other_number f n)) = Ok evs.
Proof. exact c85_number. Qed.
Print Assumptions C85_number_refuted.
(** The type of a record is not covered either, but a wrong type does not fit the payload:
    recovery fails, unless a begin is taken for an abort or an abort for a begin. *)
Theorem C85_type :
  forall array array_len ipc_write ipc_read floor segs s good evs f ev t rest,
    Forall (fun x => Forall frame_ok (snd x)) segs -> Forall frame_ok good ->
    Forall2 (carries array array_len ipc_write ipc_read) (kept_frames floor (segs ++ [(s, good)])) evs ->
    carries array array_len ipc_write ipc_read f ev -> kept_frames floor [(s, [f])] = [f] ->
    t <> wf_type f -> ~ alike (wf_type f) t ->
    exists e, scan_segments array array_len ipc_read floor (damaged segs s good (other_type f t ++ rest)) = Err e.
Proof. exact c85_type. Qed.
Print Assumptions C85_type.
(** A log whose last record commits a transaction.  Two changed bytes of the payload are
    noticed; one changed bit of the number (7 to 3) loses the commit. *)
Example C85_applies :
  let good := firstn 6 demo_frames in let f := demo_frame 7 (CmdCommit 4 9) in
  Forall frame_ok good /\ frame_ok f /\
  Forall2 (carries unit demo_len demo_write demo_read) (kept_frames None ([(2, demo_frames)] ++ [(3, good)])) (demo_events ++ firstn 6 demo_events) /\
  Forall2 (carries unit demo_len demo_write demo_read) (kept_frames (Some (mkRef 3 5 7)) ([(2, demo_frames)] ++ [(3, good)])) [EvCommit 5 8; EvAbort 6] /\
  wf_payload f = [4; 0; 0; 0; 0; 0; 0] ++ [0; 9] ++ [0; 0; 0; 0; 0; 0; 0] /\
  scan_segments unit demo_len demo_read None
    (damaged [(2, demo_frames)] 3 good (other_payload f ([4; 0; 0; 0; 0; 0; 0] ++ [1; 8] ++ [0; 0; 0; 0; 0; 0; 0]))) = Err BadCrc /\
  scan_segments unit demo_len demo_read (Some (mkRef 3 5 7)) (damaged [(2, demo_frames)] 3 good (wbytes f))
    = Ok [EvCommit 5 8; EvAbort 6; EvCommit 4 9] /\
  scan_segments unit demo_len demo_read (Some (mkRef 3 5 7)) (damaged [(2, demo_frames)] 3 good (other_number f 3))
    = Ok [EvCommit 5 8; EvAbort 6].
Proof. exact c85_demo. Qed.
(** The check value of CRC-32C, of the bytes of the text 123456789. *)
Example C85_check_value : crc32c [49; 50; 51; 52; 53; 54; 55; 56; 57] = 3808858755.
Proof. vm_compute. reflexivity. Qed.
(** The record of a commit taken for an append, a begin or a seal is noticed; a begin taken
    for an abort is not. *)
Example C85_type_applies :
  let f := demo_frame 7 (CmdCommit 4 9) in let b := demo_frame 7 (CmdBegin 4) in
  carries unit demo_len demo_write demo_read f (EvCommit 4 9) /\
  kept_frames (Some (mkRef 3 5 7)) [(3, [f])] = [f] /\
  (forall t, t <> TxnCommit -> t <> wf_type f /\ ~ alike (wf_type f) t) /\
  map (fun t => scan_segments unit demo_len demo_read None (damaged [] 3 [] (other_type f t))) [TxnBegin; TxnAppend; SealMarker]
    = [Err BadPayload; Err BadPayload; Err BadPayload] /\
  scan_segments unit demo_len demo_read None (damaged [] 3 [] (other_type b TxnAbort)) = Ok [EvAbort 4].
Proof. exact c85_type_demo. Qed.
