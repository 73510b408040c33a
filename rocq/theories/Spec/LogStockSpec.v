(** Looking at the log while it is written. *)
From Coq Require Import List NArith.
From Verif Require Import Model.Columns Model.Frame Model.WalScan Spec.WalSpec Model.LogStock.
Import ListNotations.

(** The frames the writer is given can be read back (C14, C15). *)
Definition sound_frame (f : wframe) : Prop :=
  frame_ok f /\ match wf_type f with TxnAppend | TxnCommit => (8 <= length (wf_payload f))%nat | _ => True end.
Definition sound_frames (es : list levent) : Prop :=
  Forall (fun e => match e with LFrame f => sound_frame f | _ => True end) es.

(** No call reads the segment while a part of a frame is in it. *)
Fixpoint undisturbed (s : lstate) (es : list levent) : Prop :=
  match es with
  | [] => True
  | e :: r =>
      match e with
      | LRead _ => match k_cur s with Some f => k_out s = wbytes f | None => True end
      | _ => True
      end /\ undisturbed (lstep s e) r
  end.

(** What recovery finds in a segment: the frames and how they end. *)
Definition found (s : lstate) : list (header * bytes) * scan_end := segment_frames (k_file s).
Definition as_found (l : list wframe) : list (header * bytes) :=
  map (fun f => (header_new (wf_seq f) (wf_type f) (wf_payload f), wf_payload f)) l.
(** All calls that looked at the log are over, and no frame is being written. *)
Definition at_rest (s : lstate) : Prop := k_cur s = None /\ Forall (eq TIdle) (k_takers s).
