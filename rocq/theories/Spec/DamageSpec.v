(** Logs whose last segment is damaged after some good frames. *)
From Coq Require Import List NArith.
From Verif Require Import Model.Columns Model.Frame Model.WalScan Spec.WalSpec.
Import ListNotations.
Local Open Scope N_scope.

(** Segments with whole frames, then a last one with the frames [good] followed by [d]. *)
Definition damaged (segs : list (N * list wframe)) (s : N) (good : list wframe) (d : bytes) : wal_dir :=
  dir_of segs ++ [(s, log_bytes good ++ d)].
(** Recovery looks at the last segment. *)
Definition looked_at (floor : option seg_ref) (s : N) : Prop := match floor with Some f => r_seq f <= s | None => True end.
(** A frame whose payload has been replaced. *)
Definition other_payload (f : wframe) (p : bytes) : bytes := encode_header (header_new (wf_seq f) (wf_type f) (wf_payload f)) ++ p.
(** A frame whose length field has been replaced. *)
Definition other_length (f : wframe) (len : N) : bytes :=
  let h := header_new (wf_seq f) (wf_type f) (wf_payload f) in
  encode_header (mkHeader (h_type h) (h_seq h) len (h_crc h)) ++ wf_payload f.
(** A frame whose checksum, or whose sequence number, has been replaced. *)
Definition other_checksum (f : wframe) (crc : N) : bytes :=
  let h := header_new (wf_seq f) (wf_type f) (wf_payload f) in
  encode_header (mkHeader (h_type h) (h_seq h) (h_len h) crc) ++ wf_payload f.
Definition other_number (f : wframe) (n : N) : bytes :=
  let h := header_new (wf_seq f) (wf_type f) (wf_payload f) in
  encode_header (mkHeader (h_type h) n (h_len h) (h_crc h)) ++ wf_payload f.
(** A frame whose type has been replaced; begin and abort look alike but for their type. *)
Definition other_type (f : wframe) (t : frame_type) : bytes :=
  let h := header_new (wf_seq f) (wf_type f) (wf_payload f) in
  encode_header (mkHeader t (h_seq h) (h_len h) (h_crc h)) ++ wf_payload f.
Definition alike (t t' : frame_type) : Prop :=
  (t = TxnBegin /\ t' = TxnAbort) \/ (t = TxnAbort /\ t' = TxnBegin).
