(** What the bytes of a log stand for: frames, the commands they came from, and the events
    recovery should see. *)
From Coq Require Import String List NArith.
From Verif Require Import Model.Columns Model.Frame Model.WalScan.
Import ListNotations.
Local Open Scope N_scope.

(** A frame as written: its sequence number, type and payload. *)
Record wframe := mkFrame { wf_seq : N; wf_type : frame_type; wf_payload : bytes }.
Definition wbytes (f : wframe) : bytes := frame_bytes (wf_seq f) (wf_type f) (wf_payload f).
(** A frame the writer can have written without truncating a field. *)
Definition frame_ok (f : wframe) : Prop :=
  1 <= wf_seq f /\ wf_seq f < 2 ^ 64 /\ N.of_nat (length (wf_payload f)) < 2 ^ 32 /\ Forall byte_ok (wf_payload f).
(** The bytes of a segment with these frames. *)
Definition log_bytes (l : list wframe) : bytes := concat (map wbytes l).
(** The first [n] frames of [l] are the ones completely inside the first [k] bytes. *)
Definition whole_frames (l : list wframe) (k n : nat) : Prop :=
  (n <= length l)%nat /\ (length (log_bytes (firstn n l)) <= k)%nat /\
  (n = length l \/ k < length (log_bytes (firstn (S n) l)))%nat.

Section Events.
  Variable array : Type.
  Variable array_len : array -> nat.
  Variable ipc_write : batch array -> bytes.
  Variable ipc_read : bytes -> option (list (batch array)).

  (** The external contract of the Arrow IPC format, for one batch. *)
  Definition ipc_ok (b : batch array) : Prop :=
    ipc_read (ipc_write b) = Some [b] /\ ipc_write b <> [] /\ Forall byte_ok (ipc_write b).

  Definition u64_ok (n : N) : Prop := n < 2 ^ 64.

  (** The event a command should come back as. *)
  Inductive means : command array -> event array -> Prop :=
  | mn_begin id : u64_ok id -> means (CmdBegin id) (EvBegin id)
  | mn_rows id b ts :
      u64_ok id -> batch_valid array array_len b -> has_field commit_col b = false -> has_field tombstone_col b = false ->
      (forall w, append_commit_column array array_len b (ts_column ts (b_rows b)) = COk w -> ipc_ok w) ->
      means (CmdRows id b (ts_column ts (b_rows b)))
            (EvAppend id b (match b_rows b with O => None | S _ => Some ts end) (ts_column ts (b_rows b)))
  | mn_delete id b i f ts :
      u64_ok id -> ipc_ok b -> position commit_col (b_cols b) = Some i ->
      nth_error (b_cols b) i = Some (f, ts_column ts (b_rows b)) ->
      means (CmdDelete id b) (EvDelete id b (match b_rows b with O => None | S _ => Some ts end))
  | mn_commit id ts : u64_ok id -> u64_ok ts -> means (CmdCommit id ts) (EvCommit id ts)
  | mn_abort id : u64_ok id -> means (CmdAbort id) (EvAbort id).

  (** Frame [f] carries a command that means [e]. *)
  Definition carries (f : wframe) (e : event array) : Prop :=
    frame_ok f /\ exists c, encode_command array array_len ipc_write c = Ok (wf_type f, wf_payload f) /\ means c e.
End Events.

(** The frames recovery has to look at: those of the floor segment from the floor frame
    on, and those of all later segments. *)
Definition kept_frames (floor : option seg_ref) (segs : list (N * list wframe)) : list wframe :=
  match floor with
  | None => concat (map snd segs)
  | Some f =>
      concat (map (fun s => if fst s <? r_seq f then []
                            else if fst s =? r_seq f then filter (fun w => r_first f <=? wf_seq w) (snd s)
                            else snd s) segs)
  end.
(** The directory with these segments. *)
Definition dir_of (segs : list (N * list wframe)) : wal_dir := map (fun s => (fst s, log_bytes (snd s))) segs.
