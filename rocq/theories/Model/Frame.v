(** WAL frames as bytes: src/wal/frame.rs.  Definitions only.  A byte is a number below
    256; slices and buffers are lists. *)
From Coq Require Import List NArith Bool.
From Verif Require Import Model.Columns.
Import ListNotations.
Local Open Scope N_scope.

Definition bytes := list N.
Definition byte_ok (b : N) : Prop := b < 256.

(** [to_le_bytes] / [from_le_bytes] (Rust std). *)
Fixpoint le_bytes (n : nat) (x : N) : bytes :=
  match n with O => [] | S m => (x mod 256) :: le_bytes m (x / 256) end.
Fixpoint le_value (bs : bytes) : N :=
  match bs with [] => 0 | b :: r => b + 256 * le_value r end.

(** CRC-32C (Castagnoli), reflected polynomial 0x82F63B78: the [crc32c] crate, bit by bit. *)
Definition crc_poly : N := 2197175160.
Definition crc_bit (c : N) : N := if N.odd c then N.lxor (c / 2) crc_poly else c / 2.
Definition crc_byte (c b : N) : N := Nat.iter 8 crc_bit (N.lxor c b).
Definition crc32c (bs : bytes) : N := N.lxor (fold_left crc_byte bs 4294967295) 4294967295.

(** src/wal/frame.rs:20-60 *)
Definition FRAME_VERSION : N := 1.
Definition FRAME_MAGIC : N := 1414483537.      (* 0x544F4E51 *)
Definition INITIAL_FRAME_SEQ : N := 1.
Definition HEADER_SIZE : nat := 24.
Definition APPEND_PREFIX : nat := 16.

(** [WalError] as far as callers tell errors apart. *)
Inductive wal_err :=
| TruncHeader | TruncPayload | BadMagic | BadVersion | BadType | ZeroSeq | BadCrc
| BadPayload | Unimplemented | Codec.
Inductive res (A : Type) := Ok (a : A) | Err (e : wal_err).
Arguments Ok {A}. Arguments Err {A}.

(** [FrameType]: src/wal/frame.rs:129-180 *)
Inductive frame_type := TxnBegin | TxnAppend | TxnCommit | TxnAbort | SealMarker | TypedAppend.
Definition ftype_code (t : frame_type) : N :=
  match t with TxnBegin => 0 | TxnAppend => 1 | TxnCommit => 2 | TxnAbort => 3 | SealMarker => 4 | TypedAppend => 5 end.
Definition ftype_of (n : N) : option frame_type :=
  match n with
  | 0 => Some TxnBegin | 1 => Some TxnAppend | 2 => Some TxnCommit | 3 => Some TxnAbort
  | 4 => Some SealMarker | 5 => Some TypedAppend | _ => None
  end.

(** [FrameHeader]: src/wal/frame.rs:183-222; magic and version are constants. *)
Record header := mkHeader { h_type : frame_type; h_seq : N; h_len : N; h_crc : N }.
(** [FrameHeader::new]: src/wal/frame.rs:210-222; [payload.len() as u32] keeps 32 bits. *)
Definition header_new (seq : N) (t : frame_type) (payload : bytes) : header :=
  mkHeader t seq (N.of_nat (length payload) mod 2 ^ 32) (crc32c payload).
(** [encode_into]: src/wal/frame.rs:225-232 *)
Definition encode_header (h : header) : bytes :=
  le_bytes 4 FRAME_MAGIC ++ le_bytes 2 FRAME_VERSION ++ le_bytes 2 (ftype_code (h_type h)) ++
  le_bytes 8 (h_seq h) ++ le_bytes 4 (h_len h) ++ le_bytes 4 (h_crc h).
(** [Frame::into_bytes]: src/wal/frame.rs:119-125 *)
Definition frame_bytes (seq : N) (t : frame_type) (payload : bytes) : bytes :=
  encode_header (header_new seq t payload) ++ payload.

Definition slice (bs : bytes) (from upto : nat) : bytes := firstn (upto - from) (skipn from bs).
(** [decode_from]: src/wal/frame.rs:235-297 *)
Definition decode_from (bs : bytes) : res (header * bytes) :=
  if Nat.ltb (length bs) HEADER_SIZE then Err TruncHeader
  else
    let rest := skipn HEADER_SIZE bs in
    if negb (le_value (slice bs 0 4) =? FRAME_MAGIC) then Err BadMagic
    else if negb (le_value (slice bs 4 6) =? FRAME_VERSION) then Err BadVersion
    else match ftype_of (le_value (slice bs 6 8)) with
         | None => Err BadType
         | Some t =>
             let seq := le_value (slice bs 8 16) in
             if seq =? 0 then Err ZeroSeq
             else
               let len := le_value (slice bs 16 20) in
               let crc := le_value (slice bs 20 24) in
               if N.of_nat (length rest) <? len then Err TruncPayload
               else
                 let n := N.to_nat len in
                 if negb (crc32c (firstn n rest) =? crc) then Err BadCrc
                 else Ok (mkHeader t seq len crc, skipn n rest)
         end.

Section Payloads.
  Variable array : Type.
  Variable array_len : array -> nat.
  (** Arrow IPC streaming format (external): writing one batch; the batches read back, or
      an error. *)
  Variable ipc_write : batch array -> bytes.
  Variable ipc_read : bytes -> option (list (batch array)).

  (** [WalCommand]: src/wal/mod.rs:274-307; [DynBatchPayload]: src/wal/mod.rs:240-272 *)
  Inductive command :=
  | CmdBegin (id : N)
  | CmdRows (id : N) (b : batch array) (ts_col : column array)
  | CmdDelete (id : N) (b : batch array)
  | CmdCommit (id ts : N)
  | CmdAbort (id : N).

  (** [WalEvent]: src/wal/frame.rs:571-625 *)
  Inductive event :=
  | EvBegin (id : N)
  | EvAppend (id : N) (b : batch array) (hint : option N) (ts_col : column array)
  | EvDelete (id : N) (b : batch array) (hint : option N)
  | EvCommit (id ts : N)
  | EvAbort (id : N)
  | EvSeal.

  (** [encode_txn_append_batch]: src/wal/frame.rs:371-396 *)
  Definition encode_append (id row_mode : N) (b : batch array) : bytes :=
    le_bytes 8 id ++ [0; row_mode] ++ repeat 0 6 ++ ipc_write b.

  (** [encode_command]: src/wal/frame.rs:299-352, 398-414; one frame per command. *)
  Definition encode_command (c : command) : res (frame_type * bytes) :=
    match c with
    | CmdBegin id => Ok (TxnBegin, le_bytes 8 id)
    | CmdRows id b ts =>
        match append_commit_column array array_len b ts with
        | COk w => Ok (TxnAppend, encode_append id 0 w)
        | CErr _ => Err Codec
        end
    | CmdDelete id b => Ok (TxnAppend, encode_append id 1 b)
    | CmdCommit id ts => Ok (TxnCommit, le_bytes 8 id ++ le_bytes 8 ts)
    | CmdAbort id => Ok (TxnAbort, le_bytes 8 id)
    end.

  (** [decode_dyn_append]: src/wal/frame.rs:462-509 *)
  Definition decode_dyn_append (id : N) (row_mode : N) (bs : bytes) : res event :=
    match bs with
    | [] => Err Codec
    | _ =>
        match ipc_read bs with
        | Some [b] =>
            if row_mode =? 0 then
              match split_commit_column array array_len b with
              | COk (s, hint, col) => Ok (EvAppend id s hint col)
              | CErr _ => Err Codec
              end
            else
              match delete_commit_hint b with
              | COk hint => Ok (EvDelete id b hint)
              | CErr _ => Err Codec
              end
        | _ => Err Codec
        end
    end.

  (** [decode_frame]: src/wal/frame.rs:416-530 *)
  Definition decode_frame (t : frame_type) (p : bytes) : res event :=
    match t with
    | TxnBegin => if Nat.eqb (length p) 8 then Ok (EvBegin (le_value p)) else Err BadPayload
    | TxnAbort => if Nat.eqb (length p) 8 then Ok (EvAbort (le_value p)) else Err BadPayload
    | TxnCommit =>
        if Nat.eqb (length p) 16 then Ok (EvCommit (le_value (slice p 0 8)) (le_value (slice p 8 16)))
        else Err BadPayload
    | SealMarker => match p with [] => Ok EvSeal | _ => Err BadPayload end
    | TypedAppend => Err Unimplemented
    | TxnAppend =>
        if Nat.ltb (length p) APPEND_PREFIX then Err BadPayload
        else
          let id := le_value (slice p 0 8) in
          let row_mode := nth 9 p 0 in
          if 1 <? row_mode then Err BadPayload
          else
            match nth 8 p 0 with
            | 0 => decode_dyn_append id row_mode (skipn APPEND_PREFIX p)
            | 1 => Err Unimplemented
            | _ => Err BadPayload
            end
    end.
End Payloads.
Arguments CmdBegin {array}. Arguments CmdRows {array}. Arguments CmdDelete {array}. Arguments CmdCommit {array}. Arguments CmdAbort {array}.
Arguments EvBegin {array}. Arguments EvAppend {array}. Arguments EvDelete {array}. Arguments EvCommit {array}. Arguments EvAbort {array}. Arguments EvSeal {array}.
