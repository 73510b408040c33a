(** Reading WAL segments: src/wal/replay.rs:45-180, src/wal/storage.rs:155-415, 540-570,
    src/wal/manifest_ext.rs.  Definitions only.  A WAL directory is the list of its
    segments, sequence number and contents, in increasing order of the sequence number
    (what [list_segments] returns, src/wal/storage.rs:104-150; directory listing and file
    reads are trusted). *)
From Coq Require Import List NArith Bool.
From Verif Require Import Model.Columns Model.Frame.
Import ListNotations.
Local Open Scope N_scope.

Definition wal_dir := list (N * bytes).

(** [WalSegmentRef]: src/manifest/domain.rs:469-496 *)
Record seg_ref := mkRef { r_seq : N; r_first : N; r_last : N }.

(** The end of a scan of one segment. *)
Inductive scan_end := AtEnd | Torn | Broken (e : wal_err).

(** The frame loop shared by replay (src/wal/replay.rs:122-165) and [scan_tail]
    (src/wal/storage.rs:343-385): the frames with their end offsets, and how it ended.
    [fuel] at least the number of bytes never runs out. *)
Fixpoint frames_of (fuel : nat) (bs : bytes) : list (header * bytes) * scan_end :=
  match bs with
  | [] => ([], AtEnd)
  | _ =>
      match fuel with
      | O => ([], Broken Codec)
      | S f =>
          match decode_from bs with
          | Err TruncHeader => ([], Torn)
          | Err TruncPayload => ([], Torn)
          | Err e => ([], Broken e)
          | Ok (h, _) =>
              let n := (HEADER_SIZE + N.to_nat (h_len h))%nat in
              let '(l, e) := frames_of f (skipn n bs) in
              ((h, slice bs HEADER_SIZE n) :: l, e)
          end
      end
  end.
Definition segment_frames (bs : bytes) : list (header * bytes) * scan_end := frames_of (length bs) bs.

Section Scan.
  Variable array : Type.
  Variable array_len : array -> nat.
  Variable ipc_read : bytes -> option (list (batch array)).
  Notation event := (event array).

  (** Decode the frames of a segment from the floor frame on: src/wal/replay.rs:150-165 *)
  Fixpoint events_of (floor_frame : option N) (l : list (header * bytes)) : list event * option wal_err :=
    match l with
    | [] => ([], None)
    | (h, p) :: r =>
        let skipped := match floor_frame with Some f => h_seq h <? f | None => false end in
        if skipped then events_of floor_frame r
        else
          match decode_frame array array_len ipc_read (h_type h) p with
          | Err e => ([], Some e)
          | Ok ev => let '(es, e) := events_of floor_frame r in (ev :: es, e)
          end
    end.

  (** [scan_with_floor]: src/wal/replay.rs:45-180, in the recovery modes that are
      implemented (the others fail at once). *)
  Fixpoint scan_segments (floor : option seg_ref) (dir : wal_dir) : res (list event) :=
    match dir with
    | [] => Ok []
    | (seq, bs) :: r =>
        let below := match floor with Some f => seq <? r_seq f | None => false end in
        if below then scan_segments floor r
        else
          let ff := match floor with Some f => if seq =? r_seq f then Some (r_first f) else None | None => None end in
          let '(l, e) := segment_frames bs in
          let '(evs, ee) := events_of ff l in
          match ee with
          | Some x => Err x
          | None =>
              match e with
              | Broken x => Err x
              | Torn => Ok evs
              | AtEnd => match scan_segments floor r with Ok more => Ok (evs ++ more) | Err x => Err x end
              end
          end
    end.
End Scan.

(** [scan_tail]: src/wal/storage.rs:320-400: the last usable frame's sequence and
    provisional id and the length of the usable prefix; an append or commit frame with a
    payload below 8 bytes ends the scan. *)
Fixpoint tail_of (l : list (header * bytes)) (off : nat) (last : option (N * option N)) : option (N * option N) * nat :=
  match l with
  | [] => (last, off)
  | (h, p) :: r =>
      let id := match h_type h with
                | TxnAppend | TxnCommit => if Nat.ltb (length p) 8 then None else Some (Some (le_value (slice p 0 8)))
                | _ => Some None
                end in
      match id with
      | None => (last, off)
      | Some i => tail_of r (off + HEADER_SIZE + length p) (Some (h_seq h, i))
      end
  end.

(** [TailMetadata]: src/wal/storage.rs:515-527, without the completed segments *)
Record tail_meta := mkTail { tm_active : N; tm_bytes : nat; tm_last_frame : option N; tm_last_id : option N }.

(** [tail_metadata_with_hint]: src/wal/storage.rs:262-318: metadata of the last segment,
    and the directory after a torn last segment was cut back to its usable prefix. *)
Definition tail_metadata (dir : wal_dir) : res (option tail_meta * wal_dir) :=
  match rev dir with
  | [] => Ok (None, dir)
  | (seq, bs) :: before =>
      match segment_frames bs with
      | (_, Broken e) => Err e
      | (l, _) =>
          let '(last, good) := tail_of l 0 None in
          Ok (Some (mkTail seq good (option_map fst last) (match last with Some (_, i) => i | None => None end)),
              rev before ++ [(seq, firstn good bs)])
      end
  end.

(** [decode_frame_bounds]: src/wal/storage.rs:529-552 *)
Definition frame_bounds (bs : bytes) : res (option (N * N)) :=
  match segment_frames bs with
  | (_, Broken e) => Err e
  | (_, Torn) => Err TruncHeader
  | (l, AtEnd) =>
      match l with
      | [] => Ok None
      | (h, _) :: _ => Ok (Some (h_seq h, h_seq (fst (last l (h, [])))))
      end
  end.

(** [segment_required]: src/wal/manifest_ext.rs:76-92 *)
Definition segment_required (seq last_frame : N) (cutoff live_floor : option N) : bool :=
  match live_floor with
  | Some f => if f <=? last_frame then true else match cutoff with Some c => c <? seq | None => true end
  | None => match cutoff with Some c => c <? seq | None => true end
  end.

(** [prune_below]: src/wal/storage.rs:155-170 *)
Definition prune_below {A} (floor : N) (dir : list (N * A)) : list (N * A) :=
  if floor =? 0 then dir else filter (fun s => floor <=? fst s) dir.
