(** Every commit and every flush looks at the log while it is being written:
    [collect_wal_segment_refs] (src/wal/manifest_ext.rs:15-66, called in src/db/mod.rs:1117 and
    src/transaction/mod.rs:1347) calls [tail_metadata_with_hint] (src/wal/storage.rs:262-318), the
    same function that repairs the log when it is opened: if the last segment does not end with a
    whole frame, it is emptied and written again.  Definitions only.

    One segment, the last one, as bytes; the writer adds the bytes of a frame in pieces (one
    [write_all], src/wal/writer.rs:704-713; how it is split is up to the file system and the
    file handle); any number of calls look at the segment meanwhile.

    Simplifications: no rotation; bytes written are seen by readers at once; nothing fails; a
    call that finds the segment broken returns its error and changes nothing. *)
From Coq Require Import List NArith Bool.
From Verif Require Import Model.Columns Model.Frame Model.WalScan Spec.WalSpec.
Import ListNotations.

(** A call that looks at the log: not at it; has read the segment and will write [data] anew;
    has emptied the segment and has to write [rest] at the offset [pos]. *)
Inductive taker := TIdle | TCut (data : bytes) | TPut (pos : nat) (rest : bytes).

Record lstate := mkLS {
  k_file : bytes;                (* the segment *)
  k_cur : option wframe;         (* the frame being written *)
  k_out : bytes;                 (* what is missing of it *)
  k_done : list wframe;          (* the frames written, in order *)
  k_takers : list taker
}.
Definition lstart (n : nat) : lstate := mkLS [] None [] [] (repeat TIdle n).

Fixpoint set_nth {A} (i : nat) (x : A) (l : list A) : list A :=
  match l, i with
  | [], _ => []
  | _ :: r, O => x :: r
  | a :: r, S j => a :: set_nth j x r
  end.

(** The decision of [scan_tail] and [tail_metadata_with_hint] (src/wal/storage.rs:262-318,
    320-399): what is to be written instead of the segment, if anything; [None] also for an error. *)
Definition rewrite_with (bs : bytes) : option bytes :=
  match segment_frames bs with
  | (_, Broken _) => None
  | (l, _) => let good := snd (tail_of l 0 None) in if Nat.ltb good (length bs) then Some (firstn good bs) else None
  end.
(** A write at an offset (external): a gap is filled with zeros. *)
Definition write_at (f : bytes) (pos : nat) (x : bytes) : bytes :=
  firstn pos (f ++ repeat 0%N (pos - length f)) ++ x ++ skipn (pos + length x) f.

(** [LFrame]: the writer begins a frame; [LBytes n]: the next bytes of it reach the end of the
    segment (the handle appends); [LRead i]: call [i] reads the segment; [LEmpty i]: it opens it
    with truncation; [LPut i n]: it writes the next bytes (src/wal/storage.rs:401-430). *)
Inductive levent := LFrame (f : wframe) | LBytes (n : nat) | LRead (i : nat) | LEmpty (i : nat) | LPut (i n : nat).
Definition with_taker (s : lstate) (i : nat) (t : taker) : lstate :=
  mkLS (k_file s) (k_cur s) (k_out s) (k_done s) (set_nth i t (k_takers s)).
Definition lstep (s : lstate) (e : levent) : lstate :=
  match e with
  | LFrame f =>
      match k_cur s with
      | None => mkLS (k_file s) (Some f) (wbytes f) (k_done s) (k_takers s)
      | Some _ => s
      end
  | LBytes n =>
      match k_cur s with
      | None => s
      | Some f =>
          let file := k_file s ++ firstn n (k_out s) in
          match skipn n (k_out s) with
          | [] => mkLS file None [] (k_done s ++ [f]) (k_takers s)
          | out => mkLS file (Some f) out (k_done s) (k_takers s)
          end
      end
  | LRead i =>
      match nth_error (k_takers s) i with
      | Some TIdle => match rewrite_with (k_file s) with Some d => with_taker s i (TCut d) | None => s end
      | _ => s
      end
  | LEmpty i =>
      match nth_error (k_takers s) i with
      | Some (TCut d) => with_taker (mkLS [] (k_cur s) (k_out s) (k_done s) (k_takers s)) i (TPut 0 d)
      | _ => s
      end
  | LPut i n =>
      match nth_error (k_takers s) i with
      | Some (TPut pos d) =>
          let x := firstn n d in
          with_taker (mkLS (write_at (k_file s) pos x) (k_cur s) (k_out s) (k_done s) (k_takers s)) i
                     (match skipn n d with [] => TIdle | r => TPut (pos + length x) r end)
      | _ => s
      end
  end.
Definition lrun (es : list levent) (s : lstate) : lstate := fold_left lstep es s.
