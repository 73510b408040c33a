(** Automatic flushing ("minor compaction"): src/db/mod.rs:97-126, 1070-1091,
    src/compaction/minor.rs.  Definitions only. *)
From Coq Require Import List NArith Bool Arith.
From Verif Require Import Base.Order Model.OMap Model.KeyTs Model.MemTable Model.Immutable
     Model.SsTable Model.Version Model.Compact Model.Planner Model.Db Model.DbCompact Spec.History Model.Run.
Import ListNotations.

(** *** One call after the other *)
Section Minor.
  Context {K : Type} {KO : KeyOrd K} {R : Type}.
  Variable key_of : R -> option K.
  Variable row_bytes : R -> nat.
  Variable del_bytes : K -> nat.

  (** [MinorCompactor]: src/compaction/minor.rs:18-48; a threshold of zero counts as one. *)
  Record minor := mkMinor { mi_threshold : nat; mi_level : nat }.
  Definition minor_with (threshold level : nat) : minor := mkMinor (Nat.max threshold 1) level.

  (** [maybe_run_minor_compaction] (src/db/mod.rs:1070-1091) with [maybe_compact]
      (src/compaction/minor.rs:65-119): [stalled]: the level-0 statistics, possibly old ones,
      say that writes should stall, and the flush is left to later.  No file operation fails
      here.  [true]: no error. *)
  Definition minor_trigger (mi : minor) (stalled : bool) (d : db K R) : db K R * bool :=
    if stalled then (d, true)
    else if Nat.ltb (length (d_imm d)) (mi_threshold mi) then (d, true)
    else flush key_of (mi_level mi) d.

  (** The write calls, as in [Model.Run], with the stall decision seen at their end.  A commit
      does not run the trigger (src/transaction/mod.rs:617-680). *)
  Inductive acall :=
  | AIngest (rows : list R) (span : option frame_range) (dec stalled : bool)
  | ATomb (rows : list (R * bool)) (span : option frame_range) (dec stalled : bool)
  | ACommit (snapshot_ts : N) (muts : list (mut K R)) (span : option frame_range).

  (** The write of a call without what follows it, as an operation of [Model.Run], and whether
      it is accepted. *)
  Definition bare (c : acall) : op K R :=
    match c with
    | AIngest rows span dec _ => OIngest rows span dec
    | ATomb rows span dec _ => OTomb rows span dec
    | ACommit ts ms span => OCommit ts ms span
    end.
  Definition bare_ok (s : state K R) (c : acall) : bool :=
    match c with
    | AIngest rows span dec _ => snd (ingest key_of rows span dec (st_db s))
    | ATomb rows span dec _ => snd (ingest_with_tombstones key_of rows span dec (st_db s))
    | ACommit ts ms span =>
        match snd (commit key_of ts (stage key_of ms) span (st_db s)) with COk => true | _ => false end
    end.

  (** Whether the trigger runs after an accepted write: src/db/mod.rs:801-805,
      src/db/wal.rs:437-441, 508-510 (a call without rows returns at once). *)
  Definition triggers (c : acall) : option bool :=
    match c with
    | AIngest _ _ _ stalled => Some stalled
    | ATomb [] _ _ _ => None
    | ATomb _ _ _ stalled => Some stalled
    | ACommit _ _ _ => None
    end.

  (** A call and its answer. *)
  Definition acall_step (mi : minor) (s : state K R) (c : acall) : state K R * bool :=
    let s1 := step key_of row_bytes del_bytes s (bare c) in
    if bare_ok s c then
      match triggers c with
      | Some stalled =>
          let '(d, ok) := minor_trigger mi stalled (st_db s1) in
          (mkSt d (st_hist s1) (st_horizon s1), ok)
      | None => (s1, true)
      end
    else (s1, false).
  Definition acall_run (mi : minor) (s : state K R) (cs : list acall) : state K R :=
    fold_left (fun s c => fst (acall_step mi s c)) cs s.
End Minor.
Arguments acall K R : clear implicits.

(** *** Overlapping calls: the trigger of several writes at the same time *)

(** Where a call is in the trigger: it waits for the lock of [MinorCompactionState]
    (src/db/mod.rs:121); has it; has found enough segments (src/compaction/minor.rs:74-84); has
    captured [n] of them under [flush_lock] (src/db/mod.rs:1099-1106); has ended. *)
Inductive mpc := MWait | MIn | MEnough | MTaken (n : nat) | MEnd (r : mresult)
with mresult := MNothing | MFlushed | MNoSegments | MIoError | MGivenUp.

(** [mc_waiting]: the number of sealed segments; [mc_lock]: the call that holds the lock. *)
Record minors := mkMs { mc_waiting : nat; mc_lock : option nat; mc_calls : list mpc }.
Definition minors_start : minors := mkMs 0 None [].

(** A write seals a segment and goes on to the trigger; a write that did not seal goes there; a
    commit seals a segment; call [i] takes a step, its file operations succeed if [ok]; the
    future of call [i] is dropped. *)
Inductive mevent := MSealCall | MCall | MSealCommit | MGo (i : nat) (ok : bool) | MDrop (i : nat).

Fixpoint put_pc (i : nat) (p : mpc) (l : list mpc) : list mpc :=
  match l, i with
  | [], _ => []
  | _ :: r, O => p :: r
  | x :: r, S j => x :: put_pc j p r
  end.

(** src/db/mod.rs:113-126, 1094-1204, src/compaction/minor.rs:65-119.  Everything after the lock
    is done by the one call that holds it, so [flush_lock] is always free.  What is captured is
    removed when the table has been published; segments sealed meanwhile stay. *)
Definition mevent_step (threshold : nat) (s : minors) (e : mevent) : minors :=
  match e with
  | MSealCall => mkMs (S (mc_waiting s)) (mc_lock s) (mc_calls s ++ [MWait])
  | MCall => mkMs (mc_waiting s) (mc_lock s) (mc_calls s ++ [MWait])
  | MSealCommit => mkMs (S (mc_waiting s)) (mc_lock s) (mc_calls s)
  | MGo i ok =>
      match nth_error (mc_calls s) i with
      | Some MWait =>
          match mc_lock s with
          | None => mkMs (mc_waiting s) (Some i) (put_pc i MIn (mc_calls s))
          | Some _ => s
          end
      | Some MIn =>
          if Nat.ltb (mc_waiting s) (Nat.max threshold 1)
          then mkMs (mc_waiting s) None (put_pc i (MEnd MNothing) (mc_calls s))
          else mkMs (mc_waiting s) (mc_lock s) (put_pc i MEnough (mc_calls s))
      | Some MEnough =>
          match mc_waiting s with
          | O => mkMs (mc_waiting s) None (put_pc i (MEnd MNoSegments) (mc_calls s))
          | n => mkMs (mc_waiting s) (mc_lock s) (put_pc i (MTaken n) (mc_calls s))
          end
      | Some (MTaken n) =>
          if ok then mkMs (mc_waiting s - n) None (put_pc i (MEnd MFlushed) (mc_calls s))
          else mkMs (mc_waiting s) None (put_pc i (MEnd MIoError) (mc_calls s))
      | _ => s
      end
  | MDrop i =>
      match nth_error (mc_calls s) i with
      | Some MWait => mkMs (mc_waiting s) (mc_lock s) (put_pc i (MEnd MGivenUp) (mc_calls s))
      | Some (MIn | MEnough | MTaken _) => mkMs (mc_waiting s) None (put_pc i (MEnd MGivenUp) (mc_calls s))
      | _ => s
      end
  end.
Definition mevent_run (threshold : nat) (s : minors) (es : list mevent) : minors :=
  fold_left (mevent_step threshold) es s.
