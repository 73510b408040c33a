(** What it means for a write to survive a crash, and for a schedule to keep the critical
    parts of flushes, seals and commits apart.  Independent of how the steps are defined. *)
From Coq Require Import List NArith Bool.
From Verif Require Import Model.LogRace.
Import ListNotations.
Local Open Scope N_scope.

(** The call returned success. *)
Definition acked (s : lstate) (i : nat) : Prop :=
  exists t, nth_error (ls_threads s) i = Some t /\ lt_pc t = LDone.

(** What a restart replays: the segments from the floor on, all of them without a floor
    (src/wal/replay.rs:45-110). *)
Definition replayed (s : lstate) : list lframe :=
  concat (map snd (filter (fun g => match ls_floor s with Some f => f <=? fst g | None => true end) (ls_log s))).

(** After a crash the write is there: in an SST, or all its frames are replayed. *)
Definition survives (s : lstate) (i : nat) : Prop :=
  In i (ls_sst s) \/
  exists t, nth_error (ls_threads s) i = Some t /\
            length (lt_nos t) = lt_total t /\
            forall n, In n (lt_nos t) -> In (mkLF n i) (replayed s).

(** A write that has put frames in the log and not yet its rows in the memtable. *)
Definition open_write (t : lthread) : bool :=
  match lt_pc t with
  | LStart => false
  | LAppend => match lt_nos t with [] => false | _ => true end
  | LRecord | LInsert => true
  | _ => false
  end.
(** Between replacing the memtable and adding the sealed segment, or a commit between
    reading the live floor and publishing the new one. *)
Definition critical_write (t : lthread) : bool :=
  match lt_pc t, lt_kind t with
  | LTake _ _, _ | LAdd _ _ _, _ => true
  | LStart, _ | LPruneRead, _ | LPrune _, _ | LDone, _ => false
  | _, WkCommit => true
  | _, WkIngest => false
  end.
(** A flush between capturing the sealed segments and enumerating the log. *)
Definition critical_flush (f : lflush) : bool :=
  match f with LFTaken _ _ | LFFloor _ _ _ | LFLive _ _ _ _ => true | _ => false end.

(** The step [e] makes its own call or flush enter such a part. *)
Definition enters (s : lstate) (e : levent) : bool :=
  match e with
  | VIngest _ | VCommit _ => false
  | VStep i b =>
      match nth_error (ls_threads s) i with
      | None => false
      | Some t => match lt_pc t with LStart => true | LSeal => b | _ => false end
      end
  | VFlush => match ls_flush s with LFNone => true | _ => false end
  end.
(** The step [e] is one of call [i] ([None]: of the flush). *)
Definition steps_of (e : levent) : option (option nat) :=
  match e with VStep i _ => Some (Some i) | VFlush => Some None | _ => None end.

(** No other call or flush is inside such a part when [e] happens, and when [e] enters one no
    other write is open. *)
Definition apart (s : lstate) (e : levent) : Prop :=
  match steps_of e with
  | None => True
  | Some who =>
      (forall j t, nth_error (ls_threads s) j = Some t -> who <> Some j ->
                   critical_write t = false /\ (enters s e = true -> open_write t = false)) /\
      (who <> None -> critical_flush (ls_flush s) = false)
  end.
(** The memtable has room. *)
Definition room (s : lstate) (e : levent) : Prop :=
  forall i t, e = VStep i true -> nth_error (ls_threads s) i = Some t -> lt_pc t <> LInsert.

Fixpoint all_apart (s : lstate) (es : list levent) : Prop :=
  match es with [] => True | e :: r => apart s e /\ room s e /\ all_apart (levent_step s e) r end.
Fixpoint all_room (s : lstate) (es : list levent) : Prop :=
  match es with [] => True | e :: r => room s e /\ all_room (levent_step s e) r end.
