(** Write calls as clients of the log: what each call puts into the log, when
    it changes the memtable, what it returns, and what is left when it fails
    or its future is dropped on the way.

    Simplifications.  The log is Model/LogQueue.v; a frame is known by the
    number of its request.  The memtable is the list of the calls applied to
    it; a call whose application fails leaves nothing in it (what such a call
    leaves is the subject of C37).  Key locks, conflicts and commit times are
    those of Model/Sched.v and Model/LogRace.v and left out; a transaction that
    finds a conflict has not reached the log.  After a refused request
    [write_wal_transaction] tries to log an abort, which is refused as well
    (C71_admission) and left out.  The background task of the fast mode waits
    for the log and publishes segment numbers; it changes nothing that is
    modelled here. *)
From Coq Require Import List Arith Bool.
From Verif Require Import Spec.QueueSpec Model.LogQueue.
Import ListNotations.

(** [ingest], and [commit] with the two acknowledgement modes
    (src/transaction/mod.rs:33-41). *)
Inductive mode : Type := MIngest | MStrict | MFast.

(** The frames of a write (src/wal/mod.rs:250-307: [WalCommand]). *)
Inductive frame : Type := FBegin | FAppend | FCommit.

(** What a call does, one await or one change at a time. *)
Inductive action : Type :=
| ASend (f : frame)      (* hand a command to the log *)
| AWait (j : nat)        (* wait for the answer to its j-th command *)
| AApply                 (* change the memtable *)
| AAfter.                (* what follows: sealing, minor compaction, manifest *)

Definition waits (n : nat) : list action := map AWait (seq 0 n).

(** [n] is the number of append frames: rows, deletes, or both.
    [MIngest]: src/db/wal.rs:452-511 ([insert_dyn_wal_batch]): the commit frame
    is sent when the appends have been answered.
    [MStrict], [MFast]: src/transaction/mod.rs:617-665 with 1195-1229
    ([write_wal_transaction]) and 1242-1251 ([await_range]). *)
Definition program (m : mode) (n : nat) : list action :=
  match m with
  | MIngest =>
      repeat (ASend FAppend) n ++ waits n ++ [ASend FCommit; AWait n] ++ [AApply; AAfter]
  | MStrict =>
      ASend FBegin :: repeat (ASend FAppend) n ++ [ASend FCommit] ++ waits (S (S n)) ++
      [AApply; AAfter]
  | MFast =>
      ASend FBegin :: repeat (ASend FAppend) n ++ [ASend FCommit] ++ [AApply]
  end.

Inductive status : Type := Active | Returned (ok : bool) | Dropped.

Record client := Client {
  cl_mode : mode;
  cl_n : nat;
  cl_prog : list action;   (* what it has still to do *)
  cl_sent : list nat;      (* the requests it has made, oldest first *)
  cl_st : status
}.

(** [w_own] says of each accepted request whose frame it carries. *)
Record world := World {
  w_q : qstate;
  w_t : trace;
  w_calls : list client;
  w_own : list (nat * (nat * frame));
  w_mem : list nat
}.

Definition w_init : world := World q_init [] [] [] [].

Fixpoint update {A} (i : nat) (a : A) (l : list A) : list A :=
  match l, i with
  | [], _ => []
  | _ :: r, O => a :: r
  | x :: r, S j => x :: update j a r
  end.

Definition answer_of (t : trace) (c : nat) : option answer :=
  option_map snd (find (fun p : nat * answer => fst p =? c) (answers t)).

(** A call returns when nothing is left to do. *)
Definition settle (c : client) : client :=
  match cl_prog c with
  | [] => Client (cl_mode c) (cl_n c) [] (cl_sent c) (Returned true)
  | _ => c
  end.

Definition go_on (c : client) (rest : list action) (sent : list nat) : client :=
  settle (Client (cl_mode c) (cl_n c) rest sent Active).

Definition fails (c : client) : client :=
  Client (cl_mode c) (cl_n c) (cl_prog c) (cl_sent c) (Returned false).

Inductive wlabel : Type :=
| WCall (m : mode) (n : nat)      (* a write call begins *)
| WMove (i : nat) (ok : bool)     (* call [i] goes on; [ok]: its own step succeeds *)
| WDrop (i : nat)                 (* the future of call [i] is dropped *)
| WLog (l : qlabel).              (* the log moves, or is asked for something else *)

Definition wstep (qs : nat) (l : wlabel) (w : world) : world :=
  match l with
  | WCall m n =>
      World (w_q w) (w_t w)
        (w_calls w ++ [Client m n (program m n) [] Active]) (w_own w) (w_mem w)
  | WDrop i =>
      match nth_error (w_calls w) i with
      | Some c =>
          match cl_st c with
          | Active =>
              World (w_q w) (w_t w)
                (update i (Client (cl_mode c) (cl_n c) (cl_prog c) (cl_sent c) Dropped) (w_calls w))
                (w_own w) (w_mem w)
          | _ => w
          end
      | None => w
      end
  | WLog (QSend RCmd) => w      (* commands come from calls only *)
  | WLog l =>
      let (q, t) := qstep qs l (w_q w) in
      World q (w_t w ++ t) (w_calls w) (w_own w) (w_mem w)
  | WMove i ok =>
      match nth_error (w_calls w) i with
      | None => w
      | Some c =>
          match cl_st c, cl_prog c with
          | Active, ASend f :: rest =>
              let n := q_next (w_q w) in
              let (q, t) := qstep qs (QSend RCmd) (w_q w) in
              match t with
              | [EAccept _ _] =>
                  World q (w_t w ++ t)
                    (update i (go_on c rest (cl_sent c ++ [n])) (w_calls w))
                    (w_own w ++ [(n, (i, f))]) (w_mem w)
              | _ => World q (w_t w ++ t) (update i (fails c) (w_calls w)) (w_own w) (w_mem w)
              end
          | Active, AWait j :: rest =>
              match nth_error (cl_sent c) j with
              | None => w
              | Some n =>
                  match answer_of (w_t w) n with
                  | None => w      (* not answered yet *)
                  | Some AOk =>
                      World (w_q w) (w_t w) (update i (go_on c rest (cl_sent c)) (w_calls w))
                        (w_own w) (w_mem w)
                  | Some _ =>
                      World (w_q w) (w_t w) (update i (fails c) (w_calls w)) (w_own w) (w_mem w)
                  end
              end
          | Active, AApply :: rest =>
              if ok then
                World (w_q w) (w_t w) (update i (go_on c rest (cl_sent c)) (w_calls w))
                  (w_own w) (w_mem w ++ [i])
              else World (w_q w) (w_t w) (update i (fails c) (w_calls w)) (w_own w) (w_mem w)
          | Active, AAfter :: rest =>
              World (w_q w) (w_t w)
                (update i (if ok then go_on c rest (cl_sent c) else fails c) (w_calls w))
                (w_own w) (w_mem w)
          | _, _ => w
          end
      end
  end.

Definition wrun (qs : nat) (ls : list wlabel) : world :=
  fold_left (fun w l => wstep qs l w) ls w_init.

(** What a restart makes of the log (Model/Replay.v): a call is replayed if its
    commit frame is in the log.  [log_has w i f k]: [k] frames [f] of call [i]
    are in the log. *)
Definition frames_in_log (w : world) (i : nat) (f : frame) : list nat :=
  map fst
    (filter (fun p : nat * (nat * frame) =>
               (fst (snd p) =? i) &&
               match snd (snd p), f with
               | FBegin, FBegin | FAppend, FAppend | FCommit, FCommit => true
               | _, _ => false
               end &&
               existsb (Nat.eqb (fst p)) (map fst (done (w_t w))))
            (w_own w)).

(** Call [i] is there after a restart. *)
Definition survives (w : world) (i : nat) : Prop := frames_in_log w i FCommit <> [].

(** Nothing of the storage fails, and no step of a call does (used in
    statements only). *)
Definition all_sound (l : wlabel) : Prop :=
  match l with
  | WMove _ ok => ok = true
  | WLog l => sound l
  | _ => True
  end.
