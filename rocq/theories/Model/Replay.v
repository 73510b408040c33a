(** Grouping WAL events into transactions during recovery: src/db/wal.rs:94-307.
    Definitions only. *)
From Coq Require Import List NArith Bool.
From Verif Require Import Model.Columns Model.Frame.
Import ListNotations.
Local Open Scope N_scope.

Section Replay.
  (** A payload of a transaction ([PendingWalPayload], src/db/wal.rs:96-106) and the state
      it is applied to. *)
  Context {P S : Type}.

  (** [WalEvent] with the append and delete events merged. *)
  Inductive wrec := RBegin (id : N) | RPay (id : N) (p : P) | RCommit (id ts : N) | RAbort (id : N) | RSeal.

  (** [PendingWalTxns], a hash map from transaction identifiers: src/db/wal.rs:94 *)
  Definition pending := list (N * list P).
  Fixpoint pn_get (id : N) (m : pending) : option (list P) :=
    match m with [] => None | (i, l) :: r => if i =? id then Some l else pn_get id r end.
  Definition pn_remove (id : N) (m : pending) : pending := filter (fun e => negb (fst e =? id)) m.
  (** [entry(id).or_default()], then [push]. *)
  Definition pn_touch (id : N) (m : pending) : pending :=
    match pn_get id m with Some _ => m | None => (id, []) :: m end.
  Definition pn_push (id : N) (p : P) (m : pending) : pending :=
    match pn_get id m with Some l => (id, l ++ [p]) :: pn_remove id m | None => (id, [p]) :: m end.

  (** Applying one payload at a commit timestamp, including the seal policy check that
      follows it; [None]: an error, which ends recovery. *)
  Variable apply : P -> N -> S -> option S.

  Fixpoint apply_payloads (l : list P) (ts : N) (s : S) : option S :=
    match l with
    | [] => Some s
    | p :: r => match apply p ts s with Some s' => apply_payloads r ts s' | None => None end
    end.

  (** [replay_wal_events]: src/db/wal.rs:211-307; the state and [last_commit_ts]. *)
  Fixpoint replay (evs : list wrec) (m : pending) (last : option N) (s : S) : option (S * option N) :=
    match evs with
    | [] => Some (s, last)
    | RBegin id :: r => replay r (pn_touch id m) last s
    | RPay id p :: r => replay r (pn_push id p m) last s
    | RCommit id ts :: r =>
        match pn_get id m with
        | None => replay r m last s
        | Some [] => replay r (pn_remove id m) last s
        | Some l =>
            match apply_payloads l ts s with
            | None => None
            | Some s' => replay r (pn_remove id m) (Some (match last with Some x => N.max x ts | None => ts end)) s'
            end
        end
    | RAbort id :: r => replay r (pn_remove id m) last s
    | RSeal :: r => replay r m last s
    end.
End Replay.
Arguments wrec P : clear implicits.

(** The payload and event types of the log: src/db/wal.rs:96-106, 218-250 *)
Inductive wpayload (array : Type) :=
| PUpsert (b : batch array) (ts_col : column array) (hint : option N)
| PDelete (b : batch array) (hint : option N).
Arguments PUpsert {array}. Arguments PDelete {array}.
Definition to_wrec {array} (e : event array) : wrec (wpayload array) :=
  match e with
  | EvBegin id => RBegin id
  | EvAppend id b hint col => RPay id (PUpsert b col hint)
  | EvDelete id b hint => RPay id (PDelete b hint)
  | EvCommit id ts => RCommit id ts
  | EvAbort id => RAbort id
  | EvSeal => RSeal
  end.
