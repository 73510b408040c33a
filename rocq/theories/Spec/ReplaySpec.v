(** What recovery has to do with a log of records. *)
From Coq Require Import List NArith Bool.
From Verif Require Import Model.Replay.
Import ListNotations.
Local Open Scope N_scope.

Section Spec.
  Context {P : Type}.
  Notation wrec := (wrec P).

  (** The record belongs to this transaction. *)
  Definition about (id : N) (r : wrec) : Prop :=
    match r with RBegin i | RPay i _ | RCommit i _ | RAbort i => i = id | RSeal => False end.
  Definition finishes (r : wrec) : option N :=
    match r with RCommit i _ | RAbort i => Some i | _ => None end.

  (** A log in which no record of a transaction follows its commit or abort record;
      otherwise the records of different transactions interleave freely. *)
  Definition log_wf (l : list wrec) : Prop :=
    forall a r b id, l = a ++ r :: b -> finishes r = Some id -> Forall (fun x => ~ about id x) b.

  (** The commit records in order, and the mutations recorded for a transaction. *)
  Definition commits (l : list wrec) : list (N * N) :=
    flat_map (fun r => match r with RCommit i t => [(i, t)] | _ => [] end) l.
  Definition payloads (id : N) (l : list wrec) : list P :=
    flat_map (fun r => match r with RPay i p => if i =? id then [p] else [] | _ => [] end) l.

  (** What has to be applied, in order: for each commit record all mutations recorded for
      that transaction, with its commit timestamp. *)
  Definition committed (l : list wrec) : list (P * N) :=
    flat_map (fun c => map (fun p => (p, snd c)) (payloads (fst c) l)) (commits l).

  (** Applying a list of timestamped mutations one after the other. *)
  Fixpoint apply_all {S} (apply : P -> N -> S -> option S) (l : list (P * N)) (s : S) : option S :=
    match l with
    | [] => Some s
    | (p, ts) :: r => match apply p ts s with Some s' => apply_all apply r s' | None => None end
    end.
  (** Timestamps of the transactions that were committed with at least one mutation. *)
  Definition commit_times (l : list wrec) : list N :=
    flat_map (fun c => match payloads (fst c) l with [] => [] | _ => [snd c] end) (commits l).

  (** The newest timestamp in a list. *)
  Definition newest (l : list N) : option N :=
    match l with [] => None | t :: r => Some (fold_right N.max t r) end.

  (** Identifiers may be used again.  A log in which every transaction has a name of its own,
      and the log with the identifiers [idof] that are written instead. *)
  Definition rename (idof : N -> N) (r : wrec) : wrec :=
    match r with
    | RBegin i => RBegin (idof i) | RPay i p => RPay (idof i) p
    | RCommit i t => RCommit (idof i) t | RAbort i => RAbort (idof i) | RSeal => RSeal
    end.
  (** When a transaction writes a record, every other transaction with the same identifier
      that has written records has finished. *)
  Definition one_at_a_time (idof : N -> N) (own : list wrec) : Prop :=
    forall a r b t other, own = a ++ r :: b -> about t r -> other <> t -> idof other = idof t ->
      (exists x, In x a /\ about other x) -> exists x, In x a /\ finishes x = Some other.
End Spec.
