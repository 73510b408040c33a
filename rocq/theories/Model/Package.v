(** Packaging merged rows into batches: [PackageStream] in src/query/stream/package.rs.
    Definitions only.

    Simplification: the upstream merge is the list of results its successive polls
    give: [Some row], or [None] for [Poll::Pending]; the end of the list is
    [Poll::Ready(None)].  Projecting a row to the requested columns is not modelled. *)
From Coq Require Import List Arith Bool.
Import ListNotations.

Section Package.
  Context {A : Type}.
  Variable keep : A -> bool.      (* the residual predicate on a row; always true if absent *)

  (** The inner loop of [poll_next]: pull rows until [room] of them passed the residual
      filter, the upstream is pending, or it ended (second component).
      src/query/stream/package.rs:131-172 *)
  Fixpoint fill (room : nat) (polls : list (option A)) : list A * bool * list (option A) :=
    match room with
    | O => ([], false, polls)
    | S room' =>
        match polls with
        | [] => ([], true, [])
        | None :: r => ([], false, r)
        | Some a :: r =>
            if keep a then
              let '(b, d, rest) := fill room' r in (a :: b, d, rest)
            else fill room r
        end
    end.

  (** Batch size allowed by the remaining limit: src/query/stream/package.rs:123-129 *)
  Definition effective (batch_size : nat) (limit : option nat) (emitted : nat) : nat :=
    match limit with
    | Some l => Nat.min batch_size (l - emitted)
    | None => batch_size
    end.

  (** [poll_next] called until it returns [Ready(None)]: src/query/stream/package.rs:112-190.
      [None]: out of fuel. *)
  Fixpoint package (fuel batch_size : nat) (limit : option nat) (emitted : nat)
           (polls : list (option A)) : option (list (list A)) :=
    match fuel with
    | O => None
    | S fuel =>
        if match limit with Some l => Nat.leb l emitted | None => false end then Some []
        else
          let '(b, d, rest) := fill (effective batch_size limit emitted) polls in
          match b with
          | [] => if d then Some [] else package fuel batch_size limit emitted rest
          | _ =>
              match package fuel batch_size limit (emitted + length b) rest with
              | Some bs => Some (b :: bs)
              | None => None
              end
          end
    end.

  (** A whole stream. *)
  Definition package_stream (batch_size : nat) (limit : option nat) (polls : list (option A))
    : option (list (list A)) :=
    package (S (length polls)) batch_size limit 0 polls.
End Package.
