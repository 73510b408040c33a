(** What a client of the log observes: the calls it makes, what it is
    told, and what is put in the log, as one list of events in the order in
    which they happen.  Nothing here mentions queues, batches or tasks. *)
From Coq Require Import List.
Import ListNotations.

(** The three things one can ask of the log: write a command, begin a new
    segment, describe the segments. *)
Inductive req : Type := RCmd | RRotate | RSnapshot.

(** The answer to an accepted request: success, the error of the storage, or
    that the log is no longer there. *)
Inductive answer : Type := AOk | AErr | AGone.

Inductive event : Type :=
| EAccept (c : nat) (r : req)      (* call [c] was accepted *)
| ERefuse (c : nat)                (* call [c] was refused at once *)
| EDone (c : nat) (r : req)        (* the request of call [c] took effect *)
| EAnswer (c : nat) (a : answer)   (* call [c] was answered *)
| EClose                           (* no more calls are accepted *)
| EEnd (ok : bool)                 (* the log stopped working; with success? *)
| EShut (ok : bool).               (* a shutdown call returned; with success? *)

Definition trace := list event.

(** Accepted calls, oldest first. *)
Definition accepted (t : trace) : list (nat * req) :=
  flat_map (fun e => match e with EAccept c r => [(c, r)] | _ => [] end) t.

(** Requests that took effect, oldest first. *)
Definition done (t : trace) : list (nat * req) :=
  flat_map (fun e => match e with EDone c r => [(c, r)] | _ => [] end) t.

(** Answers to accepted calls, oldest first. *)
Definition answers (t : trace) : list (nat * answer) :=
  flat_map (fun e => match e with EAnswer c a => [(c, a)] | _ => [] end) t.

(** All calls ever made, oldest first. *)
Definition calls (t : trace) : list nat :=
  flat_map (fun e => match e with
                     | EAccept c _ => [c] | ERefuse c => [c] | _ => [] end) t.

(** Did a given thing happen? *)
Definition ended (t : trace) (ok : bool) : Prop := In (EEnd ok) t.

(** [a] is a beginning of [b]. *)
Definition beginning {A} (a b : list A) : Prop := exists r, b = a ++ r.
