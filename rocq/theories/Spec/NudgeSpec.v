(** What is expected of the background worker while files are flushed. *)
From Coq Require Import List NArith Arith.
From Verif Require Import Model.Worker Model.WorkerSteps.

Section Nudge.
  Context {K E : Type}.
  (** No merge fails and no flush is dropped between its publication and its trigger. *)
  Definition smooth (e : wevent E) : Prop :=
    match e with ERun p => p_outs p <> None | EDrop => False | _ => True end.
  (** The worker waits, no trigger is on its way, and no flush is about to send one. *)
  Definition idle (s : wsys K E) : Prop :=
    s_phase s = Waiting /\ w_kicks (s_worker s) = 0 /\ s_owed s = 0.
  (** Something the worker does itself. *)
  Definition own (e : wevent E) : Prop :=
    match e with EWake | EPlan | ETake | ERun _ | EDone => True | _ => False end.
End Nudge.
