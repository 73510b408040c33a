(** Words of the statements about automatic flushing. *)
From Coq Require Import List NArith Bool.
From Verif Require Import Base.Order Model.Db Spec.History Model.Run Spec.Valid Model.Minor.
Import ListNotations.

Section MinorSpec.
  Context {K : Type} {KO : KeyOrd K} {R : Type}.
  Variable key_of : R -> option K.
  Variable row_bytes : R -> nat.
  Variable del_bytes : K -> nat.

  (** The conditions of [Spec.Valid] on each write, in the state it is made in. *)
  Fixpoint calls_ok (mi : minor) (s : state K R) (cs : list (acall K R)) : Prop :=
    match cs with
    | [] => True
    | c :: r => op_ok key_of s (bare c) /\ calls_ok mi (fst (acall_step key_of row_bytes del_bytes mi s c)) r
    end.

  (** An ingest with rows or without, an ingest with delete flags and rows; it was not told to
      stall. *)
  Definition ingests (c : acall K R) : Prop :=
    match c with
    | AIngest _ _ _ stalled => stalled = false
    | ATomb rows _ _ stalled => rows <> [] /\ stalled = false
    | ACommit _ _ _ => False
    end.
End MinorSpec.

(** Every call has ended. *)
Definition all_ended (s : minors) : Prop := Forall (fun p => exists r, p = MEnd r) (mc_calls s).

(** No file operation fails, no call is given up, nothing is sealed by a commit. *)
Definition smooth (e : mevent) : Prop :=
  match e with MGo _ false | MDrop _ | MSealCommit => False | _ => True end.

(** How many segments are sealed. *)
Definition seals (es : list mevent) : nat :=
  length (filter (fun e => match e with MSealCall | MSealCommit => true | _ => false end) es).
(** Not a step of call [i]. *)
Definition of_others (i : nat) (e : mevent) : Prop := e <> MDrop i /\ forall ok, e <> MGo i ok.
