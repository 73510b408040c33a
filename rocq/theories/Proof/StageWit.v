(** Staging calls used as witnesses. *)
From Coq Require Import List Bool Arith String Lia.
From Verif Require Import Model.Stage Spec.StageSpec.
Import ListNotations.
Local Open Scope string_scope.

(** A table of people: a key of type Int32 and a name. *)
Definition people : table := mkTab [mkCol "id" TInt32 false; mkCol "name" TUtf8 true] [0].
Definition person (i n : nat) : @row nat := [Some (CI32, i); Some (CStr, n)].
Definition nobody : @row nat := [None; Some (CStr, 9)].
Definition anon (i : nat) : @row nat := [Some (CI32, i); None].
Definition id (i : nat) : @row nat := [Some (CI32, i)].
(** [5i64] *)
Definition wide : @row nat := [Some (CI64, 5)].
Notation all := (stage_all Nat.eqb people).

Lemma people_rows : valid people (person 1 7) /\ valid people (anon 2) /\ ~ valid people nobody /\
  complete people (id 3) /\ typed people (id 3) /\ complete people wide /\ ~ typed people wide.
Proof.
  repeat split; try (repeat constructor; fail).
  - intros i [<-|[]]. discriminate.
  - intros i [<-|[]]. discriminate.
  - intros [H _]. inversion H as [|? ? ? ? F]. discriminate F.
  - intros [F|[]]. discriminate.
  - constructor; [|constructor]. exists (mkCol "id" TInt32 false), (CI32, 3). repeat split.
  - intros [F|[]]. discriminate.
  - intros H. inversion H as [|? ? ? ? (c & v & H1 & H2 & H3)]; subst. simpl in H1. injection H1 as <-. injection H2 as <-. discriminate H3.
Qed.

Definition some_calls : list (@scall nat) :=
  [SUpsert (person 1 7); SRows [person 2 8; nobody; person 4 8]; SDelete (id 3);
   SBatch (t_cols people) [anon 1; person 5 1]; SDelete (id 2); SDelete []].
Lemma some_calls_ok : Forall real some_calls /\
  (forall k, In (SDelete k) some_calls -> complete people k -> typed people k) /\
  payload people (all some_calls) = Some ([anon 1; person 5 1], [id 2; id 3]).
Proof.
  split; [repeat constructor|]. split; [|reflexivity].
  assert (T : forall i, typed people (id i)).
  { intros i. constructor; [|constructor]. exists (mkCol "id" TInt32 false), (CI32, i). repeat split. }
  intros k H [C _]. simpl in H. repeat destruct H as [H|H]; try discriminate H; try (injection H as <-; try apply T; discriminate C). destruct H.
Qed.

(** The second of three rows is refused; the first is staged and written. *)
Lemma half_staged : exists rs : list (@row nat),
  snd (stage Nat.eqb people (SRows rs) []) = Some RowEncoding /\ hd [] rs = person 2 8 /\
  payload people (all [SRows rs]) = Some ([person 2 8], []).
Proof. exists [person 2 8; nobody; person 4 8]. repeat split. Qed.

(** A key of another integer type is staged and makes the commit fail. *)
Lemma wide_delete :
  snd (stage Nat.eqb people (SUpsert (person 1 7)) []) = None /\
  snd (stage Nat.eqb people (SDelete wide) (all [SUpsert (person 1 7)])) = None /\
  payload people (all [SUpsert (person 1 7); SDelete wide]) = None.
Proof. repeat split. Qed.

(** A table with a column of a type that [upsert_batch] cannot read, as Int16. *)
Definition shorts : table := mkTab [mkCol "id" TInt32 false; mkCol "n" (TOther 16) true] [0].
Definition short (i n : nat) : @row nat := [Some (CI32, i); Some (COther 16, n)].
Lemma shorts_refused : valid shorts (anon 1) /\ valid shorts (short 2 3) /\
  snd (stage Nat.eqb shorts (SRows [anon 1; short 2 3]) []) = None /\
  snd (stage Nat.eqb shorts (SBatch (t_cols shorts) [anon 1; short 2 3]) []) = Some KeyExtract /\
  payload shorts (stage_all Nat.eqb shorts [SBatch (t_cols shorts) [anon 1; short 2 3]]) = Some ([anon 1], []).
Proof.
  repeat split; try (repeat constructor; fail).
  - intros i [<-|[]]. discriminate.
  - intros i [<-|[]]. discriminate.
Qed.
Lemma people_plain : plain people /\ Forall (Forall2 holds (t_cols people)) [person 1 7; anon 2].
Proof.
  split; [|repeat constructor]. intros c [<-|[<-|[]]]; simpl; (split; [discriminate|split; [discriminate|tauto]]).
Qed.
