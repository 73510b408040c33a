(** Properties of the staging calls of a transaction: C82. *)
From Coq Require Import List Bool Arith.
From Verif Require Import Model.Stage Spec.StageSpec Proof.StageFacts Proof.StageWit.
Import ListNotations.

(** *** C82: a transaction stages what it can commit.
    An upsert is accepted exactly if the row is a row of the table; a delete exactly if the
    key has all its components; one that is refused changes nothing. *)
Theorem C82_upsert :
  forall (V : Type) (V_eqb : V -> V -> bool) (t : table) (r : row) s,
    snd (upsert V_eqb t r s) = None <-> valid t r.
Proof. exact @upsert_accepts. Qed.
Print Assumptions C82_upsert.

Theorem C82_rows :
  forall (V : Type) (V_eqb : V -> V -> bool) (t : table) rs s,
    snd (stage V_eqb t (SRows rs) s) = None <-> Forall (valid t) rs.
Proof. exact @rows_accepts. Qed.
Print Assumptions C82_rows.

Theorem C82_delete :
  forall (V : Type) (V_eqb : V -> V -> bool) (t : table) (k : row) s,
    snd (delete V_eqb t k s) = None <-> complete t k.
Proof. exact @delete_accepts. Qed.
Print Assumptions C82_delete.

Theorem C82_refused_partial :
  forall (V : Type) (V_eqb : V -> V -> bool) (t : table) c s,
    match c with SUpsert _ | SDelete _ => True | _ => False end ->
    snd (stage V_eqb t c s) <> None -> fst (stage V_eqb t c s) = s.
Proof. exact @refused_unchanged. Qed.
Print Assumptions C82_refused_partial.

Example C82_upsert_applies : valid people (person 1 7) /\ valid people (anon 2) /\ ~ valid people nobody /\
  complete people (id 3) /\ typed people (id 3) /\ complete people wide /\ ~ typed people wide.
Proof. exact people_rows. Qed.

(** A call with several rows stages all of them, or fails and stages the first few; after it
    each key has the last of its staged mutations. *)
Theorem C82_staged :
  forall (V : Type) (V_eqb : V -> V -> bool), (forall a b, V_eqb a b = true <-> a = b) ->
  forall (t : table) c s, real c ->
    exists l ok, stages t c l ok /\ (ok = true <-> snd (stage V_eqb t c s) = None) /\
      forall k m, last_of t l k m ->
        get V_eqb (fst (stage V_eqb t c s)) k = match m with Some x => Some x | None => get V_eqb s k end.
Proof. exact @call_stages. Qed.
Print Assumptions C82_staged.

(** Whatever calls are made and whichever fail, the commit can write what is staged, if the
    deletes were given keys of the types of the key columns. *)
Theorem C82_commits_partial :
  forall (V : Type) (V_eqb : V -> V -> bool), (forall a b, V_eqb a b = true <-> a = b) ->
  forall (t : table) cs, Forall real cs ->
    (forall k, In (SDelete k) cs -> complete t k -> typed t k) ->
    exists ups dels, payload t (stage_all V_eqb t cs) = Some (ups, dels) /\
      (forall r, In r ups <-> exists k, get V_eqb (stage_all V_eqb t cs) k = Some (Some r)) /\
      (forall k, In k dels <-> get V_eqb (stage_all V_eqb t cs) k = Some None).
Proof. exact @commits. Qed.
Print Assumptions C82_commits_partial.

Example C82_commits_applies : Forall real some_calls /\
  (forall k, In (SDelete k) some_calls -> complete people k -> typed people k) /\
  payload people (stage_all Nat.eqb people some_calls) = Some ([anon 1; person 5 1], [id 2; id 3]).
Proof. exact some_calls_ok. Qed.

(** A delete with a key of another type is accepted, and the commit fails because of it. *)
Theorem C82_delete_refuted :
  snd (stage Nat.eqb people (SUpsert (person 1 7)) []) = None /\
  snd (stage Nat.eqb people (SDelete wide) (stage_all Nat.eqb people [SUpsert (person 1 7)])) = None /\
  payload people (stage_all Nat.eqb people [SUpsert (person 1 7); SDelete wide]) = None.
Proof. exact wide_delete. Qed.
Print Assumptions C82_delete_refuted.

(** A call with several rows that fails has staged some of them, and the commit writes them. *)
Theorem C82_half_refuted : exists rs : list (@row nat),
  snd (stage Nat.eqb people (SRows rs) []) = Some RowEncoding /\ hd [] rs = person 2 8 /\
  payload people (stage_all Nat.eqb people [SRows rs]) = Some ([person 2 8], []).
Proof. exact half_staged. Qed.
Print Assumptions C82_half_refuted.

(** A batch does what its rows would, for columns of nine types and ordinary names. *)
Theorem C82_batch_partial :
  forall (V : Type) (V_eqb : V -> V -> bool) (t : table) rs s,
    plain t -> Forall (Forall2 holds (t_cols t)) rs ->
    stage V_eqb t (SBatch (t_cols t) rs) s = stage V_eqb t (SRows rs) s.
Proof. exact @batch_as_rows. Qed.
Print Assumptions C82_batch_partial.

Example C82_batch_applies : plain people /\ Forall (Forall2 holds (t_cols people)) [person 1 7; anon 2].
Proof. exact people_plain. Qed.

(** In a table with a column of another type a batch of valid rows is refused, half of it
    staged, although the same rows are accepted one by one. *)
Theorem C82_batch_refuted : valid shorts (anon 1) /\ valid shorts (short 2 3) /\
  snd (stage Nat.eqb shorts (SRows [anon 1; short 2 3]) []) = None /\
  snd (stage Nat.eqb shorts (SBatch (t_cols shorts) [anon 1; short 2 3]) []) = Some KeyExtract /\
  payload shorts (stage_all Nat.eqb shorts [SBatch (t_cols shorts) [anon 1; short 2 3]]) = Some ([anon 1], []).
Proof. exact shorts_refused. Qed.
Print Assumptions C82_batch_refuted.
