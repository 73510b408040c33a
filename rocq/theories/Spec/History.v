(** What reads must return, in terms of the history of acknowledged writes: a list of
    commits, each with its commit timestamp and its mutations in order.  This file does
    not mention the model. *)
From Coq Require Import List NArith Bool Sorted.
From Verif Require Import Base.Order Spec.Mvcc.
Import ListNotations.

Section History.
  Context {K : Type} {KO : KeyOrd K} {R : Type}.
  Variable key_of : R -> option K.

  (** One change of one key. *)
  Inductive mut := Put (r : R) | Del (k : K).

  Definition mut_key (m : mut) : option K := match m with Put r => key_of r | Del k => Some k end.
  Definition mut_row (m : mut) : option R := match m with Put r => Some r | Del _ => None end.

  (** The contents of the table: for each key the current row and the timestamp of the
      commit that wrote it. *)
  Definition table := K -> option (N * R).
  Definition empty_table : table := fun _ => None.
  Definition update (k : K) (v : option (N * R)) (m : table) : table :=
    fun k' => if keqb k k' then v else m k'.

  Definition apply_mut (ts : N) (m : table) (u : mut) : table :=
    match u with
    | Put r => match key_of r with Some k => update k (Some (ts, r)) m | None => m end
    | Del k => update k None m
    end.

  Definition hcommit := (N * list mut)%type.
  Definition apply_commit (m : table) (c : hcommit) : table := fold_left (apply_mut (fst c)) (snd c) m.

  (** The table after all commits, and after the commits with timestamp [<= ts]. *)
  Definition final (h : list hcommit) : table := fold_left apply_commit h empty_table.
  Definition as_of (h : list hcommit) (ts : N) : table :=
    final (filter (fun c => N.leb (fst c) ts) h).

  (** The commit changes key [k]. *)
  Definition writes_key (k : K) (c : hcommit) : Prop :=
    exists m k', In m (snd c) /\ mut_key m = Some k' /\ kcmp k' k = Eq.

  (** [out] is the list of the rows of [m], in ascending key order, each with its key and
      commit timestamp, that satisfy [p]. *)
  Definition lists_table (m : table) (p : R -> bool) (out : list ((K * N) * R)) : Prop :=
    ascending (fun e => fst (fst e)) out /\
    forall k t r, In ((k, t), r) out <-> m k = Some (t, r) /\ key_of r = Some k /\ p r = true.
End History.
Arguments mut K R : clear implicits.
Arguments table K R : clear implicits.
Arguments hcommit K R : clear implicits.
