(** What a scan that asks for some columns should return. *)
From Coq Require Import List NArith Bool.
From Verif Require Import Model.Key Model.Expr.
Import ListNotations.

(** The cell of a row of a table with the columns [s] in the column named [c]. *)
Fixpoint cell_in (s : schema) (row : cells) (c : N) : option cell :=
  match s, row with
  | (n, _) :: s', x :: row' => if N.eqb n c then x else cell_in s' row' c
  | _, _ => None
  end.
(** The requested columns of a row, in the requested order. *)
Definition requested (s proj : schema) (row : cells) : cells := map (fun f => cell_in s row (fst f)) proj.

(** Column names are distinct, and none is reserved. *)
Definition table_schema (reserved : N) (s : schema) : Prop := NoDup (map fst s) /\ ~ In reserved (map fst s).
