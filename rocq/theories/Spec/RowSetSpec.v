(** What C42 asks of the row sets and ranges it is about. *)
From Coq Require Import List.
From Verif Require Import Model.RowSet.
Import ListNotations.

(** A row set of the crate: its selectors cover the source. *)
Definition rs_ok (r : rowset) : Prop := implied_total (rs_sel r) = rs_total r.
(** Ascending, disjoint ranges inside the source, from row [from] on. *)
Fixpoint ranges_ok (from : nat) (ranges : list (nat * nat)) (total : nat) : Prop :=
  match ranges with
  | [] => from <= total
  | (a, b) :: r => from <= a /\ a <= b /\ ranges_ok b r total
  end.
