(** What a byte limit of a seal policy may be expected to bound. *)
From Coq Require Import List NArith.
From Verif Require Import Model.Utf8 Model.Key Model.MemTable Model.Policy.
Import ListNotations.
Local Open Scope N_scope.

(** The policy has this limit in bytes, by itself or as one of several. *)
Inductive byte_limited (limit : N) : policy -> Prop :=
| bl_one : byte_limited limit (BytesThreshold limit)
| bl_any p ps : In p ps -> byte_limited limit p -> byte_limited limit (AnyOf ps).

(** The sum of a size over a list. *)
Definition sum_of {A} (size : A -> N) (l : list A) : N := fold_right (fun x n => size x + n) 0 l.

(** The bytes of all rows that a memtable keeps, if [size] is the size of a row. *)
Definition held {K R} (size : R -> N) (m : mem K R) : N :=
  sum_of (fun b => match b with Some (rows, _) => sum_of size rows | None => 0 end) (m_batches m).

(** The bytes of the strings and binaries of a key, one after the other. *)
Definition content (k : key) : list N :=
  concat (map (fun c => match c with CStr s => utf8 s | CBin b => b | _ => [] end) k).
