(** Which keys the ordering theorems are about. *)
From Coq Require Import List NArith ZArith Bool.
From Verif Require Import Spec.Ieee Model.Float Model.Key.
Import ListNotations.

(** A cell of a type the key extractor can read, and no NaN.  The extractor reads
    [Boolean], 32- and 64-bit integers and floats, [Utf8] and [Binary]
    (src/extractor/extractors.rs:212-270). *)
Definition cell_ok (c : cell) : bool :=
  match c with
  | CI8 _ | CI16 _ | CU8 _ | CU16 _ => false
  | CF32 b => negb (f32_nan b)
  | CF64 b => negb (f64_nan b)
  | _ => true
  end.
Definition key_ok (k : key) : bool := forallb cell_ok k.

(** The bit patterns fit their type. *)
Definition cell_fits (c : cell) : bool :=
  match c with CF32 b => N.ltb b (2 ^ 32) | CF64 b => N.ltb b (2 ^ 64) | _ => true end.

(** The cell is not the negative zero of its type. *)
Definition no_neg_zero (c : cell) : bool :=
  match c with CF32 b => negb (N.eqb b (2 ^ 31)) | CF64 b => negb (N.eqb b (2 ^ 63)) | _ => true end.
