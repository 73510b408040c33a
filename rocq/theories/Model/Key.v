(** Primary keys: src/key/row.rs, src/key/owned.rs.  Definitions only. *)
From Coq Require Import List NArith ZArith Bool.
From Verif Require Import Base.Lex Spec.Ieee Model.Float Model.Utf8.
Import ListNotations.

(** A non-null cell, [DynCell] and [DynCellRaw] of typed-arrow-dyn.  Strings are lists of
    Unicode scalar values, floats are bit patterns.  Structs, lists, maps and the
    calendar types are left out: the extractor accepts no key column of these types
    (src/extractor/extractors.rs:140-160).  It accepts unions, which are in [Model.UnionKey]. *)
Inductive cell :=
| CBool (b : bool)
| CI8 (z : Z) | CI16 (z : Z) | CI32 (z : Z) | CI64 (z : Z)
| CU8 (n : N) | CU16 (n : N) | CU32 (n : N) | CU64 (n : N)
| CF32 (bits : N) | CF64 (bits : N)
| CStr (chars : list N) | CBin (bytes : list N).

(** The components of a key; [KeyRow::from_dyn] rejects nulls: src/key/row.rs:38-45 *)
Definition key := list cell.

(** [cell_tag]: src/key/row.rs:372-389 *)
Definition cell_tag (c : cell) : N :=
  match c with
  | CStr _ => 0 | CBin _ => 1 | CU64 _ => 2 | CU32 _ => 3 | CI64 _ => 4 | CI32 _ => 5
  | CF64 _ => 6 | CF32 _ => 7 | CBool _ => 8
  | CI8 _ | CI16 _ => 5
  | CU8 _ | CU16 _ => 3
  end%N.

(** [bool::cmp] *)
Definition bool_cmp (a b : bool) : comparison :=
  match a, b with false, true => Lt | true, false => Gt | _, _ => Eq end.

(** [floats_cmp_f32], [floats_cmp_f64]: src/key/row.rs:325-331 *)
Definition or_equal (o : option comparison) : comparison := match o with Some c => c | None => Eq end.

(** [floats_equal_f32], [floats_equal_f64]: src/key/row.rs:317-323 *)
Definition is_eq (o : option comparison) : bool := match o with Some Eq => true | _ => false end.
Definition floats_equal_f32 (a b : N) : bool := (f32_nan a && f32_nan b) || is_eq (f32_cmp a b).
Definition floats_equal_f64 (a b : N) : bool := (f64_nan a && f64_nan b) || is_eq (f64_cmp a b).

(** [slice == slice] *)
Fixpoint bytes_eqb (a b : list N) : bool :=
  match a, b with
  | [], [] => true
  | x :: a', y :: b' => N.eqb x y && bytes_eqb a' b'
  | _, _ => false
  end.

(** [dyn_cells_equal]: src/key/row.rs:198-235 *)
Definition cells_equal (a b : cell) : bool :=
  match a, b with
  | CBool x, CBool y => Bool.eqb x y
  | CI32 x, CI32 y | CI64 x, CI64 y => Z.eqb x y
  | CU32 x, CU32 y | CU64 x, CU64 y => N.eqb x y
  | CF32 x, CF32 y => floats_equal_f32 x y
  | CF64 x, CF64 y => floats_equal_f64 x y
  | CStr x, CStr y => bytes_eqb (utf8 x) (utf8 y)
  | CBin x, CBin y => bytes_eqb x y
  | _, _ => false
  end.

(** [dyn_cells_cmp]: src/key/row.rs:237-272 *)
Definition cells_cmp (a b : cell) : comparison :=
  match a, b with
  | CBool x, CBool y => bool_cmp x y
  | CI32 x, CI32 y | CI64 x, CI64 y => Z.compare x y
  | CU32 x, CU32 y | CU64 x, CU64 y => N.compare x y
  | CF32 x, CF32 y => or_equal (f32_cmp x y)
  | CF64 x, CF64 y => or_equal (f64_cmp x y)
  | CStr x, CStr y => lexN (utf8 x) (utf8 y)
  | CBin x, CBin y => lexN x y
  | _, _ => N.compare (cell_tag a) (cell_tag b)
  end.

(** What is fed to the hasher, one token per call: integers with their width in bytes,
    and byte strings. *)
Inductive token := TokInt (width : N) (z : Z) | TokBytes (b : list N).

(** [dyn_cells_hash], [hash_float_*], [hash_bytes]: src/key/row.rs:274-297, 333-347, 366-370 *)
Definition cell_hash (c : cell) : list token :=
  TokInt 1 (Z.of_N (cell_tag c)) ::
  match c with
  | CBool b => [TokInt 1 (if b then 1 else 0)]
  | CI32 z => [TokInt 4 z]
  | CI64 z => [TokInt 8 z]
  | CU32 n => [TokInt 4 (Z.of_N n)]
  | CU64 n => [TokInt 8 (Z.of_N n)]
  | CF32 b => if f32_nan b then [TokInt 1 255] else [TokInt 4 (Z.of_N b)]
  | CF64 b => if f64_nan b then [TokInt 1 255] else [TokInt 8 (Z.of_N b)]
  | CStr s => [TokInt 8 (Z.of_nat (length (utf8 s))); TokBytes (utf8 s)]
  | CBin s => [TokInt 8 (Z.of_nat (length s)); TokBytes s]
  | _ => []
  end.

(** [dyn_rows_equal]: src/key/row.rs:154-165 *)
Fixpoint keys_equal (a b : key) : bool :=
  match a, b with
  | [], [] => true
  | x :: a', y :: b' => cells_equal x y && keys_equal a' b'
  | _, _ => false
  end.

(** [dyn_rows_cmp]: src/key/row.rs:167-182; no component is null *)
Definition keys_cmp : key -> key -> comparison := lex cells_cmp.

(** [dyn_rows_hash]: src/key/row.rs:184-188 *)
Definition key_hash (k : key) : list token := flat_map cell_hash k.
