(** Literals, predicates and rows.  Definitions only. *)
From Coq Require Import List NArith ZArith Bool.
From Verif Require Import Model.Key.
Import ListNotations.

(** The Arrow data types of the modelled cells; [TNull] is the type of [ScalarValue::Null]. *)
Inductive dtype :=
| TNull | TBool | TI8 | TI16 | TI32 | TI64 | TU8 | TU16 | TU32 | TU64 | TF32 | TF64
| TUtf8 | TLargeUtf8 | TUtf8View | TBinary | TLargeBinary | TBinaryView | TFixed (width : N).

Definition dtype_eqb (a b : dtype) : bool :=
  match a, b with
  | TNull, TNull | TBool, TBool | TI8, TI8 | TI16, TI16 | TI32, TI32 | TI64, TI64
  | TU8, TU8 | TU16, TU16 | TU32, TU32 | TU64, TU64 | TF32, TF32 | TF64, TF64
  | TUtf8, TUtf8 | TLargeUtf8, TLargeUtf8 | TUtf8View, TUtf8View
  | TBinary, TBinary | TLargeBinary, TLargeBinary | TBinaryView, TBinaryView => true
  | TFixed x, TFixed y => N.eqb x y
  | _, _ => false
  end.

(** The payload of a non-null literal: floats are bit patterns of the literal's width. *)
Inductive value := VBool (b : bool) | VInt (z : Z) | VFloat (bits : N) | VStr (chars : list N) | VBin (bytes : list N).

(** [ScalarValue] of datafusion-common, restricted to the types above: the variant and
    the [Option] inside it.  [ScalarValue::Null] is [mkSc TNull None]. *)
Record scalar := mkSc { s_type : dtype; s_val : option value }.

(** [aisle::CmpOp] *)
Inductive cmpop := OpEq | OpNe | OpLt | OpLe | OpGt | OpGe.

(** [aisle::Expr].  A column is named by a number.  [EBloom] stands for
    [BloomFilterEq] and [BloomFilterInList]. *)
Inductive expr :=
| ETrue
| EFalse
| ECmp (c : N) (op : cmpop) (v : scalar)
| EBetween (c : N) (low high : scalar) (incl : bool)
| EIn (c : N) (vs : list scalar)
| EStarts (c : N) (prefix : list N)
| EIsNull (c : N) (negated : bool)
| EBloom (c : N)
| EAnd (l : list expr)
| EOr (l : list expr)
| ENot (e : expr).

(** A schema: names and types of the columns.  A row: one cell per column, [None] null. *)
Definition schema := list (N * dtype).
Definition cells := list (option cell).

(** The position of a column (column names are distinct). *)
Fixpoint col_index (s : schema) (c : N) : option nat :=
  match s with
  | [] => None
  | (n, _) :: r => if N.eqb n c then Some 0 else option_map S (col_index r c)
  end.
(** [column_type]: src/ondisk/sstable.rs:1533-1542 *)
Definition col_type (s : schema) (c : N) : option dtype :=
  match col_index s c with Some i => option_map snd (nth_error s i) | None => None end.
