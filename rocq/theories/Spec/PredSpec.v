(** Hypotheses of the theorems about predicates. *)
From Coq Require Import List NArith ZArith Bool.
From Verif Require Import Spec.Ieee Spec.KeySpec Model.Float Model.Utf8 Model.Key Model.Expr.
Import ListNotations.

(** The integers of a type. *)
Definition int_fits (t : dtype) (z : Z) : bool :=
  match t with
  | TI8 => (- 2 ^ 7 <=? z) && (z <? 2 ^ 7)
  | TI16 => (- 2 ^ 15 <=? z) && (z <? 2 ^ 15)
  | TI32 => (- 2 ^ 31 <=? z) && (z <? 2 ^ 31)
  | TI64 => (- 2 ^ 63 <=? z) && (z <? 2 ^ 63)
  | TU8 => (0 <=? z) && (z <? 2 ^ 8)
  | TU16 => (0 <=? z) && (z <? 2 ^ 16)
  | TU32 => (0 <=? z) && (z <? 2 ^ 32)
  | TU64 => (0 <=? z) && (z <? 2 ^ 64)
  | _ => false
  end%Z.

(** A literal Rust can build: its payload belongs to its type. *)
Definition lit_fits (v : scalar) : bool :=
  match s_val v with
  | None => true
  | Some x =>
      match s_type v, x with
      | TBool, VBool _ => true
      | (TI8 | TI16 | TI32 | TI64 | TU8 | TU16 | TU32 | TU64), VInt z => int_fits (s_type v) z
      | TF32, VFloat b => N.ltb b (2 ^ 32)
      | TF64, VFloat b => N.ltb b (2 ^ 64)
      | (TUtf8 | TLargeUtf8 | TUtf8View), VStr s => forallb is_scalar s
      | (TBinary | TLargeBinary | TBinaryView | TFixed _), VBin _ => true
      | _, _ => false
      end
  end.

(** A cell of a column of the given type. *)
Definition cell_fits_type (t : dtype) (c : cell) : bool :=
  match t, c with
  | TBool, CBool _ => true
  | TI8, CI8 z | TI16, CI16 z | TI32, CI32 z | TI64, CI64 z => int_fits t z
  | TU8, CU8 n | TU16, CU16 n | TU32, CU32 n | TU64, CU64 n => int_fits t (Z.of_N n)
  | TF32, CF32 b => N.ltb b (2 ^ 32)
  | TF64, CF64 b => N.ltb b (2 ^ 64)
  | (TUtf8 | TLargeUtf8 | TUtf8View), CStr s => forallb is_scalar s
  | (TBinary | TLargeBinary | TBinaryView | TFixed _), CBin _ => true
  | _, _ => false
  end.

(** Floats are neither NaN nor negative zero: [ScalarValue] orders floats of one type by
    [total_cmp], which differs from the order of the numbers exactly on these. *)
Definition calm32 (b : N) : bool := negb (f32_nan b) && negb (N.eqb b (2 ^ 31)).
Definition calm64 (b : N) : bool := negb (f64_nan b) && negb (N.eqb b (2 ^ 63)).
Definition cell_calm (c : cell) : bool :=
  match c with CF32 b => calm32 b | CF64 b => calm64 b | _ => true end.
Definition lit_calm (v : scalar) : bool :=
  match s_type v, s_val v with
  | TF32, Some (VFloat b) => calm32 b
  | TF64, Some (VFloat b) => calm64 b
  | _, _ => true
  end.

(** A literal of one of the types a stored value is converted to before it is compared:
    not the large and view variants of strings and binaries. *)
Definition lit_plain (v : scalar) : bool :=
  match s_type v with
  | TLargeUtf8 | TUtf8View | TLargeBinary | TBinaryView | TFixed _ => false
  | _ => true
  end.

Definition lit_good (v : scalar) : bool := lit_fits v && lit_calm v && lit_plain v.

(** A row of the schema. *)
Fixpoint row_fits (s : schema) (r : cells) : bool :=
  match s, r with
  | [], [] => true
  | (_, t) :: s', o :: r' =>
      match o with Some c => cell_fits_type t c && cell_calm c | None => true end && row_fits s' r'
  | _, _ => false
  end.

Section Shape.
  Variable s : schema.
  Definition has_col (c : N) : bool := match col_type s c with Some _ => true | None => false end.
  Definition string_col (c : N) : bool :=
    match col_type s c with Some (TUtf8 | TLargeUtf8 | TUtf8View) => true | _ => false end.

  (** The predicate's columns exist, [StartsWith] is applied to strings, the literals are
      good, and there is no bloom filter predicate (scans reject these up front). *)
  Fixpoint expr_good (e : expr) : bool :=
    match e with
    | ETrue | EFalse => true
    | ECmp c _ v => has_col c && lit_good v
    | EBetween c lo hi _ => has_col c && lit_good lo && lit_good hi
    | EIn c vs => has_col c && forallb lit_good vs
    | EStarts c p => string_col c && forallb is_scalar p
    | EIsNull c _ => has_col c
    | EBloom _ => false
    | EAnd l | EOr l => forallb expr_good l
    | ENot x => expr_good x
    end.
End Shape.

(** The literal can be turned into a key of a single key column of type [kt]: types whose
    keys are stored the way literals are converted. *)
Definition key_lit (kt : dtype) (v : scalar) : bool :=
  match kt, s_type v, s_val v with
  | TBool, TBool, Some (VBool _) => true
  | TI64, (TI8 | TI16 | TI32 | TI64), Some (VInt _) => true
  | TU64, (TU8 | TU16 | TU32 | TU64), Some (VInt z) => (0 <=? z)%Z
  | TF64, TF32, Some (VFloat b) => N.ltb b (2 ^ 32) && negb (f32_nan b)
  | TF64, TF64, Some (VFloat b) => negb (f64_nan b)
  | TUtf8, (TUtf8 | TLargeUtf8 | TUtf8View), Some (VStr s) => forallb is_scalar s
  | TBinary, (TBinary | TLargeBinary | TBinaryView | TFixed _), Some (VBin _) => true
  | _, _, _ => false
  end.

(** Every literal compared with column [kc] is such a literal. *)
Fixpoint key_lits (kc : N) (kt : dtype) (e : expr) : bool :=
  match e with
  | ECmp c _ v => negb (N.eqb c kc) || key_lit kt v
  | EBetween c lo hi _ => negb (N.eqb c kc) || (key_lit kt lo && key_lit kt hi)
  | EIn c vs => negb (N.eqb c kc) || forallb (key_lit kt) vs
  | EStarts c p => negb (N.eqb c kc) || forallb is_scalar p
  | EAnd l | EOr l => forallb (key_lits kc kt) l
  | ENot x => key_lits kc kt x
  | _ => true
  end.

(** The predicate mentions only the given columns. *)
Fixpoint only_cols (cs : list N) (e : expr) : bool :=
  match e with
  | ETrue | EFalse => true
  | ECmp c _ _ | EBetween c _ _ _ | EIn c _ | EStarts c _ | EIsNull c _ | EBloom c => existsb (N.eqb c) cs
  | EAnd l | EOr l => forallb (only_cols cs) l
  | ENot x => only_cols cs x
  end.
