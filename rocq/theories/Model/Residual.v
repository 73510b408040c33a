(** Residual predicate evaluation: src/query/stream/package.rs:241-676.
    Definitions only. *)
From Coq Require Import List NArith ZArith Bool.
From Verif Require Import Base.Lex Spec.Ieee Spec.Tri Model.Float Model.Utf8 Model.Key Model.Expr.
Import ListNotations.

(** [is_float_scalar]: src/query/stream/package.rs:618-623; 16-bit floats are not modelled *)
Definition is_float_scalar (v : scalar) : bool :=
  match s_type v with TF32 | TF64 => true | _ => false end.

(** [scalar_to_i128]: src/query/stream/package.rs:625-637 *)
Definition scalar_to_i128 (v : scalar) : option Z :=
  match s_type v, s_val v with
  | (TI8 | TI16 | TI32 | TI64 | TU8 | TU16 | TU32 | TU64), Some (VInt z) => Some z
  | _, _ => None
  end.

(** [scalar_to_f64]: src/query/stream/package.rs:639-654; only called on float scalars *)
Definition scalar_to_f64 (v : scalar) : option N :=
  match s_type v, s_val v with
  | TF32, Some (VFloat b) => Some (widen b)
  | TF64, Some (VFloat b) => Some b
  | _, _ => None
  end.

(** [i128_abs_to_u128]: src/query/stream/package.rs:593-600 *)
Definition i128_abs_to_u128 (z : Z) : N := (Z.to_N (Z.abs z)) mod 2 ^ 128.

(** [bit_length_u128], [bit_length_u64]: src/query/stream/package.rs:602-616 *)
Definition bit_length (n : N) : Z := Z.of_N (N.size n).

(** [<<] on [u128]: bits shifted out are lost *)
Definition shl128 (n : N) (s : Z) : N := (N.shiftl n (Z.to_N s)) mod 2 ^ 128.

(** [decompose_f64]: src/query/stream/package.rs:581-591 *)
Definition decompose_f64 (b : N) : N * Z :=
  let exp_bits := N.land (N.shiftr b 52) 0x7ff in
  let frac := N.land b 0xfffffffffffff in
  if N.eqb exp_bits 0 then (frac, -1074)%Z
  else (N.lor (N.shiftl 1 52) frac, Z.of_N exp_bits - 1023 - 52)%Z.

(** [compare_u128_f64]: src/query/stream/package.rs:555-579 *)
Definition compare_u128_f64 (int_abs mantissa : N) (exp2 : Z) : comparison :=
  let int_bits := bit_length int_abs in
  let mantissa_bits := bit_length mantissa in
  if (0 <=? exp2)%Z then
    let float_bits := (mantissa_bits + exp2)%Z in
    if (int_bits <? float_bits)%Z then Lt
    else if (float_bits <? int_bits)%Z then Gt
    else N.compare int_abs (shl128 mantissa exp2)
  else
    let shift := (- exp2)%Z in
    let scaled_int_bits := (int_bits + shift)%Z in
    if (mantissa_bits <? scaled_int_bits)%Z then Gt
    else if (scaled_int_bits <? mantissa_bits)%Z then Lt
    else N.compare (shl128 int_abs shift) mantissa.

(** [f64::is_infinite], [f64::is_sign_negative], [f64::abs] and [== 0.0] on the bits *)
Definition f64_inf (b : N) : bool := match f64_value b with FInf _ => true | _ => false end.
Definition f64_neg (b : N) : bool := N.testbit b 63.
Definition f64_abs (b : N) : N := (b mod 2 ^ 63)%N.
Definition f64_zero (b : N) : bool := is_eq (f64_cmp b 0).

(** [compare_i128_f64]: src/query/stream/package.rs:515-553 *)
Definition compare_i128_f64 (int_val : Z) (b : N) : option comparison :=
  if f64_nan b then None
  else if f64_inf b then Some (if f64_neg b then Gt else Lt)
  else if f64_zero b then Some (Z.compare int_val 0)
  else if (int_val =? 0)%Z then Some (if f64_neg b then Gt else Lt)
  else
    let int_neg := (int_val <? 0)%Z in
    if negb (Bool.eqb int_neg (f64_neg b)) then Some (if int_neg then Lt else Gt)
    else
      let int_abs := i128_abs_to_u128 int_val in
      let (mantissa, exp2) := decompose_f64 (f64_abs b) in
      let ordering := compare_u128_f64 int_abs mantissa exp2 in
      Some (if int_neg then CompOpp ordering else ordering).

(** [numeric_compare]: src/query/stream/package.rs:487-512 *)
Definition numeric_compare (lhs rhs : scalar) : option comparison :=
  match is_float_scalar lhs, is_float_scalar rhs with
  | true, true => match scalar_to_f64 lhs, scalar_to_f64 rhs with
                  | Some a, Some b => f64_cmp a b
                  | _, _ => None
                  end
  | false, false => match scalar_to_i128 lhs, scalar_to_i128 rhs with
                    | Some a, Some b => Some (Z.compare a b)
                    | _, _ => None
                    end
  | true, false => match scalar_to_f64 lhs, scalar_to_i128 rhs with
                   | Some a, Some b => option_map CompOpp (compare_i128_f64 b a)
                   | _, _ => None
                   end
  | false, true => match scalar_to_i128 lhs, scalar_to_f64 rhs with
                   | Some a, Some b => compare_i128_f64 a b
                   | _, _ => None
                   end
  end.

(** [ScalarValue::partial_cmp] of datafusion-common for two non-null scalars of one type:
    floats by [total_cmp], strings and binaries by their bytes. *)
Definition scalar_partial_cmp (a b : scalar) : option comparison :=
  match s_val a, s_val b with
  | Some (VBool x), Some (VBool y) => Some (bool_cmp x y)
  | Some (VInt x), Some (VInt y) => Some (Z.compare x y)
  | Some (VFloat x), Some (VFloat y) =>
      Some (match s_type a with TF32 => f32_total_cmp x y | _ => f64_total_cmp x y end)
  | Some (VStr x), Some (VStr y) => Some (lexN (utf8 x) (utf8 y))
  | Some (VBin x), Some (VBin y) => Some (lexN x y)
  | _, _ => None
  end.

(** [compare_scalar_values]: src/query/stream/package.rs:480-485 *)
Definition compare_scalar_values (lhs rhs : scalar) : option comparison :=
  if dtype_eqb (s_type lhs) (s_type rhs) then scalar_partial_cmp lhs rhs else numeric_compare lhs rhs.

(** [convert_owned_cell]: src/query/stream/package.rs:656-676 *)
Definition convert_owned_cell (c : cell) : scalar :=
  match c with
  | CStr s => mkSc TUtf8 (Some (VStr s))
  | CBin b => mkSc TBinary (Some (VBin b))
  | CBool b => mkSc TBool (Some (VBool b))
  | CI8 z => mkSc TI8 (Some (VInt z))
  | CI16 z => mkSc TI16 (Some (VInt z))
  | CI32 z => mkSc TI32 (Some (VInt z))
  | CI64 z => mkSc TI64 (Some (VInt z))
  | CU8 n => mkSc TU8 (Some (VInt (Z.of_N n)))
  | CU16 n => mkSc TU16 (Some (VInt (Z.of_N n)))
  | CU32 n => mkSc TU32 (Some (VInt (Z.of_N n)))
  | CU64 n => mkSc TU64 (Some (VInt (Z.of_N n)))
  | CF32 b => mkSc TF32 (Some (VFloat b))
  | CF64 b => mkSc TF64 (Some (VFloat b))
  end.

(** Errors of the evaluator are [None]. *)
Section Eval.
  Variable sch : schema.
  Variable row : cells.

  (** [resolve_column]: src/query/stream/package.rs:458-477; the inner [None] is null *)
  Definition resolve_column (c : N) : option (option scalar) :=
    match col_index sch c with
    | None => None
    | Some i => match nth_error row i with
                | None => None
                | Some o => Some (option_map convert_owned_cell o)
                end
    end.

  (** The match on the operator: src/query/stream/package.rs:363-370 *)
  Definition cmp_op (op : cmpop) (o : comparison) : bool :=
    match op with
    | OpEq => match o with Eq => true | _ => false end
    | OpNe => match o with Eq => false | _ => true end
    | OpLt => match o with Lt => true | _ => false end
    | OpLe => match o with Gt => false | _ => true end
    | OpGt => match o with Gt => true | _ => false end
    | OpGe => match o with Lt => false | _ => true end
    end.

  (** [evaluate_cmp]: src/query/stream/package.rs:349-372 *)
  Definition evaluate_cmp (c : N) (op : cmpop) (v : scalar) : option tri :=
    match resolve_column c with
    | None => None
    | Some None => Some TU
    | Some (Some lhs) =>
        match s_val v with
        | None => Some TU
        | Some _ => Some (match compare_scalar_values lhs v with
                          | Some o => tri_of (cmp_op op o)
                          | None => TU
                          end)
        end
    end.

  (** [evaluate_between]: src/query/stream/package.rs:374-387 *)
  Definition evaluate_between (c : N) (lo hi : scalar) (incl : bool) : option tri :=
    match evaluate_cmp c (if incl then OpGe else OpGt) lo, evaluate_cmp c (if incl then OpLe else OpLt) hi with
    | Some a, Some b => Some (tri_and a b)
    | _, _ => None
    end.

  (** The loop of [evaluate_in_list]: src/query/stream/package.rs:401-420 *)
  Fixpoint in_list_loop (lhs : scalar) (saw_null : bool) (vs : list scalar) : tri :=
    match vs with
    | [] => if saw_null then TU else TF
    | v :: r =>
        match s_val v with
        | None => in_list_loop lhs true r
        | Some _ => match compare_scalar_values lhs v with
                    | Some Eq => TT
                    | Some _ => in_list_loop lhs saw_null r
                    | None => in_list_loop lhs true r
                    end
        end
    end.
  Definition evaluate_in_list (c : N) (vs : list scalar) : option tri :=
    match resolve_column c with
    | None => None
    | Some None => Some TU
    | Some (Some lhs) => Some (in_list_loop lhs false vs)
    end.

  (** [evaluate_starts_with]: src/query/stream/package.rs:422-443 *)
  Definition evaluate_starts_with (c : N) (prefix : list N) : option tri :=
    match resolve_column c with
    | None => None
    | Some None => Some TU
    | Some (Some v) =>
        match s_val v with
        | Some (VStr s) => Some (tri_of (starts_with (utf8 s) (utf8 prefix)))
        | _ => None
        end
    end.

  (** [evaluate_is_null]: src/query/stream/package.rs:445-456 *)
  Definition evaluate_is_null (c : N) (negated : bool) : option tri :=
    match resolve_column c with
    | None => None
    | Some o => let is_null := match o with None => true | Some _ => false end in
                Some (tri_of (if negated then negb is_null else is_null))
    end.

  (** [evaluate_expr]: src/query/stream/package.rs:301-347 *)
  Fixpoint evaluate (e : expr) : option tri :=
    match e with
    | ETrue => Some TT
    | EFalse => Some TF
    | ECmp c op v => evaluate_cmp c op v
    | EBetween c lo hi incl => evaluate_between c lo hi incl
    | EIn c vs => evaluate_in_list c vs
    | EBloom _ => None
    | EStarts c p => evaluate_starts_with c p
    | EIsNull c negated => evaluate_is_null c negated
    | EAnd l =>
        (fix go (acc : tri) (l : list expr) : option tri :=
           match l with
           | [] => Some acc
           | x :: t => match evaluate x with
                       | None => None
                       | Some o => match tri_and acc o with
                                   | TF => Some TF
                                   | a => go a t
                                   end
                       end
           end) TT l
    | EOr l =>
        (fix go (acc : tri) (l : list expr) : option tri :=
           match l with
           | [] => Some acc
           | x :: t => match evaluate x with
                       | None => None
                       | Some o => match tri_or acc o with
                                   | TT => Some TT
                                   | a => go a t
                                   end
                       end
           end) TF l
    | ENot x => option_map tri_not (evaluate x)
    end.
End Eval.
