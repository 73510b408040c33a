(** The meaning of a predicate for a row: SQL's three-valued logic over exact numbers,
    strings by code points and byte strings. *)
From Coq Require Import List NArith ZArith QArith Bool.
From Verif Require Import Base.Lex Spec.Ieee Spec.Tri Model.Key Model.Expr.
Import ListNotations.

Inductive sqlv := QBool (b : bool) | QNum (x : fval) | QStr (s : list N) | QBin (s : list N).

Definition cell_sql (c : cell) : sqlv :=
  match c with
  | CBool b => QBool b
  | CI8 z | CI16 z | CI32 z | CI64 z => QNum (FNum (inject_Z z))
  | CU8 n | CU16 n | CU32 n | CU64 n => QNum (FNum (inject_Z (Z.of_N n)))
  | CF32 b => QNum (f32_value b)
  | CF64 b => QNum (f64_value b)
  | CStr s => QStr s
  | CBin s => QBin s
  end.

(** [None] is a null literal. *)
Definition lit_sql (v : scalar) : option sqlv :=
  match s_val v with
  | None => None
  | Some (VBool b) => Some (QBool b)
  | Some (VInt z) => Some (QNum (FNum (inject_Z z)))
  | Some (VFloat b) => Some (QNum (match s_type v with TF32 => f32_value b | _ => f64_value b end))
  | Some (VStr s) => Some (QStr s)
  | Some (VBin s) => Some (QBin s)
  end.

(** [None]: not comparable. *)
Definition sql_cmp (a b : sqlv) : option comparison :=
  match a, b with
  | QBool x, QBool y => Some (match x, y with false, true => Lt | true, false => Gt | _, _ => Eq end)
  | QNum x, QNum y => fval_cmp x y
  | QStr x, QStr y => Some (lexN x y)
  | QBin x, QBin y => Some (lexN x y)
  | _, _ => None
  end.

Definition holds (op : cmpop) (c : comparison) : bool :=
  match op, c with
  | OpEq, Eq => true
  | OpNe, (Lt | Gt) => true
  | OpLt, Lt => true
  | OpLe, (Lt | Eq) => true
  | OpGt, Gt => true
  | OpGe, (Gt | Eq) => true
  | _, _ => false
  end.

Section Sql.
  Variable s : schema.
  Variable r : cells.

  (** The value of a column; [None] is null. *)
  Definition column (c : N) : option sqlv :=
    match col_index s c with
    | Some i => match nth_error r i with Some (Some x) => Some (cell_sql x) | _ => None end
    | None => None
    end.

  Definition sql_compare (c : N) (op : cmpop) (v : scalar) : tri :=
    match column c, lit_sql v with
    | Some a, Some b => match sql_cmp a b with Some o => tri_of (holds op o) | None => TU end
    | _, _ => TU
    end.

  Fixpoint sql (e : expr) : tri :=
    match e with
    | ETrue => TT
    | EFalse => TF
    | ECmp c op v => sql_compare c op v
    | EBetween c lo hi incl => tri_and (sql_compare c (if incl then OpGe else OpGt) lo)
                                       (sql_compare c (if incl then OpLe else OpLt) hi)
    | EIn c vs => match column c with
                  | None => TU
                  | Some _ => fold_right tri_or TF (map (sql_compare c OpEq) vs)
                  end
    | EStarts c p => match column c with
                     | Some (QStr x) => tri_of (if list_eq_dec N.eq_dec (firstn (length p) x) p then true else false)
                     | _ => TU
                     end
    | EIsNull c negated => tri_of (xorb negated (match column c with None => true | Some _ => false end))
    | EBloom _ => TU
    | EAnd l => fold_right tri_and TT (map sql l)
    | EOr l => fold_right tri_or TF (map sql l)
    | ENot x => tri_not (sql x)
    end.
End Sql.
