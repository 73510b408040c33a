(** IEEE 754 binary interchange formats: the number a bit pattern stands for. *)
From Coq Require Import NArith ZArith QArith Bool.

(** Not a number; an infinity (negative?); a finite number. *)
Inductive fval := FNan | FInf (neg : bool) | FNum (q : Q).

(** The value of a bit pattern with [mb] fraction bits and [eb] exponent bits. *)
Definition ieee (mb eb b : N) : fval :=
  let neg := N.testbit b (mb + eb) in
  let e := ((b / 2 ^ mb) mod 2 ^ eb)%N in
  let f := (b mod 2 ^ mb)%N in
  let bias := (2 ^ (Z.of_N eb - 1) - 1)%Z in
  if (e =? 2 ^ eb - 1)%N then (if (f =? 0)%N then FInf neg else FNan)
  else
    let m := Z.of_N (if (e =? 0)%N then f else f + 2 ^ mb)%N in
    let x := ((if (e =? 0)%N then 1 else Z.of_N e) - bias - Z.of_N mb)%Z in
    FNum (inject_Z (if neg then - m else m) * (2 # 1) ^ x).

Definition f32_value (b : N) : fval := ieee 23 8 b.
Definition f64_value (b : N) : fval := ieee 52 11 b.

(** The order of the extended real numbers; a NaN is unordered. *)
Definition fval_cmp (x y : fval) : option comparison :=
  match x, y with
  | FNan, _ | _, FNan => None
  | FInf true, FInf true => Some Eq
  | FInf true, _ => Some Lt
  | FInf false, FInf false => Some Eq
  | FInf false, _ => Some Gt
  | FNum _, FInf true => Some Gt
  | FNum _, FInf false => Some Lt
  | FNum p, FNum q => Some (Qcompare p q)
  end.
