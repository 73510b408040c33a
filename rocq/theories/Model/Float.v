(** Floating-point values as bit patterns.  Definitions only.  The comparisons and the
    conversion are those of the Rust language and of the processor. *)
From Coq Require Import NArith ZArith Bool.
From Verif Require Import Spec.Ieee.
Local Open Scope N_scope.

(** [f32::partial_cmp], [f64::partial_cmp] (IEEE 754 comparison). *)
Definition f32_cmp (a b : N) : option comparison := fval_cmp (f32_value a) (f32_value b).
Definition f64_cmp (a b : N) : option comparison := fval_cmp (f64_value a) (f64_value b).

(** [f32::is_nan], [f64::is_nan]. *)
Definition f32_nan (a : N) : bool := match f32_value a with FNan => true | _ => false end.
Definition f64_nan (a : N) : bool := match f64_value a with FNan => true | _ => false end.

(** [f32::total_cmp], [f64::total_cmp]: the bits as a sign-magnitude integer; [w] is the
    position of the sign bit. *)
Definition total_key (w b : N) : Z :=
  if N.testbit b w then (- Z.of_N (b mod 2 ^ w) - 1)%Z else Z.of_N (b mod 2 ^ w).
Definition f32_total_cmp (a b : N) : comparison := Z.compare (total_key 31 a) (total_key 31 b).
Definition f64_total_cmp (a b : N) : comparison := Z.compare (total_key 63 a) (total_key 63 b).

(** [f64::from(f32)]: exact for numbers and infinities; a NaN stays a NaN. *)
Definition widen (b : N) : N :=
  let s := (b / 2 ^ 31) mod 2 in
  let e := (b / 2 ^ 23) mod 2 ^ 8 in
  let f := b mod 2 ^ 23 in
  let sg := s * 2 ^ 63 in
  if e =? 255 then sg + 2047 * 2 ^ 52 + f * 2 ^ 29
  else if e =? 0 then
    (if f =? 0 then sg
     else let l := N.log2 f in
          sg + (l + 1023 - 149) * 2 ^ 52 + (f - 2 ^ l) * 2 ^ (52 - l))
  else sg + (e + 896) * 2 ^ 52 + f * 2 ^ 29.
