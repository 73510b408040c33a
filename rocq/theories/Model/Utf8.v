(** Strings as lists of Unicode scalar values; src/query/scan.rs:608-639.
    Definitions only. *)
From Coq Require Import List NArith Bool.
Import ListNotations.
Local Open Scope N_scope.

(** [char::from_u32(c).is_some()]: a Unicode scalar value. *)
Definition is_scalar (c : N) : bool := (c <? 0xD800) || ((0xDFFF <? c) && (c <? 0x110000)).

(** The bytes of a [char] in a [String] (UTF-8). *)
Definition utf8_char (c : N) : list N :=
  if c <? 0x80 then [c]
  else if c <? 0x800 then [0xC0 + c / 64; 0x80 + c mod 64]
  else if c <? 0x10000 then [0xE0 + c / 4096; 0x80 + (c / 64) mod 64; 0x80 + c mod 64]
  else [0xF0 + c / 262144; 0x80 + (c / 4096) mod 64; 0x80 + (c / 64) mod 64; 0x80 + c mod 64].
Definition utf8 (s : list N) : list N := flat_map utf8_char s.

(** [str::starts_with], [slice::starts_with]: on the bytes. *)
Fixpoint starts_with (s p : list N) {struct p} : bool :=
  match p, s with
  | [], _ => true
  | x :: p', y :: s' => (x =? y) && starts_with s' p'
  | _ :: _, [] => false
  end.

(** The [while] loop of [next_scalar_char]: src/query/scan.rs:632-637.  The gap between
    scalar values has 2048 code points, so the loop ends within the fuel given below. *)
Fixpoint scalar_from (fuel : nat) (n : N) : option N :=
  match fuel with
  | O => None
  | S k => if n <=? 0x10FFFF then (if is_scalar n then Some n else scalar_from k (n + 1)) else None
  end.
(** [next_scalar_char]: src/query/scan.rs:630-639.  [checked_add] cannot fail. *)
Definition next_scalar_char (c : N) : option N := scalar_from 2050 (c + 1).

(** The loop over the characters from the last to the first: src/query/scan.rs:620-626,
    on the reversed prefix. *)
Fixpoint bump_last (rev_prefix : list N) : option (list N) :=
  match rev_prefix with
  | [] => None
  | c :: r => match next_scalar_char c with
              | Some n => Some (rev (n :: r))
              | None => bump_last r
              end
  end.
(** [next_prefix_string]: src/query/scan.rs:615-628; the empty prefix has no successor *)
Definition next_prefix_string (prefix : list N) : option (list N) := bump_last (rev prefix).
