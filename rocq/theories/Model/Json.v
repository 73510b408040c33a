(** JSON values and their text, as serde_json writes it, and the canonical form from which
    the fingerprint of a schema is computed: src/mode/mod.rs:111-136.  Definitions only.
    Strings are lists of Unicode scalar values. *)
From Coq Require Import List NArith ZArith Bool Decimal DecimalN.
From Verif Require Import Base.Lex.
Import ListNotations.
Local Open Scope N_scope.

Definition chars := list N.

(** [serde_json::Value].  The numbers of a schema are integers; an object is the list of its
    members in the order in which the map yields them. *)
Inductive json :=
| JNull | JBool (b : bool) | JInt (z : Z) | JStr (s : chars)
| JArr (l : list json) | JObj (l : list (chars * json)).

(** The escapes of serde_json ([format_escaped_str]): quote, backslash and control
    characters; hexadecimal digits in lower case. *)
Definition hex_digit (n : N) : N := if n <? 10 then 48 + n else 87 + n.
Definition escape_char (c : N) : chars :=
  if c =? 34 then [92; 34]
  else if c =? 92 then [92; 92]
  else if c =? 8 then [92; 98]
  else if c =? 9 then [92; 116]
  else if c =? 10 then [92; 110]
  else if c =? 12 then [92; 102]
  else if c =? 13 then [92; 114]
  else if c <? 32 then [92; 117; 48; 48; hex_digit (c / 16); hex_digit (c mod 16)]
  else [c].
Definition escape (s : chars) : chars := flat_map escape_char s.
Definition quoted (s : chars) : chars := 34 :: escape s ++ [34].

(** Decimal digits ([itoa]). *)
Fixpoint uint_chars (d : uint) : chars :=
  match d with
  | Nil => []
  | D0 d => 48 :: uint_chars d | D1 d => 49 :: uint_chars d | D2 d => 50 :: uint_chars d
  | D3 d => 51 :: uint_chars d | D4 d => 52 :: uint_chars d | D5 d => 53 :: uint_chars d
  | D6 d => 54 :: uint_chars d | D7 d => 55 :: uint_chars d | D8 d => 56 :: uint_chars d
  | D9 d => 57 :: uint_chars d
  end.
Definition int_chars (z : Z) : chars :=
  match z with
  | Z0 => [48]
  | Zpos p => uint_chars (N.to_uint (Npos p))
  | Zneg p => 45 :: uint_chars (N.to_uint (Npos p))
  end.

(** [serde_json::to_vec]: no white space.  [null], [true], [false]; members and elements are
    separated by commas. *)
Fixpoint text (v : json) : chars :=
  match v with
  | JNull => [110; 117; 108; 108]
  | JBool true => [116; 114; 117; 101]
  | JBool false => [102; 97; 108; 115; 101]
  | JInt z => int_chars z
  | JStr s => quoted s
  | JArr l =>
      91 :: (fix items (first : bool) (l : list json) : chars :=
               match l with
               | [] => [93]
               | x :: r => (if first then [] else [44]) ++ text x ++ items false r
               end) true l
  | JObj l =>
      123 :: (fix members (first : bool) (l : list (chars * json)) : chars :=
                match l with
                | [] => [125]
                | (k, x) :: r => (if first then [] else [44]) ++ quoted k ++ 58 :: text x ++ members false r
                end) true l
  end.

(** [sort_by(|a, b| a.0.cmp(&b.0))] on the members of an object: stable, by the bytes of the
    names, which order like their scalar values. *)
Fixpoint insert_member (m : chars * json) (l : list (chars * json)) : list (chars * json) :=
  match l with
  | [] => [m]
  | p :: r => match lexN (fst m) (fst p) with Gt => p :: insert_member m r | _ => m :: l end
  end.
Definition sort_members (l : list (chars * json)) : list (chars * json) := fold_right insert_member [] l.

(** [canonicalize_json]: src/mode/mod.rs:122-136.  The code sorts and then treats the values;
    the order of the two does not matter. *)
Fixpoint canon (v : json) : json :=
  match v with
  | JArr l => JArr (map canon l)
  | JObj l => JObj (sort_members (map (fun p => (fst p, canon (snd p))) l))
  | _ => v
  end.

(** [fingerprint_schema]: src/mode/mod.rs:111-120, from the JSON of the schema; [sha] stands
    for SHA-256 in hexadecimal. *)
Definition fingerprint (sha : chars -> chars) (schema : json) : chars := sha (text (canon schema)).
