(** What the key declarations of a schema mean, for a reader of the documentation. *)
From Coq Require Import String Ascii List NArith Bool.
From Verif Require Import Model.Json Model.KeyDecl.
Import ListNotations.
Local Open Scope N_scope.

(** The characters of an ASCII string. *)
Definition str (x : string) : chars := List.map N_of_ascii (list_ascii_of_string x).
(** White space in Unicode: tab to carriage return, space, next line, no-break space, ogham
    space, en quad to hair space, line and paragraph separator, narrow no-break space, medium
    mathematical space, ideographic space. *)
Definition white : list N :=
  [9; 10; 11; 12; 13; 32; 133; 160; 5760; 8192; 8193; 8194; 8195; 8196; 8197; 8198; 8199; 8200; 8201; 8202;
   8232; 8233; 8239; 8287; 12288].
(** The words of consent. *)
Definition consent : list chars :=
  [str "true"; str "TRUE"; str "True"; str "yes"; str "YES"; str "Yes"].

(** A field marker, with white space around it: a decimal number below 2^32, perhaps with a
    plus sign, gives the field that place in the key; one of the words of consent makes it a
    key column without a place. *)
Definition decimal (ds : chars) (n : N) : Prop :=
  ds <> [] /\ Forall (fun c => 48 <= c <= 57) ds /\ n = fold_left (fun a c => a * 10 + (c - 48)) ds 0.
Inductive marks_as : chars -> option N -> Prop :=
| as_number a plus ds b n :
    Forall (fun c => In c white) a -> Forall (fun c => In c white) b ->
    plus = [] \/ plus = [43] -> decimal ds n -> n < 2 ^ 32 -> marks_as (a ++ plus ++ ds ++ b) (Some n)
| as_word a w b :
    Forall (fun c => In c white) a -> Forall (fun c => In c white) b ->
    In w consent -> marks_as (a ++ w ++ b) None.

(** Field [i] of the schema is marked, with place [o] if it has one. *)
Definition marked (s : dschema) (i : nat) (o : option N) : Prop :=
  exists f v, nth_error (s_fields s) i = Some f /\ f_mark f = Some v /\ marks_as v o.
(** Field [i] is the first one called [name]. *)
Definition called (s : dschema) (name : chars) (i : nat) : Prop :=
  (exists f, nth_error (s_fields s) i = Some f /\ f_name f = name) /\
  (forall j f, (j < i)%nat -> nth_error (s_fields s) j = Some f -> f_name f <> name).
(** Field [i] has a type that keys may have. *)
Definition supported (s : dschema) (i : nat) : Prop :=
  exists f, nth_error (s_fields s) i = Some f /\ f_supported f = true.

(** A field name without the characters that the list of key names cannot carry: no comma,
    quote, backslash or control character; not empty. *)
Definition plain_char (c : N) : bool := (32 <=? c) && negb (c =? 34) && negb (c =? 44) && negb (c =? 92).
Definition plain (name : chars) : Prop := name <> [] /\ forallb plain_char name = true.
(** The list of key names as JSON, for such names: quoted, separated by commas, in brackets. *)
Fixpoint with_commas (l : list chars) : chars :=
  match l with
  | [] => []
  | [x] => x
  | x :: r => x ++ str "," ++ with_commas r
  end.
Definition names_list (names : list chars) : chars :=
  str "[" ++ with_commas (List.map (fun n => str """" ++ n ++ str """") names) ++ str "]".

(** A name alone: it begins and ends with a character that is neither white space nor a quote. *)
Definition bare (name : chars) : Prop :=
  exists x l y r, name = x :: l /\ name = r ++ [y] /\ ~ In x white /\ ~ In y white /\ x <> 34 /\ y <> 34.
(** A text in brackets: a list. *)
Definition bracketed (t : chars) : Prop := exists inner, t = str "[" ++ inner ++ str "]".
(** A text that names one field: its name, in any number of quotes, with white space around. *)
Definition names_one (t name : chars) : Prop :=
  exists a m n b, t = a ++ (repeat 34 m ++ name ++ repeat 34 n) ++ b /\
    Forall (fun c => In c white) a /\ Forall (fun c => In c white) b /\ bare name /\
    ~ bracketed (repeat 34 m ++ name ++ repeat 34 n).
