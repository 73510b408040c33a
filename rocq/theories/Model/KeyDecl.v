(** How the key columns of a table are found: src/mode/dyn_config.rs, src/schema.rs:40-98,
    src/extractor/extractors.rs:33-75, 140-160.  Definitions only.  Strings are lists of
    Unicode scalar values. *)
From Coq Require Import List NArith Bool.
From Verif Require Import Model.Json.
Import ListNotations.
Local Open Scope N_scope.

(** An Arrow field: its name, whether [ensure_supported_type] accepts its type
    (src/extractor/extractors.rs:140-160), and the value of its metadata entry [tonbo.key].
    A schema: its fields and its metadata entry [tonbo.keys]. *)
Record field := mkField { f_name : chars; f_supported : bool; f_mark : option chars }.
Record dschema := mkSchema { s_fields : list field; s_keys : option chars }.

(** *** The text functions of the standard library *)

(** [char::is_whitespace]: the Unicode property White_Space. *)
Definition is_space (c : N) : bool :=
  ((9 <=? c) && (c <=? 13)) || (c =? 32) || (c =? 0x85) || (c =? 0xa0) || (c =? 0x1680) ||
  ((0x2000 <=? c) && (c <=? 0x200a)) || (c =? 0x2028) || (c =? 0x2029) || (c =? 0x202f) ||
  (c =? 0x205f) || (c =? 0x3000).
Fixpoint drop_while (f : N -> bool) (s : chars) : chars :=
  match s with [] => [] | c :: r => if f c then drop_while f r else s end.
Definition trim_by (f : N -> bool) (s : chars) : chars := rev (drop_while f (rev (drop_while f s))).
(** [str::trim]; [str::trim_matches] of the double quote *)
Definition trim (s : chars) : chars := trim_by is_space s.
Definition trim_quotes (s : chars) : chars := trim_by (fun c => c =? 34) s.
(** [str::split(',')]: [p] is the piece being read. *)
Fixpoint split_from (p : chars) (s : chars) : list chars :=
  match s with
  | [] => [p]
  | c :: r => if c =? 44 then p :: split_from [] r else split_from (p ++ [c]) r
  end.
Definition split_commas (s : chars) : list chars := split_from [] s.

(** [u32::from_str]: an optional plus sign and at least one digit, no overflow. *)
Fixpoint digits_value (acc : N) (s : chars) : option N :=
  match s with
  | [] => Some acc
  | c :: r => if (48 <=? c) && (c <=? 57) then
                let n := acc * 10 + (c - 48) in
                if n <? 2 ^ 32 then digits_value n r else None
              else None
  end.
Definition parse_u32 (s : chars) : option N :=
  match s with
  | [] => None
  | 43 :: [] => None
  | 43 :: r => digits_value 0 r
  | _ => digits_value 0 s
  end.

Fixpoint chars_eqb (a b : chars) : bool :=
  match a, b with
  | [], [] => true
  | x :: a, y :: b => (x =? y) && chars_eqb a b
  | _, _ => false
  end.

(** [is_truthy]: src/mode/dyn_config.rs:37-39; the words true, TRUE, True, yes, YES, Yes. *)
Definition truthy_words : list chars :=
  [[116; 114; 117; 101]; [84; 82; 85; 69]; [84; 114; 117; 101]; [121; 101; 115]; [89; 69; 83]; [89; 101; 115]].
Definition is_truthy (s : chars) : bool := existsb (chars_eqb s) truthy_words.

(** [parse_names_list]: src/mode/dyn_config.rs:40-52.  [ends_with] looks at the last
    character; a text that begins with an opening bracket and ends with a closing one has at
    least two. *)
Definition parse_names_list (s : chars) : list chars :=
  let t := trim s in
  match t with
  | 91 :: rest =>
      match rev rest with
      | 93 :: inner => filter (fun p => match p with [] => false | _ => true end)
                              (map (fun p => trim_quotes (trim p)) (split_commas (rev inner)))
      | _ => [trim_quotes t]
      end
  | _ => [trim_quotes t]
  end.

(** *** The key columns *)

(** The chosen columns, in key order; [None]: an error. *)
Definition columns := option (list nat).

(** [projection_for_columns] and [DynModeConfig::new]: src/extractor/extractors.rs:58-81,
    src/mode/mod.rs:36-47: the schema of the extractor is that of the table. *)
Definition projection_for_columns (s : dschema) (cols : list nat) : columns :=
  match cols with
  | [] => None
  | _ => if forallb (fun i => match nth_error (s_fields s) i with Some f => f_supported f | None => false end) cols
         then Some cols else None
  end.

(** [from_key_col]: src/mode/dyn_config.rs:8-15 *)
Definition from_key_col (s : dschema) (col : nat) : columns :=
  if Nat.leb (length (s_fields s)) col then None else projection_for_columns s [col].

(** [fields.iter().enumerate().find(|(_, f)| f.name() == name)] *)
Fixpoint find_from (i : nat) (name : chars) (l : list field) : option nat :=
  match l with
  | [] => None
  | f :: r => if chars_eqb (f_name f) name then Some i else find_from (S i) name r
  end.
Definition find_field (s : dschema) (name : chars) : option nat := find_from 0 name (s_fields s).

(** [from_key_name]: src/mode/dyn_config.rs:18-31 *)
Definition from_key_name (s : dschema) (name : chars) : columns :=
  match find_field s name with Some i => from_key_col s i | None => None end.

Fixpoint find_all (s : dschema) (names : list chars) : option (list nat) :=
  match names with
  | [] => Some []
  | n :: r => match find_field s n, find_all s r with Some i, Some l => Some (i :: l) | _, _ => None end
  end.

(** The markers of the fields: src/mode/dyn_config.rs:57-69.  A marker that is neither a
    number nor a truthy word is ignored. *)
Definition mark_of (f : field) : option (option N) :=
  match f_mark f with
  | None => None
  | Some v => let v := trim v in
              match parse_u32 v with
              | Some n => Some (Some n)
              | None => if is_truthy v then Some None else None
              end
  end.
Fixpoint marks_from (i : nat) (l : list field) : list (option N * nat) :=
  match l with
  | [] => []
  | f :: r => match mark_of f with Some o => (o, i) :: marks_from (S i) r | None => marks_from (S i) r end
  end.
Definition marks (s : dschema) : list (option N * nat) := marks_from 0 (s_fields s).

(** [sort_by_key(|(ord, _)| *ord)], stable. *)
Fixpoint insert_mark (m : N * nat) (l : list (N * nat)) : list (N * nat) :=
  match l with
  | [] => [m]
  | p :: r => if fst p <? fst m then p :: insert_mark m r else m :: l
  end.
Definition sort_marks (l : list (N * nat)) : list (N * nat) := fold_right insert_mark [] l.

(** [from_metadata]: src/mode/dyn_config.rs:34-114 *)
Definition from_metadata (s : dschema) : columns :=
  match marks s with
  | [(_, i)] => from_key_col s i
  | [] =>
      match s_keys s with
      | None => None
      | Some v =>
          match parse_names_list v with
          | [] => None
          | [n] => from_key_name s n
          | names => match find_all s names with Some cols => projection_for_columns s cols | None => None end
          end
      end
  | ms =>
      if existsb (fun m => match fst m with None => true | Some _ => false end) ms then None
      else projection_for_columns s
             (map snd (sort_marks (flat_map (fun m => match fst m with Some o => [(o, snd m)] | None => [] end) ms)))
  end.

(** [json!(names).to_string()] *)
Definition names_text (names : list chars) : chars := text (JArr (map JStr names)).

(** [SchemaBuilder::build]: src/schema.rs:70-98: the schema of the table and its key columns. *)
Definition builder (s : dschema) (names : list chars) (write_metadata : bool) : option (dschema * list nat) :=
  match names with
  | [] => None
  | _ =>
      match find_all s names with
      | None => None
      | Some cols =>
          let s' := if write_metadata then mkSchema (s_fields s) (Some (names_text names)) else s in
          match projection_for_columns s' cols with Some c => Some (s', c) | None => None end
      end
  end.
