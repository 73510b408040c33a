(** Union cells in keys.  [ensure_supported_type] admits key columns of union type
    (src/extractor/extractors.rs:140-160); the functions of src/key/row.rs have no case for
    them.  Definitions only. *)
From Coq Require Import List NArith ZArith Bool.
From Verif Require Import Base.Lex Model.Key.
Import ListNotations.
Local Open Scope N_scope.

(** A cell of a key: a scalar as before, or a union value: its type identifier and its
    non-null value. *)
Inductive ucell := UPlain (c : cell) | UUnion (type_id : Z) (value : cell).
Definition ukey := list ucell.

(** [cell_tag]: src/key/row.rs:372-389: 255 in the last case *)
Definition ucell_tag (c : ucell) : N := match c with UPlain c => cell_tag c | UUnion _ _ => 255 end.
(** [dyn_cells_equal]: src/key/row.rs:198-235, last case *)
Definition ucells_equal (a b : ucell) : bool :=
  match a, b with UPlain x, UPlain y => cells_equal x y | _, _ => false end.
(** [dyn_cells_cmp]: src/key/row.rs:237-272, last case *)
Definition ucells_cmp (a b : ucell) : comparison :=
  match a, b with UPlain x, UPlain y => cells_cmp x y | _, _ => N.compare (ucell_tag a) (ucell_tag b) end.
(** [dyn_cells_hash]: src/key/row.rs:274-297, last case *)
Definition ucell_hash (c : ucell) : list token :=
  match c with UPlain c => cell_hash c | UUnion _ _ => [TokInt 1 255] end.
(** [dyn_rows_equal], [dyn_rows_cmp], [dyn_rows_hash]: src/key/row.rs:154-188 *)
Fixpoint ukeys_equal (a b : ukey) : bool :=
  match a, b with
  | [], [] => true
  | x :: a', y :: b' => ucells_equal x y && ukeys_equal a' b'
  | _, _ => false
  end.
Definition ukeys_cmp : ukey -> ukey -> comparison := lex ucells_cmp.
Definition ukey_hash (k : ukey) : list token := flat_map ucell_hash k.
