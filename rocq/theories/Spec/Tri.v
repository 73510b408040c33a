(** Three-valued truth. *)
Inductive tri := TT | TF | TU.
Definition tri_of (b : bool) : tri := if b then TT else TF.
Definition tri_and (a b : tri) : tri :=
  match a, b with
  | TF, _ | _, TF => TF
  | TT, TT => TT
  | _, _ => TU
  end.
Definition tri_or (a b : tri) : tri :=
  match a, b with
  | TT, _ | _, TT => TT
  | TF, TF => TF
  | _, _ => TU
  end.
Definition tri_not (a : tri) : tri := match a with TT => TF | TF => TT | TU => TU end.
Definition is_true (a : tri) : bool := match a with TT => true | _ => false end.
