(** The set of keys a key-bounds value denotes. *)
From Coq Require Import List Bool.
From Verif Require Import Base.Order Model.OMap Model.KeyBounds.

Section KeySet.
  Context {K : Type} {KO : KeyOrd K}.
  Notation kbounds := (kbounds K).

  Definition kb_above (o : option (K * bool)) (k : K) : bool :=
    match o with
    | None => true
    | Some (l, true) => kleb l k
    | Some (l, false) => kltb l k
    end.
  Definition kb_below (o : option (K * bool)) (k : K) : bool :=
    match o with
    | None => true
    | Some (u, true) => kleb k u
    | Some (u, false) => kltb k u
    end.
  (** The set a bounds value denotes. *)
  Definition kb_in (b : kbounds) (k : K) : bool :=
    negb (kb_empty b) && kb_above (kb_lower b) k && kb_below (kb_upper b) k.

  (** The bounds that can be built from the operations of [KeyBounds]. *)
  Inductive kb_built : kbounds -> Prop :=
  | built_none : kb_built kb_none
  | built_lower k i : kb_built (kb_with_lower k i)
  | built_upper k i : kb_built (kb_with_upper k i)
  | built_range lo hi : kb_built (kb_with_range lo hi)
  | built_intersect a b : kb_built a -> kb_built b -> kb_built (kb_intersect a b)
  | built_union a b : kb_built a -> kb_built b -> kb_built (kb_union a b).

  (** [k] satisfies a lower and an upper [std::ops::Bound]. *)
  Definition within (lo hi : bound K) (k : K) : Prop :=
    match lo with Included a => kcmp a k <> Gt | Excluded a => kcmp a k = Lt | Unbounded => True end /\
    match hi with Included b => kcmp k b <> Gt | Excluded b => kcmp k b = Lt | Unbounded => True end.
End KeySet.
