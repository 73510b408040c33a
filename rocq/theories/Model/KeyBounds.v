(** Key bounds derived from a predicate: [KeyBounds] in src/query/scan.rs.
    Definitions only. *)
From Coq Require Import List NArith Bool.
From Verif Require Import Base.Order Model.OMap.
Import ListNotations.

Section KeyBounds.
  Context {K : Type} {KO : KeyOrd K}.

  (** [KeyBounds] with its [KeyBound]s (key, inclusive): src/query/scan.rs:78-100 *)
  Record kbounds := mkKB {
    kb_lower : option (K * bool);
    kb_upper : option (K * bool);
    kb_empty : bool
  }.

  (** [KeyBounds::empty], [with_lower], [with_upper]: src/query/scan.rs:102-126 *)
  Definition kb_none : kbounds := mkKB None None true.
  Definition kb_with_lower (k : K) (incl : bool) : kbounds := mkKB (Some (k, incl)) None false.
  Definition kb_with_upper (k : K) (incl : bool) : kbounds := mkKB None (Some (k, incl)) false.

  (** [normalize_empty]: src/query/scan.rs:147-161 *)
  Definition kb_normalize (b : kbounds) : kbounds :=
    match kb_lower b, kb_upper b with
    | Some (l, li), Some (u, ui) =>
        match kcmp l u with
        | Gt => mkKB (kb_lower b) (kb_upper b) true
        | Eq => if negb (li && ui) then mkKB (kb_lower b) (kb_upper b) true else b
        | Lt => b
        end
    | _, _ => b
    end.

  (** [with_range]: src/query/scan.rs:128-142 *)
  Definition kb_with_range (lo hi : K * bool) : kbounds :=
    kb_normalize (mkKB (Some lo) (Some hi) false).

  (** [intersect]: src/query/scan.rs:163-200 *)
  Definition kb_intersect (a b : kbounds) : kbounds :=
    if kb_empty a || kb_empty b then kb_none
    else
      let lower := match kb_lower a, kb_lower b with
                   | Some (x, xi), Some (y, yi) =>
                       match kcmp x y with
                       | Gt => Some (x, xi)
                       | Lt => Some (y, yi)
                       | Eq => Some (x, xi && yi)
                       end
                   | Some x, None => Some x
                   | None, o => o
                   end in
      let upper := match kb_upper a, kb_upper b with
                   | Some (x, xi), Some (y, yi) =>
                       match kcmp x y with
                       | Gt => Some (y, yi)
                       | Lt => Some (x, xi)
                       | Eq => Some (x, xi && yi)
                       end
                   | Some x, None => Some x
                   | None, o => o
                   end in
      kb_normalize (mkKB lower upper false).

  (** [union_envelope]: src/query/scan.rs:202-236 *)
  Definition kb_union (a b : kbounds) : kbounds :=
    if kb_empty a then b
    else if kb_empty b then a
    else
      let lower := match kb_lower a, kb_lower b with
                   | Some (x, xi), Some (y, yi) =>
                       match kcmp x y with
                       | Gt => Some (y, yi)
                       | Lt => Some (x, xi)
                       | Eq => Some (x, xi || yi)
                       end
                   | _, _ => None
                   end in
      let upper := match kb_upper a, kb_upper b with
                   | Some (x, xi), Some (y, yi) =>
                       match kcmp x y with
                       | Gt => Some (x, xi)
                       | Lt => Some (y, yi)
                       | Eq => Some (x, xi || yi)
                       end
                   | _, _ => None
                   end in
      mkKB lower upper false.

  (** [overlaps]: src/query/scan.rs:238-257 *)
  Definition kb_overlaps (b : kbounds) (min_key max_key : K) : bool :=
    if kb_empty b then false
    else
      (match kb_lower b with
       | Some (l, li) => match kcmp max_key l with
                         | Lt => false
                         | Eq => li
                         | Gt => true
                         end
       | None => true
       end) &&
      (match kb_upper b with
       | Some (u, ui) => match kcmp min_key u with
                         | Gt => false
                         | Eq => ui
                         | Lt => true
                         end
       | None => true
       end).

  (** The conversion in [key_range_for_predicate]: src/query/scan.rs:576-606.
      [None]: scan all rows. *)
  Definition kb_range (b : kbounds) : option (bound K * bound K) :=
    if kb_empty b then None
    else Some (match kb_lower b with
               | Some (k, true) => Included k
               | Some (k, false) => Excluded k
               | None => Unbounded
               end,
               match kb_upper b with
               | Some (k, true) => Included k
               | Some (k, false) => Excluded k
               | None => Unbounded
               end).
End KeyBounds.
Arguments kbounds K : clear implicits.
