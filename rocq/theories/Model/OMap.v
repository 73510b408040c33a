(** Contract of the ordered maps the code uses: crossbeam's [SkipMap]
    (src/inmem/mutable/memtable.rs:107) and std's [BTreeMap]
    (src/inmem/immutable/memtable.rs:20, src/transaction/mod.rs:147).
    An ordered map is the list of its entries in ascending key order.
    Definitions only. *)
From Coq Require Import List NArith Bool.
From Verif Require Import Base.Order.
Import ListNotations.

(** [std::ops::Bound]. *)
Inductive bound (A : Type) := Included (a : A) | Excluded (a : A) | Unbounded.
Arguments Included {A} a. Arguments Excluded {A} a. Arguments Unbounded {A}.

Section OMap.
  Context {A : Type} {AO : KeyOrd A} {V : Type}.

  (** [SkipMap::insert] / [BTreeMap::insert]: the entry of an equal key is replaced.
      Simplification: std's BTreeMap keeps the old key object on replacement, the
      SkipMap takes the new one; keys that compare equal are not distinguished by
      any caller. *)
  Fixpoint om_insert (k : A) (v : V) (m : list (A * V)) : list (A * V) :=
    match m with
    | [] => [(k, v)]
    | (k', v') :: r =>
        match kcmp k k' with
        | Lt => (k, v) :: m
        | Eq => (k, v) :: r
        | Gt => (k', v') :: om_insert k v r
        end
    end.

  (** Lookup by key ([BTreeMap::get]). *)
  Fixpoint om_get (k : A) (m : list (A * V)) : option V :=
    match m with
    | [] => None
    | (k', v) :: r => if keqb k' k then Some v else om_get k r
    end.

  (** Does a key satisfy a lower / an upper [Bound]? *)
  Definition above (b : bound A) (k : A) : bool :=
    match b with
    | Included a => kleb a k
    | Excluded a => kltb a k
    | Unbounded => true
    end.
  Definition below (b : bound A) (k : A) : bool :=
    match b with
    | Included a => kleb k a
    | Excluded a => kltb k a
    | Unbounded => true
    end.

  (** [SkipMap::range] / [BTreeMap::range]: the entries within the bounds, in order.
      Simplification: std's BTreeMap panics on an inverted range; the model
      returns no entries (C41 shows that the planner never passes one). *)
  Definition om_range (lo hi : bound A) (m : list (A * V)) : list (A * V) :=
    filter (fun e => above lo (fst e) && below hi (fst e)) m.

  (** When std's [BTreeMap::range] panics: the start is greater than the end, or both are
      excluded and equal. *)
  Definition range_panics (lo hi : bound A) : bool :=
    match lo, hi with
    | Excluded a, Excluded b => kleb b a
    | Included a, Included b | Included a, Excluded b | Excluded a, Included b => kltb b a
    | _, _ => false
    end.
End OMap.
