(** What the staging calls of a transaction should accept. *)
From Coq Require Import List Bool Arith String.
From Verif Require Import Model.Stage.
Import ListNotations.

Section Spec.
  Context {V : Type}.
  Variable t : table.
  Notation row := (@row V).

  (** A value that column [c] can hold. *)
  Definition holds (c : column) (x : option (@cell V)) : Prop :=
    match x with None => c_null c = true | Some v => fst v = kind_of (c_type c) end.
  (** A row of the table: one value for each column, and no null in the key. *)
  Definition valid (r : row) : Prop :=
    Forall2 holds (t_cols t) r /\ forall i, In i (t_key t) -> nth i r None <> None.
  (** [k] is the key of [r]. *)
  Definition key_of (r : row) : row := map (fun i => nth i r None) (t_key t).

  (** A key with the right number of components, none of them null. *)
  Definition complete (k : row) : Prop := List.length k = List.length (t_key t) /\ ~ In None k.
  (** A key some row of the table could have: its components are of the types of the key columns. *)
  Definition typed (k : row) : Prop :=
    Forall2 (fun i x => exists c v, nth_error (t_cols t) i = Some c /\ x = Some v /\ fst v = kind_of (c_type c))
            (t_key t) k.

  (** The mutations the calls ask for, one by one. *)
  Inductive ask := APut (r : row) | ADel (k : row).
  Definition asks (c : @scall V) : list ask :=
    match c with SUpsert r => [APut r] | SRows rs => map APut rs | SBatch _ rs => map APut rs | SDelete k => [ADel k] end.
  Definition good (a : ask) : Prop := match a with APut r => valid r | ADel k => complete k end.
  Definition ask_key (a : ask) : row := match a with APut r => key_of r | ADel k => k end.
  Definition ask_value (a : ask) : option row := match a with APut r => Some r | ADel _ => None end.

  (** [k] was last changed by [m] among [asks]. *)
  Inductive last_of : list ask -> row -> option (option row) -> Prop :=
  | last_none k : last_of [] k None
  | last_here l a k : ask_key a = k -> last_of (l ++ [a]) k (Some (ask_value a))
  | last_before l a k m : ask_key a <> k -> last_of l k m -> last_of (l ++ [a]) k m.

  (** A record batch holds values its schema allows. *)
  Definition real (c : @scall V) : Prop :=
    match c with SBatch cs rs => Forall (Forall2 holds cs) rs | _ => True end.
  (** [l] are the mutations a call stages: all of them if it succeeds; otherwise some first
      part of them. *)
  Definition stages (c : @scall V) (l : list ask) (ok : bool) : Prop :=
    Forall good l /\ if ok then l = asks c else exists rest, asks c = l ++ rest.

  (** Columns that a batch can be read from row by row. *)
  Definition plain : Prop := forall c, In c (t_cols t) ->
    c_name c <> "_commit_ts"%string /\ c_name c <> "_tombstone"%string /\
    In (c_type c) [TBool; TInt32; TInt64; TUInt32; TUInt64; TFloat32; TFloat64; TUtf8; TBinary].
End Spec.
