(** Which SSTs are live after a list of manifest edits: a map from level and id to the
    SST last added under that id and not removed since.  Only the type of edits is shared
    with the model. *)
From Coq Require Import List NArith Bool.
From Verif Require Import Model.Version.
Import ListNotations.

Section LiveSet.
  Context {E : Type}.
  Variable eid : E -> N.

  Definition live := nat -> N -> option E.
  Definition nothing : live := fun _ _ => None.

  Definition add_live (level : nat) (s : live) (e : E) : live :=
    fun l i => if Nat.eqb l level && N.eqb i (eid e) then Some e else s l i.
  Definition drop_live (level : nat) (s : live) (id : N) : live :=
    fun l i => if Nat.eqb l level && N.eqb i id then None else s l i.

  Definition live_edit (s : live) (e : edit E) : live :=
    match e with
    | AddSsts level es => fold_left (add_live level) es s
    | RemoveSsts level ids => fold_left (drop_live level) ids s
    | SetWal _ | SetMark _ => s
    end.
  Definition live_edits (s : live) (es : list (edit E)) : live := fold_left live_edit es s.

  (** The levels list exactly the live SSTs, each once, in ascending id order. *)
  Definition shows (ls : list (list E)) (s : live) : Prop :=
    (forall l e, In e (nth l ls []) <-> s l (eid e) = Some e) /\
    (forall l i e, s l i = Some e -> eid e = i) /\
    (forall l, NoDup (map eid (nth l ls []))).

  (** The watermark and the WAL segments last set. *)
  Definition last_mark (es : list (edit E)) : option N :=
    fold_left (fun m e => match e with SetMark w => Some w | _ => m end) es None.
  Definition last_wal (es : list (edit E)) : list walref :=
    fold_left (fun m e => match e with SetWal w => w | _ => m end) es [].
End LiveSet.
