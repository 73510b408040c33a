(** What a multi-version read must return, stated over a bag of versions only.
    This file does not mention the model. *)
From Coq Require Import List NArith Sorted.
From Verif Require Import Base.Order.
Import ListNotations.

Section Mvcc.
  Context {K : Type} {KO : KeyOrd K} {R : Type}.

  (** A version: (key, commit timestamp, row or tombstone). *)
  Definition version := ((K * N) * option R)%type.
  Definition vkey (v : version) : K := fst (fst v).
  Definition vts (v : version) : N := snd (fst v).
  Definition vval (v : version) : option R := snd v.

  Definition same_key (a b : K) : Prop := kcmp a b = Eq.

  (** [v] is the newest version of its key among those with timestamp [<= read_ts]. *)
  Definition newest_visible (vs : list version) (read_ts : N) (v : version) : Prop :=
    In v vs /\ (vts v <= read_ts)%N /\
    forall w, In w vs -> same_key (vkey w) (vkey v) -> (vts w <= read_ts)%N -> (vts w <= vts v)%N.

  (** All versions with one key and one timestamp agree. *)
  Definition consistent (vs : list version) : Prop :=
    forall v w, In v vs -> In w vs -> same_key (vkey v) (vkey w) -> vts v = vts w -> vval v = vval w.

  (** Keys strictly ascending. *)
  Definition ascending {A} (key : A -> K) (l : list A) : Prop :=
    StronglySorted (fun a b => kcmp (key a) (key b) = Lt) l.

  (** The rows a read at [read_ts] must return: exactly the rows that are the newest
      visible version of their key, in ascending key order. *)
  Definition read_result (vs : list version) (read_ts : N) (out : list ((K * N) * R)) : Prop :=
    ascending (fun e => fst (fst e)) out /\
    forall kt r, In (kt, r) out <-> newest_visible vs read_ts (kt, Some r).

  (** A per-layer view: the newest visible version of every key of the layer, tombstones
      included. *)
  Definition is_view (vs : list version) (read_ts : N) (out : list version) : Prop :=
    ascending vkey out /\
    (forall v, In v out -> newest_visible vs read_ts v) /\
    (forall v, In v vs -> (vts v <= read_ts)%N -> exists w, In w out /\ same_key (vkey w) (vkey v)).
End Mvcc.
