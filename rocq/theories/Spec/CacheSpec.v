(** What reads through the caches must answer. *)
From Coq Require Import List NArith.
From Verif Require Import Model.Caches.
Import ListNotations.
Local Open Scope N_scope.

(** [w] are the bytes of the file from [s] up to [e]. *)
Definition part (file : bytes) (s e : N) (w : bytes) : Prop :=
  exists pre post, file = pre ++ w ++ post /\ N.of_nat (length pre) = s /\ N.of_nat (length w) = e - s /\ s <= e.

(** The file holds the value [v] for the request. *)
Definition stored {S Q F : Type} (decode : bytes -> option F) (contents : S -> bytes) (ranges : S -> Q -> option range)
    (f : S) (q : Q) (v : F) : Prop :=
  exists s e w, ranges f q = Some (s, e) /\ part (contents f) s e w /\ decode w = Some v.

(** The value in an answer. *)
Definition has {Q V : Type} (l : list (Q * V)) (q : Q) (v : V) : Prop := In (q, v) l.
