(** When two JSON values say the same thing. *)
From Coq Require Import List NArith ZArith Permutation.
From Verif Require Import Model.Json.
Import ListNotations.

(** Equal up to the order of the members of objects, at every depth. *)
Inductive same : json -> json -> Prop :=
| same_null : same JNull JNull
| same_bool b : same (JBool b) (JBool b)
| same_int z : same (JInt z) (JInt z)
| same_str s : same (JStr s) (JStr s)
| same_arr l m : Forall2 same l m -> same (JArr l) (JArr m)
| same_obj l l' m : Permutation l l' -> Forall2 (fun p q => fst p = fst q /\ same (snd p) (snd q)) l' m ->
    same (JObj l) (JObj m).

(** No object has two members of one name, at any depth: true of every value of a program,
    whose objects are maps. *)
Inductive uniq : json -> Prop :=
| uniq_null : uniq JNull
| uniq_bool b : uniq (JBool b)
| uniq_int z : uniq (JInt z)
| uniq_str s : uniq (JStr s)
| uniq_arr l : Forall uniq l -> uniq (JArr l)
| uniq_obj l : NoDup (map fst l) -> Forall (fun p => uniq (snd p)) l -> uniq (JObj l).
