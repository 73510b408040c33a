(** A file with two filters, and calls of two callers that share a cache of one entry. *)
From Coq Require Import List NArith Bool.
From Verif Require Import Model.Caches Spec.CacheSpec.
Import ListNotations.
Local Open Scope N_scope.

(** Two files; a filter is its own bytes, and an empty one cannot be decoded. *)
Definition demo_contents (f : bool) : bytes := if f then [1; 2; 3; 4; 5; 6] else [7; 8; 9].
Definition demo_decode (w : bytes) : option bytes := match w with [] => None | _ => Some w end.
(** Requests: filter 0 and filter 1 of each file; the second file has no filter 1. *)
Definition demo_ranges (f : bool) (q : bool) : option range :=
  match f, q with
  | true, false => Some (4, 6) | true, true => Some (1, 3)
  | false, false => Some (0, 2) | false, true => None
  end.
Lemma demo_ranges_ok f q s e : demo_ranges f q = Some (s, e) -> s <= e.
Proof. destruct f, q; cbn; intros H; inversion H; subst; discriminate. Qed.
Definition demo_run : list (cev bool bool) :=
  [Begin 0 true [false; true]; Step 0; Begin 1 false [false; true]; Step 1; Step 0; Step 1; Step 0; Step 1; Step 0;
   Step 1; Step 0; Step 1; Step 0; Step 0; Step 1;
   Begin 2 true [true; false]; Step 2; Step 2; Step 2; Fault 2].
Definition demo_calls := crun Bool.eqb Bool.eqb demo_ranges (fetch_filters demo_decode demo_contents) (cold 0) demo_run.
Lemma demo_answers : option_map snd demo_calls =
  Some [mkAnswer 0 true [false; true] [(true, [2; 3]); (false, [5; 6])] false;
        mkAnswer 1 false [false; true] [(false, [7; 8])] false;
        mkAnswer 2 true [true; false] [(true, [2; 3])] true].
Proof. vm_compute. reflexivity. Qed.
