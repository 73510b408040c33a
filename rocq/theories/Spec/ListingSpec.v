(** What a line of the version listing should say. *)
From Coq Require Import List NArith Bool.
From Verif Require Import Model.Version Model.Sessions Model.Manifest Model.Listing Spec.LiveSet.
Import ListNotations.

Section ListingSpec.
  Context {E : Type}.
  Variable eid : E -> N.
  Variable ebytes : E -> option N.

  (** The publishes to table [t] that succeeded when the calls [es] ran from [s], oldest
      first, each with the timestamp it returned: read off the replies. *)
  Fixpoint accepted (t : N) (s : mstore vkey (vval E) (vreq E) (mres (option N))) (es : list (event (vreq E))) : list (N * list (edit E)) :=
    match es with
    | [] => []
    | e :: r =>
        let p := mstep vkey_eqb (vexec eid) s e in
        match snd p with
        | Some (RPublish t' eds _, Returned (MOk (Some ts))) => if N.eqb t' t then [(ts, eds)] else []
        | _ => []
        end ++ accepted t (fst p) r
    end.
  (** The tables live after the first [n] of them. *)
  Definition live_after (a : list (N * list (edit E))) (n : nat) : live := live_edits eid nothing (concat (map snd (firstn n a))).

  Definition sum (l : list N) : N := fold_right N.add 0%N l.
  Definition size (e : E) : N := match ebytes e with Some b => b | None => 0%N end.
  (** The size of all of them, if every one has statistics. *)
  Definition sizes (l : list (nat * E)) : N := sum (map (fun p => size (snd p)) l).

  (** The numbers of [r] describe the live tables [s]: how many there are, how many bytes
      they have together (at most the largest 64-bit number; a table without statistics
      counts as empty), and how many levels have any. *)
  Definition describes (s : @live E) (r : report) : Prop :=
    exists (tables : list (nat * E)) (levels : list nat),
      NoDup tables /\ (forall l e, In (l, e) tables <-> s l (eid e) = Some e) /\
      NoDup levels /\ (forall l, In l levels <-> exists e, s l (eid e) = Some e) /\
      rp_ssts r = length tables /\ rp_bytes r = N.min (2 ^ 64 - 1) (sizes tables) /\ rp_levels r = length levels.

  (** From [s] to [s'] the tables [gone] leave and the tables [new] come. *)
  Definition moves (s s' : @live E) (gone new : list (nat * E)) : Prop :=
    NoDup gone /\ NoDup new /\
    (forall l e, In (l, e) gone -> s l (eid e) = Some e) /\ (forall l e, In (l, e) new -> s l (eid e) <> Some e) /\
    forall l e, s' l (eid e) = Some e <-> In (l, e) new \/ (s l (eid e) = Some e /\ ~ In (l, e) gone).
End ListingSpec.
