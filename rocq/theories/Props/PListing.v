(** The version listing (C83).  The runs are those of C25: any sequence of manifest calls by
    any number of callers, interleaved, failing and dropped at will. *)
From Coq Require Import List NArith Bool.
From Verif Require Import Model.Version Model.Sessions Model.Manifest Model.Listing Spec.LiveSet Spec.ListingSpec
     Proof.ListingFacts Proof.ListingWit.
Import ListNotations.
Local Open Scope N_scope.

(** The listing has one line for each publish that succeeded, newest first.  The numbers of
    a line describe the tables added and not removed up to that publish.  With a limit the
    newest lines are listed. *)
Theorem C83_listing :
  forall E (eid : E -> N) (ebytes : E -> option N) es t, N.of_nat (length es) < 2 ^ 64 - 1 ->
    let kv := m_kv (mrun vkey_eqb (vexec eid) mstart es) in let a := accepted eid t mstart es in
    exists l, db_list_versions ebytes t 0 kv = MOk l /\ map rp_ts l = rev (map fst a) /\
      (forall k r, nth_error (rev l) k = Some r -> describes eid ebytes (live_after eid a (S k)) r) /\
      forall n, (0 < n)%nat -> db_list_versions ebytes t n kv = MOk (firstn n l).
Proof. exact @c83_listing. Qed.
Print Assumptions C83_listing.

(** From one line to the next: the tables that come and go make the difference.  None of
    them (a commit): the same numbers. *)
Theorem C83_change :
  forall E (eid : E -> N) (ebytes : E -> option N) es t, N.of_nat (length es) < 2 ^ 64 - 1 ->
    let a := accepted eid t mstart es in
    forall l k r r' gone new, db_list_versions ebytes t 0 (m_kv (mrun vkey_eqb (vexec eid) mstart es)) = MOk l ->
      nth_error (rev l) k = Some r -> nth_error (rev l) (S k) = Some r' ->
      moves eid (live_after eid a (S k)) (live_after eid a (S (S k))) gone new ->
      (rp_ssts r' + length gone = rp_ssts r + length new)%nat /\
      (rp_bytes r + sizes ebytes new < 2 ^ 64 - 1 -> rp_bytes r' + sizes ebytes gone = rp_bytes r + sizes ebytes new).
Proof. exact @c83_change. Qed.
Print Assumptions C83_change.

Example C83_applies :
  db_list_versions entry_size 7 0 (m_kv (lrun mstart listed_run))
  = MOk [mkRep 5 3 (2 ^ 64 - 1) 2; mkRep 4 1 140 1; mkRep 3 2 150 1; mkRep 2 2 150 1; mkRep 1 1 100 1] /\
  db_list_versions entry_size 7 2 (m_kv (lrun mstart listed_run)) = MOk [mkRep 5 3 (2 ^ 64 - 1) 2; mkRep 4 1 140 1] /\
  map fst (accepted entry_id 7 mstart listed_run) = [1; 2; 3; 4; 5] /\
  db_list_versions entry_size 8 0 (m_kv (lrun mstart listed_run)) = MOk [].
Proof. exact listed_lines. Qed.
Example C83_change_applies :
  let a := accepted entry_id 7 mstart listed_run in
  moves entry_id (live_after entry_id a 3) (live_after entry_id a 4)
        [(0%nat, (10, Some 100)); (0%nat, (11, Some 50))] [(2%nat, (12, Some 140))].
Proof. exact listed_moves. Qed.
