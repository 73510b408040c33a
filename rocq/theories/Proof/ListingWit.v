(** A run of the version listing. *)
From Coq Require Import List NArith Arith Bool Lia.
From Verif Require Import Model.Version Model.Sessions Model.Manifest Model.Listing Spec.LiveSet Spec.ListingSpec.
Import ListNotations.
Local Open Scope N_scope.

(** An entry: its id and its size, if known. *)
Notation entry := (N * option N)%type.
Definition entry_id (e : entry) : N := fst e.
Definition entry_size (e : entry) : option N := snd e.
(** Two flushes, a commit, a publish that loses the race, a compaction of both tables into
    level 2, a table as large as can be. *)
Definition listed_run : list (event (vreq entry)) :=
  [EOpen 1 (RInit 7 1); ECommit 1;
   EOpen 1 (RPublish 7 [AddSsts 0 [(10, Some 100)]; SetWal [mkWR 1 1 0 4]] None); ECommit 1;
   EOpen 2 (RPublish 7 [AddSsts 0 [(30, Some 9)]] None);
   EOpen 1 (RPublish 7 [AddSsts 0 [(11, Some 50)]] None); ECommit 1; ECommit 2;
   EOpen 1 (RPublish 7 [SetWal [mkWR 2 2 5 9]] None); ECommit 1;
   EOpen 1 (RPublish 7 [RemoveSsts 0 [10; 11]; AddSsts 2 [(12, Some 140)]; SetMark 8] (Some (Some 3))); ECommit 1;
   EOpen 1 (RPublish 7 [AddSsts 0 [(13, Some (2 ^ 64)); (14, None)]] None); ECommit 1].
Notation lrun := (mrun vkey_eqb (vexec entry_id)).

Lemma listed_lines :
  db_list_versions entry_size 7 0 (m_kv (lrun mstart listed_run))
  = MOk [mkRep 5 3 (2 ^ 64 - 1) 2; mkRep 4 1 140 1; mkRep 3 2 150 1; mkRep 2 2 150 1; mkRep 1 1 100 1] /\
  db_list_versions entry_size 7 2 (m_kv (lrun mstart listed_run)) = MOk [mkRep 5 3 (2 ^ 64 - 1) 2; mkRep 4 1 140 1] /\
  map fst (accepted entry_id 7 mstart listed_run) = [1; 2; 3; 4; 5] /\
  db_list_versions entry_size 8 0 (m_kv (lrun mstart listed_run)) = MOk [].
Proof. vm_compute. repeat split. Qed.

(** The compaction. *)
Lemma listed_moves :
  let a := accepted entry_id 7 mstart listed_run in
  moves entry_id (live_after entry_id a 3) (live_after entry_id a 4)
        [(0%nat, (10, Some 100)); (0%nat, (11, Some 50))] [(2%nat, (12, Some 140))].
Proof.
  intros a.
  assert (A3 : forall l i, live_after entry_id a 3 l i =
    if (Nat.eqb l 0 && N.eqb i 11)%bool then Some (11, Some 50) else if (Nat.eqb l 0 && N.eqb i 10)%bool then Some (10, Some 100) else None) by reflexivity.
  assert (A4 : forall l i, live_after entry_id a 4 l i =
    if (Nat.eqb l 2 && N.eqb i 12)%bool then Some (12, Some 140) else
    if (Nat.eqb l 0 && N.eqb i 11)%bool then None else if (Nat.eqb l 0 && N.eqb i 10)%bool then None else
    if (Nat.eqb l 0 && N.eqb i 11)%bool then Some (11, Some 50) else if (Nat.eqb l 0 && N.eqb i 10)%bool then Some (10, Some 100) else None) by reflexivity.
  split; [|split; [|split; [|split]]].
  - repeat constructor; cbn; intuition congruence.
  - repeat constructor; cbn; intuition congruence.
  - intros l e [H|[H|[]]]; inversion H; subst; reflexivity.
  - intros l e [H|[]]. inversion H; subst. rewrite A3. cbn. discriminate.
  - intros l [i z]. rewrite A3, A4. cbn [In entry_id fst].
    destruct (Nat.eqb_spec l 2) as [->|N2]; cbn [andb Nat.eqb].
    + destruct (N.eqb_spec i 12) as [->|NI]; [split|split].
      * intros H. inversion H. auto.
      * intros [[H|[]]|[H _]]; [inversion H; reflexivity|discriminate].
      * discriminate.
      * intros [[H|[]]|[H _]]; [inversion H; congruence|discriminate].
    + destruct (Nat.eqb_spec l 0) as [->|N0]; cbn [andb].
      * destruct (N.eqb_spec i 11) as [->|N11]; [|destruct (N.eqb_spec i 10) as [->|N10]].
        -- split; [discriminate|]. intros [[H|[]]|[H F]]; [discriminate|]. inversion H; subst. destruct F. auto.
        -- split; [discriminate|]. intros [[H|[]]|[H F]]; [discriminate|]. inversion H; subst. destruct F. auto.
        -- split; [discriminate|]. intros [[H|[]]|[H F]]; discriminate.
      * split; [discriminate|]. intros [[H|[]]|[H F]]; [inversion H; congruence|discriminate].
Qed.
