(** The manifest: versions (C25), publishing against an expected head (C26), the catalog
    (C40), the WAL floor (C49).

    The runs: any sequence of events of any number of callers, each event opening a call
    (which reads the store and stages its writes), committing it, or dropping it (a crash or
    a cancelled call).  Calls of different callers interleave freely.  The bound on the
    number of events keeps the version counter below the largest 64-bit number. *)
From Coq Require Import List NArith Bool Sorted.
From Verif Require Import Base.Order Model.SsTable Model.Version Model.Sessions Model.Manifest Spec.ManifestSpec
     Proof.ManifestFacts Proof.CatalogFacts Proof.ManifestMore.
Import ListNotations.
Local Open Scope N_scope.

(** *** C25: versions. *)
(** A publish adds the version made by its edits from the latest one, with a larger
    timestamp than all versions of the table. *)
Theorem C25_publish :
  forall E (eid : E -> N) es e t eds x ts, N.of_nat (length es) < 2 ^ 64 - 1 ->
    let s := mrun vkey_eqb (vexec eid) mstart es in
    let s' := fst (mstep vkey_eqb (vexec eid) s e) in
    published (snd (mstep vkey_eqb (vexec eid) s e)) t eds x ts ->
    (forall ts' v, loads s t ts' v -> ts' < ts) /\
    exists base v, latest s t base /\
      apply_edits eid (match base with Some u => u | None => vstate_empty end) eds = Some v /\
      loads s' t ts (set_ts ts v) /\ latest s' t (Some (set_ts ts v)).
Proof. intros. now eapply c25_publish; eauto. Qed.
Print Assumptions C25_publish.
(** A version never changes and is never lost. *)
Theorem C25_immutable :
  forall E (eid : E -> N) es e t ts v, N.of_nat (length es) < 2 ^ 64 - 1 ->
    let s := mrun vkey_eqb (vexec eid) mstart es in
    loads s t ts v -> loads (fst (mstep vkey_eqb (vexec eid) s e)) t ts v.
Proof. intros. now apply c25_immutable. Qed.
Print Assumptions C25_immutable.
(** Nothing but a successful publish adds a version. *)
Theorem C25_only_publish :
  forall E (eid : E -> N) es e t ts v, N.of_nat (length es) < 2 ^ 64 - 1 ->
    let s := mrun vkey_eqb (vexec eid) mstart es in
    loads (fst (mstep vkey_eqb (vexec eid) s e)) t ts v ->
    loads s t ts v \/ exists eds x, published (snd (mstep vkey_eqb (vexec eid) s e)) t eds x ts.
Proof. intros. now apply (c25_only_publish eid es) with (v := v). Qed.
Print Assumptions C25_only_publish.
(** Listing: all versions, newest first; with a limit the newest ones; each can be loaded by
    the timestamp listed. *)
Theorem C25_listing :
  forall E (eid : E -> N) es t, N.of_nat (length es) < 2 ^ 64 - 1 ->
    let s := mrun vkey_eqb (vexec eid) mstart es in
    exists l, list_versions t 0 (m_kv s) = MOk l /\ StronglySorted (fun a b => v_ts b < v_ts a) l /\
      (forall v, In v l <-> loads s t (v_ts v) v) /\ (forall ts v, loads s t ts v -> v_ts v = ts) /\
      forall n, (0 < n)%nat -> list_versions t n (m_kv s) = MOk (firstn n l).
Proof. intros. now apply c25_listing. Qed.
Print Assumptions C25_listing.

(** *** C26: publishing against an expected head. *)
(** Success: the head was the expected one. *)
Theorem C26_expected_head :
  forall E (eid : E -> N) es e t eds x ts, N.of_nat (length es) < 2 ^ 64 - 1 ->
    let s := mrun vkey_eqb (vexec eid) mstart es in
    published (snd (mstep vkey_eqb (vexec eid) s e)) t eds (Some x) ts ->
    exists v, latest s t v /\ option_map (@v_ts E) v = x.
Proof. intros. now eapply c26_expected; eauto. Qed.
Print Assumptions C26_expected_head.
(** Of the publishes expecting one head only one succeeds, however they interleave. *)
Theorem C26_one_winner :
  forall E (eid : E -> N) es1 e1 es2 e2 t eds1 eds2 x ts1 ts2, N.of_nat (length (es1 ++ e1 :: es2)) < 2 ^ 64 - 1 ->
    published (snd (mstep vkey_eqb (vexec eid) (mrun vkey_eqb (vexec eid) mstart es1) e1)) t eds1 (Some x) ts1 ->
    ~ published (snd (mstep vkey_eqb (vexec eid) (mrun vkey_eqb (vexec eid) mstart (es1 ++ e1 :: es2)) e2)) t eds2 (Some x) ts2.
Proof. intros * HB P1 P2. exact (c26_one_winner eid _ _ _ _ _ _ _ _ _ _ HB P1 P2). Qed.
Print Assumptions C26_one_winner.
(** A call that fails, and one that has not committed, changed nothing. *)
Theorem C26_failed_changes_nothing :
  forall E (eid : E -> N) es e, N.of_nat (length es) < 2 ^ 64 - 1 ->
    let s := mrun vkey_eqb (vexec eid) mstart es in
    failed (snd (mstep vkey_eqb (vexec eid) s e)) \/ (forall c, e <> ECommit c) ->
    m_kv (fst (mstep vkey_eqb (vexec eid) s e)) = m_kv s.
Proof. intros * HB s [H|H]; [now apply c26_failed|now apply c26_until_commit]. Qed.
Print Assumptions C26_failed_changes_nothing.
(** A publish with valid edits succeeds if its expected head is the current one and nobody
    else commits between its read and its commit. *)
Theorem C26_undisturbed_succeeds :
  forall E (eid : E -> N) es c t eds x v v', N.of_nat (length es) < 2 ^ 64 - 1 ->
    let s := mrun vkey_eqb (vexec eid) mstart es in
    latest s t v -> eds <> [] -> (x = None \/ x = Some (option_map (@v_ts E) v)) ->
    apply_edits eid (match v with Some u => u | None => vstate_empty end) eds = Some v' ->
    let s1 := fst (mstep vkey_eqb (vexec eid) s (EOpen c (RPublish t eds x))) in
    snd (mstep vkey_eqb (vexec eid) s (EOpen c (RPublish t eds x))) = None /\
    published (snd (mstep vkey_eqb (vexec eid) s1 (ECommit c))) t eds x (match v with Some u => v_ts u + 1 | None => 1 end).
Proof. intros. eapply c26_succeeds; eassumption. Qed.
Print Assumptions C26_undisturbed_succeeds.

(** *** C49: the WAL floor. *)
Theorem C49_floor :
  forall E (eid : E -> N) es t v, N.of_nat (length es) < 2 ^ 64 - 1 ->
    let s := mrun vkey_eqb (vexec eid) mstart es in latest s t v ->
    exists fl, wal_floor t (m_kv s) = MOk fl /\
      match v with
      | None => fl = None
      | Some u => match fl with
                  | None => v_wal u = []
                  | Some r => In r (v_wal u) /\ forall r', In r' (v_wal u) -> wr_seq r <= wr_seq r'
                  end
      end.
Proof. intros. now apply c49_smallest. Qed.
Print Assumptions C49_floor.

(** Two publishers expect version 1; the second to commit fails, and so does one that comes
    later.  The floor moves to the newer segment. *)
Example C25_C26_C49_apply :
  snd (vstep (vrun mstart (removelast two_publishers)) (ECommit 2)) = Some (RPublish 7 [AddSsts 1 [12]; SetWal [mkWR 4 0 0 9]] (Some (Some 1)), Returned (MOk (Some 2))) /\
  snd (vstep (vrun mstart two_publishers) (ECommit 1)) = Some (RPublish 7 [RemoveSsts 0 [10]] (Some (Some 1)), Precondition) /\
  snd (vstep (vrun mstart two_publishers) (EOpen 3 (RPublish 7 [RemoveSsts 0 [10]] (Some (Some 1))))) = Some (RPublish 7 [RemoveSsts 0 [10]] (Some (Some 1)), Returned (MErr ECas)) /\
  list_versions 7 0 (m_kv (vrun mstart two_publishers)) = MOk [demo_v2; demo_v1] /\
  list_versions 7 1 (m_kv (vrun mstart two_publishers)) = MOk [demo_v2] /\
  snapshot_at_version 7 1 (m_kv (vrun mstart two_publishers)) = MOk (mkHead 1 (Some (mkWR 4 0 0 9)) (Some 2), Some demo_v1) /\
  snapshot_latest 7 (m_kv (vrun mstart two_publishers)) = MOk (mkHead 1 (Some (mkWR 4 0 0 9)) (Some 2), Some demo_v2) /\
  wal_floor 7 (m_kv (vrun mstart two_publishers)) = MOk (Some (mkWR 4 0 0 9)).
Proof. exact demo_publishers. Qed.

(** *** C40: registering tables. *)
(** [seqb] compares strings; the identifiers drawn for new tables are distinct (random ULIDs). *)
(** Under an existing name: the table if the definition agrees, an error otherwise. *)
Theorem C40_existing_name :
  forall S (seqb : S -> S -> bool), (forall a b, seqb a b = true <-> a = b) ->
  forall es c i d m, NoDup (drawn es) -> let s := mrun ckey_eqb (cexec seqb) mstart es in
    registered s m -> td_name d = tm_name m ->
    m_kv (fst (mstep ckey_eqb (cexec seqb) s (EOpen c (RRegister i d)))) = m_kv s /\
    (agrees m d -> snd (mstep ckey_eqb (cexec seqb) s (EOpen c (RRegister i d))) = Some (RRegister i d, Returned (MOk (Some m)))) /\
    (~ agrees m d -> snd (mstep ckey_eqb (cexec seqb) s (EOpen c (RRegister i d))) = Some (RRegister i d, Returned (MErr ECatalog))).
Proof. intros * HS *. now apply c40_existing. Qed.
Print Assumptions C40_existing_name.
(** A registration that succeeds returns a table that agrees with the definition: the one of
    that name, or a new one when there is none of that name. *)
Theorem C40_success :
  forall S (seqb : S -> S -> bool), (forall a b, seqb a b = true <-> a = b) ->
  forall es e i d m, NoDup (drawn (es ++ [e])) -> let s := mrun ckey_eqb (cexec seqb) mstart es in
    let s' := fst (mstep ckey_eqb (cexec seqb) s e) in
    snd (mstep ckey_eqb (cexec seqb) s e) = Some (RRegister i d, Returned (MOk (Some m))) ->
    tm_name m = td_name d /\ agrees m d /\ registered s' m /\
    (registered s m \/ tm_id m = i /\ forall m', registered s m' -> tm_name m' <> td_name d /\ tm_id m' <> i).
Proof. intros * HS *. now apply c40_created. Qed.
Print Assumptions C40_success.
(** One table per name and per identifier; registered tables stay as they are. *)
Theorem C40_unique :
  forall S (seqb : S -> S -> bool), (forall a b, seqb a b = true <-> a = b) ->
  forall es m m', NoDup (drawn es) -> let s := mrun ckey_eqb (cexec seqb) mstart es in
    registered s m -> registered s m' -> tm_name m = tm_name m' \/ tm_id m = tm_id m' -> m = m'.
Proof. intros * HS *. now apply c40_unique. Qed.
Print Assumptions C40_unique.
Theorem C40_kept :
  forall S (seqb : S -> S -> bool), (forall a b, seqb a b = true <-> a = b) ->
  forall es e m, NoDup (drawn (es ++ [e])) -> let s := mrun ckey_eqb (cexec seqb) mstart es in
    registered s m -> registered (fst (mstep ckey_eqb (cexec seqb) s e)) m.
Proof. intros * HS *. now apply c40_kept. Qed.
Print Assumptions C40_kept.

(** A new name is registered when nobody else commits between the read and the commit. *)
Theorem C40_new_name :
  forall S (seqb : S -> S -> bool), (forall a b, seqb a b = true <-> a = b) ->
  forall es c i d, NoDup (drawn es) -> let s := mrun ckey_eqb (cexec seqb) mstart es in
    (forall m, registered s m -> tm_name m <> td_name d) ->
    let s1 := fst (mstep ckey_eqb (cexec seqb) s (EOpen c (RRegister i d))) in
    snd (mstep ckey_eqb (cexec seqb) s (EOpen c (RRegister i d))) = None /\
    snd (mstep ckey_eqb (cexec seqb) s1 (ECommit c)) =
      Some (RRegister i d, Returned (MOk (Some (mkMeta i (td_name d) (td_schema d) (td_pk d) (td_ret d) (td_version d))))).
Proof. intros * HS *. now apply c40_new. Qed.
Print Assumptions C40_new_name.

(** Two callers register one name at the same time: one table.  Later calls get it, or an
    error when the key columns differ in order. *)
Example C40_applies :
  drawn two_registrations = [100; 101; 102] /\
  table_meta 101 (m_kv (crun mstart two_registrations)) = MOk demo_table /\
  table_meta 100 (m_kv (crun mstart two_registrations)) = MErr EInvariant /\
  table_meta 102 (m_kv (crun mstart two_registrations)) = MOk (mkMeta 102 2 5 [0] (Some (mkRet 3 10)) 1) /\
  snd (cstep (crun mstart two_registrations) (EOpen 3 (RRegister 103 (mkDef 1 5 [0; 2] None 1)))) =
    Some (RRegister 103 (mkDef 1 5 [0; 2] None 1), Returned (MOk (Some demo_table))) /\
  snd (cstep (crun mstart two_registrations) (EOpen 3 (RRegister 103 (mkDef 1 5 [2; 0] None 1)))) =
    Some (RRegister 103 (mkDef 1 5 [2; 0] None 1), Returned (MErr ECatalog)).
Proof. exact demo_registrations. Qed.
