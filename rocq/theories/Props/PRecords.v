(** The records of the manifest, of the catalog and of the log's state file as the JSON texts
    they are stored as (C70).

    [parse_path] is the path parser of the object store library, [reread32] and [reread64] what
    the JSON reader makes of the digits written for a float: all three are arbitrary.  The
    writer answers [None] when serialising fails, the reader when deserialising fails. *)
From Coq Require Import String List NArith Bool Permutation.
From Verif Require Import Model.Key Model.UnionKey Model.Records Spec.RecordSpec
     Proof.RecordFacts Proof.RecordLost Proof.RecordWit Proof.RecordOrder.
Import ListNotations.
Local Open Scope N_scope.

(** *** C70: a record reads back as it was written. *)
(** A table's head, version or log floor is written and read back unchanged.
    Partial: the key bounds in a version must be scalars and, if they are floats, numbers;
    refuted for others below. *)
Theorem C70_records_partial :
  forall parse_path reread32 reread64 v, exact_reader reread32 reread64 ->
    value_fits parse_path v -> Forall finite_scalar (value_bounds v) ->
    exists j, e_value v = Some j /\ d_value parse_path reread32 reread64 j = Some v.
Proof. exact value_back. Qed.
Print Assumptions C70_records_partial.
Example C70_records_applies :
  value_fits Some (RVersion version_ab) /\ Forall finite_scalar (value_bounds (RVersion version_ab)) /\
  List.length (value_bounds (RVersion version_ab)) = 12%nat /\ exact_reader (fun b => b) (fun b => b).
Proof. exact version_ab_fits. Qed.

(** Exactly the records without a union among the key bounds can be written. *)
Theorem C70_written :
  forall v, (exists j, e_value v = Some j) <-> Forall no_union (value_bounds v).
Proof. exact value_written. Qed.
Print Assumptions C70_written.

(** One bound that is an infinity or no number, and the record that was written cannot be read. *)
Theorem C70_unreadable :
  forall parse_path reread32 reread64 v j, Exists (fun c => ~ finite_scalar c) (value_bounds v) ->
    e_value v = Some j -> d_value parse_path reread32 reread64 j = None.
Proof. exact value_lost. Qed.
Print Assumptions C70_unreadable.

(** So a version with one file whose only row has the key infinity is published and lost. *)
Theorem C70_infinity_refuted :
  forall parse_path reread32 reread64 p, parse_path p = Some p ->
    exists k j, Forall cell_fits k /\ value_fits parse_path (RVersion (version_of k p)) /\
      e_value (RVersion (version_of k p)) = Some j /\ d_value parse_path reread32 reread64 j = None.
Proof. exact infinity_lost. Qed.
Print Assumptions C70_infinity_refuted.
(** And a version with a file whose key is a union value cannot be published. *)
Theorem C70_union_refuted :
  forall parse_path p, parse_path p = Some p ->
    exists k, Forall cell_fits k /\ value_fits parse_path (RVersion (version_of k p)) /\ e_value (RVersion (version_of k p)) = None.
Proof. exact union_refused. Qed.
Print Assumptions C70_union_refuted.
Example C70_refuted_applies : exists parse_path : chars -> option chars,
  parse_path (lit "sst/1.parquet"%string) = Some (lit "sst/1.parquet"%string).
Proof. exists Some. reflexivity. Qed.

(** The plan of files to remove, and the records of the catalog. *)
Theorem C70_plan :
  forall parse_path p, plan_fits parse_path p -> d_plan parse_path (e_plan p) = Some p.
Proof. exact plan_back. Qed.
Print Assumptions C70_plan.
Example C70_plan_applies : plan_fits Some demo_plan.
Proof. exact demo_plan_fits. Qed.
Theorem C70_catalog :
  forall c, cat_fits c -> d_cat (e_cat c) = Some c.
Proof. exact cat_back. Qed.
Print Assumptions C70_catalog.
Example C70_catalog_applies : cat_fits (RCatalog demo_catalog) /\ cat_fits (RTable demo_table).
Proof. exact demo_cat_fits. Qed.
(** The tables of a catalog may be listed in any order. *)
Theorem C70_catalog_order :
  forall c es, catalog_fits c -> Permutation es (c_tables c) -> d_catalog (e_catalog (mkRC es (c_ordinal c))) = Some c.
Proof. exact catalog_any_order. Qed.
Print Assumptions C70_catalog_order.
Example C70_catalog_order_applies :
  catalog_fits demo_catalog /\ Permutation (rev (c_tables demo_catalog)) (c_tables demo_catalog) /\
  rev (c_tables demo_catalog) <> c_tables demo_catalog.
Proof. exact demo_order. Qed.

(** A version written before log segments were recorded reads as one without log segments. *)
Theorem C70_old_version :
  forall parse_path reread32 reread64 v j, e_version v = Some (VObj j) -> d_version parse_path reread32 reread64 (VObj j) = Some v ->
    d_version parse_path reread32 reread64 (VObj (filter (fun p => negb (chars_eqb (fst p) (lit "wal_segments"%string))) j)) =
      Some (mkRV (v_table v) (v_commit v) (v_ssts v) [] (v_low v) (v_tomb v)).
Proof. exact version_without_segments. Qed.
Print Assumptions C70_old_version.
Example C70_old_version_applies : exists j, e_version version_ab = Some (VObj j) /\
  d_version Some (fun b => b) (fun b => b) (VObj j) = Some version_ab.
Proof. exact version_ab_read. Qed.

(** The state file of the log; a missing or empty one is the state of a new log, and of one
    that lacks some of the fields the others are read. *)
Theorem C70_state :
  forall s, state_fits s -> load_state (Value (e_state s)) = Some s.
Proof. exact state_back. Qed.
Print Assumptions C70_state.
Theorem C70_state_absent :
  load_state Absent = Some state_default /\ load_state Empty = Some state_default.
Proof. exact (conj eq_refl eq_refl). Qed.
Print Assumptions C70_state_absent.
Theorem C70_state_fields :
  forall (keep : chars -> bool) s, state_fits s ->
    load_state (Value (VObj (filter (fun p => keep (fst p)) (e_state_fields s)))) =
      Some (mkRState (if keep (lit "last_segment_seq"%string) then st_segment s else None) (if keep (lit "last_frame_seq"%string) then st_frame s else None)
                     (if keep (lit "last_commit_ts"%string) then st_commit s else None) (if keep (lit "sealed_segments"%string) then st_sealed s else [])
                     (if keep (lit "active_segment"%string) then st_active s else None)).
Proof. exact state_fields_back. Qed.
Print Assumptions C70_state_fields.
Example C70_state_applies : state_fits demo_state.
Proof. exact demo_state_fits. Qed.
