(** Recovery takes every batch that a write has put into the log (C74). *)
From Coq Require Import List NArith Bool String.
From Verif Require Import Model.Columns Model.Frame Model.MemTable Model.Replay Spec.WalSpec Model.ReplayBatch Spec.ReplayBatchSpec
     Proof.ReplayBatchFacts.
Import ListNotations.
Local Open Scope N_scope.

(** *** C74: what is written is replayed. *)
(** An ingest: a batch with the table's schema, with one flag for each row and no null in a key
    is accepted; its entries are the rows without flag and the keys of the others, all at one
    commit time; what it hands to the log is read back, passes every check of recovery, and
    recovery hands the memtable the very batches that the call did.
    Missing: tables with a column of a reserved name (below). *)
Theorem C74_ingest_partial :
  forall (T V : Type) (T_eqb : T -> T -> bool), (forall a b, T_eqb a b = true <-> a = b) ->
  forall (t : table T) (b : batch (arr T V)) tombs ts,
    plain_table t -> batch_valid (arr T V) arr_len b -> schema_of b = t_schema t -> List.length tombs = b_rows b ->
    (forall r, In r (rows_of b) -> key_of_row (t_keys t) r <> None) ->
    exists u d, ingest_batches T_eqb t b tombs ts = WOk (u, d) /\
      (exists es1 es2, all_entries t (puts_of ts u d) = Some (es1 ++ es2) /\
         Forall2 (writes (t_keys t) ts) (with_flag false (rows_of b) tombs) es1 /\
         Forall2 (deletes (t_keys t) ts) (with_flag true (rows_of b) tombs) es2) /\
      (b_rows b = O -> u = None /\ d = None) /\
      (b_rows b <> O -> forall ipc_write ipc_read id,
         (forall x, batch_valid (arr T V) arr_len x -> ipc_ok (arr T V) ipc_write ipc_read x) -> u64_ok id -> u64_ok ts ->
         exists events, Forall2 (comes_back ipc_write ipc_read) (commands_of id ts u d) events /\
           replay (replay_step T_eqb t) (map to_wrec events) [] None [] = Some (puts_of ts u d, Some ts)).
Proof. exact @ingest_replays. Qed.
Print Assumptions C74_ingest_partial.
(** Every other batch is refused before anything is written. *)
Theorem C74_refused :
  forall (T V : Type) (T_eqb : T -> T -> bool), (forall a b, T_eqb a b = true <-> a = b) ->
  forall (t : table T) (b : batch (arr T V)) tombs ts,
    (schema_of b <> t_schema t -> ingest_batches T_eqb t b tombs ts = WErr SchemaMismatch) /\
    (schema_of b = t_schema t -> List.length tombs <> b_rows b -> ingest_batches T_eqb t b tombs ts = WErr TombstoneLength).
Proof. exact @ingest_refused. Qed.
Print Assumptions C74_refused.
(** A transaction with the rows [rows] and the deletes [keys], whose batches were built as the
    builder promises.  Missing: as above. *)
Theorem C74_transaction_partial :
  forall (T V : Type) (T_eqb : T -> T -> bool), (forall a b, T_eqb a b = true <-> a = b) ->
  forall (t : table T) (ds : schema T) (u d : option (batch (arr T V))) ts rows keys,
    plain_table t -> delete_schema t = Some ds ->
    (forall b, u = Some b -> batch_valid (arr T V) arr_len b /\ schema_of b = t_schema t /\ rows_of b = rows) ->
    (forall b, d = Some b -> batch_valid (arr T V) arr_len b /\ schema_of b = ds /\
       rows_of b = map (fun k : list (N + V) => map Some k ++ [Some (inl ts)]) keys /\
       Forall (fun k => List.length k = List.length (t_keys t)) keys) ->
    (forall r, In r rows -> key_of_row (t_keys t) r <> None) ->
    (u = None -> rows = []) -> (d = None -> keys = []) -> (u <> None \/ d <> None) ->
    (exists es, all_entries t (puts_of ts u d) = Some (es ++ map (fun k => (k, ts, None)) keys) /\ Forall2 (writes (t_keys t) ts) rows es) /\
    (forall ipc_write ipc_read id,
       (forall x, batch_valid (arr T V) arr_len x -> ipc_ok (arr T V) ipc_write ipc_read x) -> u64_ok id -> u64_ok ts ->
       exists events, Forall2 (comes_back ipc_write ipc_read) (CmdBegin id :: commands_of id ts u d) events /\
         replay (replay_step T_eqb t) (map to_wrec events) [] None [] = Some (puts_of ts u d, Some ts)).
Proof. exact @transaction_replays. Qed.
Print Assumptions C74_transaction_partial.
(** A table keyed by a number column called [_commit_ts]: a call that only deletes succeeds, at
    a time that is the key and not its commit time, and the log it leaves behind cannot be
    replayed: the database does not open any more. *)
Theorem C74_reserved_refuted :
  exists (t : table N) (b : batch (arr N N)) ts k d,
    batch_valid (arr N N) arr_len b /\ schema_of b = t_schema t /\ rows_of b = [[Some (inl k); None]] /\
    ingest_batches N.eqb t b [true] ts = WOk (None, Some d) /\
    all_entries t (puts_of ts None (Some d)) = Some [([inl k], k, None)] /\ k <> ts /\
    forall ipc_write ipc_read id,
      (forall x, batch_valid (arr N N) arr_len x -> ipc_ok (arr N N) ipc_write ipc_read x) -> u64_ok id ->
      exists events, Forall2 (comes_back ipc_write ipc_read) (commands_of id ts None (Some d)) events /\
        replay (replay_step N.eqb t) (map to_wrec events) [] None [] = None.
Proof. exact odd_refutes. Qed.
Print Assumptions C74_reserved_refuted.
Example C74_applies :
  plain_table demo_table /\
  (batch_valid (arr N N) arr_len demo_rows /\ schema_of demo_rows = t_schema demo_table /\
   (forall r, In r (rows_of demo_rows) -> key_of_row (t_keys demo_table) r <> None)) /\
  match ingest_batches N.eqb demo_table demo_rows [false; true; false] 9 with
  | WOk (Some u, Some d) => d = demo_dels /\ rows_of u = [[Some (inl 1); Some (inr 70); Some (inr 10)]; [Some (inl 3); Some (inr 72); None]] /\
      all_entries demo_table (puts_of 9 (Some u) (Some d)) =
        Some [([inr 70; inl 1], 9, Some [Some (inl 1); Some (inr 70); Some (inr 10)]); ([inr 72; inl 3], 9, Some [Some (inl 3); Some (inr 72); None]);
              ([inr 71; inl 2], 9, None)]
  | _ => False
  end /\
  (batch_valid (arr N N) arr_len demo_dels /\ delete_schema demo_table = Some (schema_of demo_dels) /\
   rows_of demo_dels = map (fun k => map Some k ++ [Some (inl 9)]) [[inr 71; inl 2]]).
Proof. exact (conj demo_plain (conj demo_valid (conj demo_split demo_txn))). Qed.
