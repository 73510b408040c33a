(** Properties of the storage layers: C06, C27, C31, C32, C33, C37, C47. *)
From Coq Require Import List NArith Bool Sorted Permutation.
From Verif Require Import Base.Order Model.MemTable Model.Immutable Model.SsTable Model.DbScan Model.Version
     Model.Compact Model.Planner Model.Db Model.DbCompact
     Spec.Mvcc Spec.History Spec.LiveSet Spec.Plan Spec.Files Model.Run Spec.Valid
     Proof.LiveFacts Proof.VersionLog Proof.PlannerFacts Proof.Demo Proof.Findings1 Proof.StorageProps Proof.Findings3
     Proof.CompactAny Proof.CompactAnyWit.
Import ListNotations.

(** *** C06: a key upserted and deleted by one call is deleted. *)
(** In the memtable, and from there through any later seal, flush and compaction, when the
    memtable has a free slot for the upserts and one for the deletes. *)
Theorem C06_memtable_partial :
  forall (K : Type) (KO : KeyOrd K) (R : Type) (key_of : R -> option K) row_bytes del_bytes capacity ops,
    1 <= capacity -> (N.of_nat (length ops) < 2 ^ 64)%N ->
    ops_ok key_of row_bytes del_bytes (start capacity) ops ->
    let s := run key_of row_bytes del_bytes (start capacity) ops in
    forall rows span dec, (N.of_nat (length ops) + 1 < 2 ^ 64)%N ->
    Forall (fun p => key_of (fst p) <> None) rows -> rows <> [] ->
    length (m_batches (d_mem (st_db s))) < m_capacity (d_mem (st_db s)) ->   (* missing: see the refutation *)
    length (m_deletes (d_mem (st_db s))) < m_capacity (d_mem (st_db s)) ->
    let r := ingest_with_tombstones key_of rows span dec (st_db s) in
    let s1 := mkSt (fst r) (st_hist s ++ [(d_clock (st_db s), deletes_last key_of rows)]) (st_horizon s) in
    snd r = true /\
    forall ops2, (N.of_nat (length ops) + 1 + N.of_nat (length ops2) < 2 ^ 64)%N ->
      ops_ok key_of row_bytes del_bytes s1 ops2 ->
      let s2 := run key_of row_bytes del_bytes s1 ops2 in
      exists out, read_all key_of (st_db s2) = Some out /\
                  lists_table key_of (final key_of (st_hist s2)) (fun _ => true) out.
Proof. exact c06m_. Qed.
Print Assumptions C06_memtable_partial.

(** In the SST reader: a file with a delete of a key that no visible row of the key is newer
    than yields no row of the key. *)
Theorem C06_sst_reader :
  forall (K : Type) (KO : KeyOrd K) (R : Type) (key_of : R -> option K) (rows : list (K * (R * N))) (t : sst K R) keep ts k u,
    t_rows t = map snd rows -> Forall (fun p => key_of (fst (snd p)) = Some (fst p)) rows ->
    newest_first fst (fun p => snd (snd p)) rows -> newest_first fst snd (t_dels t) ->
    In (k, u) (t_dels t) -> (u <= ts)%N ->
    (forall p, In p rows -> kcmp (fst p) k = Eq -> (snd (snd p) <= ts)%N -> (snd (snd p) <= u)%N) ->
    exists out, sst_scan key_of keep (t_rows t) (t_dels t) ts = Some out /\
      forall k' v r, In ((k', v), Some r) out -> kcmp k' k <> Eq.
Proof. exact c06s_. Qed.
Print Assumptions C06_sst_reader.

(** Not in memory when the call's upserts and deletes fall into two segments. *)
Theorem C06_seal_refuted : exists ops rows out,
  demo_ok ops /\ Forall (fun p => row_key (fst p) <> None) rows /\
  (exists r r', In (r, false) rows /\ In (r', true) rows /\ row_key r = Some 5%N /\ row_key r' = Some 5%N) /\
  snd (ingest_with_tombstones row_key rows None false (st_db (demo_run ops))) = true /\
  read_all row_key (st_db (demo_run (ops ++ [OTomb rows None false; OIngest [rw 9 90] None true]))) = Some out /\
  exists t r, In ((5%N, t), r) out.
Proof. exact tie_wrong_seal. Qed.
Print Assumptions C06_seal_refuted.

(** Not in compaction: the file holds a row and a delete of key 5 with one timestamp; the
    reader hides the row, and after compacting that file alone the row is back. *)
Theorem C06_compaction_refuted : exists ops tk t u before after r,
  concat (d_levels (st_db (demo_run ops))) = [t] /\ In (rw 5 50, u) (t_rows t) /\ In (5%N, u) (t_dels t) /\
  d_imm (st_db (demo_run ops)) = [] /\ m_index (d_mem (st_db (demo_run ops))) = [] /\
  read_all row_key (st_db (demo_run ops)) = Some before /\ (forall v x, ~ In ((5%N, v), x) before) /\
  read_all row_key (st_db (demo_run (ops ++ [OCompact no_caps one_batch tk]))) = Some after /\ In ((5%N, u), r) after.
Proof. exact tie_wrong_compact. Qed.
Print Assumptions C06_compaction_refuted.

Example C06_applies :
  let rows := [(rw 1 11, false); (rw 1 0, true); (rw 2 0, true); (rw 2 22, false); (rw 6 60, false)] in
  let d := st_db (demo_run demo_ops) in
  demo_ok demo_ops /\ Forall (fun p => row_key (fst p) <> None) rows /\
  length (m_batches (d_mem d)) < m_capacity (d_mem d) /\ length (m_deletes (d_mem d)) < m_capacity (d_mem d) /\
  read_all row_key (fst (ingest_with_tombstones row_key rows None true d))
  = Some [((3, 3), rw 3 33); ((4, 1), rw 4 40); ((5, 2), rw 5 50); ((6, 5), rw 6 60)]%N.
Proof. exact demo_tie. Qed.
Example C06_sst_applies :
  let t := mkSst 1%N [(rw 1 10, 0); (rw 3 33, 5); (rw 3 30, 2)]%N [(1, 0); (3, 5)]%N (Some 1%N) (Some 3%N) (Some 0%N) (Some 5%N) in
  newest_first fst (fun p : N * (row * N) => snd (snd p)) [(1, (rw 1 10, 0)); (3, (rw 3 33, 5)); (3, (rw 3 30, 2))]%N /\
  newest_first fst snd (t_dels t) /\
  sst_scan row_key (fun _ => true) (t_rows t) (t_dels t) 7 = Some [((1, 0), None); ((3, 5), None)]%N.
Proof. exact demo_sst_tie. Qed.

(** *** C27: the live SSTs. *)
Theorem C27_live_ssts :
  forall (E : Type) (eid : E -> N) (bs : list (list (edit E))),
    let r := apply_batches eid vstate_empty bs in        (* rejected batches are skipped *)
    shows eid (v_levels (fst r)) (live_edits eid nothing (concat (snd r))).   (* snd r: the accepted ones *)
Proof. exact @c27_live. Qed.
Print Assumptions C27_live_ssts.

Theorem C27_missing_level_rejected :
  forall (E : Type) (eid : E -> N) (bs : list (list (edit E))) l ids es,
    let r := apply_batches eid vstate_empty bs in
    let s := live_edits eid nothing (concat (snd r)) in
    ids <> [] -> (forall l' i, l <= l' -> s l' i = None) ->
    apply_edits eid (fst r) (RemoveSsts l ids :: es) = None.
Proof. exact @c27_missing. Qed.
Print Assumptions C27_missing_level_rejected.

Theorem C27_only_missing_level_rejected :
  forall (E : Type) (eid : E -> N) (bs : list (list (edit E))) es,
    let r := apply_batches eid vstate_empty bs in
    let s := live_edits eid nothing (concat (snd r)) in
    apply_edits eid (fst r) es = None ->
    exists es1 l ids es2, es = es1 ++ RemoveSsts l ids :: es2 /\ ids <> [] /\
      forall l' i, l <= l' -> live_edits eid s es1 l' i = None.
Proof. exact @c27_reject. Qed.
Print Assumptions C27_only_missing_level_rejected.

Example C27_applies :
  let bs := [[AddSsts 0 [3; 1]; AddSsts 2 [7]]; [RemoveSsts 5 [1]; AddSsts 0 [9]]; [RemoveSsts 0 [3]; AddSsts 1 [4]; RemoveSsts 2 [7]]]%N in
  let r := apply_batches (fun x : N => x) vstate_empty bs in
  v_levels (fst r) = [[1]; [4]]%N /\ length (snd r) = 2 /\
  apply_edits (fun x : N => x) (fst r) [RemoveSsts 2 [7%N]] = None.
Proof. exact demo_live. Qed.

(** The watermark and the WAL segments are those of the last accepted edit that set them,
    the segments in order, the floor being the first. *)
Theorem C27_log_references :
  forall (E : Type) (eid : E -> N) (bs : list (list (edit E))),
    let r := apply_batches eid vstate_empty bs in
    v_mark (fst r) = last_mark (concat (snd r)) /\
    Permutation (last_wal (concat (snd r))) (v_wal (fst r)) /\
    StronglySorted (fun a b => (wr_seq a <= wr_seq b)%N) (v_wal (fst r)) /\ v_floor (fst r) = hd_error (v_wal (fst r)).
Proof. exact @c27_log. Qed.
Print Assumptions C27_log_references.
Example C27_log_applies :
  let bs := [[SetWal [mkWR 2 1 5 9; mkWR 1 1 1 4]; SetMark 7]; [RemoveSsts 5 [1%N]; SetMark 9]; [AddSsts 0 [3%N]; SetMark 8]]%N in
  let r := apply_batches (fun x : N => x) vstate_empty bs in
  v_mark (fst r) = Some 8%N /\ v_wal (fst r) = [mkWR 1 1 1 4; mkWR 2 1 5 9]%N /\ v_floor (fst r) = Some (mkWR 1 1 1 4).
Proof. exact demo_log. Qed.

(** *** C31: proposed tasks. *)
Theorem C31_planner_partial :
  forall (K : Type) (KO : KeyOrd K) (E : Type) (eid : E -> N) (estats : E -> option (option K * option K * nat)) cfg ls min_level,
    match plan_version eid estats cfg ls min_level with
    | Some tk => min_level <= tk_source tk /\ exists srcs nexts, good_task eid estats cfg ls tk srcs nexts
    | None => forall l, min_level <= l -> ~ over estats cfg ls l
    end.
Proof. exact @plan_good. Qed.
Print Assumptions C31_planner_partial.

(** [good_task] bounds the files taken from the level over its limit; the whole task can
    have more inputs than configured, and more bytes. *)
Theorem C31_task_size_refuted :
  exists tk, plan_version fst file_stats small_conf wide_levels 0 = Some tk /\
    pc_max_inputs small_conf < length (tk_input tk) /\
    exists srcs nexts, good_task fst file_stats small_conf wide_levels tk srcs nexts /\
      pc_task_bytes small_conf = Some 100 /\ 100 < total_bytes file_stats (srcs ++ nexts).
Proof. exact task_too_large. Qed.
Print Assumptions C31_task_size_refuted.

Example C31_applies :
  plan_version fst file_stats (mkPConf 2 2 None [1] [] 1 None) 
    ([(8%N, (4%N, 5%N, 10)); (9%N, (1%N, 3%N, 10)); (10%N, (7%N, 8%N, 10))] :: tl wide_levels) 0
  = Some (mkTask 0 1 [(0, 9%N); (0, 8%N)] (Some (1%N, 5%N))).
Proof. exact demo_plan. Qed.

(** *** C32: compaction outputs. *)
(** For every database whose files are in key order, every configuration and every way in which
    the reader cuts the files into batches: the outputs are sorted, follow each other in key
    order, hold no key twice, keep the row limit, bring nothing that was not in an input, and
    replace the inputs and nothing else; and the files are again in key order. *)
Theorem C32_outputs :
  forall (K : Type) (KO : KeyOrd K) (R : Type) (key_of : R -> option K) row_bytes del_bytes cf ch tk d d',
    laid_out key_of d -> (forall t, In t (concat (d_levels d)) -> reads_whole ch t) ->
    compact key_of row_bytes del_bytes cf ch tk d = (d', true) ->
    exists ins outs,
      (forall t, In t ins <-> In t (concat (d_levels d)) /\ In (t_id t) (map snd (tk_input tk))) /\
      (forall l t, In t (nth l (d_levels d') []) <->
         (l = tk_target tk /\ In t outs) \/ (In t (nth l (d_levels d) []) /\ ~ In (l, t_id t) (tk_input tk))) /\
      Forall (sorted_file key_of) outs /\ files_ascend key_of outs /\
      (forall c t, mc_rows cf = Some c -> In t outs -> length (t_rows t) <= Nat.max 1 c) /\
      (forall v, some_file key_of outs v -> some_file key_of ins v) /\
      laid_out key_of d'.
Proof. exact @compact_any. Qed.
Print Assumptions C32_outputs.
Theorem C32_laid_out :
  forall (K : Type) (KO : KeyOrd K) (R : Type) (key_of : R -> option K) row_bytes del_bytes capacity ops,
    1 <= capacity -> (N.of_nat (length ops) < 2 ^ 64)%N ->
    ops_ok key_of row_bytes del_bytes (start capacity) ops ->
    laid_out key_of (st_db (run key_of row_bytes del_bytes (start capacity) ops)).
Proof. exact reach_laid_out. Qed.
Print Assumptions C32_laid_out.
(** A file with 1025 rows and a delete, read in batches of 1024, outputs of at most 600 rows. *)
Example C32_outputs_applies :
  laid_out row_key many_db /\ (forall t, reads_whole (batches_of 1024) t) /\
  snd many_after = true /\
  map (fun t => (length (t_rows t), length (t_dels t))) (nth 1 (d_levels (fst many_after)) []) = [(600, 0); (424, 1)].
Proof. exact (conj (proj1 many_laid_out) (conj (proj2 many_laid_out) many_files)). Qed.

(** They hold the newest version of every key of the inputs when no file with both rows and
    deletes comes in several batches, and not otherwise. *)
Theorem C32_compaction_outputs_partial :
  forall (K : Type) (KO : KeyOrd K) (R : Type) (key_of : R -> option K) row_bytes del_bytes capacity ops,
    1 <= capacity -> (N.of_nat (length ops) < 2 ^ 64)%N ->
    ops_ok key_of row_bytes del_bytes (start capacity) ops ->
    let s := run key_of row_bytes del_bytes (start capacity) ops in
    forall cf ch tk d', op_ok key_of s (OCompact cf ch tk) ->     (* missing: C05's counterexample *)
    compact key_of row_bytes del_bytes cf ch tk (st_db s) = (d', true) ->
    exists ins outs,
      (forall t, In t ins <-> In t (concat (d_levels (st_db s))) /\ In (t_id t) (map snd (tk_input tk))) /\
      (forall l t, In t (nth l (d_levels d') []) <->
         (l = tk_target tk /\ In t outs) \/ (In t (nth l (d_levels (st_db s)) []) /\ ~ In (l, t_id t) (tk_input tk))) /\
      Forall (sorted_file key_of) outs /\ files_ascend key_of outs /\
      (forall c t, mc_rows cf = Some c -> In t outs -> length (t_rows t) <= Nat.max 1 c) /\
      (forall v, some_file key_of outs v <-> newest_of key_of ins v).
Proof. exact c32_. Qed.
Print Assumptions C32_compaction_outputs_partial.
Theorem C32_content_refuted :
  exists ops cf tk v,
    demo_ok ops /\ let d := st_db (demo_run ops) in
    let r := compact row_key row_size del_size cf (batches_of 1024) tk d in
    laid_out row_key d /\ (forall t, reads_whole (batches_of 1024) t) /\
    (forall t, In t (concat (d_levels d)) -> In (t_id t) (map snd (tk_input tk))) /\
    snd r = true /\ newest_of row_key (concat (d_levels d)) v /\ ~ some_file row_key (concat (d_levels (fst r))) v.
Proof. exact content_wrong. Qed.
Print Assumptions C32_content_refuted.

Example C32_applies :
  let s := demo_run (firstn 6 demo_ops) in
  let tk := mkTask 0 1 [(0, 1%N); (0, 2%N)] None in
  demo_ok (firstn 6 demo_ops ++ [OCompact (mkConf (Some 2) None 1024) one_batch tk]) /\
  snd (compact row_key row_size del_size (mkConf (Some 2) None 1024) one_batch tk (st_db s)) = true /\
  map (fun t => (t_rows t, t_dels t)) (nth 0 (d_levels (st_db s)) []) =
    [([(rw 1 10, 0); (rw 2 20, 0); (rw 3 30, 0)], []);
     ([(rw 1 11, 2); (rw 3 33, 3); (rw 4 40, 1); (rw 5 50, 2)], [(2, 1); (3, 2)])]%N /\
  map (fun t => (t_rows t, t_dels t))
    (nth 1 (d_levels (fst (compact row_key row_size del_size (mkConf (Some 2) None 1024) one_batch tk (st_db s)))) [])
  = [([(rw 1 11, 2); (rw 3 33, 3)], [(2, 1)]); ([(rw 4 40, 1); (rw 5 50, 2)], [])]%N.
Proof. exact demo_outputs. Qed.

(** *** C33: within one run an identifier names one table for ever.  (Restarts: PRecovery.) *)
Theorem C33_ids_unique_in_a_run :
  forall (K : Type) (KO : KeyOrd K) (R : Type) (key_of : R -> option K) row_bytes del_bytes capacity ops1 ops2,
    1 <= capacity -> (N.of_nat (length (ops1 ++ ops2)) < 2 ^ 64)%N ->
    ops_ok key_of row_bytes del_bytes (start capacity) (ops1 ++ ops2) ->
    forall t t', In t (concat (d_levels (st_db (run key_of row_bytes del_bytes (start capacity) ops1)))) ->
      In t' (concat (d_levels (st_db (run key_of row_bytes del_bytes (start capacity) (ops1 ++ ops2))))) ->
      t_id t = t_id t' -> t = t'.
Proof. exact c33_ids. Qed.
Print Assumptions C33_ids_unique_in_a_run.

Example C33_applies :
  demo_ok demo_ops /\ map (@t_id N row) (concat (d_levels (st_db (demo_run (firstn 6 demo_ops))))) = [1; 2]%N /\
  map (@t_id N row) (concat (d_levels (st_db (demo_run demo_ops)))) = [3]%N.
Proof. exact demo_ids. Qed.

(** *** C37: a rejected write changes no later scan. *)
Theorem C37_rejected_ingest_partial :
  forall (K : Type) (KO : KeyOrd K) (R : Type) (key_of : R -> option K) row_bytes del_bytes capacity ops,
    1 <= capacity -> (N.of_nat (length ops) < 2 ^ 64)%N ->
    ops_ok key_of row_bytes del_bytes (start capacity) ops ->
    let s := run key_of row_bytes del_bytes (start capacity) ops in
    forall rows span dec, (exists r, In r rows /\ key_of r = None) ->
    length (m_batches (d_mem (st_db s))) < m_capacity (d_mem (st_db s)) ->     (* missing: see the refutation *)
    let r := ingest key_of rows span dec (st_db s) in
    snd r = false /\
    forall prune cp txn sn limit,
      scan_txn key_of prune cp txn sn limit (fst r) = scan_txn key_of prune cp txn sn limit (st_db s).
Proof. exact c37i_. Qed.
Print Assumptions C37_rejected_ingest_partial.

Theorem C37_rejected_upsert_partial :
  forall (K : Type) (KO : KeyOrd K) (R : Type) (key_of : R -> option K) row_bytes del_bytes capacity ops,
    1 <= capacity -> (N.of_nat (length ops) < 2 ^ 64)%N ->
    ops_ok key_of row_bytes del_bytes (start capacity) ops ->
    let s := run key_of row_bytes del_bytes (start capacity) ops in
    forall rows span dec, (exists r, In (r, false) rows /\ key_of r = None) ->  (* missing: null keys among the deletes only *)
    length (m_batches (d_mem (st_db s))) < m_capacity (d_mem (st_db s)) ->
    let r := ingest_with_tombstones key_of rows span dec (st_db s) in
    snd r = false /\
    forall prune cp txn sn limit,
      scan_txn key_of prune cp txn sn limit (fst r) = scan_txn key_of prune cp txn sn limit (st_db s).
Proof. exact c37t_. Qed.
Print Assumptions C37_rejected_upsert_partial.

(** The segment sealed to make room for a batch is lost when the batch has a null key. *)
Theorem C37_rejected_ingest_refuted : exists ops rows,
  demo_ok ops /\ snd (ingest row_key rows None false (st_db (demo_run ops))) = false /\
  read_all row_key (st_db (demo_run ops)) = Some [((1, 1023), rw 1 7)]%N /\
  read_all row_key (fst (ingest row_key rows None false (st_db (demo_run ops)))) = Some [].
Proof. exact reject_drops_rows. Qed.
Print Assumptions C37_rejected_ingest_refuted.

(** The upserts of a call rejected for a null key among its deletes stay. *)
Theorem C37_rejected_delete_refuted : exists ops rows,
  demo_ok ops /\ snd (ingest_with_tombstones row_key rows None false (st_db (demo_run ops))) = false /\
  read_all row_key (st_db (demo_run ops)) = Some [((1, 0), rw 1 10)]%N /\
  read_all row_key (fst (ingest_with_tombstones row_key rows None false (st_db (demo_run ops)))) = Some [((1, 1), rw 1 11)]%N.
Proof. exact reject_keeps_upserts. Qed.
Print Assumptions C37_rejected_delete_refuted.

Example C37_applies :
  let d := st_db (demo_run demo_ops) in
  demo_ok demo_ops /\ length (m_batches (d_mem d)) < m_capacity (d_mem d) /\
  snd (ingest row_key [rw 1 99; (None, 5%N); rw 4 99] None true d) = false /\
  m_batches (d_mem (fst (ingest row_key [rw 1 99; (None, 5%N); rw 4 99] None true d))) <> m_batches (d_mem d).
Proof. exact demo_reject. Qed.

(** *** C47: a batch with valid keys is accepted. *)
Theorem C47_valid_ingest_accepted_partial :
  forall (K : Type) (KO : KeyOrd K) (R : Type) (key_of : R -> option K) row_bytes del_bytes capacity ops,
    1 <= capacity -> (N.of_nat (length ops) < 2 ^ 64)%N ->
    ops_ok key_of row_bytes del_bytes (start capacity) ops ->
    let s := run key_of row_bytes del_bytes (start capacity) ops in
    forall rows span dec, Forall (fun r => key_of r <> None) rows ->
    m_index (d_mem (st_db s)) <> [] \/                                          (* missing: see the refutation *)
    length (m_batches (d_mem (st_db s))) < m_capacity (d_mem (st_db s)) ->
    snd (ingest key_of rows span dec (st_db s)) = true.
Proof. exact c47_. Qed.
Print Assumptions C47_valid_ingest_accepted_partial.

(** Batches without rows use up the slots, and then no write is ever accepted. *)
Theorem C47_valid_ingest_accepted_refuted : exists ops, demo_ok ops /\
  forall ops2 rows span dec, Forall only_ingest ops2 ->
    snd (ingest row_key rows span dec (st_db (demo_run (ops ++ ops2)))) = false.
Proof. exact writes_jam. Qed.
Print Assumptions C47_valid_ingest_accepted_refuted.

Example C47_applies :
  demo_ok full /\ length (m_batches (d_mem (st_db (demo_run full)))) = m_capacity (d_mem (st_db (demo_run full))) /\
  m_index (d_mem (st_db (demo_run full))) <> [] /\
  snd (ingest row_key [rw 3 3] None false (st_db (demo_run full))) = true.
Proof. exact demo_accept. Qed.
