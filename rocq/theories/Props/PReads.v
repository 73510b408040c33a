(** Properties of reads over every run of the database: C01-C05, C07, C20, C24, C36.
    A run starts with an empty database ([start]) and performs any list of operations
    ([Model.Run.op]); [ops_ok] excludes null keys in [ingest], a key both written and deleted
    by one [ingest_with_tombstones], and SSTables with rows and deletes that the reader
    returns in several batches (each exclusion is refuted below or in its own file). *)
From Coq Require Import List NArith Bool.
From Verif Require Import Base.Order Model.MemTable Model.Immutable Model.SsTable Model.DbScan
     Model.Compact Model.Planner Model.Db Model.DbCompact Model.Package
     Spec.Mvcc Spec.History Model.Run Spec.Valid
     Proof.Reads Proof.NewerPages Proof.PackageFacts Proof.Demo Proof.Findings1 Proof.ReadProps.
Import ListNotations.

(** *** C01: a scan returns the newest visible version of every key. *)
Theorem C01_scan_newest_visible_partial :
  forall (K : Type) (KO : KeyOrd K) (R : Type) (key_of : R -> option K) row_bytes del_bytes capacity ops prune ts,
    1 <= capacity -> (N.of_nat (length ops) < 2 ^ 64)%N ->
    ops_ok key_of row_bytes del_bytes (start capacity) ops ->
    let s := run key_of row_bytes del_bytes (start capacity) ops in
    Forall (seg_safe ts) (d_imm (st_db s)) ->      (* missing: see the refutation *)
    (st_horizon s <= ts)%N ->                      (* no compaction dropped versions this read needs *)
    (* the pages read: all but some of the newer ones *)
    (forall t, In t (concat (d_levels (st_db s))) -> drops_newer ts (prune t) (t_rows t)) ->
    exists out, scan key_of prune cp_all (mkSnap ts (d_levels (st_db s))) None (st_db s) = Some out /\
                lists_table key_of (as_of key_of (st_hist s) ts) (fun _ => true) out.
Proof. exact c01_scan. Qed.
Print Assumptions C01_scan_newest_visible_partial.

Theorem C01_scan_newest_visible_refuted :
  exists ops ts out,
    demo_ok ops /\ (st_horizon (demo_run ops) <= ts)%N /\ (ts < d_clock (st_db (demo_run ops)))%N /\
    scan row_key (@t_rows N row) cp_all (mkSnap ts (d_levels (st_db (demo_run ops)))) None (st_db (demo_run ops)) = Some out /\
    ~ lists_table row_key (as_of row_key (st_hist (demo_run ops)) ts) (fun _ => true) out.
Proof. exact seg_prune_wrong. Qed.
Print Assumptions C01_scan_newest_visible_refuted.

Example C01_applies :
  demo_ok demo_ops /\ Forall (seg_safe 3) (d_imm (st_db (demo_run demo_ops))) /\
  st_horizon (demo_run demo_ops) = 3%N /\
  scan row_key (@t_rows N row) cp_all (mkSnap 3 (d_levels (st_db (demo_run demo_ops)))) None (st_db (demo_run demo_ops))
  = Some [((1, 2), rw 1 11); ((3, 3), rw 3 33); ((4, 1), rw 4 40); ((5, 2), rw 5 50)]%N.
Proof. exact demo_read_3. Qed.

(** Which of the newer pages are read makes no difference, to any read without predicate, of
    any snapshot, in any state whose rows have keys (C02-C05 and others below read all). *)
Theorem C01_newer_pages :
  forall (K : Type) (KO : KeyOrd K) (R : Type) (key_of : R -> option K) prune txn sn limit (d : db K R),
    (forall t, In t (concat (sn_levels sn)) -> drops_newer (sn_ts sn) (prune t) (t_rows t)) ->
    (forall t r u, In t (concat (sn_levels sn)) -> In (r, u) (t_rows t) -> key_of r <> None) ->
    scan_txn key_of prune cp_all txn sn limit d = scan_txn key_of (@t_rows K R) cp_all txn sn limit d.
Proof. exact @newer_pages. Qed.
Print Assumptions C01_newer_pages.

(** A file with a row newer than the read, and one with only such rows, which is not opened. *)
Example C01_newer_applies :
  let d := st_db (demo_run newer_ops) in
  demo_ok newer_ops /\ Forall (seg_safe 0) (d_imm d) /\ st_horizon (demo_run newer_ops) = 0%N /\
  map (@t_rows N row) (concat (d_levels d)) = [[(rw 1 11, 1); (rw 1 10, 0); (rw 2 20, 0)]; [(rw 2 22, 2); (rw 3 30, 2)]]%N /\
  map (not_newer 0) (concat (d_levels d)) = [[(rw 1 10, 0); (rw 2 20, 0)]; []]%N /\
  (forall t, In t (concat (d_levels d)) -> drops_newer 0 (not_newer 0 t) (t_rows t)) /\
  scan row_key (not_newer 0) cp_all (mkSnap 0 (d_levels d)) None d = Some [((1, 0), rw 1 10); ((2, 0), rw 2 20)]%N.
Proof. exact newer_read. Qed.

(** *** C02: a read of a fresh snapshot returns the acknowledged mutations applied in order. *)
Theorem C02_latest_read_partial :
  forall (K : Type) (KO : KeyOrd K) (R : Type) (key_of : R -> option K) row_bytes del_bytes capacity ops,
    1 <= capacity -> (N.of_nat (length ops) < 2 ^ 64)%N ->
    ops_ok key_of row_bytes del_bytes (start capacity) ops ->
    let s := run key_of row_bytes del_bytes (start capacity) ops in
    exists out, read_all key_of (st_db s) = Some out /\
                lists_table key_of (final key_of (st_hist s)) (fun _ => true) out.
Proof. exact c02_latest. Qed.
Print Assumptions C02_latest_read_partial.

Theorem C02_latest_read_refuted :
  exists ops out,
    read_all row_key (st_db (demo_run ops)) = Some out /\
    ~ lists_table row_key (final row_key (st_hist (demo_run ops))) (fun _ => true) out.
Proof. exact latest_wrong_compact. Qed.
Print Assumptions C02_latest_read_refuted.

Example C02_applies :
  demo_ok demo_ops /\ length (st_hist (demo_run demo_ops)) = 5 /\
  read_all row_key (st_db (demo_run demo_ops))
  = Some [((1, 4), rw 1 12); ((3, 3), rw 3 33); ((4, 1), rw 4 40); ((5, 2), rw 5 50)]%N.
Proof. exact demo_read_latest. Qed.

(** *** C03: sealing the memtable changes no read. *)
Theorem C03_seal_keeps_reads_partial :
  forall (K : Type) (KO : KeyOrd K) (R : Type) (key_of : R -> option K) row_bytes del_bytes capacity ops ts,
    1 <= capacity -> (N.of_nat (length ops) < 2 ^ 64)%N ->
    ops_ok key_of row_bytes del_bytes (start capacity) ops ->
    let s := run key_of row_bytes del_bytes (start capacity) ops in
    exists d', seal_now key_of (st_db s) = (d', true) /\
      (Forall (seg_safe ts) (d_imm d') -> (st_horizon s <= ts)%N ->
       exists out,
         scan key_of (@t_rows K R) cp_all (mkSnap ts (d_levels (st_db s))) None (st_db s) = Some out /\
         scan key_of (@t_rows K R) cp_all (mkSnap ts (d_levels d')) None d' = Some out).
Proof. exact c03_seal. Qed.
Print Assumptions C03_seal_keeps_reads_partial.

Theorem C03_seal_keeps_reads_refuted :
  exists ops ts before d' after,
    demo_ok ops /\ (st_horizon (demo_run ops) <= ts)%N /\
    scan row_key (@t_rows N row) cp_all (mkSnap ts (d_levels (st_db (demo_run ops)))) None (st_db (demo_run ops)) = Some before /\
    seal_now row_key (st_db (demo_run ops)) = (d', true) /\
    scan row_key (@t_rows N row) cp_all (mkSnap ts (d_levels d')) None d' = Some after /\ before <> after.
Proof. exact seal_wrong. Qed.
Print Assumptions C03_seal_keeps_reads_refuted.

Example C03_applies :
  exists d', seal_now row_key (st_db (demo_run demo_ops)) = (d', true) /\ d_imm d' <> d_imm (st_db (demo_run demo_ops)) /\
             Forall (seg_safe 4) (d_imm d').
Proof. exact demo_seal. Qed.

(** *** C04: flushing changes no read. *)
Theorem C04_flush_keeps_reads_partial :
  forall (K : Type) (KO : KeyOrd K) (R : Type) (key_of : R -> option K) row_bytes del_bytes capacity ops level ts,
    1 <= capacity -> (N.of_nat (length ops) < 2 ^ 64)%N ->
    ops_ok key_of row_bytes del_bytes (start capacity) ops ->
    let s := run key_of row_bytes del_bytes (start capacity) ops in
    let d' := fst (flush key_of level (st_db s)) in
    Forall (seg_safe ts) (d_imm (st_db s)) -> (st_horizon s <= ts)%N ->
    exists out,
      scan key_of (@t_rows K R) cp_all (mkSnap ts (d_levels (st_db s))) None (st_db s) = Some out /\
      scan key_of (@t_rows K R) cp_all (mkSnap ts (d_levels d')) None d' = Some out.
Proof. exact c04_flush. Qed.
Print Assumptions C04_flush_keeps_reads_partial.

Theorem C04_flush_keeps_reads_refuted :
  exists ops ts before after,
    demo_ok ops /\ (st_horizon (demo_run ops) <= ts)%N /\
    let d' := fst (flush row_key 0 (st_db (demo_run ops))) in
    scan row_key (@t_rows N row) cp_all (mkSnap ts (d_levels (st_db (demo_run ops)))) None (st_db (demo_run ops)) = Some before /\
    scan row_key (@t_rows N row) cp_all (mkSnap ts (d_levels d')) None d' = Some after /\ before <> after.
Proof. exact flush_wrong. Qed.
Print Assumptions C04_flush_keeps_reads_refuted.

Example C04_applies :
  let s := demo_run (demo_ops ++ [OIngest [rw 9 90] None true]) in
  demo_ok (demo_ops ++ [OIngest [rw 9 90] None true]) /\ length (d_imm (st_db s)) = 1 /\
  d_imm (st_db (demo_run (demo_ops ++ [OIngest [rw 9 90] None true; OFlush 0]))) = [] /\
  Forall (seg_safe 5) (d_imm (st_db s)) /\ (st_horizon s <= 5)%N.
Proof. exact demo_flush. Qed.

(** *** C05: compaction changes no read that is not older than the newest merged version. *)
Theorem C05_compaction_keeps_reads_partial :
  forall (K : Type) (KO : KeyOrd K) (R : Type) (key_of : R -> option K) row_bytes del_bytes capacity ops cf ch tk ts,
    1 <= capacity -> (N.of_nat (length ops) < 2 ^ 64)%N ->
    ops_ok key_of row_bytes del_bytes (start capacity) ops ->
    let s := run key_of row_bytes del_bytes (start capacity) ops in
    let d' := fst (compact key_of row_bytes del_bytes cf ch tk (st_db s)) in
    (forall l t, In (l, t_id t) (tk_input tk) -> In t (concat (d_levels (st_db s))) -> faithful ch t) ->
    Forall (seg_safe ts) (d_imm (st_db s)) -> (st_horizon s <= ts)%N ->
    (newest_input (st_db s) tk <= ts)%N ->
    exists out,
      scan key_of (@t_rows K R) cp_all (mkSnap ts (d_levels (st_db s))) None (st_db s) = Some out /\
      scan key_of (@t_rows K R) cp_all (mkSnap ts (d_levels d')) None d' = Some out.
Proof. exact c05_compact. Qed.
Print Assumptions C05_compaction_keeps_reads_partial.

(** Without [faithful]: a reader that returns batches of 1024 rows loses a row. *)
Theorem C05_compaction_keeps_reads_refuted :
  exists ops tk before after,
    demo_ok ops /\
    (forall t, concat (fst (batches_of 1024 t)) = t_rows t /\ concat (snd (batches_of 1024 t)) = t_dels t) /\
    read_all row_key (st_db (demo_run ops)) = Some before /\ length before = 1025 /\
    read_all row_key (fst (compact row_key row_size del_size no_caps (batches_of 1024) tk (st_db (demo_run ops)))) = Some after /\
    length after = 1024.
Proof. exact compact_wrong. Qed.
Print Assumptions C05_compaction_keeps_reads_refuted.

Example C05_applies :
  let s := demo_run (firstn 6 demo_ops) in
  let tk := mkTask 0 1 [(0, 1%N); (0, 2%N)] None in
  demo_ok (firstn 6 demo_ops) /\ (forall t, faithful one_batch t) /\
  map (@t_id N row) (concat (d_levels (st_db s))) = [1; 2]%N /\ newest_input (st_db s) tk = 3%N /\
  map (@t_id N row) (concat (d_levels (fst (compact row_key row_size del_size no_caps one_batch tk (st_db s))))) = [3]%N.
Proof. exact demo_compact. Qed.

(** *** C07: LIMIT returns the first rows of the unlimited scan. *)
Theorem C07_limit_is_prefix :
  forall (K : Type) (KO : KeyOrd K) (R : Type) (key_of : R -> option K) prune cp txn sn n (d : db K R) full,
    scan_txn key_of prune cp txn sn None d = Some full ->
    scan_txn key_of prune cp txn sn (Some n) d = Some (firstn n full).
Proof. exact @scan_limit. Qed.
Print Assumptions C07_limit_is_prefix.

Example C07_applies :
  scan row_key (@t_rows N row) cp_all (begin_snapshot (st_db (demo_run demo_ops))) (Some 2) (st_db (demo_run demo_ops))
  = Some [((1, 4), rw 1 12); ((3, 3), rw 3 33)]%N.
Proof. exact demo_limit. Qed.

(** The batches handed to the caller: none is empty, none exceeds the batch size, and
    together they are the (limited) rows, however the upstream polls come in. *)
Theorem C07_batches :
  forall (A : Type) (keep : A -> bool) batch_size limit polls,
    1 <= batch_size ->
    exists bs, package_stream keep batch_size limit polls = Some bs /\
      Forall (fun b => b <> [] /\ length b <= batch_size) bs /\
      concat bs = match limit with
                  | Some l => firstn l (filter keep (flat_map (fun p => match p with Some a => [a] | None => [] end) polls))
                  | None => filter keep (flat_map (fun p => match p with Some a => [a] | None => [] end) polls)
                  end.
Proof. exact @package_stream_spec. Qed.
Print Assumptions C07_batches.

Example C07_batches_applies :
  package_stream Nat.even 2 (Some 3) [Some 2; None; Some 3; Some 4; Some 6; None; None; Some 8; Some 10] = Some [[2]; [4; 6]].
Proof. reflexivity. Qed.

(** *** C20: an open snapshot keeps reading the same rows. *)
Theorem C20_snapshot_stable_partial :
  forall (K : Type) (KO : KeyOrd K) (R : Type) (key_of : R -> option K) row_bytes del_bytes capacity ops1 ops2,
    1 <= capacity -> (N.of_nat (length (ops1 ++ ops2)) < 2 ^ 64)%N ->
    ops_ok key_of row_bytes del_bytes (start capacity) (ops1 ++ ops2) ->
    let s1 := run key_of row_bytes del_bytes (start capacity) ops1 in
    let s2 := run key_of row_bytes del_bytes s1 ops2 in
    let sn := begin_snapshot (st_db s1) in
    (* missing: flushes, the snapshot before the first commit, and the segments of C01 *)
    (forall o level, In o ops2 -> o <> OFlush level) ->
    (1 <= d_clock (st_db s1))%N ->
    Forall (seg_safe (sn_ts sn)) (d_imm (st_db s2)) ->
    exists out, scan key_of (@t_rows K R) cp_all sn None (st_db s1) = Some out /\
                scan key_of (@t_rows K R) cp_all sn None (st_db s2) = Some out.
Proof. exact c20_snapshot. Qed.
Print Assumptions C20_snapshot_stable_partial.

Theorem C20_snapshot_flush_refuted :
  exists ops1 before,
    demo_ok (ops1 ++ [OFlush 0]) /\
    let sn := begin_snapshot (st_db (demo_run ops1)) in
    scan row_key (@t_rows N row) cp_all sn None (st_db (demo_run ops1)) = Some before /\ before <> [] /\
    scan row_key (@t_rows N row) cp_all sn None (st_db (demo_run (ops1 ++ [OFlush 0]))) = Some [].
Proof. exact snapshot_wrong_flush. Qed.
Print Assumptions C20_snapshot_flush_refuted.

Theorem C20_snapshot_seal_refuted :
  exists ops1 ops2 before after,
    demo_ok (ops1 ++ ops2) /\ Forall no_flush ops2 /\
    let sn := begin_snapshot (st_db (demo_run ops1)) in
    scan row_key (@t_rows N row) cp_all sn None (st_db (demo_run ops1)) = Some before /\
    scan row_key (@t_rows N row) cp_all sn None (st_db (demo_run (ops1 ++ ops2))) = Some after /\ before <> after.
Proof. exact snapshot_wrong_seal. Qed.
Print Assumptions C20_snapshot_seal_refuted.

Theorem C20_first_snapshot_refuted :
  exists o after,
    demo_ok [o] /\
    let sn := begin_snapshot (st_db (demo_run [])) in
    scan row_key (@t_rows N row) cp_all sn None (st_db (demo_run [])) = Some [] /\
    scan row_key (@t_rows N row) cp_all sn None (st_db (demo_run [o])) = Some after /\ after <> [].
Proof. exact snapshot_wrong_first. Qed.
Print Assumptions C20_first_snapshot_refuted.

Example C20_applies :
  let ops2 := [OIngest [rw 1 13] None true; OTomb [(rw 4 0, true)] None false;
               OCompact no_caps one_batch (mkTask 1 2 [(1, 3%N)] None)] in
  demo_ok (demo_ops ++ ops2) /\ d_clock (st_db (demo_run demo_ops)) = 5%N /\
  Forall (seg_safe 4) (d_imm (st_db (demo_run (demo_ops ++ ops2)))) /\
  map (@t_id N row) (concat (d_levels (st_db (demo_run (demo_ops ++ ops2))))) = [4]%N /\
  read_all row_key (st_db (demo_run (demo_ops ++ ops2)))
  = Some [((1, 5), rw 1 13); ((3, 3), rw 3 33); ((5, 2), rw 5 50)]%N.
Proof. exact demo_snapshot. Qed.

(** *** C24: every read sees a prefix of the commits, each of them whole. *)
Theorem C24_reads_see_whole_commits_partial :
  forall (K : Type) (KO : KeyOrd K) (R : Type) (key_of : R -> option K) row_bytes del_bytes capacity ops ts,
    1 <= capacity -> (N.of_nat (length ops) < 2 ^ 64)%N ->
    ops_ok key_of row_bytes del_bytes (start capacity) ops ->
    let s := run key_of row_bytes del_bytes (start capacity) ops in
    Forall (seg_safe ts) (d_imm (st_db s)) -> (st_horizon s <= ts)%N ->
    exists n out,
      scan key_of (@t_rows K R) cp_all (mkSnap ts (d_levels (st_db s))) None (st_db s) = Some out /\
      lists_table key_of (final key_of (firstn n (st_hist s))) (fun _ => true) out /\
      (forall c, In c (firstn n (st_hist s)) -> (fst c <= ts)%N) /\
      (forall c, In c (skipn n (st_hist s)) -> (ts < fst c)%N).
Proof. exact c24_whole. Qed.
Print Assumptions C24_reads_see_whole_commits_partial.

(** *** C36: a batch with delete flags leaves each key in its last state. *)
Theorem C36_ingest_with_tombstones_partial :
  forall (K : Type) (KO : KeyOrd K) (R : Type) (key_of : R -> option K) row_bytes del_bytes capacity ops rows span dec,
    1 <= capacity -> (N.of_nat (S (length ops)) < 2 ^ 64)%N ->
    ops_ok key_of row_bytes del_bytes (start capacity) ops ->
    Forall (fun p : R * bool => key_of (fst p) <> None) rows ->
    tomb_separate key_of rows ->                   (* missing: a key deleted and written by the batch *)
    let s := run key_of row_bytes del_bytes (start capacity) ops in
    let '(d', ok) := ingest_with_tombstones key_of rows span dec (st_db s) in
    ok = true -> rows <> [] ->
    exists out, read_all key_of d' = Some out /\
      lists_table key_of (apply_commit key_of (final key_of (st_hist s))
                            (d_clock (st_db s), map (fun p : R * bool => match key_of (fst p) with
                                                             | Some k => if snd p then Del k else Put (fst p)
                                                             | None => Put (fst p)
                                                             end) rows)) (fun _ => true) out.
Proof. exact c36_tombstones. Qed.
Print Assumptions C36_ingest_with_tombstones_partial.

Theorem C36_ingest_with_tombstones_refuted :
  exists rows out,
    Forall (fun p => row_key (fst p) <> None) rows /\
    read_all row_key (st_db (demo_run [OTomb rows None false])) = Some out /\
    ~ lists_table row_key (final row_key [(0%N, tomb_muts row_key rows)]) (fun _ => true) out /\
    st_hist (demo_run [OTomb rows None false]) = [(0%N, tomb_muts row_key rows)].
Proof. exact tombstones_wrong. Qed.
Print Assumptions C36_ingest_with_tombstones_refuted.

Example C36_applies :
  let rows := [(rw 1 0, true); (rw 2 21, false); (rw 2 22, false); (rw 3 0, true); (rw 3 1, true)] in
  tomb_separate row_key rows /\
  snd (ingest_with_tombstones row_key rows None true (st_db (demo_run demo_ops))) = true /\
  read_all row_key (fst (ingest_with_tombstones row_key rows None true (st_db (demo_run demo_ops))))
  = Some [((2, 5), rw 2 22); ((4, 1), rw 4 40); ((5, 2), rw 5 50)]%N.
Proof. exact demo_tombs. Qed.
