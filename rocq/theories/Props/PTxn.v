(** Properties of transactions, range scans and segment pruning: C21, C22, C23, C38, C39,
    C41.  [ops_ok] as in [Props.PReads]. *)
From Coq Require Import List NArith Bool.
From Verif Require Import Base.Order Model.OMap Model.KeyTs Model.MemTable Model.Immutable Model.SsTable
     Model.KeyBounds Model.DbScan Model.Compact Model.Planner Model.Db Model.DbCompact Model.Txn
     Spec.Mvcc Spec.History Spec.KeySet Model.Run Spec.Valid
     Proof.KeyBoundsFacts Proof.Reads Proof.TxnProps Proof.Demo Proof.Findings1 Proof.Findings2 Proof.TxnWrap.
Import ListNotations.

(** *** C21: a scan in a transaction sees the staged calls applied to its snapshot. *)
(** The transaction begins in the state it scans: no restriction on the read timestamp. *)
Theorem C21_txn_scan_overlay_fresh :
  forall (K : Type) (KO : KeyOrd K) (R : Type) (key_of : R -> option K) row_bytes del_bytes capacity ops calls,
    1 <= capacity -> (N.of_nat (length ops) < 2 ^ 64)%N ->
    ops_ok key_of row_bytes del_bytes (start capacity) ops ->
    let s := run key_of row_bytes del_bytes (start capacity) ops in
    let sn := begin_snapshot (st_db s) in
    exists out,
      scan_txn key_of (@t_rows K R) cp_all (Some (stage key_of calls)) sn None (st_db s) = Some out /\
      lists_table key_of (fold_left (apply_mut key_of (sn_ts sn)) calls (final key_of (st_hist s))) (fun _ => true) out.
Proof. exact c21_fresh. Qed.
Print Assumptions C21_txn_scan_overlay_fresh.

(** The transaction's snapshot is older than the state it scans. *)
Theorem C21_txn_scan_overlay_partial :
  forall (K : Type) (KO : KeyOrd K) (R : Type) (key_of : R -> option K) row_bytes del_bytes capacity ops ts calls,
    1 <= capacity -> (N.of_nat (length ops) < 2 ^ 64)%N ->
    ops_ok key_of row_bytes del_bytes (start capacity) ops ->
    let s := run key_of row_bytes del_bytes (start capacity) ops in
    Forall (seg_safe ts) (d_imm (st_db s)) ->      (* missing, as in C01 and C20 *)
    (st_horizon s <= ts)%N ->
    exists out,
      scan_txn key_of (@t_rows K R) cp_all (Some (stage key_of calls)) (mkSnap ts (d_levels (st_db s))) None (st_db s) = Some out /\
      lists_table key_of (fold_left (apply_mut key_of ts) calls (as_of key_of (st_hist s) ts)) (fun _ => true) out.
Proof. exact c21_older. Qed.
Print Assumptions C21_txn_scan_overlay_partial.

Theorem C21_txn_scan_overlay_refuted :
  exists ops1 calls before after,
    demo_ok (ops1 ++ [OFlush 0]) /\
    let sn := begin_snapshot (st_db (demo_run ops1)) in
    scan_txn row_key (@t_rows N row) cp_all (Some (stage row_key calls)) sn None (st_db (demo_run ops1)) = Some before /\
    scan_txn row_key (@t_rows N row) cp_all (Some (stage row_key calls)) sn None (st_db (demo_run (ops1 ++ [OFlush 0]))) = Some after /\
    before <> after.
Proof. exact txn_flush_wrong. Qed.
Print Assumptions C21_txn_scan_overlay_refuted.

Example C21_applies :
  demo_ok demo_ops /\
  scan_txn row_key (@t_rows N row) cp_all
    (Some (stage row_key [Put (rw 2 21); Del 3%N; Put (rw 1 13); Put (rw 1 14); Del 4%N; Put (rw 4 41)]))
    (begin_snapshot (st_db (demo_run demo_ops))) None (st_db (demo_run demo_ops))
  = Some [((1, 4), rw 1 14); ((2, 4), rw 2 21); ((4, 4), rw 4 41); ((5, 2), rw 5 50)]%N.
Proof. exact (conj demo_ops_ok demo_txn_scan). Qed.

(** *** C22: a transactional get returns what the transaction's scan returns for the key. *)
Theorem C22_get_is_scan_partial :
  forall (K : Type) (KO : KeyOrd K) (R : Type) (key_of : R -> option K) row_bytes del_bytes capacity ops ts calls k,
    1 <= capacity -> (N.of_nat (length ops) < 2 ^ 64)%N ->
    ops_ok key_of row_bytes del_bytes (start capacity) ops ->
    let s := run key_of row_bytes del_bytes (start capacity) ops in
    Forall (seg_safe ts) (d_imm (st_db s)) -> (st_horizon s <= ts)%N ->
    (* missing: keys with a version in an SST, and keys with versions in several of
       memtable and immutable segments *)
    (forall t, In t (concat (d_levels (st_db s))) -> ~ sst_holds key_of ts k t) ->
    length (filter (holdsb ts k) (layer_keys (st_db s))) <= 1 ->
    exists out,
      scan_txn key_of (@t_rows K R) cp_all (Some (stage key_of calls)) (mkSnap ts (d_levels (st_db s))) None (st_db s) = Some out /\
      txn_get ts (stage key_of calls) k (st_db s) = Some (option_map snd (find (fun e => keqb (fst (fst e)) k) out)).
Proof. exact c22_get. Qed.
Print Assumptions C22_get_is_scan_partial.

(** A flushed row is not found. *)
Theorem C22_get_misses_flushed_refuted :
  exists ops k r,
    demo_ok ops /\ read_all row_key (st_db (demo_run ops)) = Some [((k, 0%N), r)] /\
    txn_get (sn_ts (begin_snapshot (st_db (demo_run ops)))) [] k (st_db (demo_run ops)) = Some None.
Proof. exact get_misses_sst. Qed.
Print Assumptions C22_get_misses_flushed_refuted.
(** A deleted row is returned while the row itself is in an older segment. *)
Theorem C22_get_returns_deleted_refuted :
  exists ops k r,
    demo_ok ops /\ read_all row_key (st_db (demo_run ops)) = Some [] /\
    txn_get (sn_ts (begin_snapshot (st_db (demo_run ops)))) [] k (st_db (demo_run ops)) = Some (Some r).
Proof. exact get_ignores_tombstone. Qed.
Print Assumptions C22_get_returns_deleted_refuted.
(** Of two segments the older one wins. *)
Theorem C22_get_returns_old_row_refuted :
  exists ops k r r',
    demo_ok ops /\ read_all row_key (st_db (demo_run ops)) = Some [((k, 1%N), r)] /\
    txn_get (sn_ts (begin_snapshot (st_db (demo_run ops)))) [] k (st_db (demo_run ops)) = Some (Some r') /\ r <> r'.
Proof. exact get_oldest. Qed.
Print Assumptions C22_get_returns_old_row_refuted.

Example C22_applies :
  let s := demo_run get_ops in
  demo_ok get_ops /\ Forall (seg_safe 2) (d_imm (st_db s)) /\ (st_horizon s <= 2)%N /\
  (forall t, In t (concat (d_levels (st_db s))) -> ~ sst_holds row_key 2 3%N t) /\
  length (filter (holdsb 2 3%N) (layer_keys (st_db s))) = 1 /\
  txn_get 2 [] 3%N (st_db s) = Some (Some (rw 3 30)).
Proof. exact demo_get. Qed.

(** *** C23: the commit fails exactly when a commit after the snapshot wrote one of the keys. *)
Theorem C23_conflicts_detected_partial :
  forall (K : Type) (KO : KeyOrd K) (R : Type) (key_of : R -> option K) row_bytes del_bytes capacity ops1 ops2 calls span,
    1 <= capacity -> (N.of_nat (length (ops1 ++ ops2)) < 2 ^ 64)%N ->
    ops_ok key_of row_bytes del_bytes (start capacity) (ops1 ++ ops2) ->
    let s1 := run key_of row_bytes del_bytes (start capacity) ops1 in
    let s2 := run key_of row_bytes del_bytes s1 ops2 in
    let sn := begin_snapshot (st_db s1) in
    (* missing: flushes after the snapshot, the snapshot before the first commit, and
       interleavings of two commit calls *)
    (forall o level, In o ops2 -> o <> OFlush level) ->
    (1 <= d_clock (st_db s1))%N ->
    exists later, st_hist s2 = st_hist s1 ++ later /\
      (commit key_of (sn_ts sn) (stage key_of calls) span (st_db s2) = (st_db s2, CConflict) <->
       exists c u k, In c later /\ In u calls /\ mut_key key_of u = Some k /\ writes_key key_of k c) /\
      (snd (commit key_of (sn_ts sn) (stage key_of calls) span (st_db s2)) = COk ->
       forall c u k, In c later -> In u calls -> mut_key key_of u = Some k -> ~ writes_key key_of k c).
Proof. exact c23_conflict. Qed.
Print Assumptions C23_conflicts_detected_partial.

Theorem C23_conflict_after_flush_refuted :
  exists ops1 ops2 calls c,
    demo_ok (ops1 ++ ops2) /\
    let s1 := demo_run ops1 in let s2 := demo_run (ops1 ++ ops2) in
    (1 <= d_clock (st_db s1))%N /\ In c (st_hist s2) /\ ~ In c (st_hist s1) /\
    (forall u, In u calls -> exists k, mut_key row_key u = Some k /\ writes_key row_key k c) /\
    snd (commit row_key (sn_ts (begin_snapshot (st_db s1))) (stage row_key calls) None (st_db s2)) = COk.
Proof. exact conflict_missed. Qed.
Print Assumptions C23_conflict_after_flush_refuted.

Theorem C23_conflict_with_first_commit_refuted :
  exists ops2 calls c,
    demo_ok ops2 /\ Forall no_flush ops2 /\
    st_hist (demo_run ops2) = [c] /\
    (forall u, In u calls -> exists k, mut_key row_key u = Some k /\ writes_key row_key k c) /\
    snd (commit row_key (sn_ts (begin_snapshot (st_db (demo_run [])))) (stage row_key calls) None (st_db (demo_run ops2))) = COk.
Proof. exact conflict_missed_first. Qed.
Print Assumptions C23_conflict_with_first_commit_refuted.

Example C23_applies :
  let ops2 := [OCommit 4 [Put (rw 4 44); Del 1%N] None; OIngest [rw 7 70] None true] in
  demo_ok (demo_ops ++ ops2) /\ Forall no_flush ops2 /\ d_clock (st_db (demo_run demo_ops)) = 5%N /\
  snd (commit row_key 4 (stage row_key [Put (rw 4 45)]) None (st_db (demo_run (demo_ops ++ ops2)))) = CConflict /\
  snd (commit row_key 4 (stage row_key [Put (rw 5 55)]) None (st_db (demo_run (demo_ops ++ ops2)))) = COk.
Proof. exact demo_conflict. Qed.

(** *** C38: a range scan of the memtable or of a segment is the full scan restricted to the range. *)
Theorem C38_range_scan :
  forall (K : Type) (KO : KeyOrd K) (R : Type) (key_of : R -> option K) row_bytes del_bytes capacity ops ts lo hi,
    1 <= capacity -> (N.of_nat (length ops) < 2 ^ 64)%N ->
    ops_ok key_of row_bytes del_bytes (start capacity) ops ->
    let d := st_db (run key_of row_bytes del_bytes (start capacity) ops) in
    (exists full part,
       mem_scan (d_mem d) ts None = Some full /\ mem_scan (d_mem d) ts (Some (lo, hi)) = Some part /\
       ascending vkey full /\ ascending vkey part /\
       forall v, In v part <-> In v full /\ within lo hi (vkey v)) /\
    (forall g, In g (d_imm d) -> exists full part,
       seg_scan g ts None = Some full /\ seg_scan g ts (Some (lo, hi)) = Some part /\
       ascending vkey full /\ ascending vkey part /\
       forall v, In v part <-> In v full /\ within lo hi (vkey v)).
Proof. exact c38_range. Qed.
Print Assumptions C38_range_scan.

Example C38_applies :
  let d := st_db (demo_run range_ops) in
  demo_ok range_ops /\
  map (fun g => seg_scan g 1 (Some (Excluded 1%N, Excluded 4%N))) (d_imm d)
  = [Some [((2, 1), None); ((3, 0), Some (rw 3 30))]]%N /\
  mem_scan (d_mem d) 2 (Some (Included 3%N, Excluded 5%N)) = Some [((3, 2)%N, Some (rw 3 31))].
Proof. exact demo_range. Qed.

(** *** C39: a skipped segment has no version (or tombstone) the read could need. *)
Theorem C39_pruning_sound_partial :
  forall (K : Type) (KO : KeyOrd K) (R : Type) (key_of : R -> option K) row_bytes del_bytes capacity ops ts kb,
    1 <= capacity -> (N.of_nat (length ops) < 2 ^ 64)%N ->
    ops_ok key_of row_bytes del_bytes (start capacity) ops ->
    let d := st_db (run key_of row_bytes del_bytes (start capacity) ops) in
    Forall (seg_safe ts) (d_imm d) ->              (* missing: see the refutation *)
    forall i g, nth_error (d_imm d) i = Some g -> ~ In i (prune_segments (option_map kb_overlaps kb) ts (d_imm d)) ->
    exists vs, seg_scan g ts None = Some vs /\
      forall v, In v vs -> exists b, kb = Some b /\ kb_in b (vkey v) = false.
Proof. exact c39_prune. Qed.
Print Assumptions C39_pruning_sound_partial.

Theorem C39_pruning_sound_refuted :
  exists ops ts i g t,
    demo_ok ops /\ nth_error (d_imm (st_db (demo_run ops))) i = Some g /\
    ~ In i (prune_segments None ts (d_imm (st_db (demo_run ops)))) /\
    seg_scan g ts None = Some [((1%N, t), None)].
Proof. exact prune_hides_tombstone. Qed.
Print Assumptions C39_pruning_sound_refuted.

Example C39_applies :
  let d := st_db (demo_run range_ops) in
  demo_ok range_ops /\ Forall (seg_safe 1) (d_imm d) /\
  length (d_imm d) = 1 /\ prune_segments (Some (kb_overlaps (kb_with_lower 4%N false))) 1 (d_imm d) = [].
Proof. exact demo_prune. Qed.

(** *** C41: the algebra of key ranges; [kb_in] is membership. *)
Theorem C41_intersection_exact :
  forall (K : Type) (KO : KeyOrd K) (a b : kbounds K) k, kb_in (kb_intersect a b) k = kb_in a k && kb_in b k.
Proof. exact @kb_intersect_in. Qed.
Print Assumptions C41_intersection_exact.
Theorem C41_union_contains_both :
  forall (K : Type) (KO : KeyOrd K) (a b : kbounds K) k,
    kb_in a k = true \/ kb_in b k = true -> kb_in (kb_union a b) k = true.
Proof. exact @kb_union_in. Qed.
Print Assumptions C41_union_contains_both.
(** Nothing beyond the envelope: a key of the union is not below all keys the two ranges
    admit nor above them. *)
Theorem C41_union_is_envelope :
  forall (K : Type) (KO : KeyOrd K) (a b : kbounds K) k,
    kb_empty a = false -> kb_empty b = false -> kb_in (kb_union a b) k = true ->
    (kb_above (kb_lower a) k = true \/ kb_above (kb_lower b) k = true) /\
    (kb_below (kb_upper a) k = true \/ kb_below (kb_upper b) k = true).
Proof. exact @kb_union_envelope. Qed.
Print Assumptions C41_union_is_envelope.
Theorem C41_range_of_two_bounds :
  forall (K : Type) (KO : KeyOrd K) (lo hi : K * bool) k,
    kb_in (kb_with_range lo hi) k = kb_above (Some lo) k && kb_below (Some hi) k.
Proof. exact @kb_with_range_in. Qed.
Print Assumptions C41_range_of_two_bounds.
(** A rejected interval of keys has no key of the range; an accepted one is cut off by
    neither bound. *)
Theorem C41_overlaps :
  forall (K : Type) (KO : KeyOrd K) (b : kbounds K) mn mx,
    (kb_overlaps b mn mx = false -> forall k, kcmp mn k <> Gt -> kcmp k mx <> Gt -> kb_in b k = false) /\
    (kb_overlaps b mn mx = true <->
     kb_empty b = false /\ kb_above (kb_lower b) mx = true /\ kb_below (kb_upper b) mn = true).
Proof. exact kb_overlaps_spec. Qed.
Print Assumptions C41_overlaps.
(** The emptiness flag of every range the code can build: set, no key is in the range;
    not set, the bounds are not inverted and a closed end is a member. *)
Theorem C41_emptiness :
  forall (K : Type) (KO : KeyOrd K) (b : kbounds K), kb_built b ->
    (kb_empty b = true -> forall k, kb_in b k = false) /\
    (forall l i u j, kb_empty b = false -> kb_lower b = Some (l, i) -> kb_upper b = Some (u, j) ->
       kcmp l u <> Gt /\ (i = true -> kb_in b l = true) /\ (j = true -> kb_in b u = true)).
Proof. exact built_emptiness. Qed.
Print Assumptions C41_emptiness.
(** The range handed to the ordered maps has the same members and never makes
    [BTreeMap::range] panic. *)
Theorem C41_range_for_scan :
  forall (K : Type) (KO : KeyOrd K) (b : kbounds K) lo hi, kb_built b -> kb_range b = Some (lo, hi) ->
    (forall k, kb_in b k = true <-> within lo hi k) /\
    range_panics (kts_lower lo) (kts_upper hi) = false.
Proof. exact built_range_ok. Qed.
Print Assumptions C41_range_for_scan.

Example C41_applies :
  let a := kb_with_range (2%N, true) (7%N, false) in
  let b := kb_with_lower 5%N false in
  kb_intersect a b = mkKB (Some (5%N, false)) (Some (7%N, false)) false /\
  kb_union a b = mkKB (Some (2%N, true)) None false /\
  kb_empty (kb_intersect a (kb_with_lower 7%N true)) = true /\ kb_built (kb_union (kb_intersect a b) b).
Proof. repeat split; repeat constructor. Qed.
