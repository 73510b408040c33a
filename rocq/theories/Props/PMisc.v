(** Limits and delays: seal policies (C46), backpressure (C34), retry backoff (C35). *)
From Coq Require Import List NArith Bool.
From Verif Require Import Base.Order Model.MemTable Model.Immutable Model.Db Spec.History Model.Run Spec.Valid
     Model.Policy Model.Backpressure Model.Metrics Spec.LimitSpec Proof.Demo Proof.LimitFacts Proof.MetricsFacts.
Import ListNotations.
Local Open Scope N_scope.

(** *** C34: backpressure. *)
Theorem C34_thresholds :
  forall c s,
    (at_stop c s -> bp_decide c s = Stall (bp_stop_delay c)) /\
    (~ at_stop c s -> at_slow c s -> bp_decide c s = Slowdown (bp_slow_delay c)) /\
    (~ at_stop c s -> ~ at_slow c s -> bp_decide c s = Proceed).
Proof. exact c34_exact. Qed.
Print Assumptions C34_thresholds.
Theorem C34_configurations :
  forall init calls, let c := bp_build init calls in
    1 <= bp_slow_files c /\ bp_slow_files c <= bp_stop_files c /\ 1 <= bp_slow_delay c /\ 1 <= bp_stop_delay c /\
    (forall b, bp_slow_bytes c = Some b -> 1 <= b) /\ (forall b, bp_stop_bytes c = Some b -> 1 <= b) /\
    (forall a b, bp_slow_bytes c = Some a -> bp_stop_bytes c = Some b -> a <= b).
Proof. exact bp_build_sane. Qed.
Print Assumptions C34_configurations.
(** Missing: files without size statistics. *)
Theorem C34_more_files_partial :
  forall c sizes more,
    severity (bp_decide c (l0_from_manifest (map Some sizes))) <=
    severity (bp_decide c (l0_from_manifest (map Some (sizes ++ more)))).
Proof. exact c34_more_files. Qed.
Print Assumptions C34_more_files_partial.
Theorem C34_statistics :
  (forall sizes, l0_from_manifest (map Some sizes) =
     mkL0 (N.of_nat (length sizes)) (Some (N.min (fold_right N.add 0 sizes) (2 ^ 64 - 1)))) /\
  (forall l, In None l -> l0_from_manifest l = mkL0 (N.of_nat (length l)) None).
Proof. exact (conj c34_stats_known c34_stats_unknown). Qed.
Print Assumptions C34_statistics.
(** A write proceeds only after a check below every stop threshold, having slept once per
    earlier check, and once more if that check asks for a slowdown. *)
Theorem C34_wait :
  forall c seen delays rest, bp_wait c seen = Some (delays, rest) ->
    exists before s, seen = before ++ s :: rest /\ Forall (at_stop c) before /\ ~ at_stop c s /\
      delays = repeat (bp_stop_delay c) (length before) ++ (match bp_decide c s with Slowdown d => [d] | _ => [] end).
Proof. exact c34_wait. Qed.
Print Assumptions C34_wait.
Theorem C34_more_files_refuted :
  exists init calls level file,
    severity (bp_decide (bp_build init calls) (l0_from_manifest level)) = 2 /\
    severity (bp_decide (bp_build init calls) (l0_from_manifest (level ++ [file]))) = 0.
Proof. exact c34_missing_stats. Qed.
Print Assumptions C34_more_files_refuted.
Example C34_applies :
  let c := bp_build (Some (4, 2)) [CStopBytes 50; CSlowBytes 90; CSlowDelay 0; CStopDelay 7] in
  c = mkBp 4 4 (Some 90) (Some 90) (ms 25) 7 /\
  bp_decide c (l0_from_manifest [Some 40; Some 45]) = Proceed /\
  bp_wait c [l0_from_manifest [Some 40; Some 50]; l0_from_manifest [None; None; None; None]; mkL0 3 None; mkL0 9 None]
    = Some ([7; 7], [mkL0 9 None]).
Proof. vm_compute. repeat split. Qed.

(** *** C35: retry backoff. *)
Theorem C35_backoff :
  forall base max m n, base <= duration_max -> max <= duration_max -> (m <= n)%nat ->
    let c := backoff_new base max in
    cas_backoff_delay c 0 = 0 /\ cas_backoff_delay c n <= bo_max c /\
    cas_backoff_delay c m <= cas_backoff_delay c n /\ ((1 <= n)%nat -> 1 <= cas_backoff_delay c n).
Proof. exact c35_all. Qed.
Print Assumptions C35_backoff.
Theorem C35_backoff_default :
  forall m n, (m <= n)%nat ->
    cas_backoff_delay backoff_default 0 = 0 /\ cas_backoff_delay backoff_default n <= bo_max backoff_default /\
    cas_backoff_delay backoff_default m <= cas_backoff_delay backoff_default n.
Proof. exact c35_default. Qed.
Print Assumptions C35_backoff_default.
Theorem C35_exact :
  forall base max n, base <= duration_max -> max <= duration_max ->
    let c := backoff_new base max in cas_backoff_delay c (S n) = N.min (bo_base c * 2 ^ N.of_nat n) (bo_max c).
Proof. intros base max n A B. exact (c35_delay (backoff_new base max) n (backoff_new_sane base max A B)). Qed.
Print Assumptions C35_exact.
Example C35_applies :
  map (cas_backoff_delay backoff_default) [0; 1; 2; 5; 6; 300]%nat = map ms [0; 50; 100; 800; 1000; 1000] /\
  backoff_new 0 0 = mkBackoff (ms 1) (ms 1) /\ cas_backoff_delay (mkBackoff 3 duration_max) 500 = duration_max.
Proof. vm_compute. repeat split. Qed.

(** *** C46: seal policies. *)
Theorem C46_policy_exact :
  forall p s, seals (evaluate p s) = true <-> reached s p.
Proof. exact evaluate_reached. Qed.
Print Assumptions C46_policy_exact.
(** An ingest seals exactly if a limit is reached by the memtable after the write.
    Missing: limits that the statistics never show, and transaction commits (below). *)
Theorem C46_ingest_partial :
  forall (K : Type) (KO : KeyOrd K) (R : Type) (key_of : R -> option K) row_bytes del_bytes key_bytes capacity ops
         p since rows span d1,
    (1 <= capacity)%nat -> N.of_nat (length ops) + 1 < 2 ^ 64 ->
    ops_ok key_of row_bytes del_bytes (start capacity) ops ->
    let d := st_db (run key_of row_bytes del_bytes (start capacity) ops) in
    Forall (fun r => key_of r <> None) rows ->
    put_rows key_of rows (d_clock d) (observe_range span (tick d)) = (d1, true) ->
    exists d', ingest_policy key_of key_bytes p since rows span d = (d', true) /\
      (~ reached (build_stats key_bytes (d_mem d1) since) p -> d' = d1) /\
      (reached (build_stats key_bytes (d_mem d1) since) p -> m_index (d_mem d1) <> [] ->
         m_index (d_mem d') = [] /\ exists g, d_imm d' = d_imm d1 ++ [g]).
Proof. exact @c46_ingest. Qed.
Print Assumptions C46_ingest_partial.
(** The statistics count each key of the memtable once. *)
Theorem C46_statistics :
  forall (K : Type) (KO : KeyOrd K) (R : Type) (key_of : R -> option K) row_bytes del_bytes key_bytes capacity ops since,
    (1 <= capacity)%nat -> N.of_nat (length ops) < 2 ^ 64 ->
    ops_ok key_of row_bytes del_bytes (start capacity) ops ->
    let m := d_mem (st_db (run key_of row_bytes del_bytes (start capacity) ops)) in
    exists ks, lists_keys (map (fun e => fst (fst e)) (m_index m)) ks /\
      ms_entries (build_stats key_bytes m since) = N.of_nat (length ks) /\
      ms_key_bytes (build_stats key_bytes m since) = fold_right (fun k a => key_bytes k + a) 0 ks /\
      ms_overhead (build_stats key_bytes m since) = 32 /\
      ms_batches (build_stats key_bytes m since) = Some (N.of_nat (length (m_batches m) + length (m_deletes m))) /\
      ms_since_seal (build_stats key_bytes m since) = since.
Proof. exact @c46_stats. Qed.
Print Assumptions C46_statistics.
(** The counters that the memtable keeps while it is written give the same statistics as its
    contents, after any calls; they count what was written since the last seal. *)
Theorem C46_counters :
  forall (K : Type) (KO : KeyOrd K) (R : Type) (key_of : R -> option K) (key_bytes : K -> N),
    (forall a b, kcmp a b = Eq -> key_bytes a = key_bytes b) ->
    forall capacity (calls : list (mcall K R)) since s t,
    Forall call_fits calls -> mcall_run key_of key_bytes (cm_new capacity) calls = (s, t) ->
    counted_stats s since = build_stats key_bytes (fst s) since /\
    ct_inserts (snd s) = wrote_since t /\ ct_inserts (snd s) = ct_entries (snd s) + ct_replaces (snd s).
Proof. exact @counters_true. Qed.
Print Assumptions C46_counters.
(** The memtable with counters is the memtable of the other theorems. *)
Theorem C46_counters_memtable :
  forall (K : Type) (KO : KeyOrd K) (R : Type) (key_of : R -> option K) (key_bytes : K -> N),
    (forall a b, kcmp a b = Eq -> key_bytes a = key_bytes b) ->
    forall capacity (calls : list (mcall K R)) s t c,
    Forall call_fits calls -> call_fits c -> mcall_run key_of key_bytes (cm_new capacity) calls = (s, t) ->
    let '(s', seen) := mcall_step key_of key_bytes s c in
    match c with
    | MRows rows ts =>
        match mem_insert_batch key_of (fst s) rows ts with
        | MOk m None => fst s' = m /\ seen = [MWrote (length rows)]
        | MOk m (Some _) => fst s' = m /\ seen = [MSealed; MWrote (length rows)]
        | MKeyErr m => fst s' = m
        | MFail => True
        end
    | MDels ks ts =>
        match mem_insert_deletes key_of (fst s) ks ts with
        | MOk m None => fst s' = m /\ seen = [MWrote (length ks)]
        | MOk m (Some _) => fst s' = m /\ seen = [MSealed; MWrote (length ks)]
        | MKeyErr m => fst s' = m
        | MFail => True
        end
    | MSealNow =>
        match seal key_of (fst s) with
        | SNone => s' = s /\ seen = []
        | SSealed m _ => fst s' = m /\ seen = [MSealed]
        | SErr => True
        end
    end.
Proof. exact @counters_only. Qed.
Print Assumptions C46_counters_memtable.
Example C46_counters_applies :
  Forall call_fits counted_calls /\
  let '(s, t) := mcall_run row_key (fun _ => 8) (cm_new 2) counted_calls in
  let '(s1, t1) := mcall_run row_key (fun _ => 8) (cm_new 2) (firstn 7 counted_calls) in
  t = [MWrote 2; MWrote 2; MWrote 1; MSealed; MWrote 2; MRefused; MWrote 2; MSealed; MWrote 1] /\
  snd s1 = mkCt 2 4 2 16 /\ snd s = mkCt 1 1 0 8.
Proof. split; [exact counted_fits|exact counted_run]. Qed.
(** A limit on rows is never reached, however many rows the memtable holds. *)
Theorem C46_rows_refuted :
  forall (K : Type) (KO : KeyOrd K) (R : Type) (key_bytes : K -> N) limit since (m : mem K R),
    seals (evaluate (OpenRowsThreshold limit) (build_stats key_bytes m since)) = false.
Proof. reflexivity. Qed.
Print Assumptions C46_rows_refuted.
(** The first memtable never seals by age, however much time passes between the writes. *)
Theorem C46_age_refuted :
  forall (K : Type) (KO : KeyOrd K) (R : Type) (key_of : R -> option K) key_bytes limit capacity (calls : list (N * list R)),
    (length calls <= capacity)%nat ->
    let r := ingest_all key_of key_bytes (TimeElapsed limit) calls (db_new capacity, None) in
    snd r = None /\ d_imm (fst r) = [].
Proof. intros K KO R key_of key_bytes limit capacity calls H. exact (time_never_gen key_of key_bytes limit calls (db_new capacity) H). Qed.
Print Assumptions C46_age_refuted.
(** Transaction commits do not evaluate the policy: the memtable is far above the limit
    and is not sealed. *)
Theorem C46_commit_refuted :
  exists ops, demo_ok ops /\ d_imm (st_db (demo_run ops)) = [] /\
    Forall (fun o => exists ts ms, o = OCommit ts ms None) ops /\
    reached (build_stats (fun _ => 8) (d_mem (st_db (demo_run ops))) None) (AnyOf [BatchesThreshold 2; BytesThreshold 40]).
Proof. exact c46_commit. Qed.
Print Assumptions C46_commit_refuted.
(** The reason given for a seal names a limit of the policy and the number that reached it. *)
Theorem C46_reason :
  forall p s r, evaluate p s = SealIt r -> explains s p r.
Proof. exact c46_reason. Qed.
Print Assumptions C46_reason.
(** The default policy seals at 64 MiB of different keys with 32 bytes for each, 64 batches, or
    30 seconds after the last seal. *)
Theorem C46_default_policy :
  forall (K : Type) (KO : KeyOrd K) (R : Type) (key_bytes : K -> N) (m : mem K R) since,
    let s := build_stats key_bytes m since in
    seals (evaluate default_policy s) = true <->
    64 * 1024 * 1024 <= ms_key_bytes s + 32 * ms_entries s \/
    64 <= N.of_nat (length (m_batches m) + length (m_deletes m)) \/
    (exists e, since = Some e /\ 30000 <= e).
Proof. exact @c46_default. Qed.
Print Assumptions C46_default_policy.
(** Its documentation says 8 MiB: a memtable above that is not sealed by the next ingest. *)
Theorem C46_documented_limit_refuted :
  exists (key_bytes : N -> N) ops, demo_ok ops /\
    let d := st_db (demo_run ops) in
    let s := build_stats key_bytes (d_mem d) None in
    8 * 1024 * 1024 < ms_key_bytes s + 32 * ms_entries s /\ seals (evaluate default_policy s) = false /\
    exists d', ingest_policy row_key key_bytes default_policy None [rw 3 30] None d = (d', true) /\ d_imm d' = [].
Proof. exact c46_documented. Qed.
Print Assumptions C46_documented_limit_refuted.
Example C46_reason_applies :
  evaluate default_policy (mkStats 3 24 32 None (Some 64) (Some 30001)) = SealIt (RTime 30001 30000) /\
  evaluate (AnyOf [NeverSeal; AnyOf [BatchesThreshold 9; BytesThreshold 100]]) (mkStats 3 24 32 None (Some 4) None)
    = SealIt (RBytes 120 100).
Proof. split; reflexivity. Qed.
Example C46_applies :
  seals (evaluate default_policy (mkStats 3 24 32 None (Some 64) (Some 5))) = true /\
  reached (mkStats 3 24 32 None (Some 64) (Some 5)) default_policy /\
  (let d := st_db (demo_run [OIngest [rw 1 10; rw 2 20] None false]) in
   let r := ingest_policy row_key (fun _ => 8) (AnyOf [BatchesThreshold 9; BytesThreshold 120]) None [rw 2 21; rw 3 30] None d in
   snd r = true /\ length (d_imm (fst r)) = 1%nat /\ m_index (d_mem (fst r)) = []).
Proof. exact c46_demo. Qed.
