(** C80: the options given to the builder. *)
From Coq Require Import List NArith Bool.
From Verif Require Import Model.Backpressure Model.WalSync Model.Options Spec.OptionSpec Proof.OptionFacts.
Import ListNotations.
Local Open Scope N_scope.

(** The opened database writes its log with, for each option, the value given last,
    whichever call gave it; an option never given has its documented default. *)
Theorem C80_log {D B S Y} (leveled : Y) (home : D) (own : B) (kept : option S) segments calls d :
  open leveled home own kept segments true calls = Opened d ->
  exists c, d_wal d = Some c
    /\ takes says_bytes (log_settings calls) (mib 64) (r_bytes c)
    /\ takes says_age (log_settings calls) None (r_age c)
    /\ takes says_flush (log_settings calls) (ms 10) (r_flush c)
    /\ takes says_sync (log_settings calls) (IntervalTime (ms 50)) (r_sync c)
    /\ takes says_mode (log_settings calls) PointInTime (r_mode c)
    /\ takes says_keep (log_settings calls) None (r_keep c)
    /\ takes says_queue (log_settings calls) 65536 (r_queue c)
    /\ takes says_dir (log_settings calls) home (r_dir c)
    /\ takes says_back (log_settings calls) own (r_back c)
    /\ takes says_store (log_settings calls) kept (r_store c)
    /\ r_dry c = false.
Proof. exact (log_options leveled home own kept segments calls d). Qed.
Print Assumptions C80_log.

(** A database in memory has no log, whatever is said about one. *)
Theorem C80_memory {D B S Y} (leveled : Y) (home : D) (own : B) (kept : option S) segments calls :
  exists d, open leveled home own kept segments false calls = Opened d /\ d_wal d = None.
Proof. exact (memory_no_log leveled home own kept segments calls). Qed.
Print Assumptions C80_memory.

(** The same calls give the same options whether the database is created or recovered. *)
Theorem C80_same {D B S Y} (leveled : Y) (home : D) (own : B) (kept : option S) s1 s2 durable calls d1 d2 :
  open leveled home own kept s1 durable calls = Opened d1 ->
  open leveled home own kept s2 durable calls = Opened d2 -> d1 = d2.
Proof. exact (open_same leveled home own kept s1 s2 durable calls d1 d2). Qed.
Print Assumptions C80_same.

(** The options alone stop a database from opening only when they ask for one of the two
    strict recovery modes and the log directory they name already holds segments. *)
Theorem C80_open_partial {D B S Y} (leveled : Y) (home : D) (own : B) (kept : option S) segments calls m :
  takes says_mode (log_settings calls) PointInTime m ->
  (exists d, open leveled home own kept segments true calls = Opened d)
  \/ (m = AbsoluteConsistency \/ m = SkipCorrupted)
     /\ exists dir back, takes says_dir (log_settings calls) home dir
          /\ takes says_back (log_settings calls) own back /\ segments dir back = true.
Proof. exact (open_iff leveled home own kept segments calls m). Qed.
Print Assumptions C80_open_partial.

(** With either of those modes the first open succeeds, so that writes are accepted and
    logged, and every later open with the same options fails. *)
Theorem C80_reopen_refuted {D B S Y} (leveled : Y) (home : D) (own : B) (kept : option S) m :
  m = AbsoluteConsistency \/ m = SkipCorrupted ->
  let calls := [WConfig [SMode m]] : list (call D B S Y) in
  (exists d, open leveled home own kept (fun _ _ => false) true calls = Opened d)
  /\ open leveled home own kept (fun _ _ => true) true calls = Unimplemented.
Proof. exact (reopen_refuted leveled home own kept m). Qed.
Print Assumptions C80_reopen_refuted.

(** Automatic flushing follows the last call about it; a threshold of zero counts as one. *)
Theorem C80_flush {D B S Y} (leveled : Y) (home : D) (own : B) (kept : option S) segments durable calls d :
  open leveled home own kept segments durable calls = Opened d ->
  exists m, takes says_minor calls (Some (4, 0)) m
    /\ d_minor d = option_map (fun p => (at_least_one (fst p), snd p)) m.
Proof. exact (minor_options leveled home own kept segments durable calls d). Qed.
Print Assumptions C80_flush.

(** The worker, the slowing of writers and the waiting of publishers follow the settings in
    force.  No number of jobs or size limit is zero, and the queue has room for the jobs. *)
Theorem C80_compaction {D B S Y} (leveled : Y) (home : D) (own : B) (kept : option S) segments durable calls d cs :
  open leveled home own kept segments durable calls = Opened d -> in_force calls cs ->
  existsb about_compaction calls = true ->
  exists k, d_worker d = Some k
    /\ takes says_strategy cs leveled (k_strategy k)
    /\ (exists n, takes says_jobs cs 1 n /\ k_jobs k = at_least_one n)
    /\ (exists n, takes says_cqueue cs 1 n /\ k_queue k = N.max (at_least_one n) (k_jobs k))
    /\ (exists r, takes says_rows cs None r /\ k_rows k = option_map at_least_one r)
    /\ (exists r, takes says_cbytes cs None r /\ k_bytes k = option_map at_least_one r)
    /\ (exists t, takes says_tick cs 0 t /\ k_tick k = timer t)
    /\ takes says_cascade cs (1, ms 500) (k_cascade k)
    /\ takes says_press cs (Some bp_default) (d_press d)
    /\ takes says_backoff cs backoff_default (d_backoff d).
Proof. exact (compaction_options leveled home own kept segments durable calls d cs). Qed.
Print Assumptions C80_compaction.

(** There are always such settings. *)
Theorem C80_in_force {D B S Y} (calls : list (call D B S Y)) : exists cs, in_force calls cs.
Proof. exact (in_force_total calls). Qed.
Print Assumptions C80_in_force.

(** Without a call about compaction there is no worker, and writers are never slowed. *)
Theorem C80_no_compaction {D B S Y} (leveled : Y) (home : D) (own : B) (kept : option S) segments durable calls d :
  open leveled home own kept segments durable calls = Opened d ->
  existsb about_compaction calls = false ->
  d_worker d = None /\ d_press d = None /\ d_backoff d = backoff_default.
Proof. exact (compaction_none leveled home own kept segments durable calls d). Qed.
Print Assumptions C80_no_compaction.

(** For compaction the value given last is not always the one in force: a whole set of
    options that says nothing about the strategy undoes a strategy chosen before it. *)
Theorem C80_strategy_refuted {D B S Y} (leveled other : Y) (home : D) (own : B) (kept : option S) segments n :
  exists d k, open leveled home own kept segments true [CStrategy other; COptions [TQueue n]] = Opened d
    /\ d_worker d = Some k /\ k_strategy k = leveled.
Proof. exact (strategy_lost leveled other home own kept segments n). Qed.
Print Assumptions C80_strategy_refuted.

(** Compaction limits the bytes of the files it writes: to what the caller said, at every
    level, else to between 128 and 512 MiB and no less at a deeper level. *)
Theorem C80_sizes {Y} (k : working Y) level :
  fst (output_caps k level) = k_rows k
  /\ exists n, snd (output_caps k level) = Some n
       /\ (k_bytes k = Some n \/ k_bytes k = None /\ mib 128 <= n <= mib 512).
Proof. exact (caps k level). Qed.
Print Assumptions C80_sizes.
Theorem C80_sizes_grow {Y} (k : working Y) a b m n :
  (a <= b)%nat -> snd (output_caps k a) = Some m -> snd (output_caps k b) = Some n -> m <= n.
Proof. exact (caps_mono k a b m n). Qed.
Print Assumptions C80_sizes_grow.

(** Nine calls that give the same options more than once. *)
Example C80_applies :
  open 0 1 2 (Some 3) (fun _ _ => true) true demo_calls
  = Opened (mkDb (Some (mkR 2000 None (ms 10) (IntervalBytes 10) PointInTime (Some 4) 8 1 2 (Some 3) false))
                 (Some (1, 2)) (Some bp_default) backoff_default
                 (Some (mkWk 6 (Some 1) None (Some 9) 3 3 (1, ms 500))))
  /\ in_force demo_calls [TJobs 0; TQueue 2; TJobs 3; TTick 9; TRows 0; TStrategy 6]
  /\ takes says_mode (log_settings demo_calls) PointInTime PointInTime
  /\ open 0 1 2 (Some 3) (fun _ _ => false) true [WFlush 0] <> Unimplemented
  /\ map (fun l => snd (output_caps (mkWk 6 (Some 1) None (Some 9) 3 3 (1, ms 500)) l)) [0; 1; 7]%nat
     = [Some 134217728; Some 536870912; Some 536870912].
Proof.
  split; [reflexivity|]. split.
  { left. exists [WSync Always; WConfig [SBytes 1000; SAge (Some 7); SSync (IntervalBytes 10)]; CStrategy 5].
    exists [TJobs 0; TQueue 2; TJobs 3; TTick 9; TRows 0].
    exists [MSet 0 2; WConfig [SQueue 8; SAge None]; WBytes 2000; CStrategy 6; WKeep (Some 4)].
    split; [reflexivity|]. split; [repeat constructor | reflexivity]. }
  split; [right; split; [repeat constructor | reflexivity]|].
  split; [discriminate | reflexivity].
Qed.
