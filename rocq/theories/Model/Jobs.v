(** Background compaction jobs and flushes on one table: SST files, published versions, the
    id allocator and the GC plan, with crashes and failing calls.  Definitions only.

    Simplifications: a file's content is any type [C] (the data file and its delete sidecar
    together, written and removed as one); [merge] is what the executor makes of the contents
    of its inputs ([Model.Compact.merge_exec] with the ids left out); the inputs are read
    before the first output is written (the code streams); a version is its SST levels, its
    number standing for [last_manifest_txn] (one more with each version); WAL references are
    in [Model.LogRace] and [Model.WalDb]; a manifest session is one step
    ([Model.Sessions]); identifiers do not reach 2^64. *)
From Coq Require Import List NArith Bool.
From Verif Require Import Base.Order Model.SsTable Model.Version Model.Planner Model.Sched.
Import ListNotations.
Local Open Scope N_scope.

Section Jobs.
  Context {C : Type}.
  Variable merge : list C -> option (list C).

  (** The object store, by SST id (the path is built from level and id:
      src/ondisk/sstable.rs:1131-1150; the level is left out). *)
  Definition files := list (N * C).
  Fixpoint file (i : N) (fs : files) : option C :=
    match fs with [] => None | (j, c) :: r => if j =? i then Some c else file i r end.
  Definition erase (i : N) (fs : files) : files := filter (fun p => negb (fst p =? i)) fs.
  Definition write (i : N) (c : C) (fs : files) : files := (i, c) :: erase i fs.

  Definition ident (i : N) : N := i.

  (** A compaction task: input level and id, target level. *)
  Record jtask := mkJT { jt_input : list (nat * N); jt_target : nat }.

  (** Where a job is in [run_scheduled_compaction] (src/compaction/driver.rs:663-870). *)
  Inductive jpc :=
  | JSnap                                                     (* before [snapshot_latest] *)
  | JRead (head : nat) (ins : list (nat * N)) (todo : list N) (got : list C)
  | JAlloc (head : nat) (ins : list (nat * N)) (todo : list C) (outs : list N)
  | JWrite (head : nat) (ins : list (nat * N)) (id : N) (c : C) (todo : list C) (outs : list N)
  | JCas (head : nat) (ins : list (nat * N)) (outs : list N)
  | JClean (todo : list N) (retry : bool)
  | JPlan (ins : list (nat * N))
  | JDone
  | JFailed.
  (** [j_head]: the manifest head when the task was scheduled. *)
  Record job := mkJob { j_task : jtask; j_head : option nat; j_attempts : nat; j_pc : jpc }.

  (** Where a flush is in [flush_immutables_with_descriptor] (src/db/mod.rs:1094-1196). *)
  Inductive fpc :=
  | FAlloc
  | FWrite (id : N)
  | FPublish (id : N)
  | FDone (id : N)
  | FFailed.
  Record fjob := mkFJ { f_level : nat; f_content : C; f_pc : fpc }.

  Record jstate := mkJS {
    js_files : files;
    js_versions : list (list (list N));      (* published versions, oldest first *)
    js_next : N;                             (* the shared id allocator *)
    js_plan : list N;                        (* the recorded GC plan, [] if none *)
    js_jobs : list job;
    js_flushes : list fjob
  }.
  Definition js_start : jstate := mkJS [] [] 1 [] [] [].

  Definition latest (vs : list (list (list N))) : list (list N) := last vs [].
  Definition ids_of (v : list (list N)) : list N := concat v.

  (** [next_sstable_id]: src/db/builder.rs:1781-1793 *)
  Definition next_after (vs : list (list (list N))) : N :=
    match concat (map ids_of vs) with [] => 1 | l => fold_right N.max 0 l + 1 end.
  (** [sstable_id_allocator_for_table]: src/db/builder.rs:1621-1646 *)
  Definition restart_id (vs : list (list (list N))) : N :=
    match latest vs with [] => next_after vs | v => next_after [v] end.

  (** How one call to storage or manifest ends. *)
  Inductive outcome :=
  | Fine
  | Fails                        (* an error, nothing happened *)
  | Torn (c : C)                 (* an error, the file was written with this content *)
  | LostAck.                     (* an error, but it did happen *)

  Inductive jevent :=
  | EJob (t : jtask) (head : option nat)     (* a task is taken from the queue *)
  | EFlush (level : nat) (c : C)
  | EJobStep (i : nat) (o : outcome)
  | EFlushStep (i : nat) (o : outcome)
  | EAbort (i : nat)                         (* the worker is stopped in the middle of job [i] *)
  | ERestart.

  Definition with_pc (j : job) (p : jpc) : job := mkJob (j_task j) (j_head j) (j_attempts j) p.
  Definition with_fpc (f : fjob) (p : fpc) : fjob := mkFJ (f_level f) (f_content f) p.

  (** [apply_version_edits_inner] after its head check (src/manifest/driver.rs:209-283):
      the edits are applied to the latest version and published as the next one. *)
  Definition publish (es : list (edit N)) (vs : list (list (list N))) : option (list (list (list N))) :=
    match apply_edits ident (mkVer 0 (latest vs) [] None None) es with
    | Some v => Some (vs ++ [v_levels v])
    | None => None
    end.

  (** MAX_COMPACTION_APPLY_RETRIES: src/compaction/driver.rs *)
  Definition max_attempts : nat := 2.

  (** What the inputs of a task are in a version. *)
  Definition resolve (v : list (list N)) (t : jtask) : option (list (nat * N)) :=
    resolve_inputs ident v (jt_input t).

  (** A step of a job changes the files, the versions, the allocator and the plan. *)
  Definition job_step (s : jstate) (j : job) (o : outcome) : jstate * job :=
    let same := s in
    match j_pc j with
    | JSnap =>
        (* src/compaction/driver.rs:683-704 *)
        let j' := mkJob (j_task j) (j_head j) (S (j_attempts j)) (j_pc j) in
        match js_versions s with
        | [] => (same, with_pc j' JDone)
        | vs =>
            let head := length vs in
            match (match j_head j with Some h => Nat.eqb h head | None => true end) with
            | false => (same, with_pc j' JDone)
            | true =>
                match resolve (latest vs) (j_task j) with
                | None => (same, with_pc j' JFailed)
                | Some [] => (same, with_pc j' JFailed)            (* NoInputs *)
                | Some ins => (same, with_pc j' (JRead head ins (map snd ins) []))
                end
            end
        end
    | JRead head ins [] got =>
        (* the merge: src/compaction/executor.rs:312-331 *)
        match merge got with
        | None => (same, with_pc j JFailed)
        | Some outs => (same, with_pc j (JAlloc head ins outs []))
        end
    | JRead head ins (i :: todo) got =>
        match o, file i (js_files s) with
        | Fine, Some c => (same, with_pc j (JRead head ins todo (got ++ [c])))
        | _, _ => (same, with_pc j JFailed)
        end
    | JAlloc head ins [] outs => (same, with_pc j (JCas head ins outs))
    | JAlloc head ins (c :: todo) outs =>
        (* [alloc_descriptor] and [with_output_id_allocator]: src/compaction/executor.rs:288-291 *)
        (mkJS (js_files s) (js_versions s) (js_next s + 1) (js_plan s) (js_jobs s) (js_flushes s),
         with_pc j (JWrite head ins (js_next s) c todo outs))
    | JWrite head ins id c todo outs =>
        match o with
        | Fine => (mkJS (write id c (js_files s)) (js_versions s) (js_next s) (js_plan s) (js_jobs s) (js_flushes s),
                   with_pc j (JAlloc head ins todo (outs ++ [id])))
        | Torn c' => (mkJS (write id c' (js_files s)) (js_versions s) (js_next s) (js_plan s) (js_jobs s) (js_flushes s),
                      with_pc j (JClean outs false))
        | _ => (same, with_pc j (JClean outs false))               (* src/ondisk/merge.rs:652-666 *)
        end
    | JCas head ins outs =>
        (* [apply_version_edits_cas] and its results: src/compaction/driver.rs:771-868 *)
        if negb (Nat.eqb head (length (js_versions s))) then
          (same, with_pc j (JClean outs (Nat.ltb (j_attempts j) max_attempts)))
        else
          match publish (outcome_edits ident ins outs (jt_target (j_task j))) (js_versions s) with
          | None => (same, with_pc j (JClean outs false))
          | Some vs =>
              match o with
              | Fine => (mkJS (js_files s) vs (js_next s) (js_plan s) (js_jobs s) (js_flushes s), with_pc j (JPlan ins))
              | LostAck => (mkJS (js_files s) vs (js_next s) (js_plan s) (js_jobs s) (js_flushes s), with_pc j (JClean outs false))
              | _ => (same, with_pc j (JClean outs false))
              end
          end
    | JClean [] retry => (same, with_pc j (if retry then JSnap else JFailed))
    | JClean (i :: todo) retry =>
        (* [cleanup_descriptors], best effort: src/ondisk/merge.rs:950-964 *)
        (mkJS (match o with Fine => erase i (js_files s) | _ => js_files s end)
              (js_versions s) (js_next s) (js_plan s) (js_jobs s) (js_flushes s),
         with_pc j (JClean todo retry))
    | JPlan ins =>
        (* [gc_plan_from_outcome] and [put_gc_plan]: src/compaction/orchestrator.rs:202-226,
           src/manifest/driver.rs:493-503 *)
        match o with
        | Fine => (mkJS (js_files s) (js_versions s) (js_next s) (map snd ins) (js_jobs s) (js_flushes s), with_pc j JDone)
        | _ => (same, with_pc j JFailed)
        end
    | JDone | JFailed => (same, j)
    end.

  Definition flush_job_step (s : jstate) (f : fjob) (o : outcome) : jstate * fjob :=
    match f_pc f with
    | FAlloc =>
        (* [next_descriptor]: src/compaction/minor.rs:49-52 *)
        (mkJS (js_files s) (js_versions s) (js_next s + 1) (js_plan s) (js_jobs s) (js_flushes s),
         with_fpc f (FWrite (js_next s)))
    | FWrite id =>
        match o with
        | Fine => (mkJS (write id (f_content f) (js_files s)) (js_versions s) (js_next s) (js_plan s) (js_jobs s) (js_flushes s),
                   with_fpc f (FPublish id))
        | Torn c => (mkJS (write id c (js_files s)) (js_versions s) (js_next s) (js_plan s) (js_jobs s) (js_flushes s),
                     with_fpc f FFailed)
        | _ => (s, with_fpc f FFailed)
        end
    | FPublish id =>
        (* [apply_version_edits]: src/db/mod.rs:1147-1166; an error leaves the file *)
        match publish [AddSsts (f_level f) [id]] (js_versions s) with
        | None => (s, with_fpc f FFailed)
        | Some vs =>
            match o with
            | Fine => (mkJS (js_files s) vs (js_next s) (js_plan s) (js_jobs s) (js_flushes s), with_fpc f (FDone id))
            | LostAck => (mkJS (js_files s) vs (js_next s) (js_plan s) (js_jobs s) (js_flushes s), with_fpc f FFailed)
            | _ => (s, with_fpc f FFailed)
            end
        end
    | FDone _ | FFailed => (s, f)
    end.

  Definition jevent_step (s : jstate) (e : jevent) : jstate :=
    match e with
    | EJob t h => mkJS (js_files s) (js_versions s) (js_next s) (js_plan s) (js_jobs s ++ [mkJob t h 0 JSnap]) (js_flushes s)
    | EFlush l c => mkJS (js_files s) (js_versions s) (js_next s) (js_plan s) (js_jobs s) (js_flushes s ++ [mkFJ l c FAlloc])
    | EJobStep i o =>
        match nth_error (js_jobs s) i with
        | None => s
        | Some j => let '(s', j') := job_step s j o in
                    mkJS (js_files s') (js_versions s') (js_next s') (js_plan s') (set_nth i j' (js_jobs s')) (js_flushes s')
        end
    | EFlushStep i o =>
        match nth_error (js_flushes s) i with
        | None => s
        | Some f => let '(s', f') := flush_job_step s f o in
                    mkJS (js_files s') (js_versions s') (js_next s') (js_plan s') (js_jobs s') (set_nth i f' (js_flushes s'))
        end
    | EAbort i =>
        match nth_error (js_jobs s) i with
        | None => s
        | Some j => mkJS (js_files s) (js_versions s) (js_next s) (js_plan s) (set_nth i (with_pc j JFailed) (js_jobs s)) (js_flushes s)
        end
    | ERestart => mkJS (js_files s) (js_versions s) (restart_id (js_versions s)) (js_plan s) [] []
    end.
  Fixpoint jrun (s : jstate) (es : list jevent) : jstate :=
    match es with [] => s | e :: r => jrun (jevent_step s e) r end.
End Jobs.
Arguments jstate C : clear implicits.
Arguments jevent C : clear implicits.
Arguments outcome C : clear implicits.
Arguments job C : clear implicits.
Arguments fjob C : clear implicits.
