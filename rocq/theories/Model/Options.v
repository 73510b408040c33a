(** The options of the builder and how they reach the opened database
    (src/db/builder.rs:41-265, 689-698, 935-980, 1026-1182, 1195-1343, 1527-1592 and
    1649-1790, src/compaction/executor.rs:225-290).  Definitions only.

    A [Duration] is a number of nanoseconds; a directory, a file system, a state store and a
    planner strategy are left abstract.  Left out: the table name (C67), the acknowledgement
    mode (C38) and the metrics handle; the other ways opening can fail (C77, C26). *)
From Coq Require Import List NArith Bool.
From Verif Require Import Model.Backpressure Model.WalSync.
Import ListNotations.
Local Open Scope N_scope.

(** [WalRecoveryMode]: src/wal/mod.rs:77-94 *)
Inductive mode := PointInTime | TolerateCorruptedTail | AbsoluteConsistency | SkipCorrupted.

Definition mib (n : N) : N := n * 1048576.

Section Options.
  Context {D B S Y : Type}.      (* directories, file systems, state stores, strategies *)

  (** *** The log *)
  (** [WalConfig] of the builder, the overrides: src/db/builder.rs:41-55 *)
  Record over := mkOver {
    v_bytes : option N; v_age : option (option N); v_flush : option N; v_sync : option policy;
    v_mode : option mode; v_keep : option (option N); v_queue : option N;
    v_dir : option D; v_back : option B; v_store : option (option S)
  }.
  (** The derived [Default]: src/db/builder.rs:42 *)
  Definition over_none : over := mkOver None None None None None None None None None None.

  (** The setters: src/db/builder.rs:57-127 *)
  Inductive wset :=
  | SBytes (n : N) | SAge (d : option N) | SFlush (d : N) | SSync (p : policy) | SMode (m : mode)
  | SKeep (n : option N) | SQueue (n : N) | SDir (d : D) | SBack (b : B) | SStore (s : option S).
  Definition set (o : over) (s : wset) : over :=
    let '(mkOver by_ ag fl sy mo ke qu di ba st) := o in
    match s with
    | SBytes n => mkOver (Some n) ag fl sy mo ke qu di ba st
    | SAge d => mkOver by_ (Some d) fl sy mo ke qu di ba st
    | SFlush d => mkOver by_ ag (Some d) sy mo ke qu di ba st
    | SSync p => mkOver by_ ag fl (Some p) mo ke qu di ba st
    | SMode m => mkOver by_ ag fl sy (Some m) ke qu di ba st
    | SKeep n => mkOver by_ ag fl sy mo (Some n) qu di ba st
    | SQueue n => mkOver by_ ag fl sy mo ke (Some n) di ba st
    | SDir d => mkOver by_ ag fl sy mo ke qu (Some d) ba st
    | SBack b => mkOver by_ ag fl sy mo ke qu di (Some b) st
    | SStore s => mkOver by_ ag fl sy mo ke qu di ba (Some s)
    end.

  (** [RuntimeWalConfig]: src/wal/mod.rs:96-121 *)
  Record rconf := mkR {
    r_bytes : N; r_age : option N; r_flush : N; r_sync : policy; r_mode : mode;
    r_keep : option N; r_queue : N; r_dir : D; r_back : B; r_store : option S; r_dry : bool
  }.

  Definition pick {X} (o : option X) (x : X) : X := match o with Some y => y | None => x end.
  (** [apply]: src/db/builder.rs:129-160 *)
  Definition apply (o : over) (c : rconf) : rconf :=
    mkR (pick (v_bytes o) (r_bytes c)) (pick (v_age o) (r_age c)) (pick (v_flush o) (r_flush c))
        (pick (v_sync o) (r_sync c)) (pick (v_mode o) (r_mode c)) (pick (v_keep o) (r_keep c))
        (pick (v_queue o) (r_queue c)) (pick (v_dir o) (r_dir c)) (pick (v_back o) (r_back c))
        (pick (v_store o) (r_store c)) (r_dry c).

  Definition newer {X} (old new : option X) : option X := match new with Some _ => new | None => old end.
  (** [merge]: src/db/builder.rs:162-193 *)
  Definition merge (o n : over) : over :=
    mkOver (newer (v_bytes o) (v_bytes n)) (newer (v_age o) (v_age n)) (newer (v_flush o) (v_flush n))
           (newer (v_sync o) (v_sync n)) (newer (v_mode o) (v_mode n)) (newer (v_keep o) (v_keep n))
           (newer (v_queue o) (v_queue n)) (newer (v_dir o) (v_dir n)) (newer (v_back o) (v_back n))
           (newer (v_store o) (v_store n)).

  (** *** Compaction *)
  (** [CompactionOptions]: src/db/builder.rs:1195-1206; the cascade is the pair of its two
      fields (src/db/builder.rs:1452-1455) *)
  Record copts := mkC {
    c_strategy : Y; c_jobs : N; c_queue : N; c_rows : option N; c_bytes : option N;
    c_tick : option N; c_press : option bp_config; c_cascade : N * N; c_backoff : backoff
  }.
  Variable leveled : Y.    (* [CompactionStrategy::default()]: src/compaction/planner.rs:35-39 *)
  (** src/db/builder.rs:1208-1223 and 1457-1464 *)
  Definition copts_default : copts :=
    mkC leveled 1 1 None None None (Some bp_default) (1, ms 500) backoff_default.

  (** The setters: src/db/builder.rs:1232-1306 *)
  Inductive cset :=
  | TStrategy (s : Y) | TJobs (n : N) | TQueue (n : N) | TRows (n : N) | TBytes (n : N) | TTick (d : N)
  | TPress (c : bp_config) | TNoPress | TCascade (n cool : N) | TBackoff (b : backoff).
  Definition cset_apply (o : copts) (s : cset) : copts :=
    let '(mkC st jo qu ro by_ ti pr ca ba) := o in
    match s with
    | TStrategy s => mkC s jo qu ro by_ ti pr ca ba
    | TJobs n => mkC st (N.max n 1) qu ro by_ ti pr ca ba
    | TQueue n => mkC st jo (N.max n 1) ro by_ ti pr ca ba
    | TRows n => mkC st jo qu (Some (N.max n 1)) by_ ti pr ca ba
    | TBytes n => mkC st jo qu ro (Some (N.max n 1)) ti pr ca ba
    | TTick d => mkC st jo qu ro by_ (if d =? 0 then None else Some d) pr ca ba
    | TPress c => mkC st jo qu ro by_ ti (Some c) ca ba
    | TNoPress => mkC st jo qu ro by_ ti None ca ba
    | TCascade n cool => mkC st jo qu ro by_ ti pr (n, cool) ba
    | TBackoff b => mkC st jo qu ro by_ ti pr ca b
    end.
  Definition copts_make (l : list cset) : copts := fold_left cset_apply l copts_default.

  (** src/db/builder.rs:1315-1325 *)
  Definition effective_concurrency (o : copts) : N := N.max (c_jobs o) 1.
  Definition effective_queue_capacity (o : copts) : N :=
    N.max (N.max (c_queue o) (effective_concurrency o)) 1.
  Definition effective_tick (o : copts) : option N :=
    match c_tick o with Some d => if d =? 0 then None else Some d | None => None end.

  (** *** The builder *)
  (** [StorageConfig], [DbBuilder]: src/db/builder.rs:223-231 and 442-447 *)
  Record builder := mkBld {
    b_durable : bool; b_wal : option over; b_comp : option copts; b_minor : option (N * N)
  }.
  (** [StorageConfig::new] and [DbBuilder::new]: src/db/builder.rs:233-247, 774-783 and
      1534-1541 *)
  Definition builder_new (durable : bool) : builder :=
    mkBld durable (if durable then Some over_none else None) None (Some (4, 0)).

  Inductive call :=
  | WConfig (l : list wset)               (* [wal_config]: overrides made with the setters *)
  | WBytes (n : N) | WSync (p : policy) | WFlush (d : N) | WKeep (n : option N)
  | COptions (l : list cset)              (* [with_compaction_options] *)
  | CStrategy (s : Y)                     (* [with_compaction_strategy] *)
  | MSet (threshold level : N)            (* [with_minor_compaction] *)
  | MOff.                                 (* [disable_minor_compaction] *)

  (** One override through the builder itself: src/db/builder.rs:1560-1591 *)
  Definition override (b : builder) (s : wset) : builder :=
    mkBld (b_durable b) (match b_wal b with Some o => Some (set o s) | None => None end) (b_comp b) (b_minor b).
  (** src/db/builder.rs:944-974 and 1548-1591 *)
  Definition call_apply (b : builder) (c : call) : builder :=
    match c with
    | WConfig l =>
        let n := fold_left set l over_none in
        mkBld (b_durable b)
              (match b_wal b with
               | Some o => Some (merge o n)
               | None => if b_durable b then Some n else None
               end) (b_comp b) (b_minor b)
    | WBytes n => override b (SBytes n)
    | WSync p => override b (SSync p)
    | WFlush d => override b (SFlush d)
    | WKeep n => override b (SKeep n)
    | COptions l => mkBld (b_durable b) (b_wal b) (Some (copts_make l)) (b_minor b)
    | CStrategy s =>
        mkBld (b_durable b) (b_wal b)
              (Some (cset_apply (match b_comp b with Some o => o | None => copts_default end) (TStrategy s)))
              (b_minor b)
    | MSet t l => mkBld (b_durable b) (b_wal b) (b_comp b) (Some (t, l))
    | MOff => mkBld (b_durable b) (b_wal b) (b_comp b) None
    end.
  Definition build (durable : bool) (calls : list call) : builder :=
    fold_left call_apply calls (builder_new durable).

  (** *** Opening *)
  (** What the worker is started with: src/db/builder.rs:1158-1176 *)
  Record working := mkWk {
    k_strategy : Y; k_rows : option N; k_bytes : option N;
    k_tick : option N; k_queue : N; k_jobs : N; k_cascade : N * N
  }.
  (** The fields of the opened database the options decide *)
  Record opened := mkDb {
    d_wal : option rconf; d_minor : option (N * N); d_press : option bp_config;
    d_backoff : backoff; d_worker : option working
  }.
  (** [Unimplemented]: the mode is not supported (src/wal/replay.rs:53-70) *)
  Inductive outcome := Opened (d : opened) | Unimplemented.

  Variable home : D.                 (* the directory [wal] under the root *)
  Variable own : B.                  (* the file system of the database *)
  Variable kept : option S.          (* its state store *)

  (** [RuntimeWalConfig::default] and [apply_wal_defaults]: src/wal/mod.rs:123-142 and
      66-70, src/db/builder.rs:689-698.  The directory and the file system of the former
      are overwritten by the latter. *)
  Definition wal_defaults : rconf :=
    mkR (mib 64) None (ms 10) (IntervalTime (ms 50)) PointInTime None 65536 home own kept false.
  Definition wal_for (b : builder) : rconf :=
    match b_wal b with Some o => apply o wal_defaults | None => wal_defaults end.

  (** [MinorCompactor::with_id_allocator]: src/compaction/minor.rs:38-48 *)
  Definition minor_of (b : builder) : option (N * N) :=
    match b_minor b with Some (t, l) => Some (N.max t 1, l) | None => None end.
  (** [with_max_output_rows], [with_max_output_bytes]: src/compaction/executor.rs:248-258 *)
  Definition cap_of (o : option N) : option N :=
    match o with Some n => Some (N.max n 1) | None => None end.
  Definition worker_of (o : copts) : working :=
    mkWk (c_strategy o) (cap_of (c_rows o)) (cap_of (c_bytes o)) (effective_tick o)
         (effective_queue_capacity o) (effective_concurrency o) (c_cascade o).

  (** [build_with_layout]: src/db/builder.rs:1050-1181; the fields start as in
      src/db/mod.rs:674-677 *)
  Definition create (b : builder) : opened :=
    mkDb (if b_durable b then Some (wal_for b) else None)
         (minor_of b)
         (match b_comp b with Some o => c_press o | None => None end)
         (match b_comp b with Some o => c_backoff o | None => backoff_default end)
         (match b_comp b with Some o => Some (worker_of o) | None => None end).
  (** [recover_or_init_with_executor]: src/db/builder.rs:1650-1780, the branch taken when
      the log has segments.  It reads the log back first. *)
  Definition recover (b : builder) : outcome :=
    match r_mode (wal_for b) with
    | PointInTime | TolerateCorruptedTail =>
        Opened (mkDb (Some (wal_for b))
                     (minor_of b)
                     (match b_comp b with Some o => c_press o | None => None end)
                     (match b_comp b with Some o => c_backoff o | None => backoff_default end)
                     (match b_comp b with Some o => Some (worker_of o) | None => None end))
    | AbsoluteConsistency | SkipCorrupted => Unimplemented
    end.
  (** [open_with_executor]: src/db/builder.rs:1031-1048.  [segments d f]: whether directory
      [d] of file system [f] holds log segments. *)
  Definition open (segments : D -> B -> bool) (durable : bool) (calls : list call) : outcome :=
    let b := build durable calls in
    if b_durable b then
      if segments (r_dir (wal_for b)) (r_back (wal_for b)) then recover b else Opened (create b)
    else Opened (create b).

  (** *** The size of the files compaction writes *)
  (** [default_output_bytes_for_level]: src/compaction/executor.rs:225-227 and 268-277;
      [usize] has 64 bits *)
  Fixpoint grow (level : nat) (size : N) : N :=
    match level with
    | O => N.min size (mib 512)
    | Datatypes.S l =>
        let size := N.min (size * 10) (2 ^ 64 - 1) in
        if mib 512 <=? size then mib 512 else grow l size
    end.
  Definition default_output_bytes (level : nat) : N := grow level (mib 128).
  (** [output_caps_for_level]: src/compaction/executor.rs:279-286 *)
  Definition output_caps (k : working) (level : nat) : option N * option N :=
    (k_rows k, match k_bytes k with Some n => Some n | None => Some (default_output_bytes level) end).
End Options.
Arguments over : clear implicits.
Arguments wset : clear implicits.
Arguments rconf : clear implicits.
Arguments copts : clear implicits.
Arguments cset : clear implicits.
Arguments call : clear implicits.
Arguments builder : clear implicits.
Arguments working : clear implicits.
Arguments opened : clear implicits.
Arguments outcome : clear implicits.
