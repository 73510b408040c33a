(** Concurrent calls on one database: every call is a sequence of atomic steps, and a
    schedule interleaves the steps of all calls (src/db/mod.rs, src/db/wal.rs,
    src/transaction/mod.rs).  Definitions only.

    A step is what the code does under one lock or in one atomic operation.  Simplified: an
    insert into the memtable is one step, although scans holding a read lock may run between
    the rows of a batch (src/inmem/mutable/memtable.rs:670-700); the two reads of the conflict
    check of one key are one step; there is no WAL (its append lies between the allocation of
    the timestamp and the insert and touches none of this state), no backpressure. *)
From Coq Require Import List NArith Bool.
From Verif Require Import Base.Order Model.OMap Model.KeyTs Model.MemTable Model.Immutable
     Model.SsTable Model.Version Model.DbScan Model.Db Spec.History Model.Run.
Import ListNotations.

Section Sched.
  Context {K : Type} {KO : KeyOrd K} {R : Type}.
  Variable key_of : R -> option K.

  (** The calls.  [dec]: the seal policy decides to seal after the write
      (src/db/wal.rs:191-200).  [snap]: the read timestamp the transaction began with;
      [ms]: its [upsert] and [delete] calls. *)
  Inductive call :=
  | CIngest (rows : list R) (dec : bool)
  | CTomb (rows : list (R * bool)) (dec : bool)
  | CTxn (snap : N) (ms : list (mut K R)).

  (** The batches a call inserts, in order: src/db/mod.rs:798,
      src/db/wal.rs:490-502, src/transaction/mod.rs:726-746. *)
  Inductive part := PRows (rows : list R) | PDels (ks : list (option K)).
  Definition two_parts (ups : list R) (dels : list (option K)) : list part :=
    match ups with [] => [] | _ => [PRows ups] end ++ match dels with [] => [] | _ => [PDels dels] end.
  Definition parts_of (c : call) : list part :=
    match c with
    | CIngest rows _ => [PRows rows]
    | CTomb rows _ => two_parts (part_upserts rows) (part_deletes key_of rows)
    | CTxn _ ms => two_parts (staged_rows (stage key_of ms)) (staged_dels (stage key_of ms))
    end.
  (** The seal policy is evaluated after ingests, not after transaction commits. *)
  Definition dec_of (c : call) : bool :=
    match c with CIngest _ dec | CTomb _ dec => dec | CTxn _ _ => false end.
  (** The keys a commit locks, in the order of its staged mutations:
      src/transaction/mod.rs:578-589.  Ingests take no key locks. *)
  Definition keys_of (c : call) : list K :=
    match c with CTxn _ ms => map fst (stage key_of ms) | _ => [] end.
  Definition snap_of (c : call) : N := match c with CTxn s _ => s | _ => 0%N end.

  (** [GaveUp]: the caller dropped the future of the call before it changed anything. *)
  Inductive outcome := Acked (ts : N) | Nothing | Conflict | Failed | GaveUp.

  (** Where a call is.  [PAdd] and [PAddLast]: it has replaced the memtable by an empty one
      and still holds the sealed segment (src/db/wal.rs:138-144, 147-155). *)
  Inductive pc :=
  | PLock (got : nat)
  | PCheck (n : nat)
  | PAlloc
  | PPut (ts : N) (n : nat)
  | PAdd (ts : N) (n : nat) (sg : seg K R)
  | PSeal (ts : N)
  | PAddLast (ts : N) (sg : seg K R)
  | PDone (o : outcome).

  Record thread := mkTh { t_call : call; t_pc : pc }.

  (** A flush in progress (one at a time, [flush_lock], src/db/mod.rs:1099): [FTaken]: it has
      captured the first [n] segments (src/db/mod.rs:1100-1106) and reserved a table id;
      [FPublished]: the new version is published (1168-1170), the segments not yet removed. *)
  Inductive flushing := FNone | FTaken (id : N) (segs : list (seg K R)) | FPublished (n : nat).

  Record conc := mkC { c_db : db K R; c_threads : list thread; c_flush : flushing }.

  Definition cstart (capacity : nat) : conc := mkC (db_new capacity) [] FNone.

  (** The keys a call holds locked.  The lock map compares keys for equality
      (src/db/mod.rs [_key_locks]); the guards are dropped when [commit] returns. *)
  Definition held (t : thread) : list K :=
    match t_pc t with
    | PLock got => firstn got (keys_of (t_call t))
    | PDone _ => []
    | _ => keys_of (t_call t)
    end.
  Definition holds (k : K) (t : thread) : bool := existsb (keqb k) (held t).

  Fixpoint others {A} (i : nat) (l : list A) {struct l} : list A :=
    match l, i with
    | [], _ => []
    | _ :: r, O => r
    | a :: r, S j => a :: others j r
    end.
  Fixpoint set_nth {A} (i : nat) (x : A) (l : list A) {struct l} : list A :=
    match l, i with
    | [], _ => []
    | _ :: r, O => x :: r
    | a :: r, S j => a :: set_nth j x r
    end.

  (** [mutable_has_conflict] || [immutable_has_conflict]: src/transaction/mod.rs:592-598 *)
  Definition key_conflict (d : db K R) (snap : N) (k : K) : bool :=
    mem_has_conflict (d_mem d) k snap || existsb (fun g => seg_has_conflict g k snap) (d_imm d).

  Definition put_part (p : part) (ts : N) (m : mem K R) : minsert_result K R :=
    match p with
    | PRows rows => mem_insert_batch key_of m rows ts
    | PDels ks => mem_insert_deletes key_of m ks ts
    end.

  (** [add_immutable] without WAL ranges: src/db/wal.rs:387-391 *)
  Definition push_seg (d : db K R) (sg : seg K R) : db K R :=
    mkDb (d_mem d) (d_imm d ++ [sg]) (d_mrange d) (d_iranges d ++ [None]) (d_levels d) (d_clock d) (d_next_id d).

  (** One step of a call: [Transaction::commit] (src/transaction/mod.rs:558-680),
      [ingest] (src/db/mod.rs:766-807), [insert_dyn_wal_batch] (src/db/wal.rs:426-513).
      [None]: it waits for a key lock, or has returned. *)
  Definition call_step (d : db K R) (rest : list thread) (t : thread) : option (db K R * pc) :=
    let c := t_call t in
    match t_pc t with
    | PLock got =>
        match nth_error (keys_of c) got with
        | Some k => if existsb (holds k) rest then None else Some (d, PLock (S got))
        | None => Some (d, PCheck 0)
        end
    | PCheck n =>
        match nth_error (keys_of c) n with
        | Some k => Some (d, if key_conflict d (snap_of c) k then PDone Conflict else PCheck (S n))
        | None => Some (d, PAlloc)
        end
    | PAlloc =>
        match parts_of c with
        | [] => Some (d, PDone Nothing)
        | _ => Some (tick d, PPut (d_clock d) 0)
        end
    | PPut ts n =>
        match nth_error (parts_of c) n with
        | Some p =>
            match put_part p ts (d_mem d) with
            | MOk m None => Some (set_mem d m, PPut ts (S n))
            | MOk m (Some sg) => Some (set_mem d m, PAdd ts (S n) sg)
            | MKeyErr m => Some (set_mem d m, PDone Failed)
            | MFail => Some (d, PDone Failed)
            end
        | None => Some (d, PSeal ts)
        end
    | PAdd ts n sg => Some (push_seg d sg, PPut ts n)
    | PSeal ts =>
        if dec_of c then
          match seal key_of (d_mem d) with
          | SNone => Some (d, PDone (Acked ts))
          | SErr => Some (d, PDone Failed)
          | SSealed m sg => Some (set_mem d m, PAddLast ts sg)
          end
        else Some (d, PDone (Acked ts))
    | PAddLast ts sg => Some (push_seg d sg, PDone (Acked ts))
    | PDone _ => None
    end.

  (** What can happen next: a call starts, a transaction begins (its read timestamp is the
      clock's, src/db/mod.rs:821-833), a call takes a step, a flush takes a step
      (src/db/mod.rs:1094-1204), the future of a call or of a flush is dropped.  An event
      that cannot happen changes nothing.  [level] is the level of the table a flush writes. *)
  Inductive event :=
  | EIngest (rows : list R) (dec : bool)
  | ETomb (rows : list (R * bool)) (dec : bool)
  | EBegin (ms : list (mut K R))
  | EStep (i : nat)
  | EFlush (level : nat)
  | EDrop (i : nat)
  | EDropFlush.

  Definition spawn (c : conc) (w : call) (p : pc) : conc :=
    mkC (c_db c) (c_threads c ++ [mkTh w p]) (c_flush c).

  Definition flush_step (level : nat) (c : conc) : conc :=
    let d := c_db c in
    match c_flush c with
    | FNone =>
        match d_imm d with
        | [] => c
        | _ => mkC (mkDb (d_mem d) (d_imm d) (d_mrange d) (d_iranges d) (d_levels d) (d_clock d) (d_next_id d + 1)%N)
                   (c_threads c) (FTaken (d_next_id d) (d_imm d))
        end
    | FTaken id segs =>
        match write_flush key_of id segs with
        | FSst t =>
            mkC (mkDb (d_mem d) (d_imm d) (d_mrange d) (d_iranges d)
                      (tidy (@t_id K R) (add_ssts (@t_id K R) level [t] (d_levels d))) (d_clock d) (d_next_id d))
                (c_threads c) (FPublished (length segs))
        | _ => mkC d (c_threads c) FNone
        end
    | FPublished n =>
        mkC (mkDb (d_mem d) (skipn n (d_imm d)) (d_mrange d) (skipn n (d_iranges d)) (d_levels d) (d_clock d) (d_next_id d))
            (c_threads c) FNone
    end.

  (** Where the future of a call can be dropped: while it waits for a key lock
      (src/transaction/mod.rs:578-589), for space ([PAlloc], src/db/mod.rs:766-790), or for
      the log, between its timestamp and its first insert (src/db/wal.rs:452-483,
      src/transaction/mod.rs:619-630).  From the first insert on the code does not await
      before the whole write is applied; a call dropped after that is one that returned. *)
  Definition awaits (p : pc) : bool :=
    match p with PLock _ | PAlloc | PPut _ O => true | _ => false end.

  Definition cstep (c : conc) (e : event) : conc :=
    match e with
    | EIngest rows dec => spawn c (CIngest rows dec) PAlloc
    | ETomb rows dec => spawn c (CTomb rows dec) PAlloc
    | EBegin ms => spawn c (CTxn (d_clock (c_db c) - 1) ms) (PLock 0)
    | EStep i =>
        match nth_error (c_threads c) i with
        | None => c
        | Some t =>
            match call_step (c_db c) (others i (c_threads c)) t with
            | None => c
            | Some (d, p) => mkC d (set_nth i (mkTh (t_call t) p) (c_threads c)) (c_flush c)
            end
        end
    | EFlush level => flush_step level c
    | EDrop i =>
        match nth_error (c_threads c) i with
        | None => c
        | Some t => if awaits (t_pc t)
                    then mkC (c_db c) (set_nth i (mkTh (t_call t) (PDone GaveUp)) (c_threads c)) (c_flush c) else c
        end
    (* the segments it captured stay; a published version stays published
       (src/db/mod.rs:1168-1172: the awaits of the manifest edit and of the log's pruning) *)
    | EDropFlush => mkC (c_db c) (c_threads c) FNone
    end.
  Definition crun (c : conc) (es : list event) : conc := fold_left cstep es c.

  (** A scan at one moment, and a scan that plans at one moment and builds its streams at a
      later one ([plan_scan] in state [c], [execute] in state [c']): src/db/scan.rs:185-373,
      660-809. *)
  Definition scan_at (sn : snapshot K R) (c : conc) : option (list ((K * N) * R)) :=
    scan key_of (@t_rows K R) cp_all sn None (c_db c).
  Definition scan_split (sn : snapshot K R) (c c' : conc) : option (list ((K * N) * R)) :=
    exec_plan key_of None (d_mem (c_db c')) (d_imm (c_db c'))
      (plan_scan (@t_rows K R) cp_all false (d_mem (c_db c)) (d_imm (c_db c)) (sn_levels sn) (sn_ts sn) None).
End Sched.
Arguments call K R : clear implicits.
Arguments pc K R : clear implicits.
Arguments thread K R : clear implicits.
Arguments conc K R : clear implicits.
Arguments event K R : clear implicits.
Arguments flushing K R : clear implicits.
