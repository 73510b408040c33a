(** Writes, seals, flushes and log pruning that overlap (src/db/mod.rs, src/db/wal.rs,
    src/transaction/mod.rs, src/wal/manifest_ext.rs).  Definitions only.

    [Model.Sched] interleaves calls without a log; here the log is followed and the data is
    not: a write is a number and the frames it appended, a memtable, a sealed segment or an
    SST is the list of the writes it holds.  A step is what the code does under one lock or
    in one atomic operation.  Simplified: the insert of one write is one step; the
    enumeration of the log directory is one step; the log writer answers when the frame is
    durable ([WalSyncPolicy::Always]); one process life; no compaction. *)
From Coq Require Import List NArith Bool.
From Verif Require Import Model.Sched.
Import ListNotations.
Local Open Scope N_scope.

(** A frame of the log: its number and the write it belongs to. *)
Record lframe := mkLF { lf_no : N; lf_w : nat }.
(** A log segment: its sequence number and its frames. *)
Definition lseg := (N * list lframe)%type.

(** [ingest] and [ingest_with_tombstones]; [Transaction::commit] in strict mode. *)
Inductive wkind := WkIngest | WkCommit.

(** What a write does after a sealed segment was added. *)
Inductive wcont := KSeal | KFloor | KDone.

(** Where a write is. *)
Inductive wpc :=
| LStart                                   (* a commit: has not read the live floor *)
| LAppend                                  (* appending its frames *)
| LRecord                                  (* all frames durable, range not recorded *)
| LInsert                                  (* range recorded, rows not inserted *)
| LTake (ws : list nat) (k : wcont)        (* memtable replaced, range not taken *)
| LAdd (ws : list nat) (r : option (N * N)) (k : wcont)  (* segment not yet added *)
| LSeal                                    (* an ingest: seal policy *)
| LFloor                                   (* a commit: reads the manifest's floor *)
| LCollect (cutoff : option N)             (* enumerates the log *)
| LPublish (f : N)                         (* publishes the new floor *)
| LPruneRead                               (* reads the floor to prune below *)
| LPrune (p : N)
| LDone.

(** [lt_total]: how many frames it writes; [lt_nos]: the numbers of those written;
    [lt_prev]: the live floor a commit read first. *)
Record lthread := mkLT { lt_kind : wkind; lt_total : nat; lt_nos : list N; lt_prev : option N; lt_pc : wpc }.

(** A flush (one at a time, [flush_lock]): the writes of the captured segments, how many
    segments, and what it has read so far. *)
Inductive lflush :=
| LFNone
| LFTaken (ws : list nat) (n : nat)
| LFFloor (ws : list nat) (n : nat) (cutoff : option N)
| LFLive (ws : list nat) (n : nat) (cutoff live : option N)
| LFReady (ws : list nat) (n : nat) (f : option N)
| LFPruneRead (n : nat)
| LFPrune (n : nat) (p : N)
| LFDrop (n : nat).

Record lstate := mkLS {
  ls_log : list lseg;            (* the segments on disk, oldest first *)
  ls_active : N;                 (* the segment the writer appends to *)
  ls_next : N;                   (* the next frame number *)
  ls_mem : list nat;
  ls_mrange : option (N * N);    (* [mutable_wal_range] *)
  ls_imm : list (list nat * option (N * N));  (* [immutables], [immutable_wal_ranges] *)
  ls_sst : list nat;             (* the writes in published SSTs *)
  ls_floor : option N;           (* the floor segment of the latest version *)
  ls_threads : list lthread;
  ls_flush : lflush
}.
Definition ls_start : lstate := mkLS [] 1 1 [] None [] [] None [] LFNone.

(** The writer appends to the active segment: src/wal/writer.rs (numbers: [Model.WalWriter]);
    [rot]: the segment is full and the next one is opened first. *)
Fixpoint to_segment (q : N) (f : lframe) (l : list lseg) : list lseg :=
  match l with
  | [] => [(q, [f])]
  | (q', fs) :: r => if q' =? q then (q', fs ++ [f]) :: r else (q', fs) :: to_segment q f r
  end.
Definition append_frame (rot : bool) (w : nat) (s : lstate) : lstate :=
  let q := if rot then ls_active s + 1 else ls_active s in
  mkLS (to_segment q (mkLF (ls_next s) w) (ls_log s)) q (ls_next s + 1)
       (ls_mem s) (ls_mrange s) (ls_imm s) (ls_sst s) (ls_floor s) (ls_threads s) (ls_flush s).

(** [segment_required] and [collect_wal_segment_refs]: src/wal/manifest_ext.rs:15-92; the
    floor of the new version is the first reference. *)
Definition last_no (fs : list lframe) : N := last (map lf_no fs) 0.
Definition required (cutoff live : option N) (g : lseg) : bool :=
  match snd g with
  | [] => false
  | _ =>
      match live with Some v => v <=? last_no (snd g) | None => false end ||
      match cutoff with Some c => c <? fst g | None => true end
  end.
Definition collect (cutoff live : option N) (l : list lseg) : option N :=
  match filter (required cutoff live) l with [] => None | g :: _ => Some (fst g) end.
(** [prune_below]: src/wal/storage.rs, src/wal/manifest_ext.rs:94-112 *)
Definition prune_log (p : N) (l : list lseg) : list lseg := filter (fun g => p <=? fst g) l.

(** [WalFrameRange::extend], the range of a write: src/db/wal.rs:40-71, 396-407 *)
Definition extend (a b : option (N * N)) : option (N * N) :=
  match a, b with
  | Some (f, l), Some (f', l') => Some (N.min f f', N.max l l')
  | Some r, None => Some r
  | None, r => r
  end.
Definition span (nos : list N) : option (N * N) :=
  match nos with [] => None | n :: r => Some (fold_left N.min r n, fold_left N.max r n) end.

Definition omin (a b : option N) : option N :=
  match a, b with Some x, Some y => Some (N.min x y) | Some x, None => Some x | None, y => y end.
(** [wal_live_frame_floor]: src/db/wal.rs:344-359 *)
Definition live_all (s : lstate) : option N :=
  fold_left (fun m g => omin m (option_map fst (snd g))) (ls_imm s) (option_map fst (ls_mrange s)).

Definition with_threads (s : lstate) (ts : list lthread) : lstate :=
  mkLS (ls_log s) (ls_active s) (ls_next s) (ls_mem s) (ls_mrange s) (ls_imm s) (ls_sst s) (ls_floor s) ts (ls_flush s).
Definition with_mem (s : lstate) (m : list nat) : lstate :=
  mkLS (ls_log s) (ls_active s) (ls_next s) m (ls_mrange s) (ls_imm s) (ls_sst s) (ls_floor s) (ls_threads s) (ls_flush s).
Definition with_mrange (s : lstate) (r : option (N * N)) : lstate :=
  mkLS (ls_log s) (ls_active s) (ls_next s) (ls_mem s) r (ls_imm s) (ls_sst s) (ls_floor s) (ls_threads s) (ls_flush s).
Definition with_imm (s : lstate) (g : list (list nat * option (N * N))) : lstate :=
  mkLS (ls_log s) (ls_active s) (ls_next s) (ls_mem s) (ls_mrange s) g (ls_sst s) (ls_floor s) (ls_threads s) (ls_flush s).
Definition with_floor (s : lstate) (f : option N) : lstate :=
  mkLS (ls_log s) (ls_active s) (ls_next s) (ls_mem s) (ls_mrange s) (ls_imm s) (ls_sst s) f (ls_threads s) (ls_flush s).
Definition with_log (s : lstate) (l : list lseg) : lstate :=
  mkLS l (ls_active s) (ls_next s) (ls_mem s) (ls_mrange s) (ls_imm s) (ls_sst s) (ls_floor s) (ls_threads s) (ls_flush s).
Definition with_sst (s : lstate) (ws : list nat) : lstate :=
  mkLS (ls_log s) (ls_active s) (ls_next s) (ls_mem s) (ls_mrange s) (ls_imm s) ws (ls_floor s) (ls_threads s) (ls_flush s).
Definition with_flush (s : lstate) (f : lflush) : lstate :=
  mkLS (ls_log s) (ls_active s) (ls_next s) (ls_mem s) (ls_mrange s) (ls_imm s) (ls_sst s) (ls_floor s) (ls_threads s) f.

Definition at_pc (t : lthread) (p : wpc) : lthread := mkLT (lt_kind t) (lt_total t) (lt_nos t) (lt_prev t) p.
Definition after_insert (k : wkind) : wcont := match k with WkIngest => KSeal | WkCommit => KFloor end.
Definition pc_of (k : wcont) : wpc := match k with KSeal => LSeal | KFloor => LFloor | KDone => LDone end.

(** One step of write [i]: [ingest] (src/db/mod.rs:766-807), [insert_dyn_wal_batch]
    (src/db/wal.rs:426-513), [insert_into_mutable], [seal_mutable_now]
    (src/db/wal.rs:133-155), [Transaction::commit] (src/transaction/mod.rs:617-645),
    [record_wal_range], [finalize_manifest] (1313-1373).  [b] is what the environment
    decides: the segment is full ([LAppend]), the memtable is full ([LInsert]), the policy
    says seal ([LSeal]). *)
Definition write_step (b : bool) (i : nat) (t : lthread) (s : lstate) : lstate * lthread :=
  match lt_pc t with
  | LStart => (s, mkLT (lt_kind t) (lt_total t) (lt_nos t) (live_all s) LAppend)
  | LAppend =>
      if Nat.ltb (length (lt_nos t)) (lt_total t)
      then (append_frame b i s, mkLT (lt_kind t) (lt_total t) (lt_nos t ++ [ls_next s]) (lt_prev t) LAppend)
      else (s, at_pc t LRecord)
  | LRecord => (with_mrange s (extend (ls_mrange s) (span (lt_nos t))), at_pc t LInsert)
  | LInsert =>
      if b then (with_mem s [i], at_pc t (LTake (ls_mem s) (after_insert (lt_kind t))))
      else (with_mem s (ls_mem s ++ [i]), at_pc t (pc_of (after_insert (lt_kind t))))
  | LTake ws k => (with_mrange s None, at_pc t (LAdd ws (ls_mrange s) k))
  | LAdd ws r k => (with_imm s (ls_imm s ++ [(ws, r)]), at_pc t (pc_of k))
  | LSeal =>
      if b then
        match ls_mem s with
        | [] => (s, at_pc t LDone)
        | _ => (with_mem s [], at_pc t (LTake (ls_mem s) KDone))
        end
      else (s, at_pc t LDone)
  | LFloor => (s, at_pc t (LCollect (ls_floor s)))
  | LCollect c =>
      match collect c (omin (lt_prev t) (option_map fst (span (lt_nos t)))) (ls_log s) with
      | Some f => (s, at_pc t (LPublish f))
      | None => (s, at_pc t LDone)
      end
  | LPublish f => (with_floor s (Some f), at_pc t LPruneRead)
  | LPruneRead => (s, at_pc t (match ls_floor s with Some p => LPrune p | None => LDone end))
  | LPrune p => (with_log s (prune_log p (ls_log s)), at_pc t LDone)
  | LDone => (s, t)
  end.

(** One step of the flush: [flush_immutables_with_descriptor], src/db/mod.rs:1094-1200: the
    live floor is that of the memtable only. *)
Definition flush_wal_step (s : lstate) : lstate :=
  match ls_flush s with
  | LFNone =>
      match ls_imm s with
      | [] => s
      | _ => with_flush s (LFTaken (concat (map fst (ls_imm s))) (length (ls_imm s)))
      end
  | LFTaken ws n => with_flush s (LFFloor ws n (ls_floor s))
  | LFFloor ws n c => with_flush s (LFLive ws n c (option_map fst (ls_mrange s)))
  | LFLive ws n c v => with_flush s (LFReady ws n (collect c v (ls_log s)))
  | LFReady ws n f => with_flush (with_floor (with_sst s (ls_sst s ++ ws)) f) (LFPruneRead n)
  | LFPruneRead n => with_flush s (match ls_floor s with Some p => LFPrune n p | None => LFDrop n end)
  | LFPrune n p => with_flush (with_log s (prune_log p (ls_log s))) (LFDrop n)
  | LFDrop n => with_flush (with_imm s (skipn n (ls_imm s))) LFNone
  end.

(** What can happen: a write of [n] frames starts (at least the data and the commit), a write
    takes a step, the flush takes a step. *)
Inductive levent := VIngest (n : nat) | VCommit (n : nat) | VStep (i : nat) (b : bool) | VFlush.

Definition levent_step (s : lstate) (e : levent) : lstate :=
  match e with
  | VIngest n => with_threads s (ls_threads s ++ [mkLT WkIngest (S n) [] None LAppend])
  | VCommit n => with_threads s (ls_threads s ++ [mkLT WkCommit (S n) [] None LStart])
  | VStep i b =>
      match nth_error (ls_threads s) i with
      | None => s
      | Some t => let '(s', t') := write_step b i t s in with_threads s' (set_nth i t' (ls_threads s))
      end
  | VFlush => flush_wal_step s
  end.
Definition lrun (s : lstate) (es : list levent) : lstate := fold_left levent_step es s.
