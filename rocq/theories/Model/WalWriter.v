(** The WAL writer at the level of frames: src/wal/writer.rs:495-1025, src/wal/mod.rs:940-998,
    src/wal/state.rs.  Definitions only.  A frame is its sequence number and its record;
    bytes, torn frames and the repair of the last segment are in [Model.Frame] and
    [Model.WalScan].  Timers (age-based rotation is the operation [rotate_now]), sync
    policies (nothing that was written is lost) and metrics are not modelled. *)
From Coq Require Import List NArith Bool.
From Verif Require Import Model.WalScan.
Import ListNotations.
Local Open Scope N_scope.

(** [WalConfig]: src/wal/mod.rs:96-140; [c_state]: a state store is configured. *)
Record wconf := mkConf { c_max_bytes : N; c_retention : option N; c_state : bool }.

(** [u64::saturating_add(1)] *)
Definition sat1 (n : N) : N := N.min (n + 1) (2 ^ 64 - 1).

Section Writer.
  Context {A : Type}.
  (** The bytes of a record's frame, the provisional id that [scan_tail] reads from it
      (src/wal/storage.rs:355-380) and the commit timestamp of a commit record. *)
  Variable size : A -> N.
  Variable tail_id : A -> option N.
  Variable commit_of : A -> option N.

  Definition frame := (N * A)%type.
  (** Segment files, oldest first. *)
  Definition files := list (N * list frame).

  (** [WalState], src/wal/state.rs:22-36, without the segment metadata that is only
      compared with the directory. *)
  Record wstate := mkWst { ws_seg : option N; ws_frame : option N; ws_commit : option N }.
  Definition wstate0 : wstate := mkWst None None None.

  (** [WriterContext]: src/wal/writer.rs:464-494, with the files it works on.  [w_done] is
      [completed_segments] (sequence number and bytes); it is not told when the database
      prunes files. *)
  Record writer := mkWr {
    w_old : files;               (* the files before the active one *)
    w_seg : N;                   (* the active segment *)
    w_cur : list frame;          (* its frames *)
    w_bytes : N;                 (* [segment_bytes] *)
    w_done : list (N * N);
    w_next : N;                  (* [next_frame_seq] *)
    w_nseg : N;                  (* [next_segment_seq] *)
    w_state : wstate;            (* [state] in memory *)
    w_disk : wstate              (* as last persisted *)
  }.
  Definition w_files (w : writer) : files := w_old w ++ [(w_seg w, w_cur w)].
  Definition flat (fs : files) : list frame := flat_map snd fs.
  Definition frames_bytes (l : list frame) : N := fold_right (fun f n => size (snd f) + n) 0 l.

  (** [total_retained_bytes]: src/wal/writer.rs:932-940 *)
  Definition retained (done : list (N * N)) (bytes : N) : N :=
    fold_right (fun d n => snd d + n) bytes done.

  Definition has_file (seq : N) (fs : files) : bool := existsb (fun s => fst s =? seq) fs.
  Definition remove_file (seq : N) (fs : files) : files := filter (fun s => negb (fst s =? seq)) fs.

  (** [enforce_retention_limit]: src/wal/writer.rs:980-1002: delete the oldest completed
      segments until the budget holds.  [None]: deleting a file that is already gone is an
      error, which ends the writer. *)
  Fixpoint evict (limit : N) (done : list (N * N)) (bytes : N) (fs : files) : option (list (N * N) * files) :=
    if retained done bytes <=? limit then Some (done, fs)
    else match done with
         | [] => Some (done, fs)
         | d :: r => if has_file (fst d) fs then evict limit r bytes (remove_file (fst d) fs) else None
         end.
  Definition enforce (cf : wconf) (w : writer) : option writer :=
    match c_retention cf with
    | None => Some w
    | Some limit =>
        match evict limit (w_done w) (w_bytes w) (w_old w) with
        | Some (done, old) =>
            Some (mkWr old (w_seg w) (w_cur w) (w_bytes w) done (w_next w) (w_nseg w) (w_state w) (w_disk w))
        | None => None
        end
    end.

  (** [write_frame]: src/wal/writer.rs:704-713 (every command is one frame). *)
  Definition put (a : A) (w : writer) : writer :=
    mkWr (w_old w) (w_seg w) (w_cur w ++ [(w_next w, a)]) (w_bytes w + size a) (w_done w)
         (sat1 (w_next w)) (w_nseg w) (w_state w) (w_disk w).

  (** [rotate_active_segment]: src/wal/writer.rs:794-860.  The new file does not exist
      before. *)
  Definition rotate (cf : wconf) (w : writer) : option writer :=
    enforce cf
      (mkWr (w_old w ++ [(w_seg w, w_cur w)]) (w_nseg w) [] 0 (w_done w ++ [(w_seg w, w_bytes w)])
            (w_next w) (sat1 (w_nseg w))
            (mkWst (Some (w_seg w)) (ws_frame (w_state w)) (ws_commit (w_state w))) (w_disk w)).
  (** [maybe_rotate]: src/wal/writer.rs:777-792 *)
  Definition maybe_rotate (cf : wconf) (w : writer) : option writer :=
    if (c_max_bytes cf =? 0) || (w_bytes w <? c_max_bytes cf) || (w_bytes w =? 0) then Some w else rotate cf w.

  (** [record_frame_progress] and [persist_state_if_dirty]: src/wal/writer.rs:1010-1040;
      without a state store there is nothing to record. *)
  Definition persist (cf : wconf) (w : writer) : writer :=
    if c_state cf then
      mkWr (w_old w) (w_seg w) (w_cur w) (w_bytes w) (w_done w) (w_next w) (w_nseg w) (w_state w) (w_state w)
    else w.
  Definition progress (a : A) (w : writer) : writer :=
    mkWr (w_old w) (w_seg w) (w_cur w) (w_bytes w) (w_done w) (w_next w) (w_nseg w)
         (mkWst (ws_seg (w_state w)) (Some (w_next w - 1))
                (match commit_of a with Some t => Some t | None => ws_commit (w_state w) end)) (w_disk w).

  (** [handle_enqueue]: src/wal/writer.rs:613-680: the acknowledged frame range. *)
  Definition enqueue (cf : wconf) (a : A) (w : writer) : option (writer * (N * N)) :=
    let first := w_next w in
    match maybe_rotate cf (put a w) with
    | None => None
    | Some w1 => Some (persist cf (progress a w1), (first, w_next w1 - 1))
    end.
  Fixpoint enqueues (cf : wconf) (l : list A) (w : writer) : option (writer * list (N * N)) :=
    match l with
    | [] => Some (w, [])
    | a :: r =>
        match enqueue cf a w with
        | None => None
        | Some (w1, k) => match enqueues cf r w1 with None => None | Some (w2, ks) => Some (w2, k :: ks) end
        end
    end.

  (** A requested or timed rotation: src/wal/writer.rs:862-900 *)
  Definition rotate_now (cf : wconf) (w : writer) : option writer :=
    if w_bytes w =? 0 then Some w else option_map (persist cf) (rotate cf w).

  (** How far the writer got with a command when the process died. *)
  Inductive stage := Written | Rotated | Persisted.
  Definition enqueue_until (cf : wconf) (st : stage) (a : A) (w : writer) : option writer :=
    match st with
    | Written => Some (put a w)
    | Rotated => maybe_rotate cf (put a w)
    | Persisted => option_map fst (enqueue cf a w)
    end.

  Definition last_frame (l : list frame) : option frame :=
    match rev l with [] => None | f :: _ => Some f end.

  (** [WriterContext::new]: src/wal/writer.rs:501-606 and the start of the writer loop
      (src/wal/writer.rs:177-200): from the files found and the persisted state.  Segment 0
      is created in an empty directory. *)
  Definition open (cf : wconf) (fs : files) (ws : wstate) : option writer :=
    let '(old, seg, cur) := match rev fs with
                            | [] => ([], 0, [])
                            | (s, l) :: r => (rev r, s, l)
                            end in
    let next := match last_frame cur with Some f => sat1 (fst f) | None => 1 end in
    let next := if c_state cf then match ws_frame ws with Some n => N.max next (sat1 n) | None => next end else next in
    let nseg := sat1 seg in
    let nseg := if c_state cf then match ws_seg ws with Some n => N.max nseg (sat1 n) | None => nseg end else nseg in
    let done := flat_map (fun s => match snd s with [] => [] | l => [(fst s, frames_bytes l)] end) old in
    let st := if c_state cf then ws else wstate0 in
    enforce cf (mkWr old seg cur (frames_bytes cur) done (N.max next 1) nseg st st).

  (** [enable_wal]: src/wal/mod.rs:946-960: the next provisional id. *)
  Definition open_prov (fs : files) : N :=
    match rev fs with
    | [] => 1
    | (_, cur) :: _ =>
        match last_frame cur with
        | Some f => match tail_id (snd f) with Some i => sat1 i | None => 1 end
        | None => 1
        end
    end.

  (** *** What the database does with the files *)

  (** [collect_wal_segment_refs]: src/wal/manifest_ext.rs:15-66 *)
  Definition seg_refs (cutoff live : option N) (fs : files) : list seg_ref :=
    flat_map (fun s => match snd s with
                       | [] => []
                       | f :: l => let lastf := fst (last l f) in
                                   if segment_required (fst s) lastf cutoff live
                                   then [mkRef (fst s) (fst f) lastf] else []
                       end) fs.

  (** [prune_wal_segments]: src/wal/manifest_ext.rs:95-112, src/wal/storage.rs:155-170.  The
      files below the floor are deleted oldest first; [n] of them, when an error stops the
      loop (callers ignore it). *)
  Fixpoint drop_below (floor : N) (n : nat) (fs : files) : files :=
    match n, fs with
    | O, _ => fs
    | _, [] => []
    | S n, s :: r => if fst s <? floor then drop_below floor n r else s :: drop_below floor (S n) r
    end.
  Definition prune (floor : option seg_ref) (n : nat) (w : writer) : writer :=
    match floor with
    | None => w
    | Some f => mkWr (drop_below (r_seq f) n (w_old w)) (w_seg w) (w_cur w) (w_bytes w) (w_done w)
                     (w_next w) (w_nseg w) (w_state w) (w_disk w)
    end.

  (** The frames that [scan_with_floor] returns: src/wal/replay.rs:45-180 *)
  Definition frames_from (floor : option seg_ref) (fs : files) : list frame :=
    match floor with
    | None => flat fs
    | Some f =>
        flat_map (fun s => if fst s <? r_seq f then []
                           else if fst s =? r_seq f then filter (fun x => r_first f <=? fst x) (snd s)
                           else snd s) fs
    end.
End Writer.
Arguments frame A : clear implicits.
Arguments files A : clear implicits.
Arguments writer A : clear implicits.
