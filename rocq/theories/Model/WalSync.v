(** When the log writer flushes and syncs its files: src/wal/writer.rs.  Definitions only.

    Time is a number; every command has the time at which it is handled.  A frame is the
    number of the write it carries (writes are numbered in the order they reach the writer)
    and its size in bytes; a command is one frame.  Of a file we keep how much of it is
    certain to be with the operating system and how much on the disk, as numbers of frames.

    Simplifications: frame and segment numbers, the state file and retention are in
    [Model.WalWriter]; no write, flush or sync fails (a failure ends the writer); adding a
    duration to a time does not overflow; the file system is a local one (for memory and S3
    [perform_sync] does nothing). *)
From Coq Require Import List NArith Bool.
Import ListNotations.
Local Open Scope N_scope.

(** [WalSyncPolicy]: src/wal/mod.rs:52-64 *)
Inductive policy := Always | IntervalBytes (n : N) | IntervalTime (d : N) | Disabled.

(** The fields of [WalConfig] that matter here (src/wal/mod.rs:96-140).  [y_buffered]: the
    file handle keeps written bytes to itself until it is flushed (external). *)
Record sconf := mkSC { y_policy : policy; y_flush : N; y_max_bytes : N; y_max_age : option N; y_buffered : bool }.

(** A segment file: its frames, how many of them the operating system has for certain, and
    how many are on the disk for certain. *)
Record sfile := mkSF { f_frames : list (N * N); f_os : nat; f_disk : nat }.
Definition empty_file : sfile := mkSF [] 0 0.
Definition file_bytes (f : sfile) : N := fold_right (fun x n => snd x + n) 0 (f_frames f).

(** [WriterContext]: src/wal/writer.rs:464-494 *)
Record swriter := mkSW {
  y_old : list sfile;             (* closed segments, oldest first *)
  y_cur : sfile;                  (* [segment] *)
  y_bytes : N;                    (* [segment_bytes] *)
  y_since : N;                    (* [bytes_since_sync] *)
  y_flushed : N;                  (* [last_flush] *)
  y_sync_at : option N;           (* [next_sync_deadline] *)
  y_rot_at : option N;            (* [rotation_deadline] *)
  y_timer : option N              (* the timer, [scheduled_deadline] *)
}.
Definition y_files (w : swriter) : list sfile := y_old w ++ [y_cur w].
Definition with_cur (w : swriter) (f : sfile) : swriter :=
  mkSW (y_old w) f (y_bytes w) (y_since w) (y_flushed w) (y_sync_at w) (y_rot_at w) (y_timer w).

(** [file.flush()]: the operating system has the whole file. *)
Definition file_flush (f : sfile) : sfile := mkSF (f_frames f) (length (f_frames f)) (f_disk f).
(** [perform_sync]: src/wal/writer.rs:1237-1280: the file is opened again by its path and
    what the operating system has of it is written to the disk. *)
Definition file_sync (f : sfile) : sfile := mkSF (f_frames f) (f_os f) (f_os f).

(** [write_frame] and the byte counts: src/wal/writer.rs:630-637, 704-713 *)
Definition file_write (buffered : bool) (x : N * N) (f : sfile) : sfile :=
  mkSF (f_frames f ++ [x]) (if buffered then f_os f else S (length (f_frames f))) (f_disk f).
Definition put_frame (cf : sconf) (x : N * N) (w : swriter) : swriter :=
  mkSW (y_old w) (file_write (y_buffered cf) x (y_cur w)) (y_bytes w + snd x) (y_since w + snd x)
       (y_flushed w) (y_sync_at w) (y_rot_at w) (y_timer w).

(** [flush_if_needed]: src/wal/writer.rs:715-729 *)
Definition flush_if_needed (cf : sconf) (force : bool) (t : N) (w : swriter) : swriter :=
  if force || (y_flush cf =? 0) || (y_flush cf <=? t - y_flushed w)
  then mkSW (y_old w) (file_flush (y_cur w)) (y_bytes w) (y_since w) t (y_sync_at w) (y_rot_at w) (y_timer w)
  else w.

(** [sync_all] or [sync_data] followed by [bytes_since_sync = 0] *)
Definition sync_now (w : swriter) : swriter :=
  mkSW (y_old w) (file_sync (y_cur w)) (y_bytes w) 0 (y_flushed w) (y_sync_at w) (y_rot_at w) (y_timer w).

(** [TimerDirective]: src/wal/writer.rs:1309-1314 *)
Inductive directive := DNone | DCancel | DSchedule (d : N).

(** [maybe_sync]: src/wal/writer.rs:731-775 *)
Definition maybe_sync (cf : sconf) (w : swriter) : swriter * directive :=
  match y_policy cf with
  | Always => (sync_now w, DCancel)
  | IntervalBytes n => if n <=? y_since w then (sync_now w, DCancel) else (w, DNone)
  | IntervalTime d => if 0 <? y_since w then (w, DSchedule d) else (w, DCancel)
  | Disabled => (w, DNone)
  end.

(** [rotate_active_segment]: src/wal/writer.rs:794-860; the new file is empty *)
Definition rotate_segment (cf : sconf) (t : N) (w : swriter) : swriter :=
  let w1 := flush_if_needed cf true t w in
  let w2 := match y_policy cf with Disabled => w1 | _ => sync_now w1 end in
  mkSW (y_old w2 ++ [y_cur w2]) empty_file 0 (y_since w2) t (y_sync_at w2) None (y_timer w2).
(** [maybe_rotate]: src/wal/writer.rs:777-792 *)
Definition maybe_rotate_segment (cf : sconf) (t : N) (w : swriter) : swriter * bool :=
  if (y_max_bytes cf =? 0) || (y_bytes w <? y_max_bytes cf) || (y_bytes w =? 0) then (w, false)
  else (rotate_segment cf t w, true).

(** [handle_enqueue]: src/wal/writer.rs:613-680 *)
Definition handle_enqueue (cf : sconf) (x : N * N) (t : N) (w : swriter) : swriter * directive :=
  let was_empty := y_bytes w =? 0 in
  let w1 := put_frame cf x w in
  let w2 := match y_max_age cf with
            | Some age => if was_empty && (0 <? y_bytes w1)
                          then mkSW (y_old w1) (y_cur w1) (y_bytes w1) (y_since w1) (y_flushed w1) (y_sync_at w1) (Some (t + age)) (y_timer w1)
                          else w1
            | None => w1
            end in
  let w3 := flush_if_needed cf false t w2 in
  let '(w4, rotated) := maybe_rotate_segment cf t w3 in
  let '(w5, dir) := maybe_sync cf w4 in
  (w5, if rotated then DCancel else dir).

(** [handle_enqueue_batch]: src/wal/writer.rs:682-702: the last directive counts.  Writes are
    numbered from [id]; each has its size and the time it is handled. *)
Fixpoint handle_batch (cf : sconf) (id : N) (cmds : list (N * N)) (dir : directive) (w : swriter) : swriter * directive :=
  match cmds with
  | [] => (w, dir)
  | (size, t) :: r => let '(w1, dir1) := handle_enqueue cf (id, size) t w in handle_batch cf (id + 1) r dir1 w1
  end.

(** [earliest_deadline]: src/wal/writer.rs:1153-1160 *)
Definition earliest (a b : option N) : option N :=
  match a, b with
  | Some x, Some y => Some (N.min x y)
  | Some x, None => Some x
  | None, o => o
  end.
(** [recompute_timer]: src/wal/writer.rs:1064-1080 *)
Definition recompute_timer (w : swriter) : swriter :=
  mkSW (y_old w) (y_cur w) (y_bytes w) (y_since w) (y_flushed w) (y_sync_at w) (y_rot_at w) (earliest (y_sync_at w) (y_rot_at w)).
Definition with_sync_at (w : swriter) (o : option N) : swriter :=
  mkSW (y_old w) (y_cur w) (y_bytes w) (y_since w) (y_flushed w) o (y_rot_at w) (y_timer w).
(** [apply_timer_directive]: src/wal/writer.rs:1046-1062 *)
Definition apply_directive (dir : directive) (t : N) (w : swriter) : swriter :=
  recompute_timer
    match dir with
    | DNone => w
    | DCancel => with_sync_at w None
    | DSchedule d => with_sync_at w (match y_sync_at w with Some x => Some (N.min x (t + d)) | None => Some (t + d) end)
    end.

(** [handle_timer_elapsed]: src/wal/writer.rs:1162-1193 and the loop around it (209-224) *)
Definition timer_elapsed (cf : sconf) (t : N) (w : swriter) : swriter :=
  let w1 := match y_rot_at w with
            | Some d => if d <=? t
                        then let w' := if 0 <? y_bytes w then rotate_segment cf t w else w in
                             mkSW (y_old w') (y_cur w') (y_bytes w') (y_since w') (y_flushed w') (y_sync_at w') None (y_timer w')
                        else w
            | None => w
            end in
  let w2 := match y_sync_at w1 with
            | Some d => if d <=? t
                        then let w' := with_sync_at w1 None in if 0 <? y_since w' then sync_now w' else w'
                        else w1
            | None => w1
            end in
  recompute_timer w2.

(** A requested rotation: [handle_rotation_request], src/wal/writer.rs:862-874, and the loop
    around it (299-312) *)
Definition rotation_request (cf : sconf) (t : N) (w : swriter) : swriter :=
  if y_bytes w =? 0 then recompute_timer w else apply_directive DCancel t (rotate_segment cf t w).

(** [flush_and_sync_for_shutdown]: src/wal/writer.rs:898-910 *)
Definition shutdown (cf : sconf) (t : N) (w : swriter) : swriter :=
  let w1 := flush_if_needed cf true t w in
  match y_policy cf with Disabled => w1 | _ => sync_now w1 end.

(** [WriterContext::new] on the files found: src/wal/writer.rs:501-606; the last file is
    continued *)
Definition open_log (cf : sconf) (fs : list sfile) (t : N) : swriter :=
  let '(old, cur) := match rev fs with [] => ([], empty_file) | f :: r => (rev r, f) end in
  let bytes := file_bytes cur in
  recompute_timer
    (mkSW old cur bytes 0 t None
          (match y_max_age cf with Some age => if 0 <? bytes then Some (t + age) else None | None => None end) None).

(** How a file ends: with a whole frame, or in the middle of one.  In the second case opening the
    log empties the last file, writes its whole frames again and flushes, without a sync
    ([tail_metadata_with_hint], [overwrite_segment]: src/wal/storage.rs:262-318, 401-430).
    [Torn stops]: before the opening that succeeds there were others that stopped at this, each
    leaving at most the given number of frames. *)
Inductive tail := Clean | Torn (stops : list nat).
Definition rewritten (tl : tail) (f : sfile) : sfile :=
  match tl with
  | Clean => f
  | Torn stops =>
      let k := fold_left Nat.min stops (length (f_frames f)) in mkSF (firstn k (f_frames f)) k 0
  end.
Definition repair (tl : tail) (fs : list sfile) : list sfile :=
  match rev fs with [] => [] | f :: r => rev r ++ [rewritten tl f] end.

(** ** Runs *)

(** A batch of commands (sizes and times) answered at a time; a requested rotation; the timer;
    an orderly shutdown and reopen.  [ECrash power cmds more kept tl t]: the process or the machine
    ([power]) stops after the commands [cmds] of an unanswered batch were handled, and the
    frame [more] of the next one was written; of each file the given number of frames is left,
    and the last one ends as [tl] says (a part of one more frame may have been written); the
    log is reopened. *)
Inductive sevent :=
| EBatch (cmds : list (N * N)) (t : N)
| ERotate (t : N)
| ETick (t : N)
| EShutdown (t : N)
| ECrash (power : bool) (cmds : list (N * N)) (more : option N) (kept : list nat) (tl : tail) (t : N).

(** The writer, the number of the next write, the answered writes: number, size, time of the answer. *)
Record ssys := mkSys { z_w : swriter; z_next : N; z_acked : list (N * N * N) }.
Definition sstart (cf : sconf) (t : N) : ssys := mkSys (open_log cf [] t) 1 [].

Fixpoint numbered (id : N) (cmds : list (N * N)) (t : N) : list (N * N * N) :=
  match cmds with [] => [] | (size, _) :: r => (id, size, t) :: numbered (id + 1) r t end.

(** The writer when it stops in the middle of a batch. *)
Definition stopped (cf : sconf) (z : ssys) (cmds : list (N * N)) (more : option N) : swriter :=
  let w := fst (handle_batch cf (z_next z) cmds DNone (z_w z)) in
  match more with
  | Some size => put_frame cf (z_next z + N.of_nat (length cmds), size) w
  | None => w
  end.
Definition crash_file (power : bool) (f : sfile) (k : nat) : sfile :=
  mkSF (firstn k (f_frames f)) k (if power then k else f_disk f).
Definition crash_files (power : bool) (fs : list sfile) (kept : list nat) : list sfile :=
  map (fun p => crash_file power (fst p) (snd p)) (combine fs kept).

Definition sstep (cf : sconf) (z : ssys) (e : sevent) : ssys :=
  match e with
  | EBatch cmds t =>
      let '(w, dir) := handle_batch cf (z_next z) cmds DNone (z_w z) in
      mkSys (apply_directive dir t w) (z_next z + N.of_nat (length cmds)) (z_acked z ++ numbered (z_next z) cmds t)
  | ERotate t => mkSys (rotation_request cf t (z_w z)) (z_next z) (z_acked z)
  | ETick t => mkSys (timer_elapsed cf t (z_w z)) (z_next z) (z_acked z)
  | EShutdown t => mkSys (open_log cf (y_files (shutdown cf t (z_w z))) t) (z_next z) (z_acked z)
  | ECrash power cmds more kept tl t =>
      mkSys (open_log cf (repair tl (crash_files power (y_files (stopped cf z cmds more)) kept)) t)
            (z_next z + N.of_nat (length cmds) + match more with Some _ => 1 | None => 0 end) (z_acked z)
  end.
Fixpoint srun (cf : sconf) (es : list sevent) (z : ssys) : ssys :=
  match es with [] => z | e :: r => srun cf r (sstep cf z e) end.
