(** What the log's sync policies promise. *)
From Coq Require Import List NArith Bool.
From Verif Require Import Model.WalSync.
Import ListNotations.

(** What may be left of the files when the process stops (at least what the operating system
    has) or the machine stops (at least what is on the disk): how many frames of each. *)
Definition survives (power : bool) (fs : list sfile) (kept : list nat) : Prop :=
  Forall2 (fun f k => (if power then f_disk f else f_os f) <= k <= length (f_frames f)) fs kept.

(** Recovery reads the files in order and stops after the first that lost something. *)
Fixpoint read_back (fs : list sfile) (kept : list nat) : list (N * N) :=
  match fs, kept with
  | f :: fs', k :: kept' => firstn k (f_frames f) ++ (if Nat.ltb k (length (f_frames f)) then [] else read_back fs' kept')
  | _, _ => []
  end.

(** Written bytes reach the operating system before the write is answered: every write is
    followed by a flush, or the file handle does not keep bytes to itself. *)
Definition prompt (cf : sconf) : Prop := y_flush cf = 0%N \/ y_buffered cf = false.

(** Frames are not empty; crashes leave what they may leave. *)
Definition event_fits (cf : sconf) (z : ssys) (e : sevent) : Prop :=
  match e with
  | EBatch cmds _ => Forall (fun c => (0 < fst c)%N) cmds
  | ECrash power cmds more kept _ _ =>
      Forall (fun c => (0 < fst c)%N) cmds /\ match more with Some n => (0 < n)%N | None => True end /\
      survives power (y_files (stopped cf z cmds more)) kept
  | _ => True
  end.
Fixpoint events_fit (cf : sconf) (z : ssys) (es : list sevent) : Prop :=
  match es with [] => True | e :: r => event_fits cf z e /\ events_fit cf (sstep cf z e) r end.

(** An answered write is found after whatever crash follows. *)
Definition safe (power : bool) (z : ssys) (id : N) : Prop :=
  forall kept, survives power (y_files (z_w z)) kept -> In id (map fst (read_back (y_files (z_w z)) kept)).

(** The frames in the files of the log. *)
Definition written_now (z : ssys) : list (N * N) := flat_map f_frames (y_files (z_w z)).

(** Bytes of the answered writes that are not read back. *)
Definition lost_bytes (acked : list (N * N * N)) (found : list (N * N)) : N :=
  fold_right (fun a n => if existsb (fun x => N.eqb (fst x) (fst (fst a))) found then n else (snd (fst a) + n)%N) 0%N acked.

Definition power_loss (e : sevent) : bool := match e with ECrash true _ _ _ _ _ => true | _ => false end.
Definition crash (e : sevent) : bool := match e with ECrash _ _ _ _ _ _ => true | _ => false end.
(** A crash left part of a frame at the end of the log, which the next opening has to repair;
    an opening stopped while it did. *)
Definition torn (e : sevent) : bool := match e with ECrash _ _ _ _ (Torn _) _ => true | _ => false end.
Definition repair_stopped (e : sevent) : bool := match e with ECrash _ _ _ _ (Torn (_ :: _)) _ => true | _ => false end.
(** With the policy "always": whether a repaired file has not been synced since, after each
    event.  Every command that is handled syncs, and so does a shutdown. *)
Definition pending_after (p : bool) (e : sevent) : bool :=
  match e with
  | EBatch (_ :: _) _ | EShutdown _ => false
  | EBatch [] _ | ERotate _ | ETick _ => p
  | ECrash _ _ _ _ (Torn _) _ => true
  | ECrash power cmds _ _ Clean _ => if power then false else match cmds with [] => p | _ => false end
  end.
Fixpoint pending (p : bool) (es : list sevent) : bool :=
  match es with [] => p | e :: r => pending (pending_after p e) r end.
(** No opening stops during a repair, and the machine does not stop before a repaired file is synced. *)
Fixpoint repairs_last (p : bool) (es : list sevent) : Prop :=
  match es with
  | [] => True
  | e :: r =>
      match e with
      | ECrash power cmds _ _ _ _ => repair_stopped e = false /\ (power = true -> p = false \/ cmds <> [])
      | _ => True
      end /\ repairs_last (pending_after p e) r
  end.
Definition crashes (es : list sevent) : nat := length (filter crash es).

(** The timer is not overdue by more than [late] at the time [now]. *)
Definition on_time (late : N) (z : ssys) (now : N) : Prop :=
  match y_timer (z_w z) with Some d => (now <= d + late)%N | None => True end.
