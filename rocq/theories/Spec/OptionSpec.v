(** What it means for an option to take effect. *)
From Coq Require Import List NArith.
From Verif Require Import Model.WalSync Model.Backpressure Model.Options.
Import ListNotations.
Local Open Scope N_scope.

(** [x] is what the settings [l] come to for one option: the value given last, or the
    default [d] when none gives one.  [says a] is the value setting [a] gives. *)
Definition takes {A X} (says : A -> option X) (l : list A) (d x : X) : Prop :=
  (exists l1 a l2, l = l1 ++ a :: l2 /\ says a = Some x /\ Forall (fun b => says b = None) l2)
  \/ (Forall (fun b => says b = None) l /\ x = d).

Section Says.
  Context {D B S Y : Type}.
  Definition says_bytes (s : wset D B S) := match s with SBytes n => Some n | _ => None end.
  Definition says_age (s : wset D B S) := match s with SAge d => Some d | _ => None end.
  Definition says_flush (s : wset D B S) := match s with SFlush d => Some d | _ => None end.
  Definition says_sync (s : wset D B S) := match s with SSync p => Some p | _ => None end.
  Definition says_mode (s : wset D B S) := match s with SMode m => Some m | _ => None end.
  Definition says_keep (s : wset D B S) := match s with SKeep n => Some n | _ => None end.
  Definition says_queue (s : wset D B S) := match s with SQueue n => Some n | _ => None end.
  Definition says_dir (s : wset D B S) := match s with SDir d => Some d | _ => None end.
  Definition says_back (s : wset D B S) := match s with SBack b => Some b | _ => None end.
  Definition says_store (s : wset D B S) := match s with SStore s => Some s | _ => None end.

  (** The log settings a call makes, in their order. *)
  Definition about_log (c : call D B S Y) : list (wset D B S) :=
    match c with
    | WConfig l => l
    | WBytes n => [SBytes n]
    | WSync p => [SSync p]
    | WFlush d => [SFlush d]
    | WKeep n => [SKeep n]
    | _ => []
    end.
  Definition log_settings (calls : list (call D B S Y)) : list (wset D B S) := concat (map about_log calls).

  Definition says_strategy (s : cset Y) := match s with TStrategy s => Some s | _ => None end.
  Definition says_jobs (s : cset Y) := match s with TJobs n => Some n | _ => None end.
  Definition says_cqueue (s : cset Y) := match s with TQueue n => Some n | _ => None end.
  Definition says_rows (s : cset Y) := match s with TRows n => Some (Some n) | _ => None end.
  Definition says_cbytes (s : cset Y) := match s with TBytes n => Some (Some n) | _ => None end.
  Definition says_tick (s : cset Y) := match s with TTick d => Some d | _ => None end.
  Definition says_press (s : cset Y) :=
    match s with TPress c => Some (Some c) | TNoPress => Some None | _ => None end.
  Definition says_cascade (s : cset Y) := match s with TCascade n c => Some (n, c) | _ => None end.
  Definition says_backoff (s : cset Y) := match s with TBackoff b => Some b | _ => None end.

  (** The calls about background compaction. *)
  Definition about_compaction (c : call D B S Y) : bool :=
    match c with COptions _ | CStrategy _ => true | _ => false end.
  (** The strategies chosen on the builder itself. *)
  Definition chosen (c : call D B S Y) : list (cset Y) := match c with CStrategy s => [TStrategy s] | _ => [] end.
  Definition replaces (c : call D B S Y) : bool := match c with COptions _ => true | _ => false end.
  (** [cs]: the compaction settings in force after [calls]: those of the last whole set of
      options, then the strategies chosen after it. *)
  Definition in_force (calls : list (call D B S Y)) (cs : list (cset Y)) : Prop :=
    (exists c1 l c2, calls = c1 ++ COptions l :: c2
       /\ Forall (fun c => replaces c = false) c2 /\ cs = l ++ concat (map chosen c2))
    \/ (Forall (fun c => replaces c = false) calls /\ cs = concat (map chosen calls)).

  (** A flush setting: the threshold and the level, or none. *)
  Definition says_minor (c : call D B S Y) :=
    match c with MSet t l => Some (Some (t, l)) | MOff => Some None | _ => None end.
End Says.

(** A number that must be at least one. *)
Definition at_least_one (n : N) : N := if n =? 0 then 1 else n.
(** An interval of zero switches the timer off. *)
Definition timer (d : N) : option N := if d =? 0 then None else Some d.
