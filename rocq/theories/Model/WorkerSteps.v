(** The background compaction worker of [Model.Worker] in single steps, so that flushes can
    publish files between any two of them (src/compaction/driver.rs:876-1268,
    src/compaction/handle.rs:46-53, src/db/mod.rs:1180-1200).  Definitions only.

    Simplifications: planning from the latest version and putting the job with its head into
    the queue is one step, and so is a job's publication with what follows it (its checks
    before are in [run_job]).  A trigger is never dropped: [kick] sends through a new clone
    of the sender each time, and a clone has a place of its own in the channel. *)
From Coq Require Import List NArith Bool Arith.
From Verif Require Import Base.Order Model.Version Model.Planner Model.Worker.
Import ListNotations.

Section Steps.
  Context {K : Type} {KO : KeyOrd K} {E : Type}.
  Variable eid : E -> N.
  Variable estats : E -> option (option K * option K * nat).
  Variable cfg : pconf.
  Variable wc : wconf.
  Notation worker := (worker K E).

  (** Where the loop of [spawn_worker] is: src/compaction/driver.rs:1193-1257.
      [Planning n]: it may still plan [n] jobs.  [Running js applied]: [js] have not ended. *)
  Inductive phase := Waiting | Planning (n : nat) | Running (js : list (job K)) (applied : bool).
  (** [s_owed]: flushes that have published and not yet reached their trigger
      (src/db/mod.rs:1172-1199). *)
  Record wsys := mkSys { s_worker : worker; s_phase : phase; s_owed : nat }.

  Inductive wevent :=
  | EWake                       (* a waiting trigger is consumed *)
  | ETick                       (* the periodic timer: src/compaction/driver.rs:881-889 *)
  | EPlan                       (* one turn of the loop of [plan_and_enqueue] *)
  | ETake                       (* the jobs of the round are taken from the queue *)
  | ERun (p : @pick E)          (* one of them publishes or gives up *)
  | EDone                       (* all have ended *)
  | EPublish (ls : list (list E)) (* a flush publishes: the levels are [ls] from now on *)
  | ENudge                      (* a flush that has published sends its trigger *)
  | EStall                      (* a writer that is told to wait does: src/db/mod.rs:1029-1041, 1078-1082 *)
  | EDrop.                      (* the future of a flush is dropped after it published *)

  Definition with_reset (w : worker) : worker :=
    mkWorker (w_levels w) (w_head w) (w_queue w) (reset_budget wc (w_cascade w)) (w_kicks w).
  Definition kicked (w : worker) : worker :=
    mkWorker (w_levels w) (w_head w) (w_queue w) (w_cascade w) (S (w_kicks w)).

  Definition wstep (s : wsys) (e : wevent) : option wsys :=
    let '(mkSys w ph o) := s in
    match e, ph with
    | EWake, Waiting =>
        match take_kick w with
        | Some w => Some (mkSys (with_reset w) (Planning (budget wc)) o)
        | None => None
        end
    | ETick, Waiting => Some (mkSys (with_reset w) (Planning (budget wc)) o)
    | EPlan, Planning (S n) =>
        match plan_version eid estats cfg (w_levels w) 0 with
        | None => Some (mkSys w (Planning 0) o)
        | Some tk => let '(w', ok) := enqueue wc tk w in Some (mkSys w' (Planning (if ok then n else 0)) o)
        end
    | ETake, Planning 0 =>
        Some (mkSys (mkWorker (w_levels w) (w_head w) (skipn (budget wc) (w_queue w)) (w_cascade w) (w_kicks w))
                    (Running (firstn (budget wc) (w_queue w)) false) o)
    | ERun p, Running js applied =>
        match nth_error js (p_index p) with
        | None => None
        | Some j =>
            let '(w', a) := run_job eid estats cfg wc p j w in
            Some (mkSys w' (Running (firstn (p_index p) js ++ skipn (S (p_index p)) js) (applied || a)) o)
        end
    | EDone, Running [] applied =>
        if applied && match plan_version eid estats cfg (w_levels w) 0 with Some _ => true | None => false end
        then Some (mkSys (with_reset w) (Planning (budget wc)) o)
        else Some (mkSys w Waiting o)
    | EPublish ls, _ => Some (mkSys (mkWorker ls (S (w_head w)) (w_queue w) (w_cascade w) (w_kicks w)) ph (S o))
    | ENudge, _ => match o with S o => Some (mkSys (kicked w) ph o) | O => None end
    | EStall, _ => Some (mkSys (kicked w) ph o)
    | EDrop, _ => match o with S o => Some (mkSys w ph o) | O => None end
    | _, _ => None
    end.

  Fixpoint wrun (s : wsys) (es : list wevent) : option wsys :=
    match es with
    | [] => Some s
    | e :: r => match wstep s e with Some s' => wrun s' r | None => None end
    end.
  Definition sys_new (ls : list (list E)) : wsys := mkSys (worker_new wc ls) Waiting 0.
End Steps.
Arguments phase K : clear implicits.
Arguments wsys K E : clear implicits.
Arguments wevent E : clear implicits.
