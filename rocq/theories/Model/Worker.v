(** The background compaction worker: its queue of planned jobs, the follow-up limits and
    the loop that plans, runs and decides whether to go round again
    (src/compaction/driver.rs:38-84 and 876-1268, src/compaction/scheduler.rs).
    Definitions only.

    Simplifications: no other writer publishes a version while a cycle runs (overlapping
    jobs and flushes are in [Model.Jobs]); the head of the manifest is a counter of the
    published versions; a plan does not fail; the trigger channel never drops a message;
    logs and metrics are left out; a version always exists. *)
From Coq Require Import List NArith Bool Arith.
From Verif Require Import Base.Order Model.Version Model.Planner.
Import ListNotations.

(** [CompactionWorkerConfig], [CascadeConfig]: src/compaction/driver.rs:139-170,
    src/db/builder.rs:1450-1480 *)
Record wconf := mkWConf {
  wc_jobs : nat;       (* max_concurrent_jobs *)
  wc_queue : nat;      (* queue_capacity *)
  wc_follow : nat;     (* max_follow_ups *)
  wc_cooldown : N
}.
(** src/compaction/driver.rs:1173-1174 *)
Definition budget (wc : wconf) : nat := Nat.max (wc_jobs wc) 1.
Definition capacity (wc : wconf) : nat := Nat.max (Nat.max (wc_queue wc) (budget wc)) 1.

(** [CascadeControl]: src/compaction/driver.rs:43-84 *)
Record cascade := mkCascade { cs_left : nat; cs_last : option N }.
Definition cascade_new (wc : wconf) : cascade := mkCascade (wc_follow wc) None.
Definition reset_budget (wc : wconf) (c : cascade) : cascade := mkCascade (wc_follow wc) (cs_last c).
Definition try_acquire (wc : wconf) (now : N) (c : cascade) : cascade * bool :=
  if Nat.eqb (cs_left c) 0 then (c, false)
  else if match cs_last c with Some t => N.ltb (now - t) (wc_cooldown wc) | None => false end then (c, false)
  else (mkCascade (Nat.pred (cs_left c)) (Some now), true).

Section Worker.
  Context {K : Type} {KO : KeyOrd K} {E : Type}.
  Variable eid : E -> N.
  Variable estats : E -> option (option K * option K * nat).
  Variable cfg : pconf.
  Variable wc : wconf.

  (** [ScheduledCompaction]: src/compaction/scheduler.rs:14-20 *)
  Record job := mkJob { jb_task : task K; jb_head : nat }.

  (** The published levels and their head, the queue, the follow-up limits and the number
      of waiting triggers. *)
  Record worker := mkWorker {
    w_levels : list (list E);
    w_head : nat;
    w_queue : list job;
    w_cascade : cascade;
    w_kicks : nat
  }.
  (** [spawn_worker]: src/compaction/driver.rs:1155-1190; the builder kicks it once
      (src/db/builder.rs:1177). *)
  Definition worker_new (ls : list (list E)) : worker := mkWorker ls 0 [] (cascade_new wc) 1.

  (** [CompactionScheduler::enqueue]: src/compaction/scheduler.rs:62-88; [false]: full *)
  Definition enqueue (tk : task K) (w : worker) : worker * bool :=
    if Nat.ltb (length (w_queue w)) (capacity wc)
    then (mkWorker (w_levels w) (w_head w) (w_queue w ++ [mkJob tk (w_head w)]) (w_cascade w) (w_kicks w), true)
    else (w, false).

  (** [plan_and_enqueue]: src/compaction/driver.rs:901-975 *)
  Fixpoint plan_and_enqueue (n : nat) (w : worker) : worker :=
    match n with
    | O => w
    | S n => match plan_version eid estats cfg (w_levels w) 0 with
             | None => w
             | Some tk => let '(w', ok) := enqueue tk w in if ok then plan_and_enqueue n w' else w
             end
    end.

  (** The follow-up of a finished job from level 0 to level 1:
      src/compaction/driver.rs:1034-1098.  [now] is the clock when it is decided. *)
  Definition follow_up (now : N) (w : worker) : worker :=
    let '(c, ok) := try_acquire wc now (w_cascade w) in
    let w := mkWorker (w_levels w) (w_head w) (w_queue w) c (w_kicks w) in
    if ok then
      match plan_version eid estats cfg (w_levels w) 1 with
      | None => w
      | Some tk =>
          let '(w', sent) := enqueue tk w in
          if sent then mkWorker (w_levels w') (w_head w') (w_queue w') (w_cascade w') (S (w_kicks w')) else w'
      end
    else w.

  (** How the environment treats one of the running jobs: which of them publishes (or
      gives up) next, the files its merge wrote (or that it failed), and the clock then. *)
  Record pick := mkPick { p_index : nat; p_outs : option (list E); p_now : N }.

  (** [run_scheduled_compaction] (src/compaction/driver.rs:663-874) and what
      [drain_and_execute] does with its result (1015-1130).  Jobs that run side by side
      take effect one after the other, when they publish: a job whose manifest head has
      moved on gives up, before the merge or after a refused publication. *)
  Definition run_job (p : pick) (j : job) (w : worker) : worker * bool :=
    if negb (Nat.eqb (jb_head j) (w_head w)) then (w, false)
    else match resolve_inputs eid (w_levels w) (tk_input (jb_task j)), p_outs p with
         | Some ins, Some outs =>
             let es := outcome_edits eid ins outs (tk_target (jb_task j)) in
             match apply_edits eid (mkVer 0 (w_levels w) [] None None) es with
             | Some v =>
                 let w := mkWorker (v_levels v) (S (w_head w)) (w_queue w) (w_cascade w) (w_kicks w) in
                 (if Nat.eqb (tk_source (jb_task j)) 0 && Nat.eqb (tk_target (jb_task j)) 1
                  then follow_up (p_now p) w else w,
                  match es with [] => false | _ => true end)
             | None => (w, false)
             end
         | _, _ => (w, false)
         end.

  (** [drain_with_budget]: src/compaction/scheduler.rs:91-115.  [None]: the picks are not
      an order of the running jobs. *)
  Fixpoint drain (ps : list pick) (jobs : list job) (w : worker) : option (worker * bool) :=
    match ps with
    | [] => match jobs with [] => Some (w, false) | _ => None end
    | p :: r =>
        match nth_error jobs (p_index p) with
        | None => None
        | Some j =>
            let '(w1, a1) := run_job p j w in
            match drain r (firstn (p_index p) jobs ++ skipn (S (p_index p)) jobs) w1 with
            | Some (w2, a2) => Some (w2, a1 || a2)
            | None => None
            end
        end
    end.

  (** The first half of a round of the loop of [spawn_worker]
      (src/compaction/driver.rs:1193-1235): the jobs taken to be run, and the worker without
      them. *)
  Definition take_jobs (w : worker) : list job * worker :=
    let w := mkWorker (w_levels w) (w_head w) (w_queue w) (reset_budget wc (w_cascade w)) (w_kicks w) in
    let w := plan_and_enqueue (budget wc) w in
    (firstn (budget wc) (w_queue w),
     mkWorker (w_levels w) (w_head w) (skipn (budget wc) (w_queue w)) (w_cascade w) (w_kicks w)).

  (** A round: src/compaction/driver.rs:1193-1256.  The [bool]: the worker goes round again
      without waiting for a trigger. *)
  Definition cycle (ps : list pick) (w : worker) : option (worker * bool) :=
    let '(jobs, w) := take_jobs w in
    match drain ps jobs w with
    | None => None
    | Some (w, applied) =>
        Some (w, applied && match plan_version eid estats cfg (w_levels w) 0 with Some _ => true | None => false end)
    end.

  (** [wait_for_trigger]: src/compaction/driver.rs:876-899: a waiting trigger is consumed. *)
  Definition take_kick (w : worker) : option worker :=
    match w_kicks w with
    | O => None
    | S n => Some (mkWorker (w_levels w) (w_head w) (w_queue w) (w_cascade w) n)
    end.
End Worker.
Arguments job K : clear implicits.
Arguments worker K E : clear implicits.
