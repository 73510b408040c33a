(** Properties of the background worker while files are flushed: C81. *)
From Coq Require Import List NArith Arith.
From Verif Require Import Base.Order Model.Version Model.Planner Model.Worker Model.WorkerSteps
     Spec.Plan Spec.RestSpec Spec.NudgeSpec Proof.Demo Proof.RestWit Proof.NudgeFacts Proof.NudgeWit.
Import ListNotations.

(** *** C81: compaction catches up with flushes whenever they come.
    Flushes publish any levels between any two steps of the worker, the timer and stalled
    writers wake it at any time; when all triggers are consumed and it waits, every level is
    within its limits. *)
Theorem C81_catches_up_partial :
  forall (K : Type) (KO : KeyOrd K) (E : Type) (eid : E -> N) (estats : E -> option (option K * option K * nat))
         (cfg : pconf) (wc : wconf),
    wc_queue wc <= Nat.max (wc_jobs wc) 1 ->
    forall es ls s, Forall smooth es -> wrun eid estats cfg wc (sys_new wc ls) es = Some s -> idle s ->
    rests estats cfg (w_levels (s_worker s)).
Proof. exact @idle_rests. Qed.
Print Assumptions C81_catches_up_partial.

Example C81_applies : exists s, Forall smooth busy /\
  wrun wid wstats wcfg wdefault (sys_new wdefault two) busy = Some s /\ idle s /\
  map (map wid) (w_levels (s_worker s)) = [[3]; []; [12]]%N /\ wc_queue wdefault <= Nat.max (wc_jobs wdefault) 1.
Proof. exact busy_run. Qed.

(** Once the flushes have sent their triggers, the worker becomes idle by its own steps,
    whatever has happened before and however long its queue is. *)
Theorem C81_settles :
  forall (K : Type) (KO : KeyOrd K) (E : Type) (eid : E -> N) (estats : E -> option (option K * option K * nat))
         (cfg : pconf) (wc : wconf) es ls s,
    Forall smooth es -> wrun eid estats cfg wc (sys_new wc ls) es = Some s -> s_owed s = 0 ->
    exists es' s', Forall own es' /\ Forall smooth es' /\ wrun eid estats cfg wc s es' = Some s' /\ idle s'.
Proof. exact @settles. Qed.
Print Assumptions C81_settles.

Example C81_settles_applies : exists s, Forall smooth nudged /\
  wrun wid wstats wcfg wdefault (sys_new wdefault two) nudged = Some s /\ s_owed s = 0 /\ ~ idle s /\
  over wstats wcfg (w_levels (s_worker s)) 0.
Proof. exact nudged_run. Qed.

(** It can always take a step of its own until then, and cannot take them for ever. *)
Theorem C81_goes_on :
  forall (K : Type) (KO : KeyOrd K) (E : Type) (eid : E -> N) (estats : E -> option (option K * option K * nat))
         (cfg : pconf) (wc : wconf) (s : wsys K E),
    s_owed s = 0 -> ~ idle s -> exists e s', own e /\ smooth e /\ wstep eid estats cfg wc s e = Some s'.
Proof. exact @can_go_on. Qed.
Print Assumptions C81_goes_on.

Theorem C81_ends :
  forall (K : Type) (KO : KeyOrd K) (E : Type) (eid : E -> N) (estats : E -> option (option K * option K * nat))
         (cfg : pconf) (wc : wconf) es ls (f : nat -> wsys K E),
    Forall smooth es -> wrun eid estats cfg wc (sys_new wc ls) es = Some (f 0) ->
    ~ (forall n, exists e, own e /\ smooth e /\ wstep eid estats cfg wc (f n) e = Some (f (S n))).
Proof. exact @not_for_ever. Qed.
Print Assumptions C81_ends.

(** With a queue longer than the number of jobs run together it waits with level 0 over its
    limit. *)
Theorem C81_queue_refuted : exists s, Forall smooth roomy_steps /\
  wrun wid wstats wcfg wroomy (sys_new wroomy six) roomy_steps = Some s /\ idle s /\
  over wstats wcfg (w_levels (s_worker s)) 0.
Proof. exact roomy_idle. Qed.
Print Assumptions C81_queue_refuted.

(** So it does by default when the future of a flush is dropped between its publication and
    its trigger, and when a merge fails. *)
Theorem C81_drop_refuted : exists s,
  wrun wid wstats wcfg wdefault (sys_new wdefault []) dropped = Some s /\ idle s /\
  over wstats wcfg (w_levels (s_worker s)) 0.
Proof. exact dropped_idle. Qed.
Print Assumptions C81_drop_refuted.

Theorem C81_failure_refuted : exists s,
  wrun wid wstats wcfg wdefault (sys_new wdefault two) failed = Some s /\ idle s /\
  over wstats wcfg (w_levels (s_worker s)) 0.
Proof. exact failed_idle. Qed.
Print Assumptions C81_failure_refuted.
