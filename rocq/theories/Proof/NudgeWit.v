(** Runs of the worker with flushes in between, used as witnesses. *)
From Coq Require Import List NArith Bool Arith Lia.
From Verif Require Import Base.Order Model.Version Model.Planner Model.Worker Model.WorkerSteps
     Spec.Plan Spec.RestSpec Spec.NudgeSpec Proof.Demo Proof.RestWit.
Import ListNotations.

Definition smoothb (e : wevent wfile) : bool :=
  match e with ERun p => match p_outs p with Some _ => true | None => false end | EDrop => false | _ => true end.
Lemma smoothb_ok es : forallb smoothb es = true -> Forall smooth es.
Proof.
  rewrite forallb_forall. intros H. apply Forall_forall. intros e He. apply H in He.
  destruct e; simpl in *; auto; try discriminate. destruct (p_outs p); congruence.
Qed.

(** One round with one job. *)
Definition round (id now : N) : list (wevent wfile) := [EPlan; ETake; ERun (out id now); EDone].

(** A flush publishes while the first job runs: the job gives up, and the trigger of the
    flush brings the worker back. *)
Definition flushed : list (list wfile) := [[wf 1 0 5; wf 2 1 6; wf 3 2 7]].
Definition busy : list (wevent wfile) :=
  [EWake; EPlan; ETake; EPublish flushed; ERun (out 10 5); EDone; ENudge; EWake] ++
  round 11 10 ++ round 12 20 ++ [EWake; EPlan; ETake; EDone].
Lemma busy_run : exists s, Forall smooth busy /\
  wrun wid wstats wcfg wdefault (sys_new wdefault two) busy = Some s /\ idle s /\
  map (map wid) (w_levels (s_worker s)) = [[3]; []; [12]]%N /\ wc_queue wdefault <= Nat.max (wc_jobs wdefault) 1.
Proof.
  destruct (wrun wid wstats wcfg wdefault (sys_new wdefault two) busy) as [s|] eqn:E; vm_compute in E; [|discriminate].
  injection E as <-. eexists. split; [apply smoothb_ok; reflexivity|]. split; [reflexivity|]. split; [repeat split|].
  split; [reflexivity|]. vm_compute. lia.
Qed.

(** The state of [busy] when the flush has sent its trigger. *)
Definition nudged : list (wevent wfile) := firstn 7 busy.
Lemma nudged_run : exists s, Forall smooth nudged /\
  wrun wid wstats wcfg wdefault (sys_new wdefault two) nudged = Some s /\ s_owed s = 0 /\ ~ idle s /\
  over wstats wcfg (w_levels (s_worker s)) 0.
Proof.
  destruct (wrun wid wstats wcfg wdefault (sys_new wdefault two) nudged) as [s|] eqn:E; vm_compute in E; [|discriminate].
  injection E as <-. eexists. split; [apply smoothb_ok; reflexivity|]. split; [reflexivity|]. split; [reflexivity|].
  split; [intros (_ & F & _); discriminate F|]. split; [discriminate|]. left. vm_compute. lia.
Qed.

(** The queue is longer than the number of jobs run together. *)
Definition roomy_steps : list (wevent wfile) :=
  EWake :: round 11 10 ++ round 12 20 ++ round 13 30 ++ EWake :: round 14 40 ++ round 15 50.
Lemma roomy_idle : exists s, Forall smooth roomy_steps /\
  wrun wid wstats wcfg wroomy (sys_new wroomy six) roomy_steps = Some s /\ idle s /\
  over wstats wcfg (w_levels (s_worker s)) 0.
Proof.
  destruct (wrun wid wstats wcfg wroomy (sys_new wroomy six) roomy_steps) as [s|] eqn:E; vm_compute in E; [|discriminate].
  injection E as <-. eexists. split; [apply smoothb_ok; reflexivity|]. split; [reflexivity|]. split; [repeat split|].
  split; [discriminate|]. left. vm_compute. lia.
Qed.

(** The future of the flush is dropped after it published. *)
Definition dropped : list (wevent wfile) := [EWake; EPlan; ETake; EDone; EPublish two; EDrop].
Lemma dropped_idle : exists s,
  wrun wid wstats wcfg wdefault (sys_new wdefault []) dropped = Some s /\ idle s /\
  over wstats wcfg (w_levels (s_worker s)) 0.
Proof.
  destruct (wrun wid wstats wcfg wdefault (sys_new wdefault []) dropped) as [s|] eqn:E; vm_compute in E; [|discriminate].
  injection E as <-. eexists. split; [reflexivity|]. split; [repeat split|].
  split; [discriminate|]. left. vm_compute. lia.
Qed.

(** A merge fails: the worker waits with level 0 over its limit. *)
Definition failed : list (wevent wfile) := [EWake; EPlan; ETake; ERun (mkPick 0 None 5%N); EDone].
Lemma failed_idle : exists s,
  wrun wid wstats wcfg wdefault (sys_new wdefault two) failed = Some s /\ idle s /\
  over wstats wcfg (w_levels (s_worker s)) 0.
Proof.
  destruct (wrun wid wstats wcfg wdefault (sys_new wdefault two) failed) as [s|] eqn:E; vm_compute in E; [|discriminate].
  injection E as <-. eexists. split; [reflexivity|]. split; [repeat split|].
  split; [discriminate|]. left. vm_compute. lia.
Qed.
