(** Concrete schedules of background jobs, and the merge of the code as an instance. *)
From Coq Require Import List Arith NArith Bool Lia.
From Verif Require Import Base.Order Model.SsTable Model.Compact Model.DbCompact Model.Jobs Spec.JobSpec Proof.JobInv Proof.JobStep.
Import ListNotations.
Local Open Scope N_scope.

(** *** The merge of the code never returns without an output *)
Section Exec.
  Context {K : Type} {KO : KeyOrd K} {R : Type}.
  Variable key_of : R -> option K.
  Variable row_bytes : R -> nat.
  Variable del_bytes : K -> nat.
  (** [merge_exec] on the contents of files. *)
  Definition exec_merge (cf : mconf) (ch : chunking K R) (ins : list (sst K R)) : option (list (sst K R)) :=
    option_map fst (merge_exec key_of row_bytes del_bytes cf (map (stream_of ch) ins) 0).
  Lemma loop_nonempty fuel : forall efuel cf heap cs o outs id next r,
    merge_loop key_of row_bytes del_bytes fuel efuel cf heap cs o outs id next = Some r -> fst r <> [].
  Proof.
    induction fuel as [|fuel IH]; intros efuel cf heap cs o outs id next r H; [discriminate|]. cbn in H.
    destruct (heap_pop heap) as [[w heap1]|].
    - destruct (pop_group (length heap1) (h_key w) heap1) as [g heap2].
      match type of H with match ?x with _ => _ end = _ => destruct x as [[cs' heap3]|]; [|discriminate] end.
      match type of H with (if ?x then _ else _) = _ => destruct x end; [|eauto].
      match type of H with match ?x with _ => _ end = _ => destruct x end; [eauto|discriminate].
    - destruct (has_pending o).
      + match type of H with match ?x with _ => _ end = _ => destruct x end; [|discriminate]. injection H as <-. cbn.
        intros E. apply app_eq_nil in E as [_ E]. discriminate.
      + destruct outs; [discriminate|]. injection H as <-. cbn. discriminate.
  Qed.
  Lemma exec_nonempty cf ch ins outs : exec_merge cf ch ins = Some outs -> outs <> [].
  Proof.
    unfold exec_merge, merge_exec. intros H. apply (f_equal (fun x => match x with Some l => l | None => [] end)) in H as E. cbn in E.
    match type of H with option_map _ (match ?x with _ => _ end) = _ => destruct x as [[cs heap]|]; [|discriminate] end.
    destruct heap; [discriminate|].
    match type of H with option_map _ ?x = _ => destruct x as [r|] eqn:EL; [|discriminate] end.
    cbn in H. injection H as <-. eapply loop_nonempty; eauto.
  Qed.
End Exec.

(** *** Schedules.  A file is a list of numbers, a merge puts the first one in its own file. *)
Definition put_apart (l : list (list N)) : option (list (list N)) :=
  match concat l with [] => None | [a] => Some [[a]] | a :: r => Some [[a]; r] end.
Lemma put_apart_some l outs : put_apart l = Some outs -> outs <> [].
Proof. unfold put_apart. destruct (concat l) as [|a [|b r]]; [discriminate| |]; intros H; injection H as <-; discriminate. Qed.

Definition flush3 (n : nat) : list (jevent (list N)) := repeat (EFlushStep n Fine) 3.
Definition run_job (n k : nat) : list (jevent (list N)) := repeat (EJobStep n Fine) k.
(** Two flushes; a compaction of both, between whose steps a third flush is published: it
    removes its outputs and does its work again. *)
Definition busy : list (jevent (list N)) :=
  EFlush 0 [1; 2] :: flush3 0 ++ EFlush 0 [3] :: flush3 1 ++
  EJob (mkJT [(0%nat, 1); (0%nat, 2)] 1) None :: run_job 0 6 ++
  EFlush 0 [4] :: flush3 2 ++ run_job 0 16.
(** Then a compaction that is stopped after it has written, a restart and two more flushes. *)
Definition busy_more : list (jevent (list N)) :=
  run_job 0 10 ++ EJob (mkJT [(1%nat, 6); (1%nat, 7)] 2) None :: run_job 1 8 ++ [EAbort 1; ERestart] ++
  EFlush 0 [5] :: flush3 0 ++ EFlush 1 [6] :: flush3 1.
Definition after (es : list (jevent (list N))) : jstate (list N) := jrun put_apart js_start es.

Definition lossless (es : list (jevent (list N))) : bool :=
  forallb (fun e => match e with EJobStep _ LostAck => false | _ => true end) es.
Lemma lossless_spec es : lossless es = true -> no_lost_ack es.
Proof. intros H i F. unfold lossless in H. rewrite forallb_forall in H. specialize (H _ F). discriminate. Qed.
Definition plainb (e : jevent (list N)) : bool :=
  match e with EJobStep _ Fine | EFlushStep _ Fine | EJob _ _ | EFlush _ _ => true | _ => false end.
Lemma plainb_spec es : forallb plainb es = true -> Forall plain es.
Proof.
  rewrite forallb_forall. intros H. apply Forall_forall. intros e He. specialize (H e He). destruct e as [| |? []|? []| |]; try discriminate; exact I.
Qed.

Lemma busy_fits : no_lost_ack (busy ++ busy_more) /\
  js_versions (after busy) = [[[1]]; [[1; 2]]; [[1; 2; 4]]] /\
  js_versions (after (busy ++ busy_more)) = [[[1]]; [[1; 2]]; [[1; 2; 4]]; [[4]; [6; 7]]; [[4; 8]; [6; 7]]; [[4; 8]; [6; 7; 9]]] /\
  map (fun i => file_of (after (busy ++ busy_more)) i) [1; 2; 3; 4; 5; 6; 7; 8; 9] =
    [Some [1; 2]; Some [3]; None; Some [4]; None; Some [1]; Some [2; 3]; Some [5]; Some [6]].
Proof. split; [apply lossless_spec; vm_compute; reflexivity|]. vm_compute. auto. Qed.

(** The manifest takes the compaction's edits, the caller gets an error: the outputs are
    removed although the current version is made of them. *)
Lemma lost_gone : exists es i c,
  file_of (after es) i = Some c /\ referenced (js_versions (after (es ++ [EJobStep 0 LostAck]))) i /\
  current (js_versions (after (es ++ [EJobStep 0 LostAck; EJobStep 0 Fine]))) i /\
  file_of (after (es ++ [EJobStep 0 LostAck; EJobStep 0 Fine])) i = None.
Proof.
  exists (EFlush 0 [1] :: flush3 0 ++ EJob (mkJT [(0%nat, 1)] 1) None :: run_job 0 6), 2, [1].
  repeat split; try (vm_compute; reflexivity).
  - exists [[]; [2]]. vm_compute. auto.
  - vm_compute. auto.
Qed.

(** Two compactions: the plan of the second one replaces the plan of the first. *)
Definition two_plans : list (jevent (list N)) :=
  EFlush 0 [1] :: flush3 0 ++ EFlush 0 [2] :: flush3 1 ++
  EJob (mkJT [(0%nat, 1)] 1) None :: run_job 0 8 ++ EJob (mkJT [(0%nat, 2)] 1) None :: run_job 1 8.
Lemma two_plans_plain : Forall plain two_plans. Proof. apply plainb_spec. vm_compute. reflexivity. Qed.
Lemma two_plans_idle : idle (after two_plans).
Proof. split; vm_compute; repeat first [apply Forall_nil | apply Forall_cons; [solve [eauto]|]]. Qed.
Lemma forgotten : exists es i, Forall plain es /\ idle (after es) /\
  file_of (after es) i <> None /\ ~ current (js_versions (after es)) i /\ ~ In i (js_plan (after es)).
Proof.
  exists two_plans, 1. split; [apply two_plans_plain|]. split; [apply two_plans_idle|]. vm_compute.
  repeat split; [discriminate| |]; intros H; repeat (destruct H as [H|H]; [discriminate|]); exact H.
Qed.
(** A worker stopped after it has written an output. *)
Lemma leftover : exists es i, no_lost_ack es /\ (forall j o, In (EJobStep j o) es -> o = Fine) /\ (forall j o, In (EFlushStep j o) es -> o = Fine) /\
  idle (after es) /\ file_of (after es) i <> None /\ ~ referenced (js_versions (after es)) i.
Proof.
  exists (EFlush 0 [1] :: flush3 0 ++ EJob (mkJT [(0%nat, 1)] 1) None :: run_job 0 6 ++ [EAbort 0]), 2.
  split; [apply lossless_spec; vm_compute; reflexivity|].
  split; [intros j o H; cbn in H; repeat (destruct H as [H|H]; [congruence|]); contradiction|].
  split; [intros j o H; cbn in H; repeat (destruct H as [H|H]; [congruence|]); contradiction|].
  split; [split; vm_compute; repeat first [apply Forall_nil | apply Forall_cons; [solve [eauto]|]]|].
  split; [vm_compute; discriminate|]. intros (v & Hv & Hi). vm_compute in Hv. destruct Hv as [<-|[]]. vm_compute in Hi.
  repeat (destruct Hi as [Hi|Hi]; [discriminate|]); exact Hi.
Qed.

(** After [busy] and [busy_more]: the compaction is version 3, the last flush version 5. *)
Lemma busy_plan : js_plan (after (busy ++ busy_more)) = [1; 2] /\ current (js_versions (after (busy ++ busy_more))) 6.
Proof. vm_compute. auto 20. Qed.
Lemma two_plans_fits : Forall plain two_plans /\ idle (after two_plans) /\
  js_versions (after two_plans) = [[[1]]; [[1; 2]]; [[2]; [3]]; [[]; [3; 4]]] /\ js_plan (after two_plans) = [2].
Proof. split; [apply two_plans_plain|]. split; [apply two_plans_idle|]. vm_compute. auto. Qed.
Lemma busy_counts : no_lost_ack (busy ++ busy_more) /\ started (busy ++ busy_more) = 7%nat /\
  length (js_versions (after (busy ++ busy_more))) = 6%nat /\
  map f_pc (js_flushes (after (busy ++ busy_more))) = [FDone 8; FDone 9].
Proof. split; [apply lossless_spec; vm_compute; reflexivity|]. vm_compute. auto. Qed.

Lemma lost_ids : js_versions (after (busy ++ [EJobStep 0 LostAck; ERestart; EFlush 0 [9]] ++ flush3 0)) =
  [[[1]]; [[1; 2]]; [[1; 2; 4]]; [[4]; [6; 7]]; [[4; 8]; [6; 7]]].
Proof. vm_compute. reflexivity. Qed.
