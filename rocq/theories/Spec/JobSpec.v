(** What a user may expect of published files and versions while flushes and compactions
    run in the background.  Only the state and the file lookup are shared with the model. *)
From Coq Require Import List NArith Bool.
From Verif Require Import Model.Jobs.
Import ListNotations.

Section JobSpec.
  Context {C : Type}.

  (** Some published version refers to file [i]. *)
  Definition referenced (vs : list (list (list N))) (i : N) : Prop := exists v, In v vs /\ In i (concat v).
  (** The current version refers to it. *)
  Definition current (vs : list (list (list N))) (i : N) : Prop := In i (concat (last vs [])).
  Definition file_of (s : jstate C) (i : N) : option C := file i (js_files s).

  (** The files [is] have the contents [cs]. *)
  Definition contents (fs : files) (is : list N) (cs : list C) : Prop := map (fun i => file i fs) is = map Some cs.

  (** [v'] is [v] with the one new file [i] added to a level. *)
  Definition adds (v v' : list (list N)) (level : nat) (i : N) : Prop :=
    forall l x, In x (nth l v' []) <-> In x (nth l v []) \/ (l = level /\ x = i).
  (** [v'] is [v] with the files [ins] taken out and the files [outs] put in. *)
  Definition replaces (v v' : list (list N)) (ins : list (nat * N)) (target : nat) (outs : list N) : Prop :=
    (forall l x, In (l, x) ins -> In x (nth l v [])) /\
    forall l x, In x (nth l v' []) <-> (In x (nth l v []) /\ ~ In (l, x) ins) \/ (l = target /\ In x outs).

  (** The version published as number [k] (from 0), and the one before it. *)
  Definition published (s : jstate C) (k : nat) (v v' : list (list N)) : Prop :=
    nth_error (js_versions s) k = Some v' /\ v = match k with O => [] | S p => nth p (js_versions s) [] end.

  (** Version [k] is its predecessor with the content [c] flushed to a level, under an
      identifier no version before had. *)
  Definition flushed (s : jstate C) (k : nat) (level : nat) (c : C) (i : N) : Prop :=
    exists v v', published s k v v' /\ adds v v' level i /\ file_of s i = Some c /\
                 ~ referenced (firstn k (js_versions s)) i.
  (** Version [k] is its predecessor with task [t] done, as if nothing else had been going
      on: the task's inputs are files of the predecessor, what was made of their contents is
      in files under new identifiers. *)
  Definition compacted (merge : list C -> option (list C)) (s : jstate C) (k : nat) (t : jtask) : Prop :=
    exists v v' outs cs cs', published s k v v' /\ jt_input t <> [] /\
      replaces v v' (jt_input t) (jt_target t) outs /\
      contents (js_files s) (map snd (jt_input t)) cs /\ merge cs = Some cs' /\ contents (js_files s) outs cs' /\
      NoDup outs /\ forall o, In o outs -> ~ referenced (firstn k (js_versions s)) o.

  (** No call fails, nothing is stopped. *)
  Definition plain (e : jevent C) : Prop :=
    match e with EJobStep _ Fine | EFlushStep _ Fine | EJob _ _ | EFlush _ _ => True | _ => False end.
  (** No job and no flush is running. *)
  Definition idle (s : jstate C) : Prop :=
    Forall (fun j => j_pc j = JDone \/ j_pc j = JFailed) (js_jobs s) /\
    Forall (fun f => f_pc f = FFailed \/ exists i, f_pc f = FDone i) (js_flushes s).
  (** No commit of a compaction succeeds while its caller is told that it failed. *)
  Definition no_lost_ack (es : list (jevent C)) : Prop := forall i, ~ In (EJobStep i LostAck) es.
  (** How many flushes and compactions were started. *)
  Definition started (es : list (jevent C)) : nat :=
    length (filter (fun e => match e with EJob _ _ | EFlush _ _ => true | _ => false end) es).
End JobSpec.
