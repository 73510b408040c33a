(** Schedules in which an acknowledged write does not survive, and one that keeps the
    critical parts apart. *)
From Coq Require Import List Arith NArith Bool Lia.
From Verif Require Import Model.Sched Model.LogRace Spec.RaceSpec.
Import ListNotations.
Local Open Scope N_scope.

Definition steps (i n : nat) : list levent := repeat (VStep i false) n.
Definition flush_all : list levent := repeat VFlush 8.
(** A two-frame ingest [i], alone, that seals; [rot]: its first frame opens a segment. *)
Definition sealed_ingest (i : nat) (rot : bool) : list levent :=
  [VStep i rot; VStep i false; VStep i false; VStep i false; VStep i false; VStep i true; VStep i false; VStep i false].

(** Write 1 is in the log but not yet recorded while a flush moves the floor. *)
Definition in_flight : list levent :=
  VIngest 1 :: sealed_ingest 0 false ++ flush_all ++
  VIngest 1 :: steps 1 2 ++
  VIngest 1 :: sealed_ingest 2 true ++ flush_all ++
  steps 1 4.
(** Write 2 is sealed after the flush captured the segments and before it read the live
    floor. *)
Definition meanwhile_a : list levent :=
  VIngest 1 :: sealed_ingest 0 false ++ flush_all ++ VIngest 1 :: sealed_ingest 1 false.
Definition meanwhile_b : list levent :=
  VIngest 1 :: [VStep 2 false; VStep 2 true] ++ steps 2 3 ++ [VStep 2 true] ++ steps 2 2 ++ repeat VFlush 7.
(** Write 2 is recorded and inserted after the seal of write 1 replaced the memtable and
    before it took the range: the range of write 2 goes with the sealed segment. *)
Definition range_stolen : list levent :=
  VIngest 1 :: sealed_ingest 0 false ++ flush_all ++
  VIngest 1 :: VIngest 1 :: steps 2 3 ++ VStep 1 true :: steps 1 4 ++ [VStep 1 true] ++ steps 2 3 ++ steps 1 2.
(** Two commits: the second starts while the first has written its frames. *)
Definition commits_a : list levent := VIngest 1 :: sealed_ingest 0 false ++ flush_all.
Definition commits_b : list levent :=
  VCommit 1 :: steps 1 3 ++ VCommit 1 :: VStep 2 false :: VStep 2 true :: steps 2 9 ++ steps 1 8.

(** A schedule within the hypotheses: two overlapping ingests, a commit, seals, flushes, a
    rotation, so that the floor moves and segments are pruned. *)
Definition calm : list levent :=
  VIngest 1 :: VIngest 2 :: VStep 0 false :: VStep 1 false :: VStep 1 false :: steps 0 3 ++ steps 1 2 ++ steps 0 1 ++ steps 1 2 ++
  VStep 1 true :: steps 1 2 ++ flush_all ++
  VCommit 1 :: VStep 2 false :: VStep 2 true :: steps 2 10 ++
  VIngest 1 :: sealed_ingest 3 true ++
  VIngest 1 :: repeat VFlush 4 ++ steps 4 3 ++ repeat VFlush 4 ++ steps 4 3 ++ steps 0 1.

(** *** Deciding the statements on concrete schedules *)
Definition lost (s : lstate) (i : nat) : bool :=
  match nth_error (ls_threads s) i with
  | Some t => match lt_pc t with LDone => true | _ => false end &&
              negb (existsb (Nat.eqb i) (ls_sst s)) &&
              negb (forallb (fun n => existsb (fun f => (lf_no f =? n) && Nat.eqb (lf_w f) i) (replayed s)) (lt_nos t))
  | None => false
  end.
Lemma lost_spec s i : lost s i = true -> acked s i /\ ~ survives s i.
Proof.
  unfold lost. destruct (nth_error (ls_threads s) i) as [t|] eqn:E; [|discriminate]. rewrite !andb_true_iff, !negb_true_iff.
  intros [[H1 H2] H3]. split.
  - exists t. split; auto. destruct (lt_pc t); auto; discriminate.
  - intros [H|(u & U1 & U2 & U3)].
    + assert (existsb (Nat.eqb i) (ls_sst s) = true) by (apply existsb_exists; exists i; split; auto; apply Nat.eqb_refl). congruence.
    + rewrite E in U1. injection U1 as <-.
      assert (forallb (fun n => existsb (fun f => (lf_no f =? n) && Nat.eqb (lf_w f) i) (replayed s)) (lt_nos t) = true); [|congruence].
      apply forallb_forall. intros n Hn. apply existsb_exists. exists (mkLF n i). split; [auto|]. cbn.
      now rewrite N.eqb_refl, Nat.eqb_refl.
Qed.

Definition roomb (s : lstate) (e : levent) : bool :=
  match e with
  | VStep i true => match nth_error (ls_threads s) i with Some t => match lt_pc t with LInsert => false | _ => true end | None => true end
  | _ => true
  end.
Lemma roomb_spec s e : roomb s e = true -> room s e.
Proof.
  intros H i t -> Ht P. cbn in H. rewrite Ht, P in H. discriminate.
Qed.
Definition apartb (s : lstate) (e : levent) : bool :=
  match steps_of e with
  | None => true
  | Some who =>
      forallb (fun j => match nth_error (ls_threads s) j with
                        | Some t => match who with Some k => Nat.eqb k j | None => false end ||
                                    negb (critical_write t) && (negb (enters s e) || negb (open_write t))
                        | None => true
                        end) (seq 0 (length (ls_threads s))) &&
      match who with Some _ => negb (critical_flush (ls_flush s)) | None => true end
  end.
Lemma apartb_spec s e : apartb s e = true -> apart s e.
Proof.
  unfold apartb, apart. destruct (steps_of e) as [who|]; auto. rewrite andb_true_iff. intros [H1 H2]. split.
  - intros j t Ht NE. assert (L : (j < length (ls_threads s))%nat) by (apply nth_error_Some; congruence).
    rewrite forallb_forall in H1. specialize (H1 j). rewrite Ht in H1. rewrite in_seq in H1. specialize (H1 ltac:(lia)).
    apply orb_true_iff in H1 as [H1|H1].
    + destruct who as [k|]; [|discriminate]. apply Nat.eqb_eq in H1. congruence.
    + apply andb_true_iff in H1 as [H1 H3]. split; [now apply negb_true_iff|]. intros EN. rewrite EN in H3. cbn in H3. now apply negb_true_iff.
  - intros NW. destruct who; [now apply negb_true_iff|congruence].
Qed.
Fixpoint all_roomb (s : lstate) (es : list levent) : bool :=
  match es with [] => true | e :: r => roomb s e && all_roomb (levent_step s e) r end.
Lemma all_roomb_spec es : forall s, all_roomb s es = true -> all_room s es.
Proof. induction es as [|e es IH]; intros s H; cbn in *; auto. apply andb_true_iff in H as [H1 H2]. split; auto using roomb_spec. Qed.
Fixpoint all_apartb (s : lstate) (es : list levent) : bool :=
  match es with [] => true | e :: r => apartb s e && roomb s e && all_apartb (levent_step s e) r end.
Lemma all_apartb_spec es : forall s, all_apartb s es = true -> all_apart s es.
Proof.
  induction es as [|e es IH]; intros s H; cbn in *; auto. rewrite !andb_true_iff in H. destruct H as [[H1 H2] H3].
  repeat split; auto using roomb_spec, apartb_spec.
Qed.

Lemma refute es i : all_roomb ls_start es = true -> lost (lrun ls_start es) i = true ->
  all_room ls_start es /\ acked (lrun ls_start es) i /\ ~ survives (lrun ls_start es) i.
Proof. intros H1 H2. split; [now apply all_roomb_spec|now apply lost_spec]. Qed.

Lemma in_flight_lost : all_room ls_start in_flight /\ acked (lrun ls_start in_flight) 1 /\ ~ survives (lrun ls_start in_flight) 1.
Proof. apply refute; vm_compute; reflexivity. Qed.
Lemma threads_none {P : lthread -> Prop} ts (f : lthread -> bool) : (forall t, f t = true -> P t) -> forallb f ts = true -> Forall P ts.
Proof. intros H. rewrite forallb_forall. intros F. apply Forall_forall. auto. Qed.
Lemma seal_during_flush :
  exists es es' i, (forall j t, nth_error (ls_threads (lrun ls_start es)) j = Some t -> open_write t = false) /\
    enters (lrun ls_start es) VFlush = true /\ all_room ls_start (es ++ VFlush :: es') /\
    acked (lrun ls_start (es ++ VFlush :: es')) i /\ ~ survives (lrun ls_start (es ++ VFlush :: es')) i.
Proof.
  exists meanwhile_a, meanwhile_b, 2%nat. split; [|split; [vm_compute; reflexivity|apply refute; vm_compute; reflexivity]].
  assert (F : Forall (fun t => open_write t = false) (ls_threads (lrun ls_start meanwhile_a))).
  { apply threads_none with (f := fun t => negb (open_write t)); [intros t; apply negb_true_iff|vm_compute; reflexivity]. }
  intros j t Ht. rewrite Forall_forall in F. apply F. eapply nth_error_In; eauto.
Qed.
Lemma done_all ts : forallb (fun t => match lt_pc t with LDone => true | _ => false end) ts = true -> Forall (fun t => lt_pc t = LDone) ts.
Proof. apply threads_none. intros t. destruct (lt_pc t); auto; discriminate. Qed.
Lemma range_taken :
  exists es i, Forall (fun t => lt_pc t = LDone) (ls_threads (lrun ls_start es)) /\
    ls_flush (lrun ls_start es) = LFNone /\
    all_room ls_start (es ++ flush_all) /\
    acked (lrun ls_start (es ++ flush_all)) i /\ ~ survives (lrun ls_start (es ++ flush_all)) i.
Proof.
  exists range_stolen, 2%nat. split; [apply done_all; vm_compute; reflexivity|]. split; [vm_compute; reflexivity|].
  apply refute; vm_compute; reflexivity.
Qed.
Lemma commits_overlap :
  exists es es' i, Forall (fun t => lt_pc t = LDone) (ls_threads (lrun ls_start es)) /\
    ls_flush (lrun ls_start es) = LFNone /\ ~ In VFlush es' /\ (forall n, ~ In (VIngest n) es') /\
    all_room ls_start (es ++ es') /\
    acked (lrun ls_start (es ++ es')) i /\ ~ survives (lrun ls_start (es ++ es')) i.
Proof.
  exists commits_a, commits_b, 1%nat. split; [apply done_all; vm_compute; reflexivity|]. split; [vm_compute; reflexivity|].
  split; [intros H; vm_compute in H; repeat (destruct H as [H|H]; [discriminate|]); exact H|].
  split; [intros n H; vm_compute in H; repeat (destruct H as [H|H]; [discriminate|]); exact H|].
  apply refute; vm_compute; reflexivity.
Qed.

(** In [calm] segments are pruned, write 4 is only in the log, the others in SSTs. *)
Lemma calm_fits : all_apart ls_start calm /\
  ls_floor (lrun ls_start calm) = Some 3 /\ map fst (ls_log (lrun ls_start calm)) = [3] /\
  (forall i, (i < 5)%nat -> acked (lrun ls_start calm) i) /\ ls_sst (lrun ls_start calm) = [0; 1; 2; 3]%nat.
Proof.
  split; [apply all_apartb_spec; vm_compute; reflexivity|]. split; [vm_compute; reflexivity|]. split; [vm_compute; reflexivity|].
  split; [|vm_compute; reflexivity].
  intros i H. do 5 (destruct i as [|i]; [eexists; split; [vm_compute; reflexivity|reflexivity]|]). lia.
Qed.
