(** The sync policies: concrete runs. *)
From Coq Require Import List Arith NArith Bool Lia.
From Verif Require Import Model.WalSync Spec.SyncSpec.
Import ListNotations.
Local Open Scope N_scope.

Fixpoint survivesb (power : bool) (fs : list sfile) (kept : list nat) : bool :=
  match fs, kept with
  | [], [] => true
  | f :: fs', k :: kept' => ((if power then f_disk f else f_os f) <=? k)%nat && (k <=? length (f_frames f))%nat && survivesb power fs' kept'
  | _, _ => false
  end.
Lemma survivesb_ok power fs kept : survivesb power fs kept = true -> survives power fs kept.
Proof.
  revert kept. induction fs as [|f fs IH]; intros [|k kept] H; cbn in H; try discriminate; [constructor|].
  apply andb_prop in H as [H H3]. apply andb_prop in H as [H1 H2]. constructor; [|now apply IH]. apply Nat.leb_le in H1, H2. auto.
Qed.
Definition fitb (cf : sconf) (z : ssys) (e : sevent) : bool :=
  match e with
  | EBatch cmds _ => forallb (fun c => 0 <? fst c) cmds
  | ECrash power cmds more kept _ _ =>
      forallb (fun c => 0 <? fst c) cmds && match more with Some n => 0 <? n | None => true end && survivesb power (y_files (stopped cf z cmds more)) kept
  | _ => true
  end.
Fixpoint fitsb (cf : sconf) (z : ssys) (es : list sevent) : bool :=
  match es with [] => true | e :: r => fitb cf z e && fitsb cf (sstep cf z e) r end.
Lemma sizes_ok cmds : forallb (fun c : N * N => 0 <? fst c) cmds = true -> Forall (fun c => 0 < fst c) cmds.
Proof. intros H. apply Forall_forall. intros c Hc. rewrite forallb_forall in H. now apply N.ltb_lt, H. Qed.
Lemma fitsb_ok cf es : forall z, fitsb cf z es = true -> events_fit cf z es.
Proof.
  induction es as [|e r IH]; intros z H; cbn [fitsb events_fit] in *; [exact I|]. apply andb_prop in H as [H1 H2]. split; [|now apply IH].
  destruct e as [cmds t|t|t|t|power cmds more kept tl t]; cbn [fitb event_fits] in *; try exact I; [now apply sizes_ok|].
  apply andb_prop in H1 as [H1 H3]. apply andb_prop in H1 as [H1 H4]. split; [now apply sizes_ok|]. split; [|now apply survivesb_ok]. destruct more; [now apply N.ltb_lt|exact I].
Qed.


(** Segments of at least 200 bytes; the machine stops in the middle of a batch. *)
Definition cf_always : sconf := mkSC Always 0 200 (Some 1000) true.
Definition ev_always : list sevent :=
  [EBatch [(60, 1); (70, 2)] 3; EBatch [(80, 4)] 5; EBatch [(50, 6)] 7;
   ECrash true [(40, 8)] (Some 30) [3; 2]%nat (Torn []) 10; EBatch [(20, 11)] 12; ERotate 13; EBatch [(25, 14)] 15].
Lemma always_fits : prompt cf_always /\ y_policy cf_always = Always /\ events_fit cf_always (sstart cf_always 0) ev_always /\
  repairs_last false ev_always /\ pending false ev_always = false /\
  z_acked (srun cf_always ev_always (sstart cf_always 0)) = [(1, 60, 3); (2, 70, 3); (3, 80, 5); (4, 50, 7); (7, 20, 12); (8, 25, 15)] /\
  map f_frames (y_files (z_w (srun cf_always ev_always (sstart cf_always 0)))) = [[(1, 60); (2, 70); (3, 80)]; [(4, 50); (5, 40); (7, 20)]; [(8, 25)]].
Proof.
  split; [left; reflexivity|]. split; [reflexivity|]. split; [apply fitsb_ok; vm_compute; reflexivity|].
  split; [cbn; intuition|]. split; [reflexivity|]. split; vm_compute; reflexivity.
Qed.

(** Default flush interval and a handle that keeps written bytes: the sync finds nothing. *)
Definition cf_always_default : sconf := mkSC Always 10 67108864 None true.
Lemma always_refuted : exists es i n a, events_fit cf_always_default (sstart cf_always_default 0) es /\ Forall (fun e => crash e = false) es /\
  In (i, n, a) (z_acked (srun cf_always_default es (sstart cf_always_default 0))) /\
  forall power, ~ safe power (srun cf_always_default es (sstart cf_always_default 0)) i.
Proof.
  exists [EBatch [(60, 1)] 2], 1, 60, 2. split; [apply fitsb_ok; vm_compute; reflexivity|]. split; [repeat constructor|]. split; [vm_compute; auto|].
  intros power H. specialize (H [0%nat]). assert (S : survives power (y_files (z_w (srun cf_always_default [EBatch [(60, 1)] 2] (sstart cf_always_default 0)))) [0%nat]).
  { destruct power; apply survivesb_ok; vm_compute; reflexivity. }
  specialize (H S). vm_compute in H. exact H.
Qed.

(** 100 bytes between syncs. *)
Definition cf_bytes : sconf := mkSC (IntervalBytes 100) 0 200 None true.
Definition ev_bytes : list sevent :=
  [EBatch [(60, 1); (30, 2)] 3; ECrash false [(5, 4)] (Some 7) [4]%nat Clean 5; EBatch [(50, 6)] 7; EBatch [(40, 8)] 9].
Lemma bytes_fit : events_fit cf_bytes (sstart cf_bytes 0) ev_bytes.
Proof.
  apply fitsb_ok; vm_compute; reflexivity.
Qed.
Lemma bytes_lost : survives true (y_files (z_w (srun cf_bytes ev_bytes (sstart cf_bytes 0)))) [0%nat] /\
  lost_bytes (z_acked (srun cf_bytes ev_bytes (sstart cf_bytes 0))) (read_back (y_files (z_w (srun cf_bytes ev_bytes (sstart cf_bytes 0)))) [0%nat]) = 180.
Proof.
  split; [|vm_compute; reflexivity]. apply survivesb_ok; vm_compute; reflexivity.
Qed.
Lemma bytes_fits : prompt cf_bytes /\ y_policy cf_bytes = IntervalBytes 100 /\ events_fit cf_bytes (sstart cf_bytes 0) ev_bytes /\ Forall (fun e => torn e = false) ev_bytes /\ crashes ev_bytes = 1%nat /\
  z_acked (srun cf_bytes ev_bytes (sstart cf_bytes 0)) = [(1, 60, 3); (2, 30, 3); (5, 50, 7); (6, 40, 9)] /\
  survives true (y_files (z_w (srun cf_bytes ev_bytes (sstart cf_bytes 0)))) [0%nat] /\
  lost_bytes (z_acked (srun cf_bytes ev_bytes (sstart cf_bytes 0))) (read_back (y_files (z_w (srun cf_bytes ev_bytes (sstart cf_bytes 0)))) [0%nat]) = 180.
Proof. split; [left; reflexivity|]. split; [reflexivity|]. split; [exact bytes_fit|]. split; [repeat constructor|]. split; [reflexivity|]. split; [vm_compute; reflexivity|exact bytes_lost]. Qed.
Lemma bytes_refuted : exists cf n es kept, prompt cf /\ y_policy cf = IntervalBytes n /\ 0 < n /\ events_fit cf (sstart cf 0) es /\ Forall (fun e => power_loss e = false /\ torn e = false) es /\
  survives true (y_files (z_w (srun cf es (sstart cf 0)))) kept /\
  n < lost_bytes (z_acked (srun cf es (sstart cf 0))) (read_back (y_files (z_w (srun cf es (sstart cf 0)))) kept).
Proof.
  exists cf_bytes, 100, ev_bytes, [0%nat]. split; [left; reflexivity|]. split; [reflexivity|]. split; [lia|]. split; [exact bytes_fit|]. split; [repeat constructor|].
  destruct bytes_lost as [A B]. split; auto. rewrite B. lia.
Qed.

(** 50 time units between syncs; the handle does not keep bytes. *)
Definition cf_time : sconf := mkSC (IntervalTime 50) 10 200 (Some 1000) false.
Definition ev_time : list sevent := [EBatch [(60, 1); (30, 2)] 3; EBatch [(20, 10)] 11; ETick 54; EBatch [(25, 60)] 61].
Lemma time_fit : events_fit cf_time (sstart cf_time 0) ev_time.
Proof. apply fitsb_ok; vm_compute; reflexivity. Qed.
Lemma time_fits : prompt cf_time /\ y_policy cf_time = IntervalTime 50 /\ events_fit cf_time (sstart cf_time 0) ev_time /\ Forall (fun e => crash e = false) ev_time /\
  z_acked (srun cf_time ev_time (sstart cf_time 0)) = [(1, 60, 3); (2, 30, 3); (3, 20, 11); (4, 25, 61)] /\
  y_timer (z_w (srun cf_time ev_time (sstart cf_time 0))) = Some 111 /\
  on_time 2 (srun cf_time ev_time (sstart cf_time 0)) 70 /\ 11 + 50 + 2 < 70 /\ ~ safe true (srun cf_time ev_time (sstart cf_time 0)) 4.
Proof.
  split; [right; reflexivity|]. split; [reflexivity|]. split; [exact time_fit|]. split; [repeat constructor|]. split; [vm_compute; reflexivity|]. split; [vm_compute; reflexivity|].
  split; [vm_compute; discriminate|]. split; [lia|]. intros H. specialize (H [3%nat]).
  assert (S : survives true (y_files (z_w (srun cf_time ev_time (sstart cf_time 0)))) [3%nat]).
  { apply survivesb_ok; vm_compute; reflexivity. }
  specialize (H S). vm_compute in H. intuition discriminate.
Qed.
(** The default configuration with a handle that keeps written bytes. *)
Definition cf_default : sconf := mkSC (IntervalTime 50) 10 67108864 None true.
Lemma default_refuted : exists es i n a, events_fit cf_default (sstart cf_default 0) es /\ Forall (fun e => crash e = false) es /\
  let z := srun cf_default es (sstart cf_default 0) in
  In (i, n, a) (z_acked z) /\ (forall now, on_time 0 z now) /\ forall power, ~ safe power z i.
Proof.
  exists [EBatch [(60, 1)] 2; ETick 52], 1, 60, 2. split; [apply fitsb_ok; vm_compute; reflexivity|]. split; [repeat constructor|]. split; [vm_compute; auto|]. split; [intros now; exact I|].
  intros power H. specialize (H [0%nat]).
  assert (S : survives power (y_files (z_w (srun cf_default [EBatch [(60, 1)] 2; ETick 52] (sstart cf_default 0)))) [0%nat]).
  { destruct power; apply survivesb_ok; vm_compute; reflexivity. }
  specialize (H S). vm_compute in H. exact H.
Qed.
(** A restart forgets that a sync is due. *)
Lemma restart_refuted : exists es i n a, events_fit cf_time (sstart cf_time 0) es /\ Forall (fun e => power_loss e = false) es /\
  let z := srun cf_time es (sstart cf_time 0) in
  In (i, n, a) (z_acked z) /\ a + 50 < 1000 /\ on_time 0 z 1000 /\ ~ safe true z i.
Proof.
  exists [EBatch [(60, 1)] 2; ECrash false [] None [1%nat] Clean 10], 1, 60, 2. split; [apply fitsb_ok; vm_compute; reflexivity|].
  split; [repeat constructor|]. split; [vm_compute; auto|]. split; [lia|]. split; [vm_compute; discriminate|].
  intros H. specialize (H [0%nat]).
  assert (S : survives true (y_files (z_w (srun cf_time [EBatch [(60, 1)] 2; ECrash false [] None [1%nat] Clean 10] (sstart cf_time 0)))) [0%nat]).
  { apply survivesb_ok; vm_compute; reflexivity. }
  specialize (H S). vm_compute in H. exact H.
Qed.
(** An orderly shutdown of the default configuration. *)
Definition ev_default : list sevent := [EBatch [(60, 1); (30, 2)] 3; ETick 53; EBatch [(20, 55)] 56].
Lemma shutdown_fits : y_policy cf_default <> Disabled /\ events_fit cf_default (sstart cf_default 0) ev_default /\ Forall (fun e => crash e = false) ev_default /\
  z_acked (srun cf_default ev_default (sstart cf_default 0)) = [(1, 60, 3); (2, 30, 3); (3, 20, 56)] /\ ~ safe true (srun cf_default ev_default (sstart cf_default 0)) 3.
Proof.
  split; [discriminate|]. split; [apply fitsb_ok; vm_compute; reflexivity|]. split; [repeat constructor|]. split; [vm_compute; reflexivity|].
  intros H. specialize (H [2%nat]).
  assert (S : survives true (y_files (z_w (srun cf_default ev_default (sstart cf_default 0)))) [2%nat]).
  { apply survivesb_ok; vm_compute; reflexivity. }
  specialize (H S). vm_compute in H. intuition discriminate.
Qed.
(** No syncs at all, and a process that stops. *)
Definition cf_off : sconf := mkSC Disabled 0 100 None true.
Definition ev_off : list sevent := [EBatch [(60, 1); (70, 2)] 3; ECrash false [(40, 8)] (Some 30) [2; 1]%nat (Torn []) 10; EBatch [(20, 11)] 12].
Lemma process_fits : prompt cf_off /\ events_fit cf_off (sstart cf_off 0) ev_off /\ Forall (fun e => power_loss e = false /\ repair_stopped e = false) ev_off /\
  z_acked (srun cf_off ev_off (sstart cf_off 0)) = [(1, 60, 3); (2, 70, 3); (5, 20, 12)].
Proof.
  split; [left; reflexivity|]. split; [|split; [repeat constructor|vm_compute; reflexivity]].
  apply fitsb_ok; vm_compute; reflexivity.
Qed.

(** A process stops while it writes a frame, and the next one while it opens the log: the last
    file is empty. *)
Notation ev_stopped := [EBatch [(60, 1)] 3; ECrash false [] None [1%nat] (Torn [0%nat]) 10].
Lemma repair_lost : exists es i n a, events_fit cf_always (sstart cf_always 0) es /\ Forall (fun e => power_loss e = false) es /\
  In (i, n, a) (z_acked (srun cf_always es (sstart cf_always 0))) /\ ~ In i (map fst (written_now (srun cf_always es (sstart cf_always 0)))).
Proof.
  exists ev_stopped, 1, 60, 3. split; [apply fitsb_ok; vm_compute; reflexivity|]. split; [repeat constructor|]. split; [vm_compute; auto|]. vm_compute. tauto.
Qed.
(** The next process opens the log, and then the machine stops. *)
Notation ev_repaired := [EBatch [(60, 1)] 3; ECrash false [] None [1%nat] (Torn []) 10].
Lemma repair_unsynced : exists es i n a, events_fit cf_always (sstart cf_always 0) es /\ Forall (fun e => power_loss e = false /\ repair_stopped e = false) es /\
  In (i, n, a) (z_acked (srun cf_always es (sstart cf_always 0))) /\ ~ safe true (srun cf_always es (sstart cf_always 0)) i.
Proof.
  exists ev_repaired, 1, 60, 3. split; [apply fitsb_ok; vm_compute; reflexivity|]. split; [repeat constructor|]. split; [vm_compute; auto|].
  intros H. specialize (H [0%nat]).
  assert (S : survives true (y_files (z_w (srun cf_always ev_repaired (sstart cf_always 0)))) [0%nat]) by (apply survivesb_ok; vm_compute; reflexivity).
  specialize (H S). vm_compute in H. exact H.
Qed.
