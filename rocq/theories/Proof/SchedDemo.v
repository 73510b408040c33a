(** Concurrent calls: concrete schedules. *)
From Coq Require Import List NArith Bool Arith Lia Sorted Permutation.
From Verif Require Import Base.Order Model.MemTable Model.Immutable Model.SsTable Model.DbScan
     Model.Db Spec.Mvcc Spec.History Model.Run Spec.Valid Model.Sched Spec.ConcSpec
     Proof.SchedLive Proof.SchedInv Proof.SchedReads Proof.Demo.
Import ListNotations.
Local Open Scope N_scope.

Notation go := (crun row_key (cstart 1024)).
Definition steps (i n : nat) : list (event N row) := repeat (EStep i) n.

(** Decision procedures for the conditions. *)
Definition ev_okb (e : event N row) : bool :=
  match e with
  | EIngest rows _ => forallb (fun r => match row_key r with Some _ => true | None => false end) rows
  | ETomb rows _ => forallb (fun p => match row_key (fst p) with Some _ => true | None => false end) rows && separate_b rows
  | _ => true
  end.
Lemma ev_okb_ok e : ev_okb e = true -> ev_ok row_key e.
Proof.
  destruct e as [rows dec|rows dec|ms|i| |i|]; simpl; auto; intros H.
  - apply Forall_forall. intros r Hr E. rewrite forallb_forall in H. specialize (H r Hr). now rewrite E in H.
  - apply andb_true_iff in H as [H1 H2]. split; [|now apply separate_check].
    apply Forall_forall. intros p Hp E. rewrite forallb_forall in H1. specialize (H1 p Hp). now rewrite E in H1.
Qed.
Definition failedb (t : thread N row) : bool := match t_pc t with PDone Failed => true | _ => false end.
Definition writingb (t : thread N row) : bool :=
  match t_pc t with PPut _ _ | PAdd _ _ _ | PSeal _ | PAddLast _ _ => true | _ => false end.
Definition sealingb (t : thread N row) : bool := match t_pc t with PAdd _ _ _ | PAddLast _ _ => true | _ => false end.
Definition checkingb (t : thread N row) : bool := match t_pc t with PCheck _ => true | _ => false end.
Definition returnedb (t : thread N row) : bool := match t_pc t with PDone _ => true | _ => false end.
Lemma writingb_ok l : forallb (fun t => negb (writingb t)) l = true -> Forall (fun t => ~ writing t) l.
Proof.
  intros H. apply Forall_forall. intros t Ht. rewrite forallb_forall in H. specialize (H t Ht).
  unfold writingb in H. unfold writing. destruct (t_pc t); simpl in H; auto; discriminate.
Qed.
Lemma sealingb_ok l : forallb (fun t => negb (sealingb t)) l = true -> Forall (fun t => ~ sealing t) l.
Proof.
  intros H. apply Forall_forall. intros t Ht. rewrite forallb_forall in H. specialize (H t Ht).
  unfold sealingb in H. unfold sealing. destruct (t_pc t); simpl in H; auto; discriminate.
Qed.
Lemma returnedb_ok l : forallb returnedb l = true -> Forall (@returned N row) l.
Proof.
  intros H. apply Forall_forall. intros t Ht. rewrite forallb_forall in H. specialize (H t Ht).
  unfold returnedb in H. unfold returned. destruct (t_pc t); try discriminate. eauto.
Qed.
Definition hyp_b (es : list (event N row)) : bool :=
  forallb ev_okb es && (N.of_nat (length es) <? 2 ^ 64) && forallb (fun t => negb (failedb t)) (c_threads (go es)).
Lemma hyp_ok es : hyp_b es = true -> sched_hyp row_key 1024 es.
Proof.
  unfold hyp_b. intros H. apply andb_true_iff in H as [H H3]. apply andb_true_iff in H as [H1 H2].
  split; [repeat constructor|]. split; [|split].
  - apply Forall_forall. intros e He. rewrite forallb_forall in H1. apply ev_okb_ok; auto.
  - now apply N.ltb_lt.
  - apply Forall_forall. intros t Ht F. rewrite forallb_forall in H3. specialize (H3 t Ht). unfold failedb in H3.
    unfold failed in F. now rewrite F in H3.
Qed.

Lemma split_firstn {A} (es es1 : list A) e es2 : es = es1 ++ e :: es2 ->
  es1 = firstn (length es1) es /\ nth_error es (length es1) = Some e /\ In (length es1) (seq 0 (length es)).
Proof.
  intros ->. split; [now rewrite firstn_app, Nat.sub_diag, firstn_all, app_nil_r|]. split.
  - rewrite nth_error_app2, Nat.sub_diag by auto. reflexivity.
  - apply in_seq. rewrite app_length. simpl. lia.
Qed.

(** Some transaction [j] began when call [i] was acknowledged. *)
Definition began_b (es : list (event N row)) (i j : nat) : bool :=
  existsb (fun n =>
    match nth_error es n with
    | Some (EBegin _) =>
        let c := go (firstn n es) in
        Nat.eqb (length (c_threads c)) j &&
        match nth_error (c_threads c) i with
        | Some t => match t_pc t with PDone (Acked _) => true | _ => false end
        | None => false
        end
    | _ => false
    end) (seq 0 (length es)).
Lemma began_ok es i j : began_after row_key (cstart 1024) es i j -> began_b es i j = true.
Proof.
  intros (es1 & ms & es2 & t & ts & E & EL & Hi & Ha). destruct (split_firstn _ _ _ _ E) as (E1 & E2 & E3).
  unfold began_b. apply existsb_exists. exists (length es1). split; auto. rewrite E2, <- E1.
  rewrite EL, Nat.eqb_refl, Hi. unfold acked_at in Ha. now rewrite Ha.
Qed.
Lemma not_began es i j : began_b es i j = false -> ~ began_after row_key (cstart 1024) es i j.
Proof. intros H F. apply began_ok in F. congruence. Qed.

Definition calm_begins_b (es : list (event N row)) : bool :=
  forallb (fun n =>
    match nth_error es n with
    | Some (EBegin _) =>
        let c := go (firstn n es) in
        forallb (fun t => negb (writingb t)) (c_threads c) && match acked row_key c with [] => false | _ => true end
    | _ => true
    end) (seq 0 (length es)).
Lemma calm_begins_ok es : calm_begins_b es = true -> calm_begins row_key (cstart 1024) es.
Proof.
  unfold calm_begins_b. intros H es1 ms es2 E. destruct (split_firstn _ _ _ _ E) as (E1 & E2 & E3).
  rewrite forallb_forall in H. specialize (H _ E3). rewrite E2, <- E1 in H.
  apply andb_true_iff in H as [H1 H2]. split; [now apply writingb_ok|]. intros F. now rewrite F in H2.
Qed.
Definition calm_checks_b (es : list (event N row)) : bool :=
  forallb (fun n =>
    match nth_error es n with
    | Some (EStep i) =>
        let c := go (firstn n es) in
        match nth_error (c_threads c) i with
        | Some t => negb (checkingb t) || forallb (fun u => negb (sealingb u)) (c_threads c)
        | None => true
        end
    | _ => true
    end) (seq 0 (length es)).
Lemma calm_checks_ok es : calm_checks_b es = true -> calm_checks row_key (cstart 1024) es.
Proof.
  unfold calm_checks_b. intros H es1 i t es2 E Hi Hc. destruct (split_firstn _ _ _ _ E) as (E1 & E2 & E3).
  rewrite forallb_forall in H. specialize (H _ E3). rewrite E2, <- E1 in H. rewrite Hi in H.
  assert (checkingb t = true) as Hb.
  { unfold checking in Hc. unfold checkingb. destruct (t_pc t); auto; contradiction. }
  rewrite Hb in H. now apply sealingb_ok.
Qed.
Definition is_flushb (e : event N row) : bool := match e with EFlush _ => true | _ => false end.
Lemma not_flush_ok es : forallb (fun e => negb (is_flushb e)) es = true -> Forall (@not_flush N row) es.
Proof.
  intros H. apply Forall_forall. intros e He. rewrite forallb_forall in H. specialize (H e He). destruct e; try exact I. discriminate.
Qed.

(** *** Schedules *)
(** An ingest, two transactions on crossing keys, an ingest with tombstones that seals, and
    a flush, interleaved; everything returns. *)
Definition busy : list (event N row) :=
  [EIngest [rw 1 10; rw 2 20] false] ++ steps 0 4 ++
  [EBegin [Put (rw 1 11); Del 2; Put (rw 3 30)]; ETomb [(rw 4 40, false); (rw 1 0, true)] true; EBegin [Put (rw 5 50)]] ++
  [EStep 1; EStep 2; EStep 3; EStep 1; EStep 3; EStep 2; EStep 1; EStep 2; EStep 3; EStep 2; EStep 3; EStep 2; EStep 3;
   EStep 2; EStep 3; EStep 3; EStep 3; EFlush 0; EStep 1; EFlush 0; EStep 1; EStep 1; EStep 1; EFlush 0; EStep 1; EStep 1; EStep 1; EStep 1; EStep 1] ++ steps 2 3 ++ steps 3 3 ++ steps 1 3.

(** A transaction waits for the lock of another, which is given up while it waits for the
    log; a flush is given up after it published its table, another before; then all ends. *)
Definition dropped : list (event N row) :=
  [EIngest [rw 1 10; rw 2 20] true] ++ steps 0 6 ++
  [EBegin [Put (rw 1 11)]; EBegin [Put (rw 1 12); Del 2]] ++ steps 1 5 ++ steps 2 2 ++ [EDrop 1; EFlush 0; EFlush 0; EDropFlush] ++
  steps 2 8 ++ [EIngest [rw 7 70] true; EDrop 3; EIngest [rw 8 80] true] ++ steps 4 6 ++ [EFlush 0; EDropFlush; EFlush 0; EFlush 0; EFlush 0] ++ steps 2 4.

(** A transaction begins between the commit timestamp of another and its insert. *)
Definition lost_prefix := [EIngest [rw 1 10] false] ++ steps 0 4 ++ [EBegin [Put (rw 1 11)]] ++ steps 1 5 ++ [EBegin [Put (rw 1 12)]].
Definition lost_window := lost_prefix ++ steps 1 3 ++ steps 2 8.
(** Both begin on an empty database. *)
Definition lost_empty := [EBegin [Put (rw 1 11)]; EBegin [Put (rw 1 12)]] ++ steps 0 8 ++ steps 1 8.
(** The first commit is sealed and flushed before the second checks. *)
Definition lost_flush :=
  [EIngest [rw 1 10] false] ++ steps 0 4 ++ [EBegin [Put (rw 1 11)]; EBegin [Put (rw 1 12)]] ++ steps 1 8 ++
  [EIngest [rw 9 9] true] ++ steps 3 5 ++ [EFlush 0; EFlush 0; EFlush 0] ++ steps 2 8.
(** The first commit is in the segment an ingest is about to add. *)
Definition lost_seal :=
  [EIngest [rw 1 10] false] ++ steps 0 4 ++ [EBegin [Put (rw 1 11)]; EBegin [Put (rw 1 12)]] ++ steps 1 8 ++
  [EIngest [rw 9 9] true] ++ steps 3 4 ++ steps 2 8 ++ steps 3 1.

(** An ingest of a key commits between the check and the commit of a transaction on it. *)
Definition lost_ingest :=
  [EIngest [rw 1 10] false] ++ steps 0 4 ++ [EBegin [Put (rw 1 11)]] ++ steps 1 4 ++
  [EIngest [rw 1 12] false] ++ steps 2 4 ++ steps 1 5.
(** The scanner plans after the first ingest returned and reads after the second sealed the memtable
    (and, [split_flush], after that segment was flushed). *)
Definition split_before := [EIngest [rw 1 10; rw 2 20] false] ++ steps 0 4.
Definition split_seal := [EIngest [rw 3 30] true] ++ steps 1 5.
Definition split_sealed := split_before ++ split_seal.
Definition split_flush : list (event N row) := [EFlush 0; EFlush 0; EFlush 0].
(** A transaction that replaces key 2 by key 1 stands between its two inserts. *)
Definition half := [EIngest [rw 2 20] false] ++ steps 0 4 ++ [EBegin [Put (rw 1 11); Del 2]] ++ steps 1 8.
Definition half_done := half ++ steps 1 3.
(** An ingest has emptied the memtable and not yet added the segment. *)
Definition gap := [EIngest [rw 1 10] false] ++ steps 0 4 ++ [EIngest [rw 2 20] true] ++ steps 1 4.
Definition latest es := scan_at row_key (begin_snapshot (c_db (go es))) (go es).

(** Two transactions on key 1, one after the other, with an ingest in flight. *)
Definition in_turn :=
  [EIngest [rw 1 10] false] ++ steps 0 4 ++ [EBegin [Put (rw 1 11); Put (rw 2 21)]; EIngest [rw 3 30] true] ++ steps 1 6 ++
  steps 2 1 ++ steps 1 5 ++ steps 2 4 ++ [EBegin [Put (rw 1 12)]] ++ steps 3 9.
(** A transaction on the same keys runs to its end after the snapshot. *)
Definition later := [EBegin [Put (rw 1 11); Del 2]] ++ steps 1 12.

Lemma lost_by es i j ti tj ri rj si sj :
  i <> j -> began_b es i j = false -> began_b es j i = false ->
  nth_error (c_threads (go es)) i = Some (mkTh (CTxn si [Put (rw 1 ri)]) (PDone (Acked ti))) ->
  nth_error (c_threads (go es)) j = Some (mkTh (CTxn sj [Put (rw 1 rj)]) (PDone (Acked tj))) ->
  lost_update row_key 1024 es.
Proof.
  intros N B1 B2 Hi Hj.
  exists i, j, (mkTh (CTxn si [Put (rw 1 ri)]) (PDone (Acked ti))), (mkTh (CTxn sj [Put (rw 1 rj)]) (PDone (Acked tj))), ti, tj, 1.
  split; auto. split; auto. split; auto. split; [reflexivity|]. split; [reflexivity|].
  split; [|split; [|split; now apply not_began]].
  - exists si, [Put (rw 1 ri)], (Put (rw 1 ri)), 1. repeat split. simpl. auto.
  - exists sj, [Put (rw 1 rj)], (Put (rw 1 rj)), 1. repeat split. simpl. auto.
Qed.

Lemma lost_window_ok : sched_hyp row_key 1024 lost_window /\ Forall (@not_flush N row) lost_window /\
  calm_checks row_key (cstart 1024) lost_window /\ lost_update row_key 1024 lost_window.
Proof.
  split; [apply hyp_ok; vm_compute; reflexivity|]. split; [apply not_flush_ok; vm_compute; reflexivity|].
  split; [apply calm_checks_ok; vm_compute; reflexivity|].
  apply (lost_by _ 1 2 1 2 11 12 0 1); try (vm_compute; reflexivity). discriminate.
Qed.
Lemma lost_empty_ok : sched_hyp row_key 1024 lost_empty /\ Forall (@not_flush N row) lost_empty /\
  calm_checks row_key (cstart 1024) lost_empty /\ lost_update row_key 1024 lost_empty.
Proof.
  split; [apply hyp_ok; vm_compute; reflexivity|]. split; [apply not_flush_ok; vm_compute; reflexivity|].
  split; [apply calm_checks_ok; vm_compute; reflexivity|].
  apply (lost_by _ 0 1 0 1 11 12 0 0); try (vm_compute; reflexivity). discriminate.
Qed.
Lemma lost_flush_ok : sched_hyp row_key 1024 lost_flush /\ calm_begins row_key (cstart 1024) lost_flush /\
  calm_checks row_key (cstart 1024) lost_flush /\ lost_update row_key 1024 lost_flush.
Proof.
  split; [apply hyp_ok; vm_compute; reflexivity|]. split; [apply calm_begins_ok; vm_compute; reflexivity|].
  split; [apply calm_checks_ok; vm_compute; reflexivity|].
  apply (lost_by _ 1 2 1 3 11 12 0 0); try (vm_compute; reflexivity). discriminate.
Qed.
Lemma lost_seal_ok : sched_hyp row_key 1024 lost_seal /\ Forall (@not_flush N row) lost_seal /\
  calm_begins row_key (cstart 1024) lost_seal /\ lost_update row_key 1024 lost_seal.
Proof.
  split; [apply hyp_ok; vm_compute; reflexivity|]. split; [apply not_flush_ok; vm_compute; reflexivity|].
  split; [apply calm_begins_ok; vm_compute; reflexivity|].
  apply (lost_by _ 1 2 1 3 11 12 0 0); try (vm_compute; reflexivity). discriminate.
Qed.
Lemma lost_ingest_ok : exists snap ms ti tj,
  sched_hyp row_key 1024 lost_ingest /\
  nth_error (c_threads (go lost_ingest)) 2 = Some (mkTh (CIngest [rw 1 12] false) (PDone (Acked ti))) /\
  nth_error (c_threads (go lost_ingest)) 1 = Some (mkTh (CTxn snap ms) (PDone (Acked tj))) /\
  snap < ti /\ ti < tj /\ txn_writes row_key 1 (mkTh (CTxn snap ms) (PDone (Acked tj))).
Proof.
  exists 0, [Put (rw 1 11)], 1, 2. split; [apply hyp_ok; vm_compute; reflexivity|].
  split; [vm_compute; reflexivity|]. split; [vm_compute; reflexivity|]. split; [reflexivity|]. split; [reflexivity|].
  exists 0, [Put (rw 1 11)], (Put (rw 1 11)), 1. repeat split. simpl. auto.
Qed.
Lemma in_turn_ok : sched_hyp row_key 1024 in_turn /\ Forall (@not_flush N row) in_turn /\
  calm_checks row_key (cstart 1024) in_turn /\ calm_begins row_key (cstart 1024) in_turn /\
  map (@t_pc _ _) (c_threads (go in_turn)) = map (fun ts => PDone (Acked ts)) [0; 2; 1; 3].
Proof.
  split; [apply hyp_ok; vm_compute; reflexivity|]. split; [apply not_flush_ok; vm_compute; reflexivity|].
  split; [apply calm_checks_ok; vm_compute; reflexivity|]. split; [apply calm_begins_ok; vm_compute; reflexivity|].
  vm_compute. reflexivity.
Qed.
Lemma changes_ok :
  sched_hyp row_key 1024 (lost_prefix ++ steps 1 3) /\ Forall (@not_flush N row) (steps 1 3) /\
  Forall (fun t => ~ sealing t) (c_threads (go lost_prefix)) /\
  Forall (fun t => ~ sealing t) (c_threads (go (lost_prefix ++ steps 1 3))) /\
  scan_at row_key (begin_snapshot (c_db (go lost_prefix))) (go lost_prefix) = Some [((1, 0), rw 1 10)] /\
  scan_at row_key (begin_snapshot (c_db (go lost_prefix))) (go (lost_prefix ++ steps 1 3)) = Some [((1, 1), rw 1 11)].
Proof.
  split; [apply hyp_ok; vm_compute; reflexivity|]. split; [apply not_flush_ok; vm_compute; reflexivity|].
  split; [apply sealingb_ok; vm_compute; reflexivity|]. split; [apply sealingb_ok; vm_compute; reflexivity|].
  split; vm_compute; reflexivity.
Qed.
Lemma half_ok : exists snap ms p, sched_hyp row_key 1024 half /\
  nth_error (c_threads (go half)) 1 = Some (mkTh (CTxn snap ms) p) /\ ms = [Put (rw 1 11); Del 2] /\
  scan_at row_key (begin_snapshot (c_db (go half))) (go half) = Some [((1, 1), rw 1 11); ((2, 0), rw 2 20)].
Proof.
  exists 0, [Put (rw 1 11); Del 2], (PPut 1 1). split; [apply hyp_ok; vm_compute; reflexivity|].
  split; [vm_compute; reflexivity|]. split; vm_compute; reflexivity.
Qed.
Definition gap_before := [EIngest [rw 1 10] false] ++ steps 0 4.
Definition gap_after := [EIngest [rw 2 20] true] ++ steps 1 4.
Lemma gap_ok : sched_hyp row_key 1024 (gap_before ++ gap_after) /\
  Forall (@is_ingest N row) (c_threads (go (gap_before ++ gap_after))) /\
  Forall (@returned N row) (c_threads (go gap_before)) /\
  scan_at row_key (begin_snapshot (c_db (go gap_before))) (go gap_before) = Some [((1, 0), rw 1 10)] /\
  scan_at row_key (begin_snapshot (c_db (go (gap_before ++ gap_after)))) (go (gap_before ++ gap_after)) = Some [].
Proof.
  split; [apply hyp_ok; vm_compute; reflexivity|].
  split; [vm_compute; repeat constructor; eexists _, _; reflexivity|].
  split; [apply returnedb_ok; vm_compute; reflexivity|]. split; vm_compute; reflexivity.
Qed.
Lemma split_seal_ok : sched_hyp row_key 1024 (split_before ++ split_seal) /\
  Forall (@returned N row) (c_threads (go split_before)) /\
  Forall (@returned N row) (c_threads (go (split_before ++ split_seal))) /\
  Forall (@not_flush N row) split_seal /\
  scan_at row_key (begin_snapshot (c_db (go split_before))) (go split_before) = Some [((1, 0), rw 1 10); ((2, 0), rw 2 20)] /\
  scan_split row_key (begin_snapshot (c_db (go split_before))) (go split_before) (go (split_before ++ split_seal)) = Some [].
Proof.
  split; [apply hyp_ok; vm_compute; reflexivity|].
  split; [apply returnedb_ok; vm_compute; reflexivity|]. split; [apply returnedb_ok; vm_compute; reflexivity|].
  split; [apply not_flush_ok; vm_compute; reflexivity|]. split; vm_compute; reflexivity.
Qed.
Lemma split_flush_ok : sched_hyp row_key 1024 (split_sealed ++ split_flush) /\
  Forall (@returned N row) (c_threads (go split_sealed)) /\
  c_threads (go (split_sealed ++ split_flush)) = c_threads (go split_sealed) /\
  scan_at row_key (begin_snapshot (c_db (go split_sealed))) (go split_sealed)
    = Some [((1, 0), rw 1 10); ((2, 0), rw 2 20); ((3, 1), rw 3 30)] /\
  scan_split row_key (begin_snapshot (c_db (go split_sealed))) (go split_sealed) (go (split_sealed ++ split_flush)) = Some [].
Proof.
  split; [apply hyp_ok; vm_compute; reflexivity|].
  split; [apply returnedb_ok; vm_compute; reflexivity|]. split; [vm_compute; reflexivity|].
  split; vm_compute; reflexivity.
Qed.
Lemma calm_ok : sched_hyp row_key 1024 (split_before ++ later) /\ acked row_key (go split_before) <> [] /\
  Forall (fun t => ~ writing t) (c_threads (go split_before)) /\ Forall (@not_flush N row) later /\
  Forall (fun t => ~ sealing t) (c_threads (go (split_before ++ later))) /\
  d_imm (c_db (go (split_before ++ later))) = d_imm (c_db (go split_before)) /\
  map (@t_pc _ _) (c_threads (go (split_before ++ later))) = [PDone (Acked 0); PDone (Acked 1)].
Proof.
  split; [apply hyp_ok; vm_compute; reflexivity|]. split; [vm_compute; discriminate|].
  split; [apply writingb_ok; vm_compute; reflexivity|]. split; [apply not_flush_ok; vm_compute; reflexivity|].
  split; [apply sealingb_ok; vm_compute; reflexivity|]. split; vm_compute; reflexivity.
Qed.
Lemma calm_seal_ok : Forall (fun t => ~ sealing t) (c_threads (go (split_before ++ split_seal))) /\
  Forall (seg_safe (sn_ts (begin_snapshot (c_db (go split_before))))) (d_imm (c_db (go (split_before ++ split_seal)))) /\
  length (d_imm (c_db (go (split_before ++ split_seal)))) = 1%nat.
Proof.
  split; [apply sealingb_ok; vm_compute; reflexivity|]. split; [|vm_compute; reflexivity].
  vm_compute. constructor; [|constructor]. intros _ H t []. 
Qed.
Lemma busy_ok : sched_hyp row_key 1024 busy /\ Forall (@returned N row) (c_threads (go busy)) /\
  map (@t_pc _ _) (c_threads (go busy)) = [PDone (Acked 0); PDone Conflict; PDone (Acked 1); PDone (Acked 2)] /\
  length (concat (d_levels (c_db (go busy)))) = 1%nat.
Proof.
  split; [apply hyp_ok; vm_compute; reflexivity|]. split; [apply returnedb_ok; vm_compute; reflexivity|].
  split; vm_compute; reflexivity.
Qed.
Lemma dropped_ok : sched_hyp row_key 1024 dropped /\ Forall (@returned N row) (c_threads (go dropped)) /\
  map (@t_pc _ _) (c_threads (go dropped)) = [PDone (Acked 0); PDone GaveUp; PDone (Acked 2); PDone GaveUp; PDone (Acked 3)] /\
  length (concat (d_levels (c_db (go dropped)))) = 2%nat.
Proof.
  split; [apply hyp_ok; vm_compute; reflexivity|]. split; [apply returnedb_ok; vm_compute; reflexivity|].
  split; vm_compute; reflexivity.
Qed.
(** Two transactions on keys 1 and 2, staged in opposite orders; the second waits. *)
Definition crossing : list (event N row) :=
  [EBegin [Put (rw 1 11); Put (rw 2 21)]; EBegin [Put (rw 2 22); Put (rw 1 12)]] ++ [EStep 0; EStep 1; EStep 0; EStep 1]%nat.
Lemma crossing_ok : map (@t_pc _ _) (c_threads (go crossing)) = [PLock 2; PLock 0] /\
  cstep row_key (go crossing) (EStep 1) = go crossing /\ effective row_key (go crossing) (repeat 0 8 ++ repeat 1 5)%nat.
Proof. split; [vm_compute; reflexivity|]. split; [vm_compute; reflexivity|]. vm_compute. repeat split; discriminate. Qed.
