(** Snapshots at listed timestamps that do not show the data of the version. *)
From Coq Require Import List NArith Bool Lia Sorted.
From Verif Require Import Base.Order Model.MemTable Model.Immutable Model.SsTable Model.DbScan Model.Version
     Model.Compact Model.Planner Model.Db Model.DbCompact Spec.Mvcc Spec.History Model.Run Spec.Valid Model.TimeTravel
     Model.Sessions Model.Manifest Spec.ManifestSpec Proof.ManifestFacts Proof.Demo Proof.Reads Proof.TimeFacts.
Import ListNotations.

(** *** The version chosen in the manifest *)
Lemma c30_version_at {E} (eid : E -> N) es t ts : (N.of_nat (length es) < top)%N ->
  let s := mrun vkey_eqb (vexec eid) mstart es in
  forall v, loads s t (v_ts v) v -> (v_ts v <= ts)%N -> (forall u, loads s t (v_ts u) u -> (v_ts u <= ts)%N -> (v_ts u <= v_ts v)%N) ->
  exists h, version_at t ts (m_kv s) = MOk (h, Some v).
Proof.
  intros HB s v HL HT HM. destruct (c25_listing eid es t HB) as (l & E1 & SS & HI & _ & _). fold s in E1, HI. unfold version_at. rewrite E1.
  assert (HV : In v l) by now apply HI.
  assert (EF : find (fun u => N.leb (v_ts u) ts) l = Some v).
  { assert (HM' : forall u, In u l -> (v_ts u <= ts)%N -> (v_ts u <= v_ts v)%N) by (intros u Hu; apply HM; now apply HI). clear HI HM E1.
    induction SS as [|a r SS IH HF]; [destruct HV|]. cbn. rewrite Forall_forall in HF. destruct (N.leb_spec (v_ts a) ts) as [LE|GT].
    - destruct HV as [->|HV]; auto. specialize (HM' a (or_introl eq_refl) LE). specialize (HF v HV). lia.
    - destruct HV as [->|HV]; [lia|]. apply IH; auto. intros u Hu. apply HM'. cbn. auto. }
  rewrite EF. exact HL.
Qed.

(** *** Runs *)
Definition travel := tt_run row_key row_size del_size (tt_start (K := N) (R := row) 1024).
Definition versions (ops : list (op N row)) : list N := map (@tv_ts N row) (tt_vers (travel ops)).
Definition put1 (k v : N) (seal : bool) : op N row := OIngest [rw k v] None seal.

(** Three rows are flushed together; version 1. *)
Definition three_then_flush : list (op N row) := [put1 1 10 false; put1 2 20 false; put1 3 30 true; OFlush 0].
(** A row is flushed, version 1; then another one is written. *)
Definition flush_then_write : list (op N row) := [put1 1 10 true; OFlush 0; put1 2 20 false].
(** A commit with a log publishes version 1; later its row is flushed. *)
Definition commit_then_flush : list (op N row) := [OCommit 0 [Put (rw 1 10)] (Some (0, 1)%N); put1 2 20 true; OFlush 0].

Lemma no_extra (m : table N row) (p : row -> bool) out e : ~ In e out -> m (fst (fst e)) = Some (snd (fst e), snd e) -> row_key (snd e) = Some (fst (fst e)) -> p (snd e) = true ->
  ~ lists_table row_key m p out.
Proof. destruct e as [[k t] r]. cbn. intros HN HM HK HP [_ H]. apply HN, H. auto. Qed.
Lemma no_missing (m : table N row) (p : row -> bool) out e : In e out -> m (fst (fst e)) <> Some (snd (fst e), snd e) -> ~ lists_table row_key m p out.
Proof. destruct e as [[k t] r]. cbn. intros HI HM [_ H]. apply H in HI. tauto. Qed.

Definition misreads (ops : list (op N row)) (ts : N) : Prop :=
  exists v out, In v (tt_vers (travel ops)) /\ tv_ts v = ts /\ scan_at row_key ts (travel ops) = Some out /\
    ~ lists_table row_key (final row_key (tv_hist v)) (fun _ => true) out.

Lemma three_misread : misreads three_then_flush 1.
Proof.
  unfold misreads. destruct (nth_error (tt_vers (travel three_then_flush)) 0) as [v|] eqn:EV; [|vm_compute in EV; discriminate].
  assert (EH : tv_hist v = [(0, [Put (rw 1 10)]); (1, [Put (rw 2 20)]); (2, [Put (rw 3 30)])]%N /\ tv_ts v = 1%N) by (vm_compute in EV; inversion EV; split; reflexivity).
  destruct EH as [EH ET].
  exists v, [((1, 0), rw 1 10); ((2, 1), rw 2 20)]%N. split; [eapply nth_error_In; eauto|]. split; auto. split; [vm_compute; reflexivity|].
  rewrite EH. apply (no_extra _ _ _ ((3, 2)%N, rw 3 30)); try reflexivity. cbn. intros [H|[H|[]]]; discriminate H.
Qed.
Lemma write_misread : misreads flush_then_write 1.
Proof.
  unfold misreads. destruct (nth_error (tt_vers (travel flush_then_write)) 0) as [v|] eqn:EV; [|vm_compute in EV; discriminate].
  assert (EH : tv_hist v = [(0, [Put (rw 1 10)])]%N /\ tv_ts v = 1%N) by (vm_compute in EV; inversion EV; split; reflexivity).
  destruct EH as [EH ET].
  exists v, [((1, 0), rw 1 10); ((2, 1), rw 2 20)]%N. split; [eapply nth_error_In; eauto|]. split; auto. split; [vm_compute; reflexivity|].
  rewrite EH. apply (no_missing _ _ _ ((2, 1)%N, rw 2 20)); [cbn; auto|]. vm_compute. discriminate.
Qed.
Lemma commit_misread : misreads commit_then_flush 1.
Proof.
  unfold misreads. destruct (nth_error (tt_vers (travel commit_then_flush)) 0) as [v|] eqn:EV; [|vm_compute in EV; discriminate].
  assert (EH : tv_hist v = [(0, [Put (rw 1 10)])]%N /\ tv_ts v = 1%N) by (vm_compute in EV; inversion EV; split; reflexivity).
  destruct EH as [EH ET].
  exists v, []. split; [eapply nth_error_In; eauto|]. split; auto. split; [vm_compute; reflexivity|].
  rewrite EH. apply (no_extra _ _ _ ((1, 0)%N, rw 1 10)); try reflexivity. cbn. tauto.
Qed.

(** A run that meets the hypotheses: two rows, flush (version 1), then an update, a delete,
    flushes and a compaction. *)
Definition lucky_before : list (op N row) := [put1 1 10 false; put1 2 20 true].
Definition lucky_after : list (op N row) :=
  [put1 1 11 true; OFlush 0; OTomb [(rw 2 0, true)] None true; OFlush 0;
   OCompact no_caps one_batch (mkTask 0 1 [(0, 1%N); (0, 2%N); (0, 3%N)] None); put1 4 40 false].
Lemma lucky_facts :
  let t1 := travel (lucky_before ++ [OFlush 0]) in
  let t2 := travel (lucky_before ++ OFlush 0 :: lucky_after) in
  map (@tv_ts N row) (tt_vers (travel lucky_before)) = [] /\ map (@tv_ts N row) (tt_vers t1) = [1%N] /\
  m_index (d_mem (st_db (tt_st t1))) = [] /\ d_imm (st_db (tt_st t1)) = [] /\ d_clock (st_db (tt_st t1)) = 2%N /\
  map (@tv_ts N row) (tt_vers t2) = [1; 2; 3; 4]%N /\
  scan_at row_key 1 t2 = Some [((1, 0), rw 1 10); ((2, 1), rw 2 20)]%N /\
  read_all row_key (st_db (tt_st t2)) = Some [((1, 2), rw 1 11); ((4, 4), rw 4 40)]%N.
Proof. vm_compute. repeat split. Qed.
Lemma lucky_ok : run_hyp row_key row_size del_size 1024 (lucky_before ++ OFlush 0 :: lucky_after).
Proof.
  split; [lia|]. split; [reflexivity|]. cbn [app lucky_before lucky_after ops_ok].
  assert (NK : forall (P : Prop) r, null_key row_key [r] -> (row_key r = None -> P) -> P) by (intros P r (x & [<-|[]] & E) H; auto).
  repeat match goal with |- _ /\ _ => split end; try exact I.
  all: try (intros HN; eapply NK; [exact HN|discriminate]).
  - split; [intros (x & [] & _)|]. split; [left; repeat constructor; discriminate|].
    intros r r' k k' [H|[]] _. discriminate H.
  - intros l t _ _. apply one_batch_faithful.
Qed.
