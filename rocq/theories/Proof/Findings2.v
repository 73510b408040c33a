(** Concrete runs on which transactions go wrong, and the examples of the transaction
    properties. *)
From Coq Require Import List NArith Bool Arith Lia.
From Verif Require Import Base.Order Model.OMap Model.MemTable Model.Immutable Model.SsTable Model.KeyBounds Model.DbScan
     Model.Compact Model.Planner Model.Db Model.DbCompact Model.Txn Spec.Mvcc Spec.History Spec.KeySet Model.Run Spec.Valid
     Proof.Reads Proof.Refine Proof.Demo Proof.Findings1 Proof.ReadProps.
Import ListNotations.
Local Open Scope N_scope.

Definition txn_scan (ms : list (mut N row)) (sn : snapshot N row) (s : state N row) :=
  scan_txn row_key (@t_rows N row) (@cp_all N row) (Some (stage row_key ms)) sn None (st_db s).
Definition fresh_get (k : N) (s : state N row) : option (option row) :=
  txn_get (sn_ts (begin_snapshot (st_db s))) [] k (st_db s).

Lemma txn_flush_wrong : exists ops1 ms before after,
  demo_ok (ops1 ++ [OFlush 0]) /\
  let sn := begin_snapshot (st_db (demo_run ops1)) in
  txn_scan ms sn (demo_run ops1) = Some before /\
  txn_scan ms sn (demo_run (ops1 ++ [OFlush 0])) = Some after /\ before <> after.
Proof.
  exists [OIngest [rw 1 10; rw 2 20] None true], [Put (rw 3 30)]. do 2 eexists.
  split; [unfold demo_ok, app; ok_ops|]. split; [vm_compute; reflexivity|].
  split; [vm_compute; reflexivity|discriminate].
Qed.

Lemma get_misses_sst : exists ops k r,
  demo_ok ops /\ read_all row_key (st_db (demo_run ops)) = Some [((k, 0), r)] /\
  fresh_get k (demo_run ops) = Some None.
Proof.
  exists [OIngest [rw 1 10] None true; OFlush 0], 1, (rw 1 10).
  split; [unfold demo_ok; ok_ops|]. split; vm_compute; reflexivity.
Qed.
Lemma get_ignores_tombstone : exists ops k r,
  demo_ok ops /\ read_all row_key (st_db (demo_run ops)) = Some [] /\
  fresh_get k (demo_run ops) = Some (Some r).
Proof.
  exists [OIngest [rw 1 10] None true; OTomb [(rw 1 0, true)] None false], 1, (rw 1 10).
  split; [unfold demo_ok; ok_ops|]. split; vm_compute; reflexivity.
Qed.
Lemma get_oldest : exists ops k r r',
  demo_ok ops /\ read_all row_key (st_db (demo_run ops)) = Some [((k, 1), r)] /\
  fresh_get k (demo_run ops) = Some (Some r') /\ r <> r'.
Proof.
  exists [OIngest [rw 1 10] None true; OIngest [rw 1 11] None true], 1, (rw 1 11), (rw 1 10).
  split; [unfold demo_ok; ok_ops|]. split; [vm_compute; reflexivity|]. split; [vm_compute; reflexivity|discriminate].
Qed.

(** The second transaction began before the first committed; a flush comes in between. *)
Lemma conflict_missed : exists ops1 ops2 ms c,
  demo_ok (ops1 ++ ops2) /\
  let s1 := demo_run ops1 in let s2 := demo_run (ops1 ++ ops2) in
  1 <= d_clock (st_db s1) /\ In c (st_hist s2) /\ ~ In c (st_hist s1) /\
  (forall u, In u ms -> exists k, mut_key row_key u = Some k /\ writes_key row_key k c) /\
  snd (commit row_key (sn_ts (begin_snapshot (st_db s1))) (stage row_key ms) None (st_db s2)) = COk.
Proof.
  exists [OIngest [rw 1 10] None false],
    [OCommit 0 [Put (rw 1 11)] None; OIngest [rw 2 20] None true; OFlush 0], [Put (rw 1 12)], (1, [Put (rw 1 11)]).
  split; [unfold demo_ok, app; ok_ops|]. cbv zeta.
  split; [vm_compute; discriminate|]. split; [vm_compute; auto|].
  split; [vm_compute; intros [[=]|[]]|]. split.
  - intros u [<-|[]]. exists 1. split; auto. exists (Put (rw 1 11)), 1. simpl. auto.
  - vm_compute. reflexivity.
Qed.
(** The snapshot of an empty database has the timestamp the first commit gets. *)
Lemma conflict_missed_first : exists ops2 ms c,
  demo_ok ops2 /\ Forall (@no_flush N row) ops2 /\
  st_hist (demo_run ops2) = [c] /\
  (forall u, In u ms -> exists k, mut_key row_key u = Some k /\ writes_key row_key k c) /\
  snd (commit row_key (sn_ts (begin_snapshot (st_db (demo_run [])))) (stage row_key ms) None (st_db (demo_run ops2))) = COk.
Proof.
  exists [OCommit 0 [Put (rw 1 11)] None], [Put (rw 1 12)], (0, [Put (rw 1 11)]).
  split; [unfold demo_ok; ok_ops|]. split; [repeat constructor|]. split; [vm_compute; reflexivity|]. split.
  - intros u [<-|[]]. exists 1. split; auto. exists (Put (rw 1 11)), 1. simpl. auto.
  - vm_compute. reflexivity.
Qed.

Lemma prune_hides_tombstone : exists ops ts i g t,
  demo_ok ops /\ nth_error (d_imm (st_db (demo_run ops))) i = Some g /\
  ~ In i (prune_segments None ts (d_imm (st_db (demo_run ops)))) /\
  seg_scan g ts None = Some [((1, t), None)].
Proof.
  exists (old_delete ++ [newer_row true]), 1, 1%nat. do 2 eexists.
  split; [apply old_delete_ok|]. split; [vm_compute; reflexivity|].
  split; [vm_compute; intros [[=]|[]]|vm_compute; reflexivity].
Qed.

(** *** Examples *)
Lemma demo_txn_scan :
  txn_scan [Put (rw 2 21); Del 3; Put (rw 1 13); Put (rw 1 14); Del 4; Put (rw 4 41)]
           (begin_snapshot (st_db (demo_run demo_ops))) (demo_run demo_ops)
  = Some [((1, 4), rw 1 14); ((2, 4), rw 2 21); ((4, 4), rw 4 41); ((5, 2), rw 5 50)].
Proof. vm_compute. reflexivity. Qed.

Definition get_ops : list (op N row) :=
  [OIngest [rw 1 10; rw 2 20] None true; OFlush 0; OIngest [rw 3 30; rw 4 40] None true;
   OTomb [(rw 5 50, false); (rw 6 0, true)] None false].
Lemma demo_get :
  let s := demo_run get_ops in
  demo_ok get_ops /\ Forall (seg_safe 2) (d_imm (st_db s)) /\ (st_horizon s <= 2)%N /\
  (forall t, In t (concat (d_levels (st_db s))) -> ~ sst_holds row_key 2 3 t) /\
  length (filter (holdsb 2 3) (layer_keys (st_db s))) = 1%nat /\
  txn_get 2 [] 3 (st_db s) = Some (Some (rw 3 30)).
Proof.
  cbv zeta. split; [unfold demo_ok, get_ops; ok_ops|].
  split; [apply seg_safe_check; vm_compute; reflexivity|]. split; [vm_compute; discriminate|].
  split.
  - intros t Ht. assert (E : t_rows t = [(rw 1 10, 0); (rw 2 20, 0)] /\ t_dels t = []).
    { vm_compute in Ht. destruct Ht as [<-|[]]. split; reflexivity. }
    destruct E as [E1 E2]. unfold sst_holds. rewrite E1, E2. intros [(r & u & k' & H & Hk & He & _)|(k' & u & H & _)].
    + destruct H as [[= <- <-]|[[= <- <-]|[]]]; injection Hk as <-; vm_compute in He; discriminate.
    + destruct H.
  - split; vm_compute; reflexivity.
Qed.

Lemma demo_conflict :
  let ops2 := [OCommit 4 [Put (rw 4 44); Del 1] None; OIngest [rw 7 70] None true] in
  demo_ok (demo_ops ++ ops2) /\ Forall (@no_flush N row) ops2 /\ d_clock (st_db (demo_run demo_ops)) = 5 /\
  snd (commit row_key 4 (stage row_key [Put (rw 4 45)]) None (st_db (demo_run (demo_ops ++ ops2)))) = CConflict /\
  snd (commit row_key 4 (stage row_key [Put (rw 5 55)]) None (st_db (demo_run (demo_ops ++ ops2)))) = COk.
Proof.
  cbv zeta. split; [unfold demo_ok, demo_ops, app; ok_ops|]. split; [repeat constructor|].
  split; [vm_compute; reflexivity|]. split; vm_compute; reflexivity.
Qed.

Definition range_ops : list (op N row) :=
  [OIngest [rw 1 10; rw 2 20; rw 3 30] None false; OTomb [(rw 2 0, true); (rw 4 40, false)] None true;
   OIngest [rw 3 31; rw 5 50] None false].
Lemma demo_range :
  let d := st_db (demo_run range_ops) in
  demo_ok range_ops /\
  map (fun g => seg_scan g 1 (Some (Excluded 1, Excluded 4))) (d_imm d) = [Some [((2, 1), None); ((3, 0), Some (rw 3 30))]] /\
  mem_scan (d_mem d) 2 (Some (Included 3, Excluded 5)) = Some [((3, 2), Some (rw 3 31))].
Proof. cbv zeta. split; [unfold demo_ok, range_ops; ok_ops|]. split; vm_compute; reflexivity. Qed.

Lemma demo_prune :
  let d := st_db (demo_run range_ops) in
  demo_ok range_ops /\ Forall (seg_safe 1) (d_imm d) /\
  length (d_imm d) = 1%nat /\ prune_segments (Some (kb_overlaps (kb_with_lower 4 false))) 1 (d_imm d) = [].
Proof.
  cbv zeta. split; [unfold demo_ok, range_ops; ok_ops|]. split; [apply seg_safe_check; vm_compute; reflexivity|].
  split; vm_compute; reflexivity.
Qed.
