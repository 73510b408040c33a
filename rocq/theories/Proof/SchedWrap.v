(** Concurrent calls: the forms used in [Props.PConc]. *)
From Coq Require Import List NArith Bool Arith Lia Permutation.
From Verif Require Import Base.Order Model.MemTable Model.Immutable Model.SsTable Model.DbScan Model.Db
     Spec.Mvcc Spec.History Model.Run Spec.Valid Model.Sched Spec.ConcSpec
     Proof.Demo Proof.SchedLive Proof.SchedInv Proof.SchedReads Proof.SchedTxn Proof.SchedScan Proof.SchedDemo.
Import ListNotations.

Lemma steps_bounded (K : Type) (KO : KeyOrd K) (R : Type) (key_of : R -> option K) (c : conc K R) :
  exists n, forall is, effective key_of c is -> length is <= n.
Proof. exists (total key_of c). intros is H. apply effective_bound in H. lia. Qed.

Lemma stamps_distinct (K : Type) (KO : KeyOrd K) (R : Type) (key_of : R -> option K) capacity es i j t u ts :
  sched_hyp key_of capacity es ->
  let c := crun key_of (cstart capacity) es in
  nth_error (c_threads c) i = Some t -> nth_error (c_threads c) j = Some u ->
  acked_at t ts -> acked_at u ts -> i = j.
Proof.
  intros HH c Hi Hj Ht Hu. destruct (sched_inv _ _ _ HH) as [(M & Is & Hs & HI) _].
  eapply (ci_ts _ _ _ _ _ HI); eauto; unfold stamp; [now rewrite Ht|now rewrite Hu].
Qed.

Lemma lost_empty_wit : exists ms ms' is, let es := [EBegin ms; EBegin ms'] ++ map EStep is in
  sched_hyp row_key 1024 es /\ lost_update row_key 1024 es.
Proof.
  exists [Put (rw 1 11)], [Put (rw 1 12)], (repeat 0 8 ++ repeat 1 8). destruct lost_empty_ok as (H1 & _ & _ & H2).
  split; [exact H1|exact H2].
Qed.
Lemma lost_ingest_wit : exists es i j t u snap ms rows dec r ti tj k,
  sched_hyp row_key 1024 es /\
  nth_error (c_threads (crun row_key (cstart 1024) es)) i = Some t /\
  nth_error (c_threads (crun row_key (cstart 1024) es)) j = Some u /\
  t_call t = CIngest rows dec /\ In r rows /\ row_key r = Some k /\ acked_at t ti /\
  t_call u = CTxn snap ms /\ txn_writes row_key k u /\ acked_at u tj /\ (snap < ti)%N /\ (ti < tj)%N.
Proof.
  destruct lost_ingest_ok as (snap & ms & ti & tj & H1 & H2 & H3 & H4 & H5 & H6).
  exists lost_ingest, 2, 1, (mkTh (CIngest [rw 1 12] false) (PDone (Acked ti))), (mkTh (CTxn snap ms) (PDone (Acked tj))),
    snap, ms, [rw 1 12], false, (rw 1 12), ti, tj, 1%N.
  split; [exact H1|]. split; [exact H2|]. split; [exact H3|]. split; [reflexivity|]. split; [simpl; auto|].
  split; [reflexivity|]. split; [reflexivity|]. split; [reflexivity|]. split; [exact H6|]. split; [reflexivity|]. auto.
Qed.
Lemma changes_wit : exists es es' o o', sched_hyp row_key 1024 (es ++ es') /\ Forall (@not_flush N row) es' /\
  let c := crun row_key (cstart 1024) es in
  let c' := crun row_key (cstart 1024) (es ++ es') in
  Forall (fun t => ~ sealing t) (c_threads c) /\ Forall (fun t => ~ sealing t) (c_threads c') /\
  scan_at row_key (begin_snapshot (c_db c)) c = Some o /\
  scan_at row_key (begin_snapshot (c_db c)) c' = Some o' /\ o <> o'.
Proof.
  destruct changes_ok as (H1 & H2 & H3 & H4 & H5 & H6).
  exists lost_prefix, (steps 1 3), [((1, 0)%N, rw 1 10)], [((1, 1)%N, rw 1 11)].
  split; [exact H1|]. split; [exact H2|]. split; [exact H3|]. split; [exact H4|]. split; [exact H5|]. split; [exact H6|]. discriminate.
Qed.
Lemma half_wit : exists es t snap ms o k r k' r' ts u, sched_hyp row_key 1024 es /\
  let c := crun row_key (cstart 1024) es in
  In t (c_threads c) /\ t_call t = CTxn snap ms /\ In (Put r) ms /\ In (Del k') ms /\
  scan_at row_key (begin_snapshot (c_db c)) c = Some o /\
  In ((k, ts), r) o /\ In ((k', u), r') o /\ (u < ts)%N.
Proof.
  destruct half_ok as (snap & ms & p & H1 & H2 & -> & H3).
  exists half, (mkTh (CTxn snap [Put (rw 1 11); Del 2%N]) p), snap, [Put (rw 1 11); Del 2%N],
    [((1, 1)%N, rw 1 11); ((2, 0)%N, rw 2 20)], 1%N, (rw 1 11), 2%N, (rw 2 20), 1%N, 0%N.
  split; [exact H1|]. split; [eapply nth_error_In; exact H2|]. split; [reflexivity|]. split; [simpl; auto|]. split; [simpl; auto|].
  split; [exact H3|]. split; [simpl; auto|]. split; [simpl; auto|]. reflexivity.
Qed.
Lemma gap_wit : exists es es' o o' k ts r, sched_hyp row_key 1024 (es ++ es') /\
  let c := crun row_key (cstart 1024) es in
  let c' := crun row_key (cstart 1024) (es ++ es') in
  Forall (@is_ingest N row) (c_threads c') /\ Forall (@returned N row) (c_threads c) /\
  scan_at row_key (begin_snapshot (c_db c)) c = Some o /\ In ((k, ts), r) o /\
  scan_at row_key (begin_snapshot (c_db c')) c' = Some o' /\ (forall e, In e o' -> fst (fst e) <> k).
Proof.
  destruct gap_ok as (H1 & H2 & H3 & H4 & H5).
  exists gap_before, gap_after, [((1, 0)%N, rw 1 10)], [], 1%N, 0%N, (rw 1 10).
  split; [exact H1|]. split; [exact H2|]. split; [exact H3|]. split; [exact H4|]. split; [simpl; auto|]. split; [exact H5|]. intros e [].
Qed.
Lemma split_seal_wit : exists es es' a l, sched_hyp row_key 1024 (es ++ es') /\
  let c := crun row_key (cstart 1024) es in
  let c' := crun row_key (cstart 1024) (es ++ es') in
  Forall (@returned N row) (c_threads c) /\ Forall (@returned N row) (c_threads c') /\
  Forall (@not_flush N row) es' /\
  scan_at row_key (begin_snapshot (c_db c)) c = Some (a :: l) /\
  scan_split row_key (begin_snapshot (c_db c)) c c' = Some [].
Proof. exists split_before, split_seal. eexists _, _. exact split_seal_ok. Qed.
Lemma split_flush_wit : exists es es' a l, sched_hyp row_key 1024 (es ++ es') /\
  let c := crun row_key (cstart 1024) es in
  let c' := crun row_key (cstart 1024) (es ++ es') in
  Forall (@returned N row) (c_threads c) /\ c_threads c' = c_threads c /\
  scan_at row_key (begin_snapshot (c_db c)) c = Some (a :: l) /\
  scan_split row_key (begin_snapshot (c_db c)) c c' = Some [].
Proof. exists split_sealed, split_flush. eexists _, _. exact split_flush_ok. Qed.
Lemma real_time_ok : sched_hyp row_key 1024 (split_before ++ later) /\
  map (@t_pc _ _) (c_threads (go split_before)) = [PDone (Acked 0)] /\
  map (@t_pc _ _) (c_threads (go (split_before ++ later))) = [PDone (Acked 0); PDone (Acked 1)].
Proof. split; [apply calm_ok|]. split; [vm_compute; reflexivity|]. apply calm_ok. Qed.
