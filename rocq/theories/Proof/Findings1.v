(** Concrete runs on which reads are wrong. *)
From Coq Require Import List NArith Bool Arith Lia.
From Verif Require Import Base.Order Model.MemTable Model.Immutable Model.SsTable Model.DbScan
     Model.Compact Model.Planner Model.Db Model.DbCompact Spec.Mvcc Spec.History Model.Run Spec.Valid
     Proof.Reads Proof.Refine Proof.Demo.
Import ListNotations.
Local Open Scope N_scope.

Definition all_rows : row -> bool := fun _ => true.
Definition read_at (ts : N) (s : state N row) := scan_all row_key ts (st_db s).
Definition read_snap (sn : snapshot N row) (s : state N row) :=
  scan row_key (@t_rows N row) (@cp_all N row) sn None (st_db s).

(** A tombstone sealed into a segment whose rows are all newer. *)
Definition old_delete : list (op N row) :=
  [OIngest [rw 1 10] None true; OTomb [(rw 1 0, true)] None false].
Definition newer_row (dec : bool) : op N row := OIngest [rw 2 20] None dec.

Lemma old_delete_ok dec : demo_ok (old_delete ++ [newer_row dec]).
Proof. unfold demo_ok, old_delete, newer_row, app. ok_ops. Qed.

Lemma seg_prune_wrong : exists ops ts out,
  demo_ok ops /\ st_horizon (demo_run ops) <= ts /\ ts < d_clock (st_db (demo_run ops)) /\
  read_at ts (demo_run ops) = Some out /\
  ~ lists_table row_key (as_of row_key (st_hist (demo_run ops)) ts) all_rows out.
Proof.
  exists (old_delete ++ [newer_row true]), 1, [((1, 0), rw 1 10)].
  split; [apply old_delete_ok|]. split; [vm_compute; discriminate|]. split; [vm_compute; reflexivity|].
  split; [vm_compute; reflexivity|].
  apply (not_listed _ _ _ 1 0 (rw 1 10)); [simpl; auto|vm_compute; discriminate].
Qed.

Lemma seal_wrong : exists ops ts before d' after,
  demo_ok ops /\ st_horizon (demo_run ops) <= ts /\
  read_at ts (demo_run ops) = Some before /\
  seal_now row_key (st_db (demo_run ops)) = (d', true) /\
  scan_all row_key ts d' = Some after /\ before <> after.
Proof.
  exists (old_delete ++ [newer_row false]), 1, [].
  eexists. exists [((1, 0), rw 1 10)].
  split; [apply old_delete_ok|]. split; [vm_compute; discriminate|].
  split; [vm_compute; reflexivity|]. split; [vm_compute; reflexivity|].
  split; [vm_compute; reflexivity|discriminate].
Qed.

Lemma flush_wrong : exists ops ts before after,
  demo_ok ops /\ st_horizon (demo_run ops) <= ts /\
  read_at ts (demo_run ops) = Some before /\
  scan_all row_key ts (fst (flush row_key 0 (st_db (demo_run ops)))) = Some after /\ before <> after.
Proof.
  exists (old_delete ++ [newer_row true]), 1, [((1, 0), rw 1 10)], [].
  split; [apply old_delete_ok|]. split; [vm_compute; discriminate|].
  split; [vm_compute; reflexivity|]. split; [vm_compute; reflexivity|discriminate].
Qed.

(** The snapshot is taken after the delete; then the newer row arrives and the memtable is sealed. *)
Lemma snapshot_wrong_seal : exists ops1 ops2 before after,
  demo_ok (ops1 ++ ops2) /\ Forall no_flush ops2 /\
  let sn := begin_snapshot (st_db (demo_run ops1)) in
  read_snap sn (demo_run ops1) = Some before /\ read_snap sn (demo_run (ops1 ++ ops2)) = Some after /\ before <> after.
Proof.
  exists old_delete, [newer_row true], [], [((1, 0), rw 1 10)].
  split; [apply old_delete_ok|]. split; [repeat constructor|].
  split; [vm_compute; reflexivity|]. split; [vm_compute; reflexivity|discriminate].
Qed.

(** A snapshot pins the manifest version but not the memtables: rows flushed after it was
    taken are neither in the pinned version nor in memory. *)
Lemma snapshot_wrong_flush : exists ops1 before,
  demo_ok (ops1 ++ [OFlush 0]) /\
  let sn := begin_snapshot (st_db (demo_run ops1)) in
  read_snap sn (demo_run ops1) = Some before /\ before <> [] /\ read_snap sn (demo_run (ops1 ++ [OFlush 0])) = Some [].
Proof.
  exists [OIngest [rw 1 10; rw 2 20] None true], [((1, 0), rw 1 10); ((2, 0), rw 2 20)].
  split; [unfold demo_ok, app; ok_ops|].
  split; [vm_compute; reflexivity|]. split; [discriminate|vm_compute; reflexivity].
Qed.

(** The first commit has timestamp 0, which is also the read timestamp of a snapshot of
    the empty database. *)
Lemma snapshot_wrong_first : exists o after,
  demo_ok [o] /\
  let sn := begin_snapshot (st_db (demo_run [])) in
  read_snap sn (demo_run []) = Some [] /\ read_snap sn (demo_run [o]) = Some after /\ after <> [].
Proof.
  exists (OIngest [rw 1 10] None false), [((1, 0), rw 1 10)].
  split; [unfold demo_ok; ok_ops|].
  split; [vm_compute; reflexivity|]. split; [vm_compute; reflexivity|discriminate].
Qed.

(** 1025 rows and a delete of a larger key in one SSTable, read back in batches of 1024. *)
Definition many : list (op N row) :=
  [ OTomb (map (fun i => (rw (N.of_nat i) 7, false)) (seq 1 1025) ++ [(rw 2000 0, true)]) None true; OFlush 0 ].
Definition one_input : task N := mkTask 0 1 [(0%nat, 1)] None.

Lemma many_ok : demo_ok many.
Proof.
  unfold demo_ok, many. cbn [ops_ok]. split; [|split; exact I].
  apply tomb_op_ok; [|apply separate_check; vm_compute; reflexivity].
  apply Forall_app. split; [|repeat constructor; discriminate].
  apply Forall_forall. intros p Hp. apply in_map_iff in Hp as (i & <- & _). discriminate.
Qed.

Definition found (o : option (list ((N * N) * row))) : nat := match o with Some l => length l | None => 0 end.
Definition has_key (k : N) (o : option (list ((N * N) * row))) : bool :=
  match o with Some l => existsb (fun e => N.eqb (fst (fst e)) k) l | None => true end.

Lemma found_some o n : found o = S n -> exists l, o = Some l /\ length l = S n.
Proof. destruct o; simpl; [eauto|discriminate]. Qed.
Lemma has_key_some k o : has_key k o = false -> exists l, o = Some l /\ forall t r, ~ In ((k, t), r) l.
Proof.
  destruct o as [l|]; simpl; [|discriminate]. intros H. exists l. split; auto. intros t r Hin.
  assert (existsb (fun e : (N * N) * row => N.eqb (fst (fst e)) k) l = true); [|congruence].
  apply existsb_exists. eexists. split; [exact Hin|apply N.eqb_refl].
Qed.

Lemma compact_wrong : exists ops tk before after,
  demo_ok ops /\
  (forall t, concat (fst (batches_of 1024 t)) = t_rows t /\ concat (snd (batches_of 1024 t)) = t_dels t) /\
  read_all row_key (st_db (demo_run ops)) = Some before /\ length before = 1025%nat /\
  read_all row_key (fst (compact row_key row_size del_size no_caps (batches_of 1024) tk (st_db (demo_run ops)))) = Some after /\
  length after = 1024%nat.
Proof.
  exists many, one_input.
  assert (H1 : found (read_all row_key (st_db (demo_run many))) = 1025%nat) by (vm_cast_no_check (eq_refl 1025%nat)).
  assert (H2 : found (read_all row_key (fst (compact row_key row_size del_size no_caps (batches_of 1024) one_input
                 (st_db (demo_run many))))) = 1024%nat) by (vm_cast_no_check (eq_refl 1024%nat)).
  apply found_some in H1 as (before & B1 & B2). apply found_some in H2 as (after & A1 & A2).
  exists before, after. split; [apply many_ok|]. split; [intros t; apply batches_whole; lia|].
  split; [exact B1|]. split; [exact B2|]. split; [exact A1|exact A2].
Qed.

(** The whole history with that compaction: the last row is gone. *)
Lemma latest_wrong_compact : exists ops out,
  read_all row_key (st_db (demo_run ops)) = Some out /\
  ~ lists_table row_key (final row_key (st_hist (demo_run ops))) all_rows out.
Proof.
  set (ops := many ++ [OCompact no_caps (batches_of 1024) one_input]). exists ops.
  assert (H1 : has_key 1025 (read_all row_key (st_db (demo_run ops))) = false) by (vm_cast_no_check (eq_refl false)).
  assert (H2 : final row_key (st_hist (demo_run ops)) 1025 = Some (0, rw 1025 7)) by (vm_cast_no_check (eq_refl (Some (0, rw 1025 7)))).
  apply has_key_some in H1 as (out & O1 & O2). exists out. split; [exact O1|].
  apply (unlisted _ _ _ 1025 0 (rw 1025 7)); [exact H2|reflexivity|reflexivity|apply O2].
Qed.

(** A key deleted and then written by one batch stays deleted. *)
Lemma tombstones_wrong : exists rows out,
  Forall (fun p => row_key (fst p) <> None) rows /\
  read_all row_key (st_db (demo_run [OTomb rows None false])) = Some out /\
  ~ lists_table row_key (final row_key [(0, tomb_muts row_key rows)]) all_rows out /\
  st_hist (demo_run [OTomb rows None false]) = [(0, tomb_muts row_key rows)].
Proof.
  exists [(rw 1 0, true); (rw 1 11, false)], [].
  split; [repeat constructor; discriminate|]. split; [vm_compute; reflexivity|]. split.
  - apply (unlisted _ _ _ 1 0 (rw 1 11)); [vm_compute; reflexivity|reflexivity|reflexivity|simpl; tauto].
  - vm_compute. reflexivity.
Qed.
