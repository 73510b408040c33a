(** A concrete database with its log: a run that meets the hypotheses of the recovery
    theorems, and runs on which recovery goes wrong. *)
From Coq Require Import List NArith Bool Arith Lia.
From Verif Require Import Base.Order Model.MemTable Model.Immutable Model.SsTable Model.DbScan
     Model.Compact Model.Planner Model.Db Model.DbCompact Spec.Mvcc Spec.History Model.Run Spec.Valid
     Model.WalScan Model.Replay Model.WalWriter Model.WalDb Spec.ReplaySpec Spec.Recover Proof.Demo.
Import ListNotations.
Local Open Scope N_scope.

(** Every frame has ten bytes. *)
Definition fsize (_ : rec N row) : N := 10.
Definition wconf_of (max : N) (budget : option N) (state : bool) : wconf := WalWriter.mkConf max budget state.
Definition wrun (cf : wconf) (cap : nat) (ops : list (yop N row)) : option (sys N row) :=
  yrun row_key row_size del_size fsize cf (ystart cf cap) ops.

(** *** A checker for the hypotheses *)
Definition roomb (y : sys N row) : bool :=
  (d_clock (st_db (y_st y)) + 1 <? 2 ^ 64) && (w_next (y_log y) + 4 <? 2 ^ 64) && (w_nseg (y_log y) + 4 <? 2 ^ 64) &&
  forallb (fun i => i + 1 <? 2 ^ 64) (y_seen y).
Definition keyedb (r : row) : bool := match row_key r with Some _ => true | None => false end.
Definition write_okb (w : wr N row) : bool :=
  match w with
  | WIngest rows => negb (Nat.eqb (length rows) 0) && forallb keyedb rows
  | WTomb rows => forallb (fun p => keyedb (fst p)) rows && separate_b rows
  | WCommit _ _ => true
  end.
Definition slotsb (d : db N row) : bool :=
  Nat.ltb (length (m_batches (d_mem d))) (m_capacity (d_mem d)) && Nat.ltb (length (m_deletes (d_mem d))) (m_capacity (d_mem d)).
Definition restartb (y0 y1 : sys N row) : bool :=
  match last_frame (w_cur (y_log y0)) with
  | Some f => match tail_id (snd f) with Some i => i + 1 <? 2 ^ 64 | None => false end
  | None => false
  end &&
  forallb (fun f => fst f <=? w_next (y_log y1)) (flat (w_files (y_log y0))) &&
  Nat.eqb (length (d_imm (st_db (y_st y1)))) 0.
Fixpoint run_okb (cf : wconf) (y : sys N row) (ops : list (yop N row)) : bool :=
  match ops with
  | [] => true
  | o :: r =>
      roomb y &&
      match o with
      | YWrite w _ _ => write_okb w && slotsb (st_db (y_st y))
      | YFlush _ _ | YRotate => true
      | YCompact _ _ _ _ => true
      | YRestart fl decs =>
          match fl with None => true | Some (w, _, _) => write_okb w end &&
          match crash row_key fsize cf fl y with
          | Some y0 => match reopen row_key fsize cf decs y0 with Some y1 => restartb y0 y1 | None => true end
          | None => true
          end
      end &&
      match ystep row_key row_size del_size fsize cf y o with Some y' => run_okb cf y' r | None => true end
  end.
Definition whole_batches (o : yop N row) : Prop := match o with YCompact _ ch _ _ => ch = one_batch | _ => True end.

Ltac bools := repeat match goal with H : (_ && _)%bool = true |- _ => apply andb_true_iff in H as [? ?] end.
Lemma room_check y : roomb y = true -> room y.
Proof.
  unfold roomb, room. intros H. bools. repeat match goal with H : (_ <? _) = true |- _ => apply N.ltb_lt in H end.
  repeat split; auto. apply Forall_forall. intros i Hi. rewrite forallb_forall in H0. apply N.ltb_lt. auto.
Qed.
Lemma keyed_check r : keyedb r = true -> row_key r <> None.
Proof. unfold keyedb. destruct (row_key r); discriminate. Qed.
Lemma write_check w : write_okb w = true -> write_ok row_key w.
Proof.
  destruct w as [rows|rows|]; cbn [write_okb write_ok]; auto; intros H; bools.
  - split; [intros ->; discriminate|]. apply Forall_forall. intros r Hr. rewrite forallb_forall in H0. apply keyed_check; auto.
  - split; [|now apply separate_check]. apply Forall_forall. intros r Hr. rewrite forallb_forall in H. apply keyed_check. exact (H r Hr).
Qed.
Lemma slots_check d : slotsb d = true -> mem_slots d.
Proof. unfold slotsb, mem_slots. intros H. bools. split; now apply Nat.ltb_lt. Qed.
Lemma restart_check y0 y1 : restartb y0 y1 = true -> restart_ok y0 y1.
Proof.
  unfold restartb, restart_ok. intros H. bools. split; [|split].
  - left. destruct (last_frame _) as [f|]; [|discriminate]. destruct (tail_id (snd f)) as [i|] eqn:E; [|discriminate]. exists f, i.
    split; auto. split; auto. now apply N.ltb_lt.
  - intros f Hf. rewrite forallb_forall in H1. apply N.leb_le. auto.
  - apply Nat.eqb_eq in H0. destruct (d_imm _); [auto|discriminate].
Qed.
Lemma run_check cf ops : Forall whole_batches ops -> forall y, run_okb cf y ops = true -> yops_ok row_key row_size del_size fsize cf y ops.
Proof.
  induction 1 as [|o ops Ho HF IH]; intros y H; [exact I|]. cbn [run_okb] in H. bools. split.
  - split; [now apply room_check|]. destruct o as [w dec n|n|mc ch tk n| |fl decs]; auto; bools.
    + split; [now apply write_check|now apply slots_check].
    + cbn in Ho. subst ch. intros. apply one_batch_faithful.
    + split; [destruct fl as [[[w j] sg]|]; cbn; auto; now apply write_check|].
      intros y0 y1 E0 E1. rewrite E0, E1 in H2. now apply restart_check.
  - intros y' E. rewrite E in H0. auto.
Qed.

(** *** A run with every kind of operation *)
Definition conf : wconf := wconf_of 80 None true.
Definition demo_log : list (yop N row) :=
  [ YWrite (WIngest [rw 1 10; rw 2 20; rw 3 30]) false 9;
    YWrite (WCommit 0 [Put (rw 1 11); Del 3]) false 9;
    YWrite (WTomb [(rw 2 0, true); (rw 4 40, false)]) true 9;
    YFlush 0 9;
    YRestart (Some (WCommit 2 [Put (rw 5 50); Del 1], 1%nat, Written)) [];      (* dies before the commit record *)
    YWrite (WIngest [rw 6 60]) true 9;
    YFlush 0 9;
    YCompact no_caps one_batch (mkTask 0 1 [(0%nat, 1); (0%nat, 2)] None) 9;
    YRestart (Some (WIngest [rw 7 70], 1%nat, Written)) [];                     (* dies after it *)
    YRotate;
    YWrite (WCommit 4 [Put (rw 8 80)]) false 9;
    YWrite (WIngest [rw 9 90]) false 9 ].
Lemma demo_whole : Forall whole_batches demo_log.
Proof. repeat constructor. Qed.
Lemma demo_log_ok : yops_ok row_key row_size del_size fsize conf (ystart conf 4) demo_log.
Proof. apply run_check; [exact demo_whole|]. vm_cast_no_check (eq_refl true). Qed.

(** What is compared of a state. *)
Definition rows_of (o : option (list ((N * N) * row))) : list (N * N * N) :=
  match o with Some l => map (fun e => (fst (fst e), snd (fst e), snd (snd e))) l | None => [] end.
Definition reads (y : option (sys N row)) : option (list (N * N * N)) :=
  match y with Some y => Some (rows_of (read_all row_key (st_db (y_st y)))) | None => None end.
Definition restarted (cf : wconf) (decs : list bool) (y : option (sys N row)) : option (sys N row) :=
  match y with Some y => reopen row_key fsize cf decs y | None => None end.

Lemma demo_reads : reads (wrun conf 4 demo_log) = Some [(1, 1, 11); (4, 2, 40); (6, 3, 60); (7, 4, 70); (8, 5, 80); (9, 6, 90)] /\
  reads (restarted conf [] (wrun conf 4 demo_log)) = reads (wrun conf 4 demo_log).
Proof. split; [vm_cast_no_check (eq_refl (Some [(1, 1, 11); (4, 2, 40); (6, 3, 60); (7, 4, 70); (8, 5, 80); (9, 6, 90)]))|].
  vm_cast_no_check (eq_refl (Some [(1, 1, 11); (4, 2, 40); (6, 3, 60); (7, 4, 70); (8, 5, 80); (9, 6, 90)])). Qed.

Definition put1 (k v : N) : yop N row := YWrite (WIngest [rw k v]) false 9.
Definition put1_sealing (k v : N) : yop N row := YWrite (WIngest [rw k v]) true 9.

(** A batch with a null key is logged and committed before it is rejected; the log cannot
    be replayed any more. *)
Definition ops_null : list (yop N row) := [put1 1 10; YWrite (WIngest [(None, 5)]) false 9].
Lemma null_reads : reads (wrun conf 4 ops_null) = Some [(1, 0, 10)].
Proof. vm_cast_no_check (eq_refl (Some [(1, 0, 10)])). Qed.
Lemma null_lost decs : restarted conf decs (wrun conf 4 ops_null) = None.
Proof. destruct decs as [|[|] [|[|] ds]]; vm_compute; reflexivity. Qed.

(** The third batch does not fit, so the memtable seals itself: the sealed part takes the
    frame range of the third batch with it, and the next flush deletes its segment. *)
Definition ops_full : list (yop N row) :=
  [put1_sealing 1 10; YFlush 0 9; put1 2 20; put1 3 30; put1 4 40; put1 5 50; YFlush 0 9].
Lemma full_reads : reads (wrun conf 2 ops_full) = Some [(1, 0, 10); (2, 1, 20); (3, 2, 30); (4, 3, 40); (5, 4, 50)].
Proof. vm_cast_no_check (eq_refl (Some [(1, 0, 10); (2, 1, 20); (3, 2, 30); (4, 3, 40); (5, 4, 50)])). Qed.
Lemma full_lost : reads (restarted conf [] (wrun conf 2 ops_full)) = Some [(1, 0, 10); (2, 1, 20); (3, 2, 30); (5, 4, 50)].
Proof. vm_cast_no_check (eq_refl (Some [(1, 0, 10); (2, 1, 20); (3, 2, 30); (5, 4, 50)])). Qed.

(** The same when the seal policy seals during replay. *)
Definition conf60 : wconf := wconf_of 60 None true.
Definition ops_replay_seal : list (yop N row) :=
  [put1_sealing 1 10; YFlush 0 9; put1 2 20; put1 3 30; YRestart None [false; true]; put1 5 50; YFlush 0 9].
Lemma replay_seal_reads : reads (wrun conf60 4 ops_replay_seal) = Some [(1, 0, 10); (2, 1, 20); (3, 2, 30); (5, 3, 50)].
Proof. vm_cast_no_check (eq_refl (Some [(1, 0, 10); (2, 1, 20); (3, 2, 30); (5, 3, 50)])). Qed.
Lemma replay_seal_lost : reads (restarted conf60 [] (wrun conf60 4 ops_replay_seal)) = Some [(1, 0, 10); (2, 1, 20); (5, 3, 50)].
Proof. vm_cast_no_check (eq_refl (Some [(1, 0, 10); (2, 1, 20); (5, 3, 50)])). Qed.

(** A retention budget deletes segments that nothing else has. *)
Definition conf_budget : wconf := wconf_of 15 (Some 25) true.
Definition ops_budget : list (yop N row) := [put1 1 10; put1 2 20; put1 3 30].
Lemma budget_ok : yops_ok row_key row_size del_size fsize conf_budget (ystart conf_budget 4) ops_budget.
Proof. apply run_check; [repeat constructor|]. vm_cast_no_check (eq_refl true). Qed.
Lemma budget_reads : reads (wrun conf_budget 4 ops_budget) = Some [(1, 0, 10); (2, 1, 20); (3, 2, 30)].
Proof. vm_cast_no_check (eq_refl (Some [(1, 0, 10); (2, 1, 20); (3, 2, 30)])). Qed.
Lemma budget_lost : reads (restarted conf_budget [] (wrun conf_budget 4 ops_budget)) = Some [(3, 2, 30)].
Proof. vm_cast_no_check (eq_refl (Some [(3, 2, 30)])). Qed.
Lemma budget_files : option_map (fun y => (map fst (w_files (y_log y)), concat (d_levels (st_db (y_st y))))) (wrun conf_budget 4 ops_budget) = Some ([2; 3], []).
Proof. vm_cast_no_check (eq_refl (Some ([2; 3], @nil (sst N row)))). Qed.

(** With an empty active segment the transaction numbers start again at 1: the payload of a
    call that died is committed by the next call. *)
Definition conf10 : wconf := wconf_of 10 None true.
Definition ops_reuse : list (yop N row) := [YRestart (Some (WIngest [rw 1 10], 0%nat, Persisted)) []].
Definition crashed_reuse : option (sys N row) := crash row_key fsize conf10 (Some (WIngest [rw 1 10], 0%nat, Persisted)) (ystart conf10 4).
Lemma reuse_dangling : option_map (fun y => records (y_log y)) crashed_reuse = Some [RPay 1 (LRows [rw 1 10] 0)] /\
  option_map (@y_prov N row) (restarted conf10 [] crashed_reuse) = Some 1.
Proof. split; vm_compute; reflexivity. Qed.
Lemma reuse_hist : option_map (fun y => st_hist (y_st y)) (wrun conf10 4 (ops_reuse ++ [put1 2 20; YRestart None []])) = Some [(0, [Put (rw 2 20)])].
Proof. vm_cast_no_check (eq_refl (Some [(0, [@Put N row (rw 2 20)])])). Qed.
Lemma reuse_before : reads (wrun conf10 4 (ops_reuse ++ [put1 2 20])) = Some [(2, 0, 20)].
Proof. vm_cast_no_check (eq_refl (Some [(2, 0, 20)])). Qed.
Lemma reuse_reads : reads (wrun conf10 4 (ops_reuse ++ [put1 2 20; YRestart None []])) = Some [(1, 0, 10); (2, 0, 20)].
Proof. vm_cast_no_check (eq_refl (Some [(1, 0, 10); (2, 0, 20)])). Qed.

(** The persisted commit timestamp is older than the last commit, whose segment is gone. *)
Definition ops_clock : list (yop N row) :=
  [put1_sealing 1 10; YFlush 0 9; YRestart (Some (WIngest [rw 2 20], 1%nat, Written)) [];
   YRotate; YRestart (Some (WIngest [rw 3 30], 0%nat, Written)) [false; true]; YFlush 0 9; YRestart None []].
Lemma clock_hist : option_map (fun y => map fst (st_hist (y_st y))) (wrun conf 4 (ops_clock ++ [put1 4 40])) = Some [0; 1; 1].
Proof. vm_cast_no_check (eq_refl (Some [0; 1; 1])). Qed.
Lemma clock_before : reads (wrun conf 4 (firstn 6 ops_clock)) = Some [(1, 0, 10); (2, 1, 20)].
Proof. vm_cast_no_check (eq_refl (Some [(1, 0, 10); (2, 1, 20)])). Qed.
Lemma clock_after : reads (wrun conf 4 ops_clock) = Some [(1, 0, 10)].
Proof. vm_cast_no_check (eq_refl (Some [(1, 0, 10)])). Qed.

(** Frame numbers after a restart. *)
Definition conf20 (state : bool) : wconf := wconf_of 20 None state.
Definition numbers (y : option (sys N row)) : option (list N) := option_map (fun y => map fst (flat (w_files (y_log y)))) y.
Lemma numbers_state : numbers (wrun (conf20 true) 4 [YRestart (Some (WIngest [rw 1 10], 1%nat, Rotated)) []; put1 2 20]) = Some [1; 2; 2; 3].
Proof. vm_cast_no_check (eq_refl (Some [1; 2; 2; 3])). Qed.
Lemma numbers_no_state : numbers (wrun (conf20 false) 4 [put1 1 10; YRestart None []; put1 2 20]) = Some [1; 2; 1; 2].
Proof. vm_cast_no_check (eq_refl (Some [1; 2; 1; 2])). Qed.
