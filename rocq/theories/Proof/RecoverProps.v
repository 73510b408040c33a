(** Counterexamples to the recovery properties in the form they are stated, and examples. *)
From Coq Require Import List NArith Bool Arith Lia Sorted.
From Verif Require Import Base.Order Model.MemTable Model.Immutable Model.SsTable Model.DbScan
     Model.Compact Model.Planner Model.Db Model.DbCompact Spec.Mvcc Spec.History Model.Run Spec.Valid
     Model.WalScan Model.Replay Model.WalWriter Model.WalDb Spec.ReplaySpec Spec.Recover Spec.WriterSpec Proof.Demo Proof.WalDbDemo.
Import ListNotations.
Local Open Scope N_scope.

Lemma reads_some o l : reads o = Some l -> exists y, o = Some y /\ rows_of (read_all row_key (st_db (y_st y))) = l.
Proof. destruct o as [y|]; cbn; [|discriminate]. intros H. inversion H. eauto. Qed.
Lemma rows_some o a l : rows_of o = a :: l -> exists out, o = Some out /\ rows_of (Some out) = a :: l.
Proof. destruct o as [out|]; cbn; [|discriminate]. eauto. Qed.
Lemma rows_not_in out k t v : ~ In (k, t, v) (rows_of (Some out)) -> ~ In ((k, t), rw k v) out.
Proof. intros H F. apply H. cbn. apply in_map_iff. exists ((k, t), rw k v). auto. Qed.

(** A run, the reads of its last state, and those after a restart. *)
Lemma lost_case cf cap ops a l b l' :
  reads (wrun cf cap ops) = Some (a :: l) -> reads (restarted cf [] (wrun cf cap ops)) = Some (b :: l') -> a :: l <> b :: l' ->
  exists y y1 before after, wrun cf cap ops = Some y /\ reopen row_key fsize cf [] y = Some y1 /\
    read_all row_key (st_db (y_st y)) = Some before /\ read_all row_key (st_db (y_st y1)) = Some after /\ after <> before.
Proof.
  intros H1 H2 HN. apply reads_some in H1 as (y & E & R1). rewrite E in H2. cbn [restarted] in H2. apply reads_some in H2 as (y1 & E1 & R2).
  apply rows_some in R1 as (out & O1 & R1). apply rows_some in R2 as (out' & O2 & R2).
  exists y, y1, out, out'. repeat (split; [assumption|]). intros F. subst out'. congruence.
Qed.

Lemma c17_null : exists y before, wrun conf 4 ops_null = Some y /\ read_all row_key (st_db (y_st y)) = Some before /\ before <> [] /\
  forall decs, reopen row_key fsize conf decs y = None.
Proof.
  pose proof null_reads as H. apply reads_some in H as (y & E & H). apply rows_some in H as (out & O & H). exists y, out. split; auto. split; auto.
  split; [intros ->; discriminate|]. intros decs. pose proof (null_lost decs) as L. rewrite E in L. exact L.
Qed.
Lemma c17_full : exists y y1 before after, wrun conf 2 ops_full = Some y /\ reopen row_key fsize conf [] y = Some y1 /\
    read_all row_key (st_db (y_st y)) = Some before /\ read_all row_key (st_db (y_st y1)) = Some after /\ after <> before.
Proof. eapply lost_case; [exact full_reads|exact full_lost|discriminate]. Qed.
Lemma c17_seal : exists y y1 before after, wrun conf60 4 ops_replay_seal = Some y /\ reopen row_key fsize conf60 [] y = Some y1 /\
    read_all row_key (st_db (y_st y)) = Some before /\ read_all row_key (st_db (y_st y1)) = Some after /\ after <> before.
Proof. eapply lost_case; [exact replay_seal_reads|exact replay_seal_lost|discriminate]. Qed.
Lemma c29_lost : exists y y1 before after, wrun conf_budget 4 ops_budget = Some y /\ reopen row_key fsize conf_budget [] y = Some y1 /\
    read_all row_key (st_db (y_st y)) = Some before /\ read_all row_key (st_db (y_st y1)) = Some after /\ after <> before.
Proof. eapply lost_case; [exact budget_reads|exact budget_lost|discriminate]. Qed.

(** The first commit of the budget run is in no table and not in the log. *)
Definition has_row (r : row) (p : pay N row) : bool :=
  match p with LRows rows _ => existsb (fun x => match row_key x, row_key r with Some a, Some b => N.eqb a b && N.eqb (snd x) (snd r) | _, _ => false end) rows | _ => false end.
Definition log_has (r : row) (l : list (rec N row)) : bool := existsb (fun x => match x with RPay _ p => has_row r p | _ => false end) l.
Lemma log_has_spec l k ts v : in_log row_key l k ts (Some (rw k v)) -> log_has (rw k v) l = true.
Proof.
  intros (p & (a & id & b & c & E & _) & (x & m & z & EP & _ & EM & _)). apply existsb_exists. exists (RPay id p). split; [rewrite E; apply in_or_app; right; cbn; auto|].
  destruct p as [rows cts|ks cts]; cbn [pay_changes] in EP.
  - cbn. assert (Hm : In m (map Put rows)) by (rewrite EP; apply in_or_app; cbn; auto). apply in_map_iff in Hm as (r & <- & Hr). cbn in EM. inversion EM; subst r.
    apply existsb_exists. exists (rw k v). split; auto. cbn. now rewrite !N.eqb_refl.
  - assert (Hm : In m (flat_map (fun k => match k with Some k => [@Del N row k] | None => [] end) ks)) by (rewrite EP; apply in_or_app; cbn; auto).
    apply in_flat_map in Hm as ([k'|] & _ & Hm); cbn in Hm; [|tauto]. destruct Hm as [<-|[]]. discriminate.
Qed.

Definition summary (r : row) (y : option (sys N row)) :=
  option_map (fun y => (log_has r (records (y_log y)), log_has r (replayed y), length (concat (d_levels (st_db (y_st y)))), st_hist (y_st y))) y.
Lemma budget_summary : summary (rw 1 10) (wrun conf_budget 4 ops_budget) =
  Some (false, false, 0%nat, [(0, [Put (rw 1 10)]); (1, [Put (rw 2 20)]); (2, [Put (rw 3 30)])]).
Proof. vm_compute. reflexivity. Qed.
Lemma gone_case (o : option (sys N row)) h : summary (rw 1 10) o = Some (false, false, 0%nat, (0, [Put (rw 1 10)]) :: h) ->
  exists y, o = Some y /\ In (0, [Put (rw 1 10)]) (st_hist (y_st y)) /\
  ~ in_tables row_key (st_horizon (y_st y)) (d_levels (st_db (y_st y))) 1 0 (Some (rw 1 10)) /\
  ~ in_log row_key (records (y_log y)) 1 0 (Some (rw 1 10)).
Proof.
  destruct o as [y|]; [|discriminate]. intros H. exists y. split; auto. unfold summary, option_map in H. apply (f_equal (fun o => match o with Some x => x | None => (true, true, 1%nat, []) end)) in H.
  pose proof (f_equal (fun x => fst (fst (fst x))) H) as H1. pose proof (f_equal (fun x => snd (fst x)) H) as H3. pose proof (f_equal snd H) as H4. clear H.
  cbn [fst snd] in H1, H3, H4. rewrite H4. split; [cbn; auto|]. split.
  - intros (t & Ht & _). destruct (concat (d_levels (st_db (y_st y)))); [destruct Ht|discriminate].
  - intros F. apply log_has_spec in F. rewrite F in H1. discriminate.
Qed.
Lemma c29_gone : exists y, wrun conf_budget 4 ops_budget = Some y /\ In (0, [Put (rw 1 10)]) (st_hist (y_st y)) /\
  ~ in_tables row_key (st_horizon (y_st y)) (d_levels (st_db (y_st y))) 1 0 (Some (rw 1 10)) /\
  ~ in_log row_key (records (y_log y)) 1 0 (Some (rw 1 10)).
Proof. exact (gone_case _ _ budget_summary). Qed.

(** After [ops_full] the fourth batch is in no table and not replayed. *)
Definition full_summary (o : option (sys N row)) := option_map (fun y => (log_has (rw 4 40) (replayed y), st_hist (y_st y),
  flat_map (fun t => t_rows t) (concat (d_levels (st_db (y_st y)))), flat_map (fun t => t_dels t) (concat (d_levels (st_db (y_st y)))))) o.
Lemma full_summary_eq : full_summary (wrun conf 2 ops_full) = Some (false,
  [(0, [Put (rw 1 10)]); (1, [Put (rw 2 20)]); (2, [Put (rw 3 30)]); (3, [Put (rw 4 40)]); (4, [Put (rw 5 50)])],
  [(rw 1 10, 0); (rw 2 20, 1); (rw 3 30, 2)], []).
Proof. vm_compute. reflexivity. Qed.
Lemma full_case (o : option (sys N row)) h : full_summary o = Some (false, h, [(rw 1 10, 0); (rw 2 20, 1); (rw 3 30, 2)], []) ->
  In (3, [Put (rw 4 40)]) h ->
  exists y, o = Some y /\ In (3, [Put (rw 4 40)]) (st_hist (y_st y)) /\
  ~ in_tables row_key (st_horizon (y_st y)) (d_levels (st_db (y_st y))) 4 3 (Some (rw 4 40)) /\
  ~ in_log row_key (replayed y) 4 3 (Some (rw 4 40)).
Proof.
  destruct o as [y|]; [|discriminate]. intros H Hh. exists y. split; auto. unfold full_summary, option_map in H.
  apply (f_equal (fun o => match o with Some x => x | None => (true, [], [], []) end)) in H.
  pose proof (f_equal (fun x => fst (fst (fst x))) H) as H1. pose proof (f_equal (fun x => snd (fst (fst x))) H) as H2.
  pose proof (f_equal (fun x => snd (fst x)) H) as H3. pose proof (f_equal snd H) as H4. clear H. cbn [fst snd] in H1, H2, H3, H4. rewrite H2. split; [assumption|]. split.
  - intros (t & Ht & HT). assert (RT : forall r ts, In (r, ts) (t_rows t) -> In (r, ts) [(rw 1 10, 0); (rw 2 20, 1); (rw 3 30, 2)]).
    { intros r ts Hr. rewrite <- H3. apply in_flat_map. exists t. auto. }
    assert (DT : forall x, ~ In x (t_dels t)).
    { intros x Hx. assert (F : In x (flat_map (fun t => t_dels t) (concat (d_levels (st_db (y_st y)))))) by (apply in_flat_map; exists t; auto). rewrite H4 in F. destruct F. }
    assert (RK : forall k ts o, table_has row_key t k ts o -> (k = 1 \/ k = 2 \/ k = 3) /\ ts < 3).
    { intros k ts [r|] HK; cbn [table_has] in HK; [|destruct (DT _ HK)]. destruct HK as [HK E]. apply RT in HK. cbn [In] in HK.
      destruct HK as [HK|[HK|[HK|[]]]]; inversion HK; subst; cbn in E; inversion E; subst; split; auto; reflexivity. }
    destruct HT as [HT|(k' & ts' & o' & K1 & K2 & K3)].
    + apply RK in HT as [HT _]. destruct HT as [HT|[HT|HT]]; discriminate.
    + apply RK in K3 as [_ K3]. destruct K2 as [K2 _]. clear - K2 K3. lia.
  - intros F. apply log_has_spec in F. rewrite F in H1. discriminate.
Qed.
Lemma c28_full : exists y, wrun conf 2 ops_full = Some y /\ In (3, [Put (rw 4 40)]) (st_hist (y_st y)) /\
  ~ in_tables row_key (st_horizon (y_st y)) (d_levels (st_db (y_st y))) 4 3 (Some (rw 4 40)) /\
  ~ in_log row_key (replayed y) 4 3 (Some (rw 4 40)).
Proof. refine (full_case _ _ full_summary_eq _). cbn [In]. auto 8. Qed.

(** The dead call's number is given to the next one. *)
Lemma c44_reused : exists y0 y1 i p, crash row_key fsize conf10 (Some (WIngest [rw 1 10], 0%nat, Persisted)) (ystart conf10 4) = Some y0 /\
  reopen row_key fsize conf10 [] y0 = Some y1 /\ dangling (records (y_log y0)) i p /\ y_prov y1 = i.
Proof.
  destruct reuse_dangling as [H1 H2]. unfold crashed_reuse in *. destruct (crash _ _ _ _ _) as [y0|]; [|discriminate].
  cbn [option_map restarted] in *. destruct (reopen _ _ _ _ y0) as [y1|] eqn:E; [|discriminate]. cbn [option_map] in *. injection H1 as H1. injection H2 as H2.
  exists y0, y1, 1, (LRows [rw 1 10] 0). split; auto. split; auto. split; auto. exists [], []. split; [exact H1|constructor].
Qed.
Lemma c44_resurrected : exists y out, wrun conf10 4 (ops_reuse ++ [put1 2 20; YRestart None []]) = Some y /\
  st_hist (y_st y) = [(0, [Put (rw 2 20)])] /\ read_all row_key (st_db (y_st y)) = Some out /\ ~ lists_table row_key (final row_key (st_hist (y_st y))) (fun _ => true) out.
Proof.
  pose proof reuse_hist as H1. pose proof reuse_reads as H2. apply reads_some in H2 as (y & E & H2). rewrite E in H1. cbn [option_map] in H1. injection H1 as H1.
  apply rows_some in H2 as (out & O & H2). exists y, out. split; auto. split; auto. split; auto.
  destruct out as [|[[k t] r] out]; [discriminate|]. cbn in H2. injection H2 as -> -> _ _. apply (not_listed _ _ _ 1 0 r); [cbn; auto|]. rewrite H1. discriminate.
Qed.

Lemma c19_back : exists y, wrun conf 4 (ops_clock ++ [put1 4 40]) = Some y /\ ~ StronglySorted (fun a b => fst a < fst b) (st_hist (y_st y)).
Proof.
  pose proof clock_hist as H. revert H; generalize (wrun conf 4 (ops_clock ++ [put1 4 40])); intros [y|] H; [|discriminate]. exists y. split; auto. cbn [option_map] in H.
  injection H as H. intros HS. destruct (st_hist (y_st y)) as [|a [|b [|c [|]]]]; try discriminate. cbn in H. injection H as _ E1 E2.
  inversion HS as [|? ? HS1 _]; subst. inversion HS1 as [|? ? _ HF]; subst. inversion HF; subst. lia.
Qed.
Lemma wrun_app cf cap a b : wrun cf cap (a ++ b) = match wrun cf cap a with Some y => yrun row_key row_size del_size fsize cf y b | None => None end.
Proof.
  unfold wrun. generalize (ystart cf cap : sys N row). induction a as [|o a IH]; intros y; cbn; auto. destruct (ystep _ _ _ _ _ _ _); auto.
Qed.
(** A committed row of a table disappears until the next write. *)
Lemma c19_hidden : exists y y1 before after, wrun conf 4 (firstn 6 ops_clock) = Some y /\ reopen row_key fsize conf [] y = Some y1 /\
    read_all row_key (st_db (y_st y)) = Some before /\ read_all row_key (st_db (y_st y1)) = Some after /\ after <> before.
Proof.
  apply (lost_case conf 4 (firstn 6 ops_clock) (1, 0, 10) [(2, 1, 20)] (1, 0, 10) []); [exact clock_before| |discriminate].
  rewrite <- clock_after. change ops_clock with (firstn 6 ops_clock ++ [YRestart None []]) at 2. rewrite wrun_app.
  destruct (wrun conf 4 (firstn 6 ops_clock)) as [y|]; [|reflexivity]. cbn [restarted yrun ystep crash]. destruct (reopen _ _ _ _ y); reflexivity.
Qed.

Definition cmds_demo : list (wcmd (rec N row)) :=
  [Append (RPay 1 (LRows [rw 1 10] 0)); Append (RCommit 1 0); NewSegment; NewSegment; Append (RBegin 2); Append (RAbort 2)].
Lemma cmds_applies : exists w0 w acks, open fsize (conf20 true) [] wstate0 = Some w0 /\ wexec fsize commit_of (conf20 true) cmds_demo w0 = Some (w, acks) /\
  map (fun s => (fst s, map fst (snd s))) (w_files w) = [(0, [1; 2]); (1, [3; 4]); (2, [])] /\ acks = [(1, 1); (2, 2); (3, 3); (4, 4)].
Proof. eexists _, _, _. split; [reflexivity|]. split; [vm_compute; reflexivity|]. split; vm_compute; reflexivity. Qed.
Lemma c48_state : exists y, wrun (conf20 true) 4 [YRestart (Some (WIngest [rw 1 10], 1%nat, Rotated)) []; put1 2 20] = Some y /\
  ~ NoDup (map fst (flat (w_files (y_log y)))).
Proof.
  pose proof numbers_state as H. revert H; match goal with |- context [wrun ?a ?b ?c] => generalize (wrun a b c) end; intros [y|] H; [|discriminate]. exists y. split; auto. cbn in H. injection H as ->.
  intros F. inversion F as [|? ? _ F1]; subst. inversion F1 as [|? ? F2 _]; subst. apply F2. cbn. auto.
Qed.
Lemma c48_no_state : exists y, wrun (conf20 false) 4 [put1 1 10; YRestart None []; put1 2 20] = Some y /\ ~ NoDup (map fst (flat (w_files (y_log y)))).
Proof.
  pose proof numbers_no_state as H. revert H; match goal with |- context [wrun ?a ?b ?c] => generalize (wrun a b c) end; intros [y|] H; [|discriminate]. exists y. split; auto. cbn in H. injection H as ->.
  intros F. inversion F as [|? ? F1 _]; subst. apply F1. cbn. auto.
Qed.
