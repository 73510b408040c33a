(** Concrete runs on which the storage layers go wrong, and the examples of the storage
    properties. *)
From Coq Require Import List NArith Bool Arith Lia Sorted.
From Verif Require Import Base.Order Model.OMap Model.MemTable Model.Immutable Model.SsTable Model.KeyBounds Model.DbScan
     Model.Version Model.Compact Model.Planner Model.Db Model.DbCompact Model.Txn Spec.Mvcc Spec.History Spec.LiveSet Spec.Plan Spec.Files
     Model.Run Spec.Valid Proof.Reads Proof.Refine Proof.Demo Proof.Findings1 Proof.ReadProps Proof.PlannerFacts Proof.StorageProps.
Import ListNotations.
Local Open Scope N_scope.

Definition contents (o : option (list ((N * N) * row))) : list N := match o with Some l => map (fun e => fst (fst e)) l | None => [] end.
Lemma contents_some o k l : contents o = k :: l -> exists out, o = Some out /\ map (fun e => fst (fst e)) out = k :: l.
Proof. destruct o as [out|]; simpl; [|discriminate]. eauto. Qed.

(** The delete slots run out between the upserts and the deletes of one call. *)
Definition fill : list (op N row) := repeat (OTomb [(rw 8 0, true)] None false) 1024.
Definition split_rows : list (row * bool) := [(rw 2 20, false); (rw 5 50, false); (rw 5 0, true)].
Definition entries (o : option (list ((N * N) * row))) : list ((N * N) * row) := match o with Some l => l | None => [] end.
Definition run_seal : list (op N row) := fill ++ [OTomb split_rows None false; OIngest [rw 9 90] None true].
Definition run_flush : list (op N row) := fill ++ [OTomb split_rows None false; OIngest [rw 9 90] None true; OFlush 0].

Lemma fill_gen n : forall s, ops_ok row_key row_size del_size s (repeat (OTomb [(rw 8 0, true)] None false) n).
Proof.
  induction n; intros s; [exact I|]. cbn [repeat ops_ok]. split; [|apply IHn].
  apply tomb_op_ok; [repeat constructor; discriminate|apply separate_check; reflexivity].
Qed.

Lemma seal_reads : contents (read_all row_key (st_db (demo_run run_seal))) = [2; 5; 9].
Proof. vm_cast_no_check (eq_refl [2; 5; 9]). Qed.
Lemma flush_reads : contents (read_all row_key (st_db (demo_run run_flush))) = [2; 9].
Proof. vm_cast_no_check (eq_refl [2; 9]). Qed.
Definition run_compact : list (op N row) := run_flush ++ [OCompact no_caps one_batch one_input].
Lemma compact_reads : contents (read_all row_key (st_db (demo_run run_compact))) = [2; 5; 9].
Proof. vm_cast_no_check (eq_refl [2; 5; 9]). Qed.
Definition is_row5 (e : (N * N) * row) : bool := N.eqb (fst (fst e)) 5 && N.eqb (snd (fst e)) 1024.
Lemma compact_row : existsb is_row5 (entries (read_all row_key (st_db (demo_run run_compact)))) = true.
Proof. vm_cast_no_check (eq_refl true). Qed.

(** The one file before the last step has the row and the delete. *)
Definition row_5_50 (p : row * N) : bool :=
  N.eqb (snd (fst p)) 50 && N.eqb (snd p) 1024 && match fst (fst p) with Some k => N.eqb k 5 | None => false end.
Definition del_5 (p : N * N) : bool := N.eqb (fst p) 5 && N.eqb (snd p) 1024.
Definition tie_file (ls : list (sst N row)) : bool :=
  match ls with [t] => existsb row_5_50 (t_rows t) && existsb del_5 (t_dels t) | _ => false end.
Lemma tie_file_spec ls : tie_file ls = true -> exists t, ls = [t] /\ In (rw 5 50, 1024) (t_rows t) /\ In (5, 1024) (t_dels t).
Proof.
  unfold tie_file. destruct ls as [|t [|? ?]]; try discriminate. intros H. exists t. split; [reflexivity|].
  apply andb_prop in H as [H1 H2]. apply existsb_exists in H1 as ([[[k|] v] u] & I1 & E1); unfold row_5_50 in E1.
  - cbn [fst snd] in E1. apply andb_prop in E1 as [E1 E3]. apply andb_prop in E1 as [E1 E2].
    apply N.eqb_eq in E1, E2, E3. subst. apply existsb_exists in H2 as ([a b] & I2 & E2). unfold del_5 in E2.
    cbn [fst snd] in E2. apply andb_prop in E2 as [E2 E3]. apply N.eqb_eq in E2, E3. subst. split; assumption.
  - cbn [fst snd] in E1. rewrite andb_false_r in E1. discriminate.
Qed.
Lemma split_file : tie_file (concat (d_levels (st_db (demo_run run_flush)))) = true.
Proof. vm_cast_no_check (eq_refl true). Qed.

Lemma has_five o l : contents o = l -> In 5 l -> exists out, o = Some out /\ exists t r, In ((5, t), r) out.
Proof.
  destruct o as [out|]; simpl; intros <- HI; [|destruct HI]. exists out. split; [reflexivity|].
  apply in_map_iff in HI as ([[k t] r] & E & HI). simpl in E. subst k. eauto.
Qed.
Lemma no_five o l : contents o = l -> l <> [] -> ~ In 5 l -> exists out, o = Some out /\ forall t r, ~ In ((5, t), r) out.
Proof.
  destruct o as [out|]; simpl; intros <- H0 HN; [|now elim H0]. exists out. split; [reflexivity|]. intros t r HI. apply HN.
  apply in_map_iff. exists ((5, t), r). auto.
Qed.
Lemma has_row5 o : existsb is_row5 (entries o) = true -> exists out, o = Some out /\ exists r, In ((5, 1024), r) out.
Proof.
  destruct o as [out|]; simpl; intros H; [|discriminate]. exists out. split; [reflexivity|].
  apply existsb_exists in H as ([[k u] r] & HI & E). unfold is_row5 in E. cbn [fst snd] in E. apply andb_prop in E as [E1 E2].
  apply N.eqb_eq in E1, E2. subst. eauto.
Qed.

Lemma tie_accepted : snd (ingest_with_tombstones row_key split_rows None false (st_db (demo_run fill))) = true.
Proof. vm_cast_no_check (eq_refl true). Qed.

Lemma tie_wrong_seal : exists ops rows out,
  demo_ok ops /\ Forall (fun p => row_key (fst p) <> None) rows /\
  (exists r r', In (r, false) rows /\ In (r', true) rows /\ row_key r = Some 5 /\ row_key r' = Some 5) /\
  snd (ingest_with_tombstones row_key rows None false (st_db (demo_run ops))) = true /\
  read_all row_key (st_db (demo_run (ops ++ [OTomb rows None false; OIngest [rw 9 90] None true]))) = Some out /\
  exists t r, In ((5, t), r) out.
Proof.
  destruct (has_five _ _ seal_reads) as (out & O1 & O2); [simpl; auto|].
  exists fill, split_rows, out.
  split; [apply fill_gen|]. split; [repeat constructor; discriminate|].
  split; [exists (rw 5 50), (rw 5 0); simpl; tauto|].
  split; [exact tie_accepted|]. split; [exact O1|exact O2].
Qed.

Lemma flush_imm : length (d_imm (st_db (demo_run run_flush))) = 0%nat.
Proof. vm_cast_no_check (eq_refl 0%nat). Qed.
Lemma flush_mem : length (m_index (d_mem (st_db (demo_run run_flush)))) = 0%nat.
Proof. vm_cast_no_check (eq_refl 0%nat). Qed.

Lemma tie_wrong_compact : exists ops tk t u before after r,
  concat (d_levels (st_db (demo_run ops))) = [t] /\ In (rw 5 50, u) (t_rows t) /\ In (5, u) (t_dels t) /\
  d_imm (st_db (demo_run ops)) = [] /\ m_index (d_mem (st_db (demo_run ops))) = [] /\
  read_all row_key (st_db (demo_run ops)) = Some before /\ (forall v x, ~ In ((5, v), x) before) /\
  read_all row_key (st_db (demo_run (ops ++ [OCompact no_caps one_batch tk]))) = Some after /\ In ((5, u), r) after.
Proof.
  destruct (tie_file_spec _ split_file) as (t & T1 & T2 & T3).
  destruct (no_five _ _ flush_reads) as (before & B1 & B2); [discriminate|simpl; intuition discriminate|].
  destruct (has_row5 _ compact_row) as (after & A1 & r & A2).
  exists run_flush, one_input, t, 1024, before, after, r.
  split; [exact T1|]. split; [exact T2|]. split; [exact T3|].
  split; [apply length_zero_iff_nil; exact flush_imm|]. split; [apply length_zero_iff_nil; exact flush_mem|].
  split; [exact B1|]. split; [exact B2|]. split; [exact A1|exact A2].
Qed.

(** A null key while every batch slot is taken: the sealed segment is lost. *)
Definition full : list (op N row) := repeat (OIngest [rw 1 7] None false) 1024.
Lemma full_gen n : forall s, ops_ok row_key row_size del_size s (repeat (OIngest [rw 1 7] None false) n).
Proof.
  induction n; intros s; [exact I|]. cbn [repeat ops_ok]. split; [|apply IHn].
  apply rows_op_ok; repeat constructor; discriminate.
Qed.
Lemma reject_drops_rows : exists ops rows,
  demo_ok ops /\ snd (ingest row_key rows None false (st_db (demo_run ops))) = false /\
  read_all row_key (st_db (demo_run ops)) = Some [((1, 1023), rw 1 7)] /\
  read_all row_key (fst (ingest row_key rows None false (st_db (demo_run ops)))) = Some [].
Proof.
  exists full, [(None, 0)]. split; [apply full_gen|].
  split; [vm_cast_no_check (eq_refl false)|].
  split; [vm_cast_no_check (eq_refl (Some [((1, 1023), rw 1 7)]))|].
  vm_cast_no_check (eq_refl (Some (@nil ((N * N) * row)))).
Qed.
(** A null key among the deletes of a call: its upserts stay. *)
Lemma reject_keeps_upserts : exists ops rows,
  demo_ok ops /\ snd (ingest_with_tombstones row_key rows None false (st_db (demo_run ops))) = false /\
  read_all row_key (st_db (demo_run ops)) = Some [((1, 0), rw 1 10)] /\
  read_all row_key (fst (ingest_with_tombstones row_key rows None false (st_db (demo_run ops)))) = Some [((1, 1), rw 1 11)].
Proof.
  exists [OIngest [rw 1 10] None false], [(rw 1 11, false); ((None, 0), true)].
  split; [unfold demo_ok; ok_ops|]. repeat split; vm_compute; reflexivity.
Qed.

(** Batches without rows use up the slots; nothing frees them. *)
Definition jammed (d : db N row) : Prop := m_index (d_mem d) = [] /\ (m_capacity (d_mem d) <= length (m_batches (d_mem d)))%nat.
Lemma jammed_ingest rows span dec d : jammed d ->
  snd (ingest row_key rows span dec d) = false /\ jammed (fst (ingest row_key rows span dec d)).
Proof.
  intros [J1 J2]. unfold ingest, put_rows, mem_insert_batch.
  set (d0 := observe_range span (tick d)).
  assert (E : d_mem d0 = d_mem d) by (unfold d0; destruct span; reflexivity). rewrite E.
  assert (EX : forall tss, try_insert_batch row_key (d_mem d) rows tss = IExhausted).
  { intros tss. unfold try_insert_batch. apply Nat.leb_le in J2. now rewrite J2. }
  rewrite EX. unfold after_seal, seal. rewrite J1. cbv beta. rewrite EX. cbn. split; [reflexivity|].
  unfold jammed. rewrite E. auto.
Qed.
Definition only_ingest (o : op N row) : Prop := match o with OIngest _ _ _ => True | _ => False end.
Lemma jammed_run ops2 : Forall only_ingest ops2 -> forall s, jammed (st_db s) -> jammed (st_db (run row_key row_size del_size s ops2)).
Proof.
  induction 1 as [|o ops2 HO _ IH]; intros s HJ; [exact HJ|]. apply IH.
  destruct o as [rows span dec| | | |]; try contradiction HO. cbn [step ack st_db]. now apply jammed_ingest.
Qed.
Lemma empty_gen n : forall s, ops_ok row_key row_size del_size s (repeat (OIngest [] None false) n).
Proof.
  induction n; intros s; [exact I|]. cbn [repeat ops_ok]. split; [|apply IHn]. apply rows_op_ok; constructor.
Qed.
Lemma writes_jam : exists ops, demo_ok ops /\
  forall ops2 rows span dec, Forall only_ingest ops2 ->
    snd (ingest row_key rows span dec (st_db (demo_run (ops ++ ops2)))) = false.
Proof.
  exists (repeat (OIngest [] None false) 1024). split; [apply empty_gen|]. intros ops2 rows span dec HO.
  apply jammed_ingest. unfold demo_run, run. rewrite fold_left_app. apply jammed_run; auto.
  split.
  - apply length_zero_iff_nil. vm_cast_no_check (eq_refl 0%nat).
  - apply Nat.leb_le. vm_cast_no_check (eq_refl true).
Qed.

(** *** The planner *)
Definition file := (N * (N * N * nat))%type.
Definition file_stats (f : file) : option (option N * option N * nat) :=
  let '(a, z, b) := snd f in Some (Some a, Some z, b).
Definition small_conf : pconf := mkPConf 4 4 None [1%nat] [] 1 (Some 100%nat).
Definition wide_levels : list (list file) :=
  [[]; [(1, (1, 9, 60%nat)); (2, (20, 30, 60%nat))]; [(3, (1, 2, 60%nat)); (4, (3, 4, 60%nat)); (5, (5, 6, 60%nat))]].
Lemma task_too_large :
  exists tk, plan_version fst file_stats small_conf wide_levels 0 = Some tk /\
    (pc_max_inputs small_conf < length (tk_input tk))%nat /\
    exists srcs nexts, good_task fst file_stats small_conf wide_levels tk srcs nexts /\
      pc_task_bytes small_conf = Some 100%nat /\ (100 < total_bytes file_stats (srcs ++ nexts))%nat.
Proof.
  pose proof (plan_good fst file_stats small_conf wide_levels 0) as H.
  destruct (plan_version fst file_stats small_conf wide_levels 0) as [tk|] eqn:E; [|vm_compute in E; discriminate].
  destruct H as (_ & srcs & nexts & G). exists tk. split; [reflexivity|].
  vm_compute in E. injection E as <-. split; [simpl; lia|]. exists srcs, nexts. split; [exact G|]. split; [reflexivity|].
  destruct G as [GI _ GS GN _ _ _ _ _ _]. cbn in GI, GS, GN.
  assert (L : (length srcs + length nexts = 4)%nat).
  { apply (f_equal (@length _)) in GI. rewrite app_length, !map_length in GI. simpl in GI. lia. }
  assert (HB : forall l : list file, (forall f, In f l -> ebytes file_stats f = 60%nat) -> total_bytes file_stats l = (60 * length l)%nat).
  { intros l. induction l as [|f l IH]; intros Hl; [reflexivity|]. unfold total_bytes in *. cbn [map list_sum fold_right].
    change (fold_right Nat.add 0%nat (map (ebytes file_stats) l)) with (list_sum (map (ebytes file_stats) l)).
    rewrite IH by (intros; apply Hl; now right). rewrite (Hl f) by (now left). cbn [length]. lia. }
  rewrite HB.
  - rewrite app_length. lia.
  - intros f Hf. apply in_app_or in Hf as [Hf|Hf]; [apply GS in Hf|apply GN in Hf];
      repeat (destruct Hf as [<-|Hf]; [reflexivity|]); destruct Hf.
Qed.

(** *** Examples *)
Lemma demo_outputs :
  let s := demo_run (firstn 6 demo_ops) in
  let tk := mkTask 0 1 [(0%nat, 1%N); (0%nat, 2%N)] None in
  demo_ok (firstn 6 demo_ops ++ [OCompact (mkConf (Some 2%nat) None 1024) one_batch tk]) /\
  snd (compact row_key row_size del_size (mkConf (Some 2%nat) None 1024) one_batch tk (st_db s)) = true /\
  map (fun t => (t_rows t, t_dels t)) (nth 0 (d_levels (st_db s)) []) =
    [([(rw 1 10, 0); (rw 2 20, 0); (rw 3 30, 0)], []);
     ([(rw 1 11, 2); (rw 3 33, 3); (rw 4 40, 1); (rw 5 50, 2)], [(2, 1); (3, 2)])] /\
  map (fun t => (t_rows t, t_dels t))
    (nth 1 (d_levels (fst (compact row_key row_size del_size (mkConf (Some 2%nat) None 1024) one_batch tk (st_db s)))) [])
  = [([(rw 1 11, 2); (rw 3 33, 3)], [(2, 1)]); ([(rw 4 40, 1); (rw 5 50, 2)], [])].
Proof.
  cbv zeta. split; [unfold demo_ok, demo_ops, firstn, app; ok_ops|].
  split; [vm_compute; reflexivity|]. vm_compute. split; reflexivity.
Qed.

Lemma demo_tie :
  let rows := [(rw 1 11, false); (rw 1 0, true); (rw 2 0, true); (rw 2 22, false); (rw 6 60, false)] in
  let d := st_db (demo_run demo_ops) in
  demo_ok demo_ops /\ Forall (fun p => row_key (fst p) <> None) rows /\
  (length (m_batches (d_mem d)) < m_capacity (d_mem d))%nat /\ (length (m_deletes (d_mem d)) < m_capacity (d_mem d))%nat /\
  read_all row_key (fst (ingest_with_tombstones row_key rows None true d))
  = Some [((3, 3), rw 3 33); ((4, 1), rw 4 40); ((5, 2), rw 5 50); ((6, 5), rw 6 60)].
Proof.
  cbv zeta. split; [apply demo_ops_ok|]. split; [repeat constructor; discriminate|].
  split; [apply Nat.ltb_lt; vm_compute; reflexivity|]. split; [apply Nat.ltb_lt; vm_compute; reflexivity|]. vm_compute. reflexivity.
Qed.
Lemma demo_sst_tie :
  let t := mkSst 1 [(rw 1 10, 0); (rw 3 33, 5); (rw 3 30, 2)] [(1, 0); (3, 5)] (Some 1) (Some 3) (Some 0) (Some 5) in
  newest_first fst (fun p : N * (row * N) => snd (snd p)) [(1, (rw 1 10, 0)); (3, (rw 3 33, 5)); (3, (rw 3 30, 2))] /\
  newest_first fst snd (t_dels t) /\
  sst_scan row_key (fun _ => true) (t_rows t) (t_dels t) 7 = Some [((1, 0), None); ((3, 5), None)].
Proof.
  cbv zeta. split; [|split; [|vm_compute; reflexivity]]; unfold newest_first; cbn [t_dels];
    repeat match goal with |- StronglySorted _ _ => constructor | |- Forall _ _ => constructor end;
    solve [left; reflexivity | right; split; [reflexivity|vm_compute; discriminate]].
Qed.
Lemma demo_live :
  let bs := [[AddSsts 0 [3; 1]; AddSsts 2 [7]]; [RemoveSsts 5 [1]; AddSsts 0 [9]]; [RemoveSsts 0 [3]; AddSsts 1 [4]; RemoveSsts 2 [7]]] in
  let r := apply_batches (fun x : N => x) vstate_empty bs in
  v_levels (fst r) = [[1]; [4]] /\ length (snd r) = 2%nat /\
  apply_edits (fun x : N => x) (fst r) [RemoveSsts 2 [7]] = None.
Proof. vm_compute. repeat split; reflexivity. Qed.
Lemma demo_plan :
  plan_version fst file_stats (mkPConf 2 2 None [1%nat] [] 1 None)
    ([(8, (4, 5, 10%nat)); (9, (1, 3, 10%nat)); (10, (7, 8, 10%nat))] :: tl wide_levels) 0
  = Some (mkTask 0 1 [(0%nat, 9); (0%nat, 8)] (Some (1, 5))).
Proof. vm_compute. reflexivity. Qed.
Lemma demo_ids :
  demo_ok demo_ops /\ map (@t_id N row) (concat (d_levels (st_db (demo_run (firstn 6 demo_ops))))) = [1; 2] /\
  map (@t_id N row) (concat (d_levels (st_db (demo_run demo_ops)))) = [3].
Proof. split; [apply demo_ops_ok|]. split; vm_compute; reflexivity. Qed.
Lemma demo_reject :
  let d := st_db (demo_run demo_ops) in
  demo_ok demo_ops /\ (length (m_batches (d_mem d)) < m_capacity (d_mem d))%nat /\
  snd (ingest row_key [rw 1 99; (None, 5); rw 4 99] None true d) = false /\
  m_batches (d_mem (fst (ingest row_key [rw 1 99; (None, 5); rw 4 99] None true d))) <> m_batches (d_mem d).
Proof.
  cbv zeta. split; [apply demo_ops_ok|]. split; [apply Nat.ltb_lt; vm_compute; reflexivity|].
  split; [vm_compute; reflexivity|vm_compute; discriminate].
Qed.
Lemma full_index : Nat.eqb (length (m_index (d_mem (st_db (demo_run full))))) 0 = false.
Proof. vm_cast_no_check (eq_refl false). Qed.
Lemma not_nil {A} (l : list A) : Nat.eqb (length l) 0 = false -> l <> [].
Proof. intros E ->. discriminate E. Qed.
Lemma demo_accept :
  demo_ok full /\ length (m_batches (d_mem (st_db (demo_run full)))) = m_capacity (d_mem (st_db (demo_run full))) /\
  m_index (d_mem (st_db (demo_run full))) <> [] /\
  snd (ingest row_key [rw 3 3] None false (st_db (demo_run full))) = true.
Proof.
  split; [apply full_gen|].
  split; [vm_cast_no_check (@eq_refl nat 1024%nat)|].
  split; [exact (not_nil _ full_index)|vm_cast_no_check (eq_refl true)].
Qed.
