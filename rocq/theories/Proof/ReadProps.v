(** The lemmas the read properties are closed with. *)
From Coq Require Import List NArith Bool Arith Lia.
From Verif Require Import Base.Order Model.OMap Model.KeyTs Model.MemTable Model.Immutable Model.SsTable Model.DbScan
     Model.Compact Model.Planner Model.Db Model.DbCompact Spec.Mvcc Spec.History Model.Run Spec.Valid
     Proof.HistFacts Proof.DbFacts Proof.RunFacts Proof.Refine Proof.Reads Proof.NewerPages Proof.Demo.
Import ListNotations.
Local Arguments kcmp : simpl never.

Section S.
  Context (K : Type) (KO : KeyOrd K) (R : Type) (key_of : R -> option K).
  Context (row_bytes : R -> nat) (del_bytes : K -> nat) (capacity : nat) (ops : list (op K R)).
  Hypothesis HC : 1 <= capacity.
  Hypothesis HL : (N.of_nat (length ops) < 2 ^ 64)%N.
  Hypothesis HO : ops_ok key_of row_bytes del_bytes (start capacity) ops.
  Let s := run key_of row_bytes del_bytes (start capacity) ops.
  Lemma rh : run_hyp key_of row_bytes del_bytes capacity ops.
  Proof. split; auto. Qed.

  Lemma c01_ ts : Forall (seg_safe ts) (d_imm (st_db s)) -> (st_horizon s <= ts)%N ->
    exists out, scan_all key_of ts (st_db s) = Some out /\
                lists_table key_of (as_of key_of (st_hist s) ts) (fun _ => true) out.
  Proof. intros. destruct (run_inv _ _ _ _ _ rh) as [HI HK]. now apply scan_all_spec. Qed.
  Lemma c02_ : exists out, read_all key_of (st_db s) = Some out /\
                lists_table key_of (final key_of (st_hist s)) (fun _ => true) out.
  Proof. intros. destruct (run_inv _ _ _ _ _ rh) as [HI HK]. now apply read_all_spec. Qed.

  Lemma inc_split (h : list (hcommit K R)) ts : increasing h ->
    exists n, filter (fun c => N.leb (fst c) ts) h = firstn n h /\
      (forall c, In c (firstn n h) -> (fst c <= ts)%N) /\ (forall c, In c (skipn n h) -> (ts < fst c)%N).
  Proof.
    induction h as [|c h IH]; intros HI.
    - exists 0. simpl. tauto.
    - inversion HI as [|? ? HI' HF]; subst. simpl. destruct (N.leb (fst c) ts) eqn:E.
      + destruct (IH HI') as (n & E1 & E2 & E3). exists (S n). simpl. rewrite E1. split; auto. split; auto.
        intros c' [<-|H]; auto. now apply N.leb_le.
      + exists 0. apply N.leb_gt in E. simpl. rewrite Forall_forall in HF. split; [|split; [tauto|]].
        * assert (filter (fun c0 : N * list (mut K R) => (fst c0 <=? ts)%N) h = []) as ->; auto.
          clear IH HI' HI. induction h as [|c' h IH]; simpl; auto.
          pose proof (HF c' (or_introl eq_refl)) as H. replace (fst c' <=? ts)%N with false by (symmetry; apply N.leb_gt; lia).
          apply IH. intros x Hx. apply HF. simpl; auto.
        * intros c' [<-|H]; auto. specialize (HF c' H). lia.
  Qed.
  Lemma c24_ ts : Forall (seg_safe ts) (d_imm (st_db s)) -> (st_horizon s <= ts)%N ->
    exists n out, scan_all key_of ts (st_db s) = Some out /\
      lists_table key_of (final key_of (firstn n (st_hist s))) (fun _ => true) out /\
      (forall c, In c (firstn n (st_hist s)) -> (fst c <= ts)%N) /\
      (forall c, In c (skipn n (st_hist s)) -> (ts < fst c)%N).
  Proof.
    intros H1 H2. destruct (c01_ ts H1 H2) as (out & O1 & O2). destruct (run_inv _ _ _ _ _ rh) as [HI HK].
    destruct (inc_split (st_hist s) ts (iv_inc _ _ HI)) as (n & E1 & E2). exists n, out. split; auto. split; auto.
    unfold as_of in O2. now rewrite E1 in O2.
  Qed.
End S.

Lemma c01_scan (K : Type) (KO : KeyOrd K) (R : Type) (key_of : R -> option K) row_bytes del_bytes capacity ops prune ts :
    1 <= capacity -> (N.of_nat (length ops) < 2 ^ 64)%N ->
    ops_ok key_of row_bytes del_bytes (start capacity) ops ->
    let s := run key_of row_bytes del_bytes (start capacity) ops in
    Forall (seg_safe ts) (d_imm (st_db s)) -> (st_horizon s <= ts)%N ->
    (forall t, In t (concat (d_levels (st_db s))) -> drops_newer ts (prune t) (t_rows t)) ->
    exists out, scan key_of prune cp_all (mkSnap ts (d_levels (st_db s))) None (st_db s) = Some out /\
                lists_table key_of (as_of key_of (st_hist s) ts) (fun _ => true) out.
Proof.
  intros H1 H2 H3 s HS HZ HP.
  destruct (run_inv key_of row_bytes del_bytes capacity ops (conj H1 (conj H2 H3))) as [HI HC]. fold s in HI, HC.
  destruct (read_spec key_of s prune cp_all None ts HI HC (cp_all_sound key_of row_bytes del_bytes)
              (drops_push key_of ts prune _ HP) HS HZ) as (full & out & E1 & E2 & E3).
  subst out. exists full. auto.
Qed.
Lemma c02_latest (K : Type) (KO : KeyOrd K) (R : Type) (key_of : R -> option K) row_bytes del_bytes capacity ops :
    1 <= capacity -> (N.of_nat (length ops) < 2 ^ 64)%N ->
    ops_ok key_of row_bytes del_bytes (start capacity) ops ->
    let s := run key_of row_bytes del_bytes (start capacity) ops in
    exists out, read_all key_of (st_db s) = Some out /\
                lists_table key_of (final key_of (st_hist s)) (fun _ => true) out.
Proof. intros H1 H2 H3. now apply c02_. Qed.
Lemma c03_seal (K : Type) (KO : KeyOrd K) (R : Type) (key_of : R -> option K) row_bytes del_bytes capacity ops ts :
    1 <= capacity -> (N.of_nat (length ops) < 2 ^ 64)%N ->
    ops_ok key_of row_bytes del_bytes (start capacity) ops ->
    let s := run key_of row_bytes del_bytes (start capacity) ops in
    exists d', seal_now key_of (st_db s) = (d', true) /\
      (Forall (seg_safe ts) (d_imm d') -> (st_horizon s <= ts)%N ->
       exists out, scan_all key_of ts (st_db s) = Some out /\ scan_all key_of ts d' = Some out).
Proof. intros H1 H2 H3. now apply seal_reads. Qed.
Lemma c04_flush (K : Type) (KO : KeyOrd K) (R : Type) (key_of : R -> option K) row_bytes del_bytes capacity ops level ts :
    1 <= capacity -> (N.of_nat (length ops) < 2 ^ 64)%N ->
    ops_ok key_of row_bytes del_bytes (start capacity) ops ->
    let s := run key_of row_bytes del_bytes (start capacity) ops in
    let d' := fst (flush key_of level (st_db s)) in
    Forall (seg_safe ts) (d_imm (st_db s)) -> (st_horizon s <= ts)%N ->
    exists out, scan_all key_of ts (st_db s) = Some out /\ scan_all key_of ts d' = Some out.
Proof. intros H1 H2 H3 s d'. now apply flush_reads. Qed.
Lemma c05_compact (K : Type) (KO : KeyOrd K) (R : Type) (key_of : R -> option K) row_bytes del_bytes capacity ops cf ch tk ts :
    1 <= capacity -> (N.of_nat (length ops) < 2 ^ 64)%N ->
    ops_ok key_of row_bytes del_bytes (start capacity) ops ->
    let s := run key_of row_bytes del_bytes (start capacity) ops in
    let d' := fst (compact key_of row_bytes del_bytes cf ch tk (st_db s)) in
    (forall l t, In (l, t_id t) (tk_input tk) -> In t (concat (d_levels (st_db s))) -> faithful ch t) ->
    Forall (seg_safe ts) (d_imm (st_db s)) -> (st_horizon s <= ts)%N ->
    (newest_input (st_db s) tk <= ts)%N ->
    exists out, scan_all key_of ts (st_db s) = Some out /\ scan_all key_of ts d' = Some out.
Proof. intros H1 H2 H3 s d' H4 H5 H6 H7. now apply compact_reads. Qed.

Lemma c20_snapshot (K : Type) (KO : KeyOrd K) (R : Type) (key_of : R -> option K) row_bytes del_bytes capacity ops1 ops2 :
    1 <= capacity -> (N.of_nat (length (ops1 ++ ops2)) < 2 ^ 64)%N ->
    ops_ok key_of row_bytes del_bytes (start capacity) (ops1 ++ ops2) ->
    let s1 := run key_of row_bytes del_bytes (start capacity) ops1 in
    let s2 := run key_of row_bytes del_bytes s1 ops2 in
    let sn := begin_snapshot (st_db s1) in
    (forall o level, In o ops2 -> o <> OFlush level) ->
    (1 <= d_clock (st_db s1))%N ->
    Forall (seg_safe (sn_ts sn)) (d_imm (st_db s2)) ->
    exists out, scan key_of (@t_rows K R) (@cp_all K R) sn None (st_db s1) = Some out /\
                scan key_of (@t_rows K R) (@cp_all K R) sn None (st_db s2) = Some out.
Proof.
  intros H1 H2 H3 s1 s2 sn H4 H5 H6. apply (snapshot_stable key_of row_bytes del_bytes capacity ops1 ops2); auto.
  - split; auto.
  - apply Forall_forall. intros o Ho. destruct o as [| | |level|]; simpl; auto. now elim (H4 _ level Ho).
Qed.

Lemma c24_whole (K : Type) (KO : KeyOrd K) (R : Type) (key_of : R -> option K) row_bytes del_bytes capacity ops ts :
    1 <= capacity -> (N.of_nat (length ops) < 2 ^ 64)%N ->
    ops_ok key_of row_bytes del_bytes (start capacity) ops ->
    let s := run key_of row_bytes del_bytes (start capacity) ops in
    Forall (seg_safe ts) (d_imm (st_db s)) -> (st_horizon s <= ts)%N ->
    exists n out, scan_all key_of ts (st_db s) = Some out /\
      lists_table key_of (final key_of (firstn n (st_hist s))) (fun _ => true) out /\
      (forall c, In c (firstn n (st_hist s)) -> (fst c <= ts)%N) /\
      (forall c, In c (skipn n (st_hist s)) -> (ts < fst c)%N).
Proof. intros H1 H2 H3. now apply c24_. Qed.

Lemma tomb_muts_map (K R : Type) (key_of : R -> option K) rows :
  Forall (fun p : R * bool => key_of (fst p) <> None) rows ->
  tomb_muts key_of rows = map (fun p : R * bool => match key_of (fst p) with
                                        | Some k => if snd p then Del k else Put (fst p)
                                        | None => Put (fst p)
                                        end) rows.
Proof.
  induction 1 as [|[r b] rows H HF IH]; simpl; auto. rewrite IH. simpl in H.
  destruct (key_of r) as [k|]; [|congruence]. destruct b; reflexivity.
Qed.

Lemma c36_tombstones (K : Type) (KO : KeyOrd K) (R : Type) (key_of : R -> option K) row_bytes del_bytes capacity ops rows span dec :
    1 <= capacity -> (N.of_nat (S (length ops)) < 2 ^ 64)%N ->
    ops_ok key_of row_bytes del_bytes (start capacity) ops ->
    Forall (fun p : R * bool => key_of (fst p) <> None) rows ->
    tomb_separate key_of rows ->
    let s := run key_of row_bytes del_bytes (start capacity) ops in
    let '(d', ok) := ingest_with_tombstones key_of rows span dec (st_db s) in
    ok = true -> rows <> [] ->
    exists out, read_all key_of d' = Some out /\
      lists_table key_of (apply_commit key_of (final key_of (st_hist s))
                            (d_clock (st_db s), map (fun p : R * bool => match key_of (fst p) with
                                                             | Some k => if snd p then Del k else Put (fst p)
                                                             | None => Put (fst p)
                                                             end) rows)) (fun _ => true) out.
Proof.
  intros H1 H2 H3 H4 H5 s. destruct (ingest_with_tombstones key_of rows span dec (st_db s)) as [d' ok] eqn:E.
  intros -> HN.
  destruct (c02_latest K KO R key_of row_bytes del_bytes capacity (ops ++ [OTomb rows span dec]) H1) as (out & O1 & O2).
  - rewrite app_length. simpl. rewrite Nat.add_1_r. exact H2.
  - apply ops_ok_app. split; auto. split; [|exact I]. now apply tomb_op_ok.
  - assert (ES : run key_of row_bytes del_bytes (start capacity) (ops ++ [OTomb rows span dec])
                 = step key_of row_bytes del_bytes s (OTomb rows span dec)).
    { unfold s, run. now rewrite fold_left_app. }
    rewrite ES in O1, O2. cbn [step] in O1, O2. rewrite E in O1, O2. unfold ack in O1, O2. cbn [st_db st_hist fst snd] in O1, O2.
    exists out. split; auto. rewrite <- (tomb_muts_map K R key_of rows H4).
    destruct (tomb_muts key_of rows) as [|m ms] eqn:EM.
    + exfalso. rewrite tomb_muts_map in EM by auto. apply map_eq_nil in EM. auto.
    + unfold final in O2 at 1. rewrite fold_left_app in O2. exact O2.
Qed.

(** *** The examples *)
Local Open Scope N_scope.
Lemma demo_read_3 :
  demo_ok demo_ops /\ Forall (seg_safe 3) (d_imm (st_db (demo_run demo_ops))) /\
  st_horizon (demo_run demo_ops) = 3%N /\
  scan_all row_key 3 (st_db (demo_run demo_ops))
  = Some [((1, 2), rw 1 11); ((3, 3), rw 3 33); ((4, 1), rw 4 40); ((5, 2), rw 5 50)]%N.
Proof. split; [apply demo_ops_ok|]. split; [vm_compute; constructor|]. split; vm_compute; reflexivity. Qed.

Lemma demo_read_latest :
  demo_ok demo_ops /\ length (st_hist (demo_run demo_ops)) = 5%nat /\
  read_all row_key (st_db (demo_run demo_ops))
  = Some [((1, 4), rw 1 12); ((3, 3), rw 3 33); ((4, 1), rw 4 40); ((5, 2), rw 5 50)]%N.
Proof. split; [apply demo_ops_ok|]. split; vm_compute; reflexivity. Qed.

Definition seg_safe_b (ts : N) (g : seg N row) : bool :=
  match s_mvcc g with
  | [] => true
  | _ => existsb (fun p => N.leb (fst p) ts) (s_mvcc g) || forallb (fun t => N.ltb ts t) (s_del_ts g)
  end.
Lemma seg_safe_check ts l : forallb (seg_safe_b ts) l = true -> Forall (seg_safe ts) l.
Proof.
  intros H. rewrite forallb_forall in H. apply Forall_forall. intros g Hg H1 H2 t Ht. specialize (H g Hg).
  unfold seg_safe_b in H. destruct (s_mvcc g) as [|p l'] eqn:E; [congruence|]. apply orb_true_iff in H as [H|H].
  - apply existsb_exists in H as (q & Q1 & Q2). apply N.leb_le in Q2. specialize (H2 q Q1). lia.
  - rewrite forallb_forall in H. specialize (H t Ht). now apply N.ltb_lt in H.
Qed.

Lemma demo_seal :
  exists d', seal_now row_key (st_db (demo_run demo_ops)) = (d', true) /\ d_imm d' <> d_imm (st_db (demo_run demo_ops)) /\
             Forall (seg_safe 4) (d_imm d').
Proof.
  eexists. split; [vm_compute; reflexivity|]. split; [vm_compute; discriminate|]. apply seg_safe_check. vm_compute. reflexivity.
Qed.

Lemma demo_flush :
  let s := demo_run (demo_ops ++ [OIngest [rw 9 90] None true]) in
  demo_ok (demo_ops ++ [OIngest [rw 9 90] None true]) /\ length (d_imm (st_db s)) = 1%nat /\
  d_imm (st_db (demo_run (demo_ops ++ [OIngest [rw 9 90] None true; OFlush 0]))) = [] /\
  Forall (seg_safe 5) (d_imm (st_db s)) /\ (st_horizon s <= 5)%N.
Proof.
  split; [unfold demo_ok, demo_ops, app; ok_ops|]. split; [vm_compute; reflexivity|]. split; [vm_compute; reflexivity|].
  split; [apply seg_safe_check; vm_compute; reflexivity|vm_compute; discriminate].
Qed.

Lemma demo_compact :
  let s := demo_run (firstn 6 demo_ops) in
  let tk := mkTask 0 1 [(0%nat, 1%N); (0%nat, 2%N)] None in
  demo_ok (firstn 6 demo_ops) /\ (forall t, faithful one_batch t) /\
  map (@t_id N row) (concat (d_levels (st_db s))) = [1; 2]%N /\ newest_input (st_db s) tk = 3%N /\
  map (@t_id N row) (concat (d_levels (fst (compact row_key row_size del_size no_caps one_batch tk (st_db s))))) = [3]%N.
Proof.
  split; [unfold demo_ok, demo_ops, firstn; ok_ops|]. split; [exact one_batch_faithful|].
  repeat split; vm_compute; reflexivity.
Qed.

Lemma demo_limit :
  scan row_key (@t_rows N row) cp_all (begin_snapshot (st_db (demo_run demo_ops))) (Some 2%nat) (st_db (demo_run demo_ops))
  = Some [((1, 4), rw 1 12); ((3, 3), rw 3 33)]%N.
Proof. vm_compute. reflexivity. Qed.

Lemma demo_snapshot :
  let ops2 := [OIngest [rw 1 13] None true; OTomb [(rw 4 0, true)] None false;
               OCompact no_caps one_batch (mkTask 1 2 [(1%nat, 3%N)] None)] in
  demo_ok (demo_ops ++ ops2) /\ d_clock (st_db (demo_run demo_ops)) = 5%N /\
  Forall (seg_safe 4) (d_imm (st_db (demo_run (demo_ops ++ ops2)))) /\
  map (@t_id N row) (concat (d_levels (st_db (demo_run (demo_ops ++ ops2))))) = [4]%N /\
  read_all row_key (st_db (demo_run (demo_ops ++ ops2)))
  = Some [((1, 5), rw 1 13); ((3, 3), rw 3 33); ((5, 2), rw 5 50)]%N.
Proof.
  split; [unfold demo_ok, demo_ops, app; ok_ops|]. split; [vm_compute; reflexivity|].
  split; [apply seg_safe_check; vm_compute; reflexivity|]. split; vm_compute; reflexivity.
Qed.

Lemma demo_tombs :
  let rows := [(rw 1 0, true); (rw 2 21, false); (rw 2 22, false); (rw 3 0, true); (rw 3 1, true)] in
  tomb_separate row_key rows /\
  snd (ingest_with_tombstones row_key rows None true (st_db (demo_run demo_ops))) = true /\
  read_all row_key (fst (ingest_with_tombstones row_key rows None true (st_db (demo_run demo_ops))))
  = Some [((2, 5), rw 2 22); ((4, 1), rw 4 40); ((5, 2), rw 5 50)]%N.
Proof. split; [apply separate_check; reflexivity|]. split; vm_compute; reflexivity. Qed.

(** Two files: rows newer than the read in both, only such rows in the second. *)
Definition newer_ops : list (op N row) :=
  [ OIngest [rw 1 10; rw 2 20] None true; OIngest [rw 1 11] None true; OFlush 0;
    OIngest [rw 2 22; rw 3 30] None true; OFlush 0 ].
Lemma newer_read :
  let d := st_db (demo_run newer_ops) in
  demo_ok newer_ops /\ Forall (seg_safe 0) (d_imm d) /\ st_horizon (demo_run newer_ops) = 0%N /\
  map (@t_rows N row) (concat (d_levels d)) = [[(rw 1 11, 1); (rw 1 10, 0); (rw 2 20, 0)]; [(rw 2 22, 2); (rw 3 30, 2)]]%N /\
  map (not_newer 0) (concat (d_levels d)) = [[(rw 1 10, 0); (rw 2 20, 0)]; []]%N /\
  (forall t, In t (concat (d_levels d)) -> drops_newer 0 (not_newer 0 t) (t_rows t)) /\
  scan row_key (not_newer 0) cp_all (mkSnap 0 (d_levels d)) None d = Some [((1, 0), rw 1 10); ((2, 0), rw 2 20)]%N.
Proof.
  cbv zeta. split; [unfold demo_ok, newer_ops; ok_ops|]. split; [vm_compute; constructor|].
  split; [vm_compute; reflexivity|]. split; [vm_compute; reflexivity|]. split; [vm_compute; reflexivity|].
  split; [intros t _; apply not_newer_drops|]. vm_compute; reflexivity.
Qed.
