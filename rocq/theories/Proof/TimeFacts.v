(** Snapshots at the timestamp of a version. *)
From Coq Require Import List NArith Bool Sorted Permutation Lia Arith.
From Verif Require Import Base.Order Base.Sub Model.OMap Model.KeyTs Model.MemTable Model.Immutable
     Model.SsTable Model.MergeStream Model.KeyBounds Model.DbScan Model.Version Model.Db Model.Compact
     Model.Planner Model.DbCompact Spec.Mvcc Spec.History Spec.KeySet Model.Run Spec.Valid Model.TimeTravel
     Proof.OMapFacts Proof.MemFacts Proof.ViewFacts Proof.SstFacts Proof.MergeFacts Proof.ScanFacts
     Proof.HistFacts Proof.CompactFacts Proof.CompactLoop Proof.CompactOut Proof.VersionFacts Proof.DbFacts
     Proof.RunFacts Proof.Refine Proof.Reads.
Import ListNotations.
Local Arguments kcmp : simpl never.

Section TimeFacts.
  Context {K : Type} {KO : KeyOrd K} {R : Type}.
  Variable key_of : R -> option K.
  Variable row_bytes : R -> nat.
  Variable del_bytes : K -> nat.
  Notation vers := (@vers K R).
  Notation inv := (@inv K KO R key_of).
  Notation step := (step key_of row_bytes del_bytes).
  Notation run := (run key_of row_bytes del_bytes).
  Notation op_ok := (op_ok key_of).
  Notation ops_ok := (ops_ok key_of row_bytes del_bytes).
  Notation run_hyp := (run_hyp key_of row_bytes del_bytes).

  (** The memory side of a run does not depend on the tables: drop the compactions. *)
  Definition not_compact (o : op K R) : bool := match o with OCompact _ _ _ => false | _ => true end.
  Lemma flush_front level d d' : front d d' -> front (fst (flush key_of level d)) (fst (flush key_of level d')).
  Proof.
    intros (F1 & F2 & F3 & F4 & F5). unfold flush. rewrite F2. destruct (d_imm d) as [|g l] eqn:EI; [unfold front; cbn [fst]; rewrite EI; auto|].
    unfold write_flush. destruct (fold_left _ _ _) as [st x]. destruct (Nat.eqb (st_segments st) 0); [unfold front; cbn; rewrite ?F1, ?F3, ?F4, ?F5; auto|].
    destruct (if Nat.ltb 1 (length x) then normalize key_of x else Some x); unfold front; cbn; rewrite ?F1, ?F2, ?F3, ?F4, ?F5; auto.
  Qed.
  (** The histories differ by a prefix. *)
  Lemma step_front_gen h s s' o : front (st_db s) (st_db s') -> st_hist s = h ++ st_hist s' ->
    if not_compact o
    then front (st_db (step s o)) (st_db (step s' o)) /\ st_hist (step s o) = h ++ st_hist (step s' o)
    else front (st_db (step s o)) (st_db s') /\ st_hist (step s o) = h ++ st_hist s'.
  Proof.
    intros HF HH. pose (s0 := mkSt (st_db s') (st_hist s) (st_horizon s')).
    assert (W : no_manifest o -> st_db (step s0 o) = st_db (step s' o) /\ (exists x, st_hist (step s0 o) = st_hist s0 ++ x /\ st_hist (step s' o) = st_hist s' ++ x) ->
      front (st_db (step s o)) (st_db (step s' o)) /\ st_hist (step s o) = h ++ st_hist (step s' o)).
    { intros HN (C1 & x & C2 & C3). destruct (step_front key_of row_bytes del_bytes s s0 o) as [A B]; [exact HN|exact HF|reflexivity|].
      split; [rewrite <- C1; exact A|rewrite <- B, C2, C3; cbn [st_hist s0]; rewrite HH, app_assoc; reflexivity]. }
    destruct o as [rows span dec|rows span dec|ts ms span| |cf ch tk].
    5:{ cbn [not_compact Run.step]. pose proof (compact_front key_of row_bytes del_bytes cf ch tk (st_db s)) as F.
        destruct (compact _ _ _ _ _ _ _) as [d' ch']. cbn in *. unfold front in *. destruct F as (F1 & F2 & F3 & F4 & F5), HF as (G1 & G2 & G3 & G4 & G5).
        rewrite F1, F2, F3, F4, F5. auto 8. }
    4:{ cbn [not_compact Run.step st_db st_hist]. split; auto. now apply flush_front. }
    all: cbn [not_compact].
    - apply W; [exact I|]. cbn [Run.step]. unfold ack. cbn. split; eauto.
    - apply W; [exact I|]. cbn [Run.step]. unfold ack. cbn. split; eauto.
    - apply W; [exact I|]. cbn [Run.step st_db s0]. destruct (commit _ _ _ _ _) as [d' r]. unfold ack. cbn. split; eauto.
  Qed.
  Lemma run_front_gen h ops : forall s s', front (st_db s) (st_db s') -> st_hist s = h ++ st_hist s' -> ops_ok s ops ->
    let r := run s' (filter not_compact ops) in
    front (st_db (run s ops)) (st_db r) /\ st_hist (run s ops) = h ++ st_hist r /\ ops_ok s' (filter not_compact ops).
  Proof.
    induction ops as [|o ops IH]; intros s s' HF HH HO; [cbn; auto|]. destruct HO as [O1 O2].
    change (run s (o :: ops)) with (run (step s o) ops). cbn [filter]. pose proof (step_front_gen h s s' o HF HH) as G. destruct (not_compact o) eqn:EN.
    - change (run s' (o :: filter not_compact ops)) with (run (step s' o) (filter not_compact ops)). destruct G as [G1 G2]. destruct (IH _ _ G1 G2 O2) as (A1 & A2 & A3).
      split; [exact A1|split; [exact A2|split; [|exact A3]]]. destruct HF as (F & _). destruct o; try discriminate; unfold Valid.op_ok, has_slot in *; rewrite ?F; auto.
    - destruct G as [G1 G2]. destruct (IH _ _ G1 G2 O2) as (A1 & A2 & A3). auto.
  Qed.
  Lemma filter_len {A} (f : A -> bool) l : length (filter f l) <= length l.
  Proof. induction l as [|a l IH]; cbn; auto. destruct (f a); cbn; lia. Qed.

  (** The scan of old tables with the memory of now, when memory was empty then. *)
  Lemma old_tables_scan s1 ops2 n : inv s1 -> (d_clock (st_db s1) + N.of_nat (length ops2) < 2 ^ 64)%N -> ops_ok s1 ops2 ->
    m_index (d_mem (st_db s1)) = [] -> d_imm (st_db s1) = [] -> d_clock (st_db s1) = (n + 1)%N ->
    let s2 := run s1 ops2 in inv s2 ->
    exists out, scan key_of (@t_rows K R) (@cp_all K R) (mkSnap n (d_levels (st_db s1))) None (st_db s2) = Some out /\
      lists_table key_of (final key_of (st_hist s1)) (fun _ => true) out.
  Proof.
    intros I1 HL HO EM EI EC s2 I2.
    pose proof I1 as I1'. destruct I1 as [(M1 & Is1 & HR1 & C1 & C2) J2 J3 J4]. pose proof HR1 as [RM RI RG RS RD RN RC].
    assert (EM1 : M1 = []). { destruct RM as [_ RM]. rewrite EM in RM. inversion RM. auto. } subst M1.
    assert (EI1 : Is1 = []). { rewrite EI in RI. destruct Is1; [auto|discriminate]. } subst Is1.
    set (s' := mkSt (mkDb (d_mem (st_db s1)) (d_imm (st_db s1)) (d_mrange (st_db s1)) (d_iranges (st_db s1)) [] (d_clock (st_db s1)) (d_next_id (st_db s1))) [] 0).
    assert (I' : inv s').
    { constructor; cbn; try constructor; [|lia]. exists [], []. split; [constructor; cbn; auto; constructor|]. split; intros v []. }
    destruct (run_front_gen (st_hist s1) ops2 s1 s') as (F & HH & HO'); [unfold front; cbn; auto|cbn; now rewrite app_nil_r|auto|]. fold s2 in F, HH.
    set (r := run s' (filter not_compact ops2)) in *.
    assert (HL' : (d_clock (st_db s') + N.of_nat (length (filter not_compact ops2)) < 2 ^ 64)%N).
    { cbn [st_db d_clock s']. pose proof (filter_len not_compact ops2). lia. }
    destruct (inv_run key_of row_bytes del_bytes (filter not_compact ops2) s' I' HL' HO') as [Ir _]. fold r in Ir.
    destruct (run_hist key_of row_bytes del_bytes s' (filter not_compact ops2) HL') as (h & HHr & HHn & _). fold r in HHr. cbn [st_hist s' app] in HHr.
    destruct Ir as [(M & Is & HR & D1 & _) _ _ _]. pose proof HR as [QM QI QG _ _ _ _].
    destruct F as (F1 & F2 & _). rewrite F1 in QM. rewrite F2 in QI.
    set (ls := d_levels (st_db s1)) in *.
    assert (NEW : forall v, In v M \/ In v (concat Is) -> In v (hv key_of h) /\ (n < vts v)%N).
    { intros v Hv. assert (HV : In v (hv key_of h)). { rewrite <- HHr. apply D1, store_In. tauto. }
      split; auto. apply hv_ts in HV as (c & Hc & ->). rewrite Forall_forall in HHn. specialize (HHn c Hc). cbn [st_db d_clock s'] in HHn. lia. }
    assert (OLD : forall v, In v (flat_map (tver key_of) (concat ls)) -> In v (hv key_of (st_hist s1))).
    { intros v Hv. apply C1, store_In. auto. }
    assert (ESt : store key_of M Is ls = M ++ concat Is ++ concat (map (tver key_of) (concat ls))).
    { unfold DbFacts.store. now rewrite flat_map_concat_map. }
    assert (SUB : forall v, In v (store key_of M Is ls) -> In v (hv key_of (st_hist s2))).
    { intros v Hv. rewrite HH, hv_app, in_app_iff. apply store_In in Hv as [Hv|[Hv|Hv]]; [right|right|left]; rewrite ?HHr; try apply NEW; auto. }
    assert (HKV : keyedv key_of (store key_of M Is ls)) by (intros kt x H; apply SUB in H; eapply hv_keyed; eauto).
    pose proof (iv_inc _ _ I2) as INC. pose proof (iv_clock _ _ I2) as CL.
    assert (B2 : (d_clock (st_db s2) < 2 ^ 64)%N).
    { destruct (inv_run key_of row_bytes del_bytes ops2 s1) as [_ B]; auto. fold s2 in B. lia. }
    destruct (scan_exact key_of (@t_rows K R) cp_all false None (d_mem (st_db s2)) M Is ls
                (map (tver key_of) (concat ls)) n QM QG (tok_store_ok _ _ RS)) as (full & out & E1 & E2 & E3 & E4); auto.
    - rewrite <- ESt. apply Forall_forall. intros v Hv. apply SUB in Hv. apply (hv_clock _ _ _ _ CL) in Hv. unfold ts_max. lia.
    - exact (cp_all_sound key_of row_bytes del_bytes).
    - apply Forall_forall. intros A HA. apply seg_safe_of. intros _ _ t Ht. cbn in Ht.
      apply in_map_iff in Ht as ([k t'] & <- & Ht). unfold dels in Ht.
      apply in_flat_map in Ht as ([[k0 t0] [r'|]] & H1 & H2); simpl in H2; [destruct H2|].
      destruct H2 as [E|[]]. inversion E; subst. cbn. apply (NEW ((k, t'), None)). right. apply in_concat. eauto.
    - intros t Ht. apply sublist_refl.
    - rewrite <- ESt. intros v w Hv Hw. apply (hv_consistent key_of _ INC); auto.
    - subst out. exists full. split.
      + unfold scan, scan_txn. cbn [sn_ts sn_levels]. rewrite QI. exact E1.
      + rewrite <- (as_of_all key_of (st_hist s1) n).
        * apply read_lists_table; auto. intros kt x. rewrite E4, <- ESt. cbn [c_full cp_all].
          assert (EQ : newest_visible (store key_of M Is ls) n (kt, Some x) <-> newest_visible (store key_of [] [] ls) n (kt, Some x)).
          { unfold newest_visible. setoid_rewrite store_In. split.
            - intros (H1 & H2 & H3). split.
              + destruct H1 as [H1|[H1|H1]]; auto; exfalso; [destruct (NEW (kt, Some x))|destruct (NEW (kt, Some x))]; auto; lia.
              + split; auto. intros w Hw. apply H3. destruct Hw as [[]|[[]|Hw]]; auto.
            - intros (H1 & H2 & H3). split; [destruct H1 as [[]|[[]|H1]]; auto|]. split; auto. intros w Hw Hk Ht. apply H3; auto.
              destruct Hw as [Hw|[Hw|Hw]]; auto; exfalso; destruct (NEW w); auto; lia. }
          rewrite EQ, (cover_newest _ _ _ n _ (conj C1 C2)); [reflexivity|lia].
        * eapply Forall_impl; [|exact J3]. intros c Hc. cbn in Hc. lia.
  Qed.

  (** *** Versions along a run *)
  Notation tt_step := (tt_step key_of row_bytes del_bytes).
  Notation tt_run := (tt_run key_of row_bytes del_bytes).
  Lemma tt_run_st ops : forall t, tt_st (tt_run t ops) = run (tt_st t) ops.
  Proof. induction ops as [|o ops IH]; intros t; [reflexivity|]. change (tt_run t (o :: ops)) with (tt_run (tt_step t o) ops). rewrite IH. reflexivity. Qed.
  (** The timestamps are 1, 2, 3, ... *)
  Definition numbered (vs : list (tversion K R)) : Prop := forall i v, nth_error vs i = Some v -> tv_ts v = (N.of_nat i + 1)%N.
  Lemma numbered_step t o : numbered (tt_vers t) -> numbered (tt_vers (tt_step t o)).
  Proof.
    intros H i v. cbn [TimeTravel.tt_step tt_vers]. destruct (publishes _ _ _ _ _); [|rewrite app_nil_r; apply H].
    intros E. destruct (Nat.lt_ge_cases i (length (tt_vers t))) as [L|L].
    - rewrite nth_error_app1 in E by auto. now apply H.
    - rewrite nth_error_app2 in E by auto. destruct (i - length (tt_vers t)) as [|j] eqn:EJ; [|destruct j; discriminate].
      cbn in E. inversion E. cbn. unfold next_version. f_equal. f_equal. lia.
  Qed.
  Lemma numbered_run ops : forall t, numbered (tt_vers t) -> numbered (tt_vers (tt_run t ops)).
  Proof. induction ops as [|o ops IH]; intros t H; [exact H|]. change (tt_run t (o :: ops)) with (tt_run (tt_step t o) ops). apply IH, numbered_step, H. Qed.
  Lemma vers_prefix ops : forall t, exists l, tt_vers (tt_run t ops) = tt_vers t ++ l.
  Proof.
    induction ops as [|o ops IH]; intros t; [exists []; cbn; now rewrite app_nil_r|].
    change (tt_run t (o :: ops)) with (tt_run (tt_step t o) ops). destruct (IH (tt_step t o)) as (l & E). eexists. rewrite E. cbn [TimeTravel.tt_step tt_vers]. now rewrite <- app_assoc.
  Qed.
  Lemma find_numbered vs : numbered vs -> forall v, In v vs -> find (fun u => N.leb (tv_ts u) (tv_ts v)) (rev vs) = Some v.
  Proof.
    induction vs as [|u vs IH] using rev_ind; intros H v Hv; [destruct Hv|]. rewrite rev_app_distr. cbn.
    assert (EU : tv_ts u = (N.of_nat (length vs) + 1)%N) by (apply H; rewrite nth_error_app2, Nat.sub_diag; auto).
    assert (H' : numbered vs). { intros i w E. apply H. rewrite nth_error_app1; auto. apply nth_error_Some. congruence. }
    apply in_app_or in Hv as [Hv|[<-|[]]].
    - destruct (In_nth_error _ _ Hv) as (i & E). pose proof (H' _ _ E) as ET. assert (i < length vs) by (apply nth_error_Some; congruence).
      replace (N.leb (tv_ts u) (tv_ts v)) with false by (symmetry; apply N.leb_gt; lia). now apply IH.
    - now rewrite N.leb_refl.
  Qed.

  (** A snapshot at the timestamp of a version pins that version. *)
  Lemma c30_pins capacity ops v : In v (tt_vers (tt_run (tt_start capacity) ops)) ->
    snapshot_at (tv_ts v) (tt_run (tt_start capacity) ops) = mkSnap (tv_ts v) (tv_levels v).
  Proof.
    intros HV. unfold snapshot_at. rewrite find_numbered; auto. apply numbered_run. intros i w E. destruct i; discriminate.
  Qed.
  Lemma c30_reads capacity ops1 o ops2 v : run_hyp capacity (ops1 ++ o :: ops2) ->
    let t0 := tt_run (tt_start capacity) ops1 in
    let t1 := tt_step t0 o in
    let t2 := tt_run t1 ops2 in
    tt_vers t1 = tt_vers t0 ++ [v] ->
    m_index (d_mem (st_db (tt_st t1))) = [] -> d_imm (st_db (tt_st t1)) = [] -> d_clock (st_db (tt_st t1)) = (tv_ts v + 1)%N ->
    In v (tt_vers t2) /\ tv_hist v = st_hist (tt_st t1) /\
    exists out, scan_at key_of (tv_ts v) t2 = Some out /\ lists_table key_of (final key_of (tv_hist v)) (fun _ => true) out.
  Proof.
    intros HH t0 t1 t2 EV EM EI EC.
    assert (EX : v = mkTV (next_version (tt_vers t0)) (d_levels (st_db (tt_st t1))) (st_hist (tt_st t1))).
    { unfold t1 in *. cbn [TimeTravel.tt_step tt_vers tt_st] in *. destruct (publishes _ _ _ _ _).
      - apply app_inv_head in EV. now inversion EV.
      - apply (f_equal (@length _)) in EV. rewrite !app_length in EV. cbn in EV. lia. }
    assert (HV : In v (tt_vers t2)). { destruct (vers_prefix ops2 t1) as (l & EL). unfold t2. rewrite EL, EV. apply in_or_app. left. apply in_or_app. right. cbn. auto. }
    split; auto. split; [rewrite EX; reflexivity|].
    assert (E2 : t2 = tt_run (tt_start capacity) (ops1 ++ o :: ops2)). { unfold t2, t1, t0, TimeTravel.tt_run. rewrite fold_left_app. reflexivity. }
    unfold scan_at. rewrite E2 in HV. rewrite E2, (c30_pins _ _ _ HV), <- E2.
    assert (S1 : tt_st t1 = run (start capacity) (ops1 ++ [o])). { unfold t1, t0. cbn [TimeTravel.tt_step tt_st]. rewrite tt_run_st. unfold Run.run. rewrite fold_left_app. reflexivity. }
    assert (S2 : tt_st t2 = run (tt_st t1) ops2) by (apply tt_run_st).
    assert (H1 : run_hyp capacity (ops1 ++ [o])).
    { destruct HH as (A1 & A2 & A3). split; auto. rewrite app_length in *. cbn [length] in *. split; [lia|].
      replace (ops1 ++ o :: ops2) with ((ops1 ++ [o]) ++ ops2) in A3 by (rewrite <- app_assoc; reflexivity). now apply ops_ok_app in A3. }
    destruct (run_inv _ _ _ _ _ H1) as [I1 B1]. rewrite <- S1 in I1, B1.
    destruct (run_inv _ _ _ _ _ HH) as [I2 _].
    assert (S3 : run (start capacity) (ops1 ++ o :: ops2) = run (tt_st t1) ops2).
    { rewrite S1. unfold Run.run. rewrite !fold_left_app. reflexivity. }
    rewrite S3 in I2. rewrite S2.
    replace (tv_levels v) with (d_levels (st_db (tt_st t1))) by (rewrite EX; reflexivity).
    replace (tv_hist v) with (st_hist (tt_st t1)) by (rewrite EX; reflexivity).
    destruct HH as (A1 & A2 & A3). replace (ops1 ++ o :: ops2) with ((ops1 ++ [o]) ++ ops2) in * by (rewrite <- app_assoc; reflexivity).
    apply ops_ok_app in A3 as [A3 A4]. rewrite <- S1 in A4.
    apply old_tables_scan; auto.
    destruct H1 as (_ & B2 & B3). pose proof (proj2 (inv_run key_of row_bytes del_bytes _ (start capacity) (inv_start key_of capacity A1) B2 B3)) as D.
    rewrite <- S1 in D. cbn [st_db start d_clock db_new] in D. rewrite app_length, Nat2N.inj_add in A2. lia.
  Qed.
End TimeFacts.
