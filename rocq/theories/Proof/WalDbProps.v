(** Properties of the database with its log, over whole runs. *)
From Coq Require Import List NArith Bool Sorted Permutation Lia Arith.
From Verif Require Import Base.Order Model.OMap Model.KeyTs Model.MemTable Model.Immutable
     Model.SsTable Model.Version Model.Compact Model.Planner Model.Db Model.DbCompact Model.WalScan Model.Replay
     Model.WalWriter Spec.Mvcc Spec.Valid Spec.History Spec.ReplaySpec Model.Run Model.WalDb Spec.Recover
     Proof.OMapFacts Proof.MemFacts Proof.ViewFacts Proof.HistFacts Proof.CompactFacts Proof.DbFacts Proof.RunFacts Proof.Refine Proof.Reads
     Proof.StorageProps Proof.ReplayFacts Proof.ReplayGen Proof.WriterFacts Proof.RecoverDb Proof.LogFacts Proof.WalDbInv Proof.WalDbRun
     Proof.WalDbSteps.
Import ListNotations.
Local Arguments kcmp : simpl never.
Local Open Scope N_scope.

Section WalDbProps.
  Context {K : Type} {KO : KeyOrd K} {R : Type}.
  Variable key_of : R -> option K.
  Variable row_bytes : R -> nat.
  Variable del_bytes : K -> nat.
  Variable size : rec K R -> N.
  Notation vers := (@vers K R).
  Notation tver := (tver key_of).
  Notation store := (store key_of).
  Notation rep := (rep key_of).
  Notation last_mut := (last_mut key_of).
  Notation rec := (rec K R).
  Notation pay := (pay K R).
  Notation hv := (hv key_of).
  Notation dinv := (dinv key_of).
  Notation inv := (inv key_of).
  Notation jinv := (jinv key_of).
  Notation ystep := (ystep key_of row_bytes del_bytes size).
  Notation yrun := (yrun key_of row_bytes del_bytes size).
  Notation write := (write key_of row_bytes del_bytes size).
  Notation yops_ok := (yops_ok key_of row_bytes del_bytes size).
  Notation yop_ok := (yop_ok key_of size).
  Notation crash := (crash key_of size).
  Notation reopen := (reopen key_of size).

  Lemma jinv_start cf capacity : (1 <= capacity)%nat -> jinv (ystart cf capacity).
  Proof.
    intros HC. pose proof (inv_start key_of capacity HC) as HI. unfold ystart.
    constructor; cbn [y_st y_log y_refs y_ids y_seen y_prov st_db start st_hist st_horizon]; auto; try (cbn; congruence).
    - assert (HR : rep (db_new capacity) [] []).
      { constructor; simpl; auto; try constructor. constructor. constructor. }
      exists [], []. split; [exact HR|]. split; [split; [intros v []|intros v []]|].
      constructor; cbn; auto; try congruence; try (intros; contradiction).
      + constructor.
      + constructor; cbn; try lia; try (intros; contradiction). constructor; cbn; repeat constructor.
      + intros p ts (a & id & b & c & E & _). destruct a; discriminate.
      + split; [constructor|intros r []].
      + intros pre r i j E. destruct pre; discriminate.
    - cbn. lia.
  Qed.

  (** *** The words of the specification *)
  Lemma changes_last ms k ts o : changes key_of ms k o <-> last_mut ts ms ((k, ts), o).
  Proof.
    split; intros (a & m & b & E & H).
    - destruct H as (H1 & H2 & H3). exists a, m, b. split; auto. unfold mut_ver. rewrite H1, H2. split; auto.
      apply Forall_forall. intros x Hx. unfold hits. destruct (mut_key key_of x) as [k'|] eqn:EK; auto. cbn [fst]. rewrite kts_eq. cbn.
      intros [F _]. apply (H3 x k' Hx EK F).
    - destruct H as [H1 H2]. exists a, m, b. split; auto. unfold mut_ver in H1. destruct (mut_key key_of m) as [k0|] eqn:EK; [|discriminate].
      inversion H1; subst. split; auto. split; auto. intros x k' Hx EX F. rewrite Forall_forall in H2. apply (H2 x Hx). unfold hits. rewrite EX. cbn [fst].
      rewrite kts_eq. auto.
  Qed.
  Lemma table_has_tver t k ts o : table_has key_of t k ts o <-> In ((k, ts), o) (tver t).
  Proof.
    unfold DbFacts.tver. rewrite in_app_iff, in_flat_map, in_map_iff. destruct o as [r|]; cbn [table_has]; split.
    - intros [H1 H2]. left. exists (r, ts). split; auto. unfold dver. cbn. rewrite H2. cbn. auto.
    - intros [([r' t'] & H1 & H2)|([k' t'] & H1 & H2)]; [|discriminate]. unfold dver in H2. cbn in H2.
      destruct (key_of r') as [k'|] eqn:E; cbn in H2; [|tauto]. destruct H2 as [H2|[]]. inversion H2; subst. auto.
    - intros H. right. exists (k, ts). auto.
    - intros [([r' t'] & H1 & H2)|([k' t'] & H1 & H2)].
      + unfold dver in H2. cbn in H2. destruct (key_of r'); cbn in H2; [|tauto]. destruct H2 as [H2|[]]. discriminate.
      + inversion H1; subst. auto.
  Qed.
  Lemma in_tables_cov hz ls k ts o : in_tables key_of hz ls k ts o <-> sstcov key_of hz ls ((k, ts), o).
  Proof.
    unfold in_tables, sstcov. split.
    - intros (t & Ht & [H|(k' & t' & o' & H1 & H2 & H3)]).
      + left. apply in_flat_map. exists t. split; auto. now apply table_has_tver.
      + right. exists ((k', t'), o'). apply table_has_tver in H3. split; [apply in_flat_map; eauto|]. unfold same_key, vkey, vts. cbn. lia || (split; [exact H1|lia]).
    - intros [H|([[k' t'] o'] & H & H1 & H2 & H3)].
      + apply in_flat_map in H as (t & Ht & H). exists t. split; auto. left. now apply table_has_tver.
      + apply in_flat_map in H as (t & Ht & H). exists t. split; auto. right. exists k', t', o'. unfold same_key, vkey, vts in *. cbn in *.
        split; auto. split; [lia|]. now apply table_has_tver.
  Qed.
  Lemma logged_applied (l : list rec) p ts : logged l p ts <-> applied l p ts.
  Proof. reflexivity. Qed.

  (** Every committed change is in a table or is replayed. *)
  Lemma found y c ms k o : jinv y -> In (c, ms) (st_hist (y_st y)) -> changes key_of ms k o ->
    in_tables key_of (st_horizon (y_st y)) (d_levels (st_db (y_st y))) k c o \/ in_log key_of (replayed y) k c o.
  Proof.
    intros HJ Hc HM. destruct (jv_mem _ _ HJ) as (M & Is & HR & HC & HD).
    assert (HV : In ((k, c), o) (hv (st_hist (y_st y)))). { apply hv_In. exists (c, ms). split; auto. now apply changes_last. }
    destruct (di_dur _ _ _ _ _ _ _ _ HD _ HV) as [H|(q & s & A1 & A2 & _)]; [left; now apply in_tables_cov|right].
    destruct (frames_floor (y_log y) (y_refs y) (di_w _ _ _ _ _ _ _ _ HD) (di_refs _ _ _ _ _ _ _ _ HD)) as (pre & tg & ET & EF & HP).
    rewrite ET in A1. apply at_log_suffix in A1.
    - apply at_log_applied in A1 as (p & ts & A3 & A4). pose proof (last_mut_ts _ _ _ _ A4) as EV. unfold vts in EV. cbn in EV. subst ts.
      exists p. split.
      + apply logged_applied. unfold replayed. rewrite EF, map_map. exact A3.
      + apply (changes_last _ k c o). exact A4.
    - intros t Ht. destruct (HP t Ht) as (r & E & L). pose proof (lo_floor _ _ _ A2 r E). lia.
  Qed.

  (** *** Replaying more or less than needed *)
  Definition with_clock (c : N) (d : db K R) : db K R :=
    mkDb (d_mem d) (d_imm d) (d_mrange d) (d_iranges d) (d_levels d) c (d_next_id d).

  Lemma replay_enough y hint decs l nid : jinv y ->
    Forall (fun t => t_id t < nid) (concat (d_levels (st_db (y_st y)))) ->
    (forall p ts, logged l p ts -> logged (records (y_log y)) p ts) ->
    (forall p ts, logged (replayed y) p ts -> logged l p ts \/
       forall k o, changes key_of (pay_changes p) k o -> in_tables key_of (st_horizon (y_st y)) (d_levels (st_db (y_st y))) k ts o) ->
    exists d, recover_db key_of (m_capacity (d_mem (st_db (y_st y)))) (d_levels (st_db (y_st y))) nid (floor_of (y_refs y)) hint decs l = Some d /\
      d_levels d = d_levels (st_db (y_st y)) /\
      inv (mkSt (with_clock (d_clock (st_db (y_st y))) d) (st_hist (y_st y)) (st_horizon (y_st y))).
  Proof.
    intros HJ HN HL1 HL2. destruct (jv_mem _ _ HJ) as (M & Is & HR & HC & HD). set (h := st_hist (y_st y)) in *. set (hz := st_horizon (y_st y)) in *.
    assert (SND : forall p ts, applied l p ts -> pay_ok key_of (hv h) ts p).
    { intros p ts Hp. apply (di_sound _ _ _ _ _ _ _ _ HD). rewrite <- records_log. apply logged_applied. apply HL1. exact Hp. }
    destruct (recover_spec key_of (hv h) (m_capacity (d_mem (st_db (y_st y)))) (d_levels (st_db (y_st y))) nid (floor_of (y_refs y)) hint decs l)
      as (d & M' & Is' & E & R1 & R2 & R3 & R4 & R5 & R6 & R7 & R8); auto.
    - intros v w Hv Hw Hk Ht. eapply hv_unique; eauto. apply (di_inc _ _ _ _ _ _ _ _ HD).
    - apply (rp_cap _ _ _ _ HR).
    - apply (rp_sst _ _ _ _ HR).
    - apply (rp_nodup _ _ _ _ HR).
    - exists d. split; auto. split; auto.
      constructor; cbn [st_db st_hist st_horizon with_clock d_levels d_clock].
      + exists M', Is'. split; [eapply rep_same; [exact R1|reflexivity..]|]. rewrite R2. split.
        * intros v Hv. apply store_In in Hv as [Hv|[Hv|Hv]].
          -- assert (X : In v (M' ++ concat Is')) by (apply in_or_app; auto). apply R8 in X as (p & ts & Hp & X). apply SND in Hp as (_ & _ & Hp). auto.
          -- assert (X : In v (M' ++ concat Is')) by (apply in_or_app; auto). apply R8 in X as (p & ts & Hp & X). apply SND in Hp as (_ & _ & Hp). auto.
          -- destruct HC as [HC1 _]. apply HC1, store_In. auto.
        * intros [[k c] o] Hv. pose proof Hv as Hv'. apply hv_In in Hv' as ([c' ms] & Hc & Hm). cbn [fst snd] in Hm.
          pose proof (last_mut_ts _ _ _ _ Hm) as EV. unfold vts in EV. cbn in EV. subst c'.
          apply (changes_last ms k c o) in Hm. destruct (found y c ms k o HJ Hc Hm) as [H|(p & Hp & Hm')].
          -- apply in_tables_cov in H as [H|(w & W1 & W2)]; [left; apply store_In; auto|right; exists w; split; auto; apply store_In; auto].
          -- destruct (HL2 p c Hp) as [Hp'|H].
             ++ left. apply (changes_last _ k c o) in Hm'. assert (X : In ((k, c), o) (M' ++ concat Is')) by (apply R8; exists p, c; auto).
                apply store_In. apply in_app_or in X. tauto.
             ++ specialize (H k o Hm'). apply in_tables_cov in H as [H|(w & W1 & W2)]; [left; apply store_In; auto|right; exists w; split; auto; apply store_In; auto].
      + apply (di_inc _ _ _ _ _ _ _ _ HD).
      + apply (jv_clock _ _ HJ).
      + apply (jv_hz _ _ HJ).
  Qed.
  Lemma scan_with_clock c ts (d : db K R) : scan_all key_of ts (with_clock c d) = scan_all key_of ts d.
  Proof. reflexivity. Qed.

  Lemma over_replay y hint decs l nid ts : jinv y -> room y ->
    Forall (fun t => t_id t < nid) (concat (d_levels (st_db (y_st y)))) ->
    (forall p ts, logged l p ts -> logged (records (y_log y)) p ts) ->
    (forall p ts, logged (replayed y) p ts -> logged l p ts \/
       forall k o, changes key_of (pay_changes p) k o -> in_tables key_of (st_horizon (y_st y)) (d_levels (st_db (y_st y))) k ts o) ->
    st_horizon (y_st y) <= ts ->
    exists d, recover_db key_of (m_capacity (d_mem (st_db (y_st y)))) (d_levels (st_db (y_st y))) nid (floor_of (y_refs y)) hint decs l = Some d /\
      (Forall (seg_safe ts) (d_imm d) ->
       exists out, scan_all key_of ts d = Some out /\ lists_table key_of (as_of key_of (st_hist (y_st y)) ts) (fun _ => true) out).
  Proof.
    intros HJ HR HN HL1 HL2 HZ. destruct (replay_enough y hint decs l nid HJ HN HL1 HL2) as (d & E & EL & HI). exists d. split; auto. intros HS.
    destruct (scan_all_spec key_of row_bytes del_bytes _ ts HI) as (out & O1 & O2); auto.
    - cbn. destruct HR. lia.
    - exists out. auto.
  Qed.

  Section Conf.
    Variable cf : wconf.
    Hypothesis HNB : c_retention cf = None.
    Hypothesis HST : c_state cf = true.

    Lemma crash_hist y fl y0 : inflight_ok key_of fl -> crash cf fl y = Some y0 ->
      st_hist (y_st y0) = st_hist (y_st y) ++ survives key_of y fl /\
      st_horizon (y_st y0) = st_horizon (y_st y) /\ y_refs y0 = y_refs y.
    Proof.
      intros HF E. destruct fl as [[[w j] sg]|]; cbn [crash survives inflight_ok] in *.
      - unfold WalDb.crash in E. set (d := st_db (y_st y)) in *. destruct (crash_log _ _ _ _ _ _) as [lg|]; [|discriminate].
        inversion E. cbn [y_st st_hist st_horizon y_refs]. split; auto. f_equal.
        destruct (call_of key_of row_bytes del_bytes d w (y_prov y) HF) as [(ups & ks & HCL)|[E1 _]].
        + pose proof (cl_muts _ _ _ _ _ _ _ _ HCL) as HM. destruct (recs key_of d w (y_prov y) (d_clock d)) as [|r l]; [reflexivity|].
          destruct (Nat.ltb _ _); auto. destruct (wr_muts key_of w); [congruence|auto].
        + rewrite E1. reflexivity.
      - inversion E. subst y0. rewrite app_nil_r. auto.
    Qed.
    (** A crash in any state of a run, then a restart. *)
    Lemma crash_reopen y fl decs : jinv y -> room y -> inflight_ok key_of fl ->
      exists y0 y1, crash cf fl y = Some y0 /\ reopen cf decs y0 = Some y1 /\
        inv (y_st y1) /\ st_hist (y_st y0) = st_hist (y_st y) ++ survives key_of y fl /\
        st_hist (y_st y1) = st_hist (y_st y0) /\ d_clock (st_db (y_st y1)) < 2 ^ 64 /\
        st_horizon (y_st y1) = st_horizon (y_st y) /\
        d_levels (st_db (y_st y1)) = d_levels (st_db (y_st y)) /\
        y_seen y1 = y_seen y /\ d_next_id (st_db (y_st y1)) = next_id_of (y_seen y) /\
        (restart_ok y0 y1 -> jinv y1).
    Proof.
      intros HJ HR HF. destruct (jinv_crash key_of row_bytes del_bytes size cf HNB HST y fl HJ HR HF) as (y0 & E0 & D0 & S0 & N0 & H0).
      destruct (jv_mem _ _ HJ) as (M & Is & HRP & _). destruct HR as (_ & _ & _ & HR4).
      destruct (crash_hist y fl y0 HF E0) as (C1 & C2 & _).
      destruct (reopen_inv key_of size cf HNB HST (st_hist (y_st y0)) y0 decs D0 eq_refl) as (y1 & E1 & I1 & I2 & I3 & I4 & I5 & I6 & I7 & I8).
      - rewrite S0. apply (rp_sst _ _ _ _ HRP).
      - rewrite S0. apply (rp_nodup _ _ _ _ HRP).
      - rewrite S0. apply (rp_cap _ _ _ _ HRP).
      - rewrite S0, N0. apply (jv_seen _ _ HJ).
      - now rewrite N0.
      - exists y0, y1. rewrite S0 in I4. rewrite C2 in I3. split; auto. split; auto. split; auto. split; auto. split; auto. split; auto. split; auto. split; auto.
        rewrite N0 in I6, I7. auto.
    Qed.

    Lemma jinv_step y o : jinv y -> yop_ok cf y o -> exists y', ystep cf y o = Some y' /\ jinv y'.
    Proof.
      intros HJ [HR HO]. destruct o as [w dec n|level n|mc ch tk n| |fl decs]; cbn [yop_ok] in HO.
      - destruct HO as [O1 O2]. destruct (jinv_write key_of row_bytes del_bytes size cf HNB HST y w dec n HJ HR O1 O2) as (y' & E & J & _). exists y'. auto.
      - eexists. split; [reflexivity|]. now apply jinv_flush.
      - eexists. split; [reflexivity|]. now apply jinv_compact.
      - destruct (jinv_rotate key_of row_bytes del_bytes size cf HNB y HJ HR) as (y' & E & J & _). exists y'. auto.
      - destruct HO as [O1 O2]. destruct (crash_reopen y fl decs HJ HR O1) as (y0 & y1 & E0 & E1 & _ & _ & _ & _ & _ & _ & _ & _ & HJ1).
        exists y1. cbn [ystep]. rewrite E0. split; auto.
    Qed.
    Lemma jinv_run ops : forall y, jinv y -> yops_ok cf y ops -> exists y', yrun cf y ops = Some y' /\ jinv y'.
    Proof.
      induction ops as [|o ops IH]; intros y HJ HO; [exists y; auto|]. destruct HO as [O1 O2]. cbn [yrun].
      destruct (jinv_step y o HJ O1) as (y1 & E1 & J1). rewrite E1. apply IH; auto.
    Qed.

    Lemma run_crash cap ops : (1 <= cap)%nat -> yops_ok cf (ystart cf cap) ops ->
      exists y, yrun cf (ystart cf cap) ops = Some y /\ (room y -> forall fl decs, inflight_ok key_of fl ->
        exists y0 y1 before after, crash cf fl y = Some y0 /\ reopen cf decs y0 = Some y1 /\
          read_all key_of (st_db (y_st y)) = Some before /\ read_all key_of (st_db (y_st y1)) = Some after /\
          lists_table key_of (final key_of (st_hist (y_st y))) (fun _ => true) before /\
          lists_table key_of (final key_of (st_hist (y_st y) ++ survives key_of y fl)) (fun _ => true) after /\
          (survives key_of y fl = [] -> after = before)).
    Proof.
      intros HC HO. destruct (jinv_run ops _ (jinv_start cf cap HC) HO) as (y & E & HJ). exists y. split; auto. intros HR fl decs HF.
      destruct (crash_reopen y fl decs HJ HR HF) as (y0 & y1 & E0 & E1 & I1 & I2 & I3 & I4 & _).
      destruct (read_all_spec key_of row_bytes del_bytes (y_st y) (jinv_inv _ _ HJ)) as (before & B1 & B2). { destruct HR as (HR & _). lia. }
      destruct (read_all_spec key_of row_bytes del_bytes (y_st y1) I1 I4) as (after & A1 & A2). rewrite I3, I2 in A2.
      exists y0, y1, before, after. repeat (split; [assumption|]). intros ES. rewrite ES, app_nil_r in A2.
      eapply lists_table_unique; eauto.
    Qed.

    Lemma run_found cap ops : (1 <= cap)%nat -> yops_ok cf (ystart cf cap) ops ->
      exists y, yrun cf (ystart cf cap) ops = Some y /\
        forall c ms k o, In (c, ms) (st_hist (y_st y)) -> changes key_of ms k o ->
          in_tables key_of (st_horizon (y_st y)) (d_levels (st_db (y_st y))) k c o \/ in_log key_of (replayed y) k c o.
    Proof.
      intros HC HO. destruct (jinv_run ops _ (jinv_start cf cap HC) HO) as (y & E & HJ). exists y. split; auto. intros c ms k o. now apply found.
    Qed.

    Lemma run_over cap ops : (1 <= cap)%nat -> yops_ok cf (ystart cf cap) ops ->
      exists y, yrun cf (ystart cf cap) ops = Some y /\
        (room y -> forall l hint hint' decs decs' nid ts,
          Forall (fun t => t_id t < nid) (concat (d_levels (st_db (y_st y)))) ->
          (forall p t, logged l p t -> logged (records (y_log y)) p t) ->
          (forall p t, logged (replayed y) p t -> logged l p t \/
             forall k o, changes key_of (pay_changes p) k o -> in_tables key_of (st_horizon (y_st y)) (d_levels (st_db (y_st y))) k t o) ->
          st_horizon (y_st y) <= ts ->
          exists d d', recover_db key_of (m_capacity (d_mem (st_db (y_st y)))) (d_levels (st_db (y_st y))) nid (floor_of (y_refs y)) hint decs (replayed y) = Some d /\
            recover_db key_of (m_capacity (d_mem (st_db (y_st y)))) (d_levels (st_db (y_st y))) nid (floor_of (y_refs y)) hint' decs' l = Some d' /\
            (Forall (seg_safe ts) (d_imm d) -> Forall (seg_safe ts) (d_imm d') ->
             exists out, scan_all key_of ts d = Some out /\ scan_all key_of ts d' = Some out /\
               lists_table key_of (as_of key_of (st_hist (y_st y)) ts) (fun _ => true) out)).
    Proof.
      intros HC HO. destruct (jinv_run ops _ (jinv_start cf cap HC) HO) as (y & E & HJ). exists y. split; auto.
      intros HR l hint hint' decs decs' nid ts H1 H2 H3 H4.
      destruct (over_replay y hint decs (replayed y) nid ts) as (d & E1 & Q1); auto.
      { intros p t Hp. destruct (jv_mem _ _ HJ) as (M & Is & _ & _ & HD).
        destruct (frames_floor (y_log y) (y_refs y) (di_w _ _ _ _ _ _ _ _ HD) (di_refs _ _ _ _ _ _ _ _ HD)) as (pre & tg & ET & EF & HP).
        unfold replayed in Hp. rewrite EF, map_map in Hp. rewrite records_log. unfold log_recs. rewrite ET, map_app.
        apply logged_applied in Hp. apply logged_applied. pose proof (applied_ext (map rc pre) _ [] p t Hp) as X0. now rewrite app_nil_r in X0. }
      destruct (over_replay y hint' decs' l nid ts) as (d' & E2 & Q2); auto.
      exists d, d'. split; auto. split; auto. intros S1 S2. destruct (Q1 S1) as (out & O1 & O2). destruct (Q2 S2) as (out' & O3 & O4).
      exists out. split; auto. split; auto. rewrite O3. f_equal. symmetry. eapply lists_table_unique; eauto.
    Qed.

    (** *** Table identifiers *)
    Definition ids_below (y : sys K R) : Prop := Forall (fun i => i < d_next_id (st_db (y_st y))) (y_seen y).

    Lemma next_above seen : Forall (fun i => i + 1 < 2 ^ 64) seen -> Forall (fun i => i < next_id_of seen) seen.
    Proof.
      intros H. apply Forall_forall. intros i Hi. unfold next_id_of. destruct seen as [|i0 sn] eqn:ES; [destruct Hi|]. rewrite <- ES in *.
      assert (MX : In (fold_right N.max 0 seen) seen).
      { destruct (max_attained seen) as [E|E]; auto. rewrite E. pose proof (max_In _ _ Hi) as X. rewrite E in X. replace 0 with i by lia. exact Hi. }
      rewrite Forall_forall in H. specialize (H _ MX). rewrite sat1_small by auto. pose proof (max_In _ _ Hi). lia.
    Qed.

    (** Each step keeps the record of used identifiers, and the tables it adds have new ones. *)
    Lemma seen_step y o y' : jinv y -> ids_below y -> yop_ok cf y o -> ystep cf y o = Some y' -> jinv y' ->
      ids_below y' /\ (forall i, In i (y_seen y) -> In i (y_seen y')) /\
      (forall t, In t (concat (d_levels (st_db (y_st y')))) -> In t (concat (d_levels (st_db (y_st y)))) \/ ~ In (t_id t) (y_seen y)).
    Proof.
      intros HJ HB [HR HO] E HJ'.
      assert (STEP : forall o1, op_ok key_of (y_st y) o1 -> y_st y' = step key_of row_bytes del_bytes (y_st y) o1 ->
                (y_seen y' = y_seen y \/ y_seen y' = level_ids (d_levels (st_db (y_st y'))) ++ y_seen y) ->
                ids_below y' /\ (forall i, In i (y_seen y) -> In i (y_seen y')) /\
                (forall t, In t (concat (d_levels (st_db (y_st y')))) -> In t (concat (d_levels (st_db (y_st y)))) \/ ~ In (t_id t) (y_seen y))).
      { intros o1 HO1 E1 ES. destruct (step_tables key_of row_bytes del_bytes (y_st y) o1 (jinv_inv _ _ HJ) HO1) as [T1 T2]. rewrite <- E1 in T1, T2.
        destruct (jv_mem _ _ HJ') as (M & Is & HRP & _). unfold ids_below in *. rewrite Forall_forall in HB.
        assert (B : forall i, In i (y_seen y) -> i < d_next_id (st_db (y_st y'))) by (intros i Hi; specialize (HB i Hi); lia).
        split; [|split].
        - apply Forall_forall. intros i Hi. destruct ES as [ES|ES]; rewrite ES in Hi; auto. apply in_app_or in Hi as [Hi|Hi]; auto.
          unfold level_ids in Hi. apply in_map_iff in Hi as (t & <- & Ht). pose proof (rp_ids _ _ _ _ HRP) as X. rewrite Forall_forall in X. auto.
        - intros i Hi. destruct ES as [ES|ES]; rewrite ES; auto. apply in_or_app. auto.
        - intros t Ht. destruct (T2 t Ht) as [H|H]; auto. right. intros F. specialize (HB _ F). lia. }
      destruct o as [w dec n|level n|mc ch tk n| |fl decs]; cbn [ystep] in E.
      - destruct HO as [O1 O2].
        assert (OK : forall span, op_ok key_of (y_st y) (write_op w span dec)).
        { intros span. destruct w as [rows|rows|snap ms]; cbn [write_op op_ok write_ok] in *; auto.
          - intros (r & Hr & F). destruct O1 as [_ O1]. rewrite Forall_forall in O1. elim (O1 r Hr F).
          - destruct O1 as [O1 O3]. rewrite Forall_forall in O1. split; [|split; auto].
            + intros (r & Hr & F). unfold part_upserts in Hr. apply in_map_iff in Hr as (q & <- & Hq). apply filter_In in Hq as [Hq _]. elim (O1 q Hq F).
            + left. apply Forall_forall. intros q Hq _. auto. }
        unfold WalDb.write in E. destruct (recs _ _ _ _ _) as [|r0 l0].
        + inversion E; subst y'. apply (STEP (write_op w None dec)); auto.
        + destruct (enqueues _ _ _ _ _) as [[lg acks]|]; [|discriminate].
          destruct (match w, span_of acks with WCommit _ _, Some r => _ | _, _ => _ end) as [rf lg'] in E.
          inversion E; subst y'. apply (STEP (write_op w (span_of acks) dec)); auto.
      - inversion E; subst y'. apply (STEP (OFlush level)); [exact I| |].
        + unfold flush_sys. cbn [step]. destruct (flush key_of level (st_db (y_st y))) as [d' [|]]; reflexivity.
        + unfold flush_sys. destruct (flush key_of level (st_db (y_st y))) as [d' [|]]; [right|left]; reflexivity.
      - inversion E; subst y'. apply (STEP (OCompact mc ch tk)); [exact HO| |].
        + unfold compact_sys. destruct (snd _); reflexivity.
        + unfold compact_sys. destruct (snd _); cbn [y_seen y_st st_db]; auto.
      - destruct (rotate_now cf (y_log y)); [|discriminate]. inversion E; subst y'. cbn [y_st y_seen ids_below]. auto.
      - destruct HO as [O1 O2]. destruct (crash_reopen y fl decs HJ HR O1) as (y0 & y1 & E0 & E1 & _ & _ & _ & _ & _ & L1 & L2 & L3 & _).
        rewrite E0, E1 in E. inversion E; subst y'. unfold ids_below. rewrite L1, L2, L3. destruct HR as (_ & _ & _ & HR). split; [now apply next_above|auto].
    Qed.
    Lemma seen_run ops : forall y, jinv y -> ids_below y -> yops_ok cf y ops -> exists y', yrun cf y ops = Some y' /\ jinv y' /\ ids_below y' /\
      (forall i, In i (y_seen y) -> In i (y_seen y')) /\
      (forall t, In t (concat (d_levels (st_db (y_st y')))) -> In t (concat (d_levels (st_db (y_st y)))) \/ ~ In (t_id t) (y_seen y)).
    Proof.
      induction ops as [|o ops IH]; intros y HJ HB HO.
      - exists y. cbn. auto 8.
      - destruct HO as [O1 O2]. destruct (jinv_step y o HJ O1) as (y1 & E1 & J1). destruct (seen_step y o y1 HJ HB O1 E1 J1) as (B1 & B2 & B3).
        destruct (IH y1 J1 B1 (O2 y1 E1)) as (y2 & E2 & J2 & C1 & C2 & C3). exists y2. cbn [yrun]. rewrite E1. split; auto. split; auto. split; auto.
        split; auto. intros t Ht. destruct (C3 t Ht) as [H|H]; auto.
    Qed.
    Lemma yrun_app ops1 : forall y ops2, yrun cf y (ops1 ++ ops2) = match yrun cf y ops1 with Some y' => yrun cf y' ops2 | None => None end.
    Proof. induction ops1 as [|o ops1 IH]; intros y ops2; cbn; auto. destruct (ystep cf y o); auto. Qed.
    Lemma yops_ok_app ops1 : forall y ops2, yops_ok cf y (ops1 ++ ops2) -> yops_ok cf y ops1 /\ forall y', yrun cf y ops1 = Some y' -> yops_ok cf y' ops2.
    Proof.
      induction ops1 as [|o ops1 IH]; intros y ops2 H; cbn in *; [split; auto; intros y' E; now inversion E; subst|].
      destruct H as [H1 H2]. split.
      - split; auto. intros y' E. apply (IH y' ops2). auto.
      - intros y' E. destruct (ystep cf y o) as [y1|] eqn:E1; [|discriminate]. apply (IH y1 ops2); auto.
    Qed.
    Lemma run_ids cap ops1 ops2 : (1 <= cap)%nat -> yops_ok cf (ystart cf cap) (ops1 ++ ops2) ->
      exists y1 y2, yrun cf (ystart cf cap) ops1 = Some y1 /\ yrun cf (ystart cf cap) (ops1 ++ ops2) = Some y2 /\
        forall t t', In t (concat (d_levels (st_db (y_st y1)))) -> In t' (concat (d_levels (st_db (y_st y2)))) -> t_id t = t_id t' -> t = t'.
    Proof.
      intros HC HO. destruct (yops_ok_app ops1 _ ops2 HO) as [O1 O2]. assert (B0 : ids_below (ystart cf cap)) by constructor.
      destruct (seen_run ops1 _ (jinv_start cf cap HC) B0 O1) as (y1 & E1 & J1 & B1 & _).
      destruct (seen_run ops2 y1 J1 B1 (O2 y1 E1)) as (y2 & E2 & J2 & B2 & B3 & B4).
      exists y1, y2. split; auto. split; [rewrite yrun_app, E1; auto|]. intros t t' Ht Ht' E.
      destruct (B4 t' Ht') as [H|H].
      - destruct (jv_mem _ _ J1) as (M & Is & HRP & _). apply (same_id (concat (d_levels (st_db (y_st y1))))); auto. apply (rp_nodup _ _ _ _ HRP).
      - exfalso. apply H. rewrite <- E. apply (jv_seen _ _ J1 t Ht).
    Qed.

    (** *** Transaction identifiers *)
    Lemma run_prov cap ops : (1 <= cap)%nat -> yops_ok cf (ystart cf cap) ops ->
      exists y, yrun cf (ystart cf cap) ops = Some y /\
        (room y -> forall fl decs, inflight_ok key_of fl ->
         exists y0 y1, crash cf fl y = Some y0 /\ reopen cf decs y0 = Some y1 /\
           ((exists f i, last_frame (w_cur (y_log y0)) = Some f /\ tail_id (snd f) = Some i /\ i + 1 < 2 ^ 64) ->
            forall i p, dangling (records (y_log y0)) i p -> i < y_prov y1)).
    Proof.
      intros HC HO. destruct (jinv_run ops _ (jinv_start cf cap HC) HO) as (y & E & HJ). exists y. split; auto. intros HR fl decs HF.
      destruct (jinv_crash key_of row_bytes del_bytes size cf HNB HST y fl HJ HR HF) as (y0' & E0' & D0 & _).
      destruct (crash_reopen y fl decs HJ HR HF) as (y0 & y1 & E0 & E1 & _).
      assert (y0' = y0) by congruence. subst y0'. exists y0, y1. split; auto. split; auto.
      intros (f & i & L1 & L2 & L3) j p HD.
      assert (EP : y_prov y1 = i + 1).
      { unfold WalDb.reopen in E1. destruct (recover_db _ _ _ _ _ _ _ _); [|discriminate]. destruct (open _ _ _ _); [|discriminate]. inversion E1. cbn [y_prov].
        unfold open_prov. rewrite files_rev, L1, L2. now apply sat1_small. }
      rewrite EP. destruct (N.lt_ge_cases j (i + 1)) as [|L]; auto. exfalso.
      destruct D0 as (DD & _). destruct (last_tagged (y_log y0) f L1) as (pre' & EL').
      assert (X : since j (log_recs (y_log y0)) = []).
      { apply (di_tail _ _ _ _ _ _ _ _ DD (map rc pre') (snd f) i j); auto; [|lia]. unfold log_recs. rewrite EL', map_app. reflexivity. }
      destruct HD as (a & b & EL & U). rewrite records_log in EL.
      assert (Y : In p (since j (log_recs (y_log y0)))) by (apply since_In; exists a, b; auto). rewrite X in Y. destruct Y.
    Qed.

    (** *** Timestamps *)
    Lemma run_times cap ops : (1 <= cap)%nat -> yops_ok cf (ystart cf cap) ops ->
      exists y, yrun cf (ystart cf cap) ops = Some y /\
        StronglySorted (fun a b => fst a < fst b) (st_hist (y_st y)) /\ Forall (fun c => fst c < d_clock (st_db (y_st y))) (st_hist (y_st y)).
    Proof.
      intros HC HO. destruct (jinv_run ops _ (jinv_start cf cap HC) HO) as (y & E & HJ). exists y. split; auto. split; [|apply (jv_clock _ _ HJ)].
      apply (iv_inc _ _ (jinv_inv _ _ HJ)).
    Qed.
    Lemma run_write cap ops : (1 <= cap)%nat -> yops_ok cf (ystart cf cap) ops ->
      exists y, yrun cf (ystart cf cap) ops = Some y /\
        forall w dec n, room y -> Recover.write_ok key_of w -> mem_slots (st_db (y_st y)) ->
        exists y', write cf w dec n y = Some y' /\
          st_hist (y_st y') = st_hist (y_st y) ++
            match recs key_of (st_db (y_st y)) w (y_prov y) (d_clock (st_db (y_st y))) with [] => [] | _ => [(d_clock (st_db (y_st y)), wr_muts key_of w)] end.
    Proof.
      intros HC HO. destruct (jinv_run ops _ (jinv_start cf cap HC) HO) as (y & E & HJ). exists y. split; auto. intros w dec n HR HW HS.
      destruct (jinv_write key_of row_bytes del_bytes size cf HNB HST y w dec n HJ HR HW HS) as (y' & E' & _ & EH). exists y'. auto.
    Qed.
  End Conf.
End WalDbProps.
