(** Every operation of the database with its log keeps the invariant. *)
From Coq Require Import List NArith Bool Sorted Permutation Lia Arith.
From Verif Require Import Base.Order Model.OMap Model.KeyTs Model.MemTable Model.Immutable
     Model.SsTable Model.Version Model.Compact Model.Planner Model.Db Model.DbCompact Model.WalScan Model.Replay
     Model.WalWriter Spec.Mvcc Spec.Valid Spec.History Spec.ReplaySpec Model.Run Model.WalDb Spec.Recover
     Proof.OMapFacts Proof.MemFacts Proof.ViewFacts Proof.SstFacts Proof.MergeFacts Proof.ScanFacts Proof.VersionFacts Proof.HistFacts Proof.CompactFacts Proof.CompactLoop Proof.CompactOut Proof.DbFacts Proof.RunFacts Proof.Refine
     Proof.StorageProps Proof.ReplayFacts Proof.ReplayGen Proof.WriterFacts Proof.RecoverDb Proof.LogFacts Proof.WalDbInv Proof.WalDbRun.
Import ListNotations.
Local Arguments kcmp : simpl never.
Local Open Scope N_scope.

Section WalDbSteps.
  Context {K : Type} {KO : KeyOrd K} {R : Type}.
  Variable key_of : R -> option K.
  Variable row_bytes : R -> nat.
  Variable del_bytes : K -> nat.
  Variable size : rec K R -> N.
  Notation vers := (@vers K R).
  Notation tver := (tver key_of).
  Notation store := (store key_of).
  Notation rep := (rep key_of).
  Notation last_mut := (last_mut key_of).
  Notation rec := (rec K R).
  Notation pay := (pay K R).
  Notation hv := (hv key_of).
  Notation at_log := (at_log key_of).
  Notation dinv := (dinv key_of).
  Notation sstcov := (sstcov key_of).
  Notation inv := (inv key_of).

  Record jinv (y : sys K R) : Prop := {
    jv_mem : exists M Is, rep (st_db (y_st y)) M Is /\
      cover (st_horizon (y_st y)) (store M Is (d_levels (st_db (y_st y)))) (hv (st_hist (y_st y))) /\
      dinv (in_layer (st_db (y_st y)) M Is) (st_hist (y_st y)) (st_horizon (y_st y)) (d_levels (st_db (y_st y)))
           (y_log y) (y_refs y) (y_ids y);
    jv_clock : Forall (fun c => fst c < d_clock (st_db (y_st y))) (st_hist (y_st y));
    jv_hz : st_horizon (y_st y) <= d_clock (st_db (y_st y)) - 1;
    jv_rng : length (d_iranges (st_db (y_st y))) = length (d_imm (st_db (y_st y)));
    jv_fresh : forall j, y_prov y <= j -> since j (log_recs (y_log y)) = [];
    jv_st : ws_commit (w_state (y_log y)) = ws_commit (w_disk (y_log y));
    jv_hint : d_imm (st_db (y_st y)) <> [] -> forall c, In c (st_hist (y_st y)) ->
      exists t, ws_commit (w_disk (y_log y)) = Some t /\ fst c <= t;
    jv_seen : forall t, In t (concat (d_levels (st_db (y_st y)))) -> In (t_id t) (y_seen y)
  }.

  Lemma jinv_inv y : jinv y -> inv (y_st y).
  Proof.
    intros [(M & Is & HR & HC & HD) H2 H3 H4 H5 H6 H7 H8]. constructor; auto.
    - exists M, Is. auto.
    - apply (di_inc _ _ _ _ _ _ _ _ HD).
  Qed.

  (** *** Writing *)
  Lemma apply_parts_slot d0 M Is c ups (ks : list K) : rep d0 M Is -> mem_slots d0 -> Forall (fun r => key_of r <> None) ups ->
    exists m', apply_parts key_of ups (map Some ks) c d0 = (set_mem d0 m', true) /\
      rep (set_mem d0 m') (ins_muts key_of (map Put ups ++ map Del ks) c M) Is.
  Proof.
    intros HR0 [G1 G2] HU. unfold apply_parts.
    assert (P1 : exists m1, (match ups with [] => (d0, true) | _ => put_rows key_of ups c d0 end) = (set_mem d0 m1, true) /\
                  rep (set_mem d0 m1) (ins_muts key_of (map Put ups) c M) Is /\
                  (length (m_deletes m1) < m_capacity m1)%nat).
    { destruct ups as [|u us] eqn:EU.
      - exists (d_mem d0). split; [destruct d0; reflexivity|]. split; [|exact G2]. destruct d0; exact HR0.
      - destruct (put_rows_slot key_of d0 M Is c (u :: us) HR0 HU G1) as (m1 & E1 & E2 & E3 & E4). exists m1. split; auto. split; auto.
        rewrite E3, E4. exact G2. }
    destruct P1 as (m1 & E1 & R1 & G3). rewrite E1. cbn [seq2].
    assert (EMS : ins_muts key_of (map Put ups ++ map Del ks) c M = ins_muts key_of (map Del ks) c (ins_muts key_of (map Put ups) c M))
      by (unfold ins_muts; now rewrite fold_left_app).
    rewrite EMS. destruct ks as [|k ks'].
    - exists m1. split; auto.
    - cbn [map]. change (Some k :: map Some ks') with (map Some (k :: ks')).
      destruct (put_deletes_slot key_of (set_mem d0 m1) _ Is c (k :: ks') R1 G3) as (m2 & E2 & R2). rewrite E2.
      exists m2. split; auto.
  Qed.

  Lemma mem_step d M Is ups (ks : list K) (span : frame_range) dec : rep d M Is -> length (d_iranges d) = length (d_imm d) ->
    mem_slots d -> d_clock d + 1 < 2 ^ 64 -> Forall (fun r => key_of r <> None) ups ->
    let ms := map Put ups ++ map Del ks in
    (forall w m, In w M -> In m ms -> ~ hits key_of (d_clock d) m (fst w)) ->
    exists d' M' Is',
      seq2 (apply_parts key_of ups (map Some ks) (d_clock d) (observe_range (Some span) (tick d))) (maybe_seal key_of dec) = (d', true) /\
      rep d' M' Is' /\ d_levels d' = d_levels d /\ d_clock d' = d_clock d + 1 /\ d_next_id d' = d_next_id d /\
      length (d_iranges d') = length (d_imm d') /\
      (forall v ls, In v (store M' Is' ls) <-> In v (store M Is ls) \/ last_mut (d_clock d) ms v) /\
      (forall v s, in_layer d M Is v s \/ (last_mut (d_clock d) ms v /\ fst span <= s) -> in_layer d' M' Is' v s).
  Proof.
    intros HR HL HSL HC HU ms HF. set (c := d_clock d) in *. set (d0 := observe_range (Some span) (tick d)).
    assert (HR0 : rep d0 M Is) by (apply rep_tick; auto).
    destruct (tick_rest d (Some span) HC) as (T1 & T2 & T3). fold d0 in T1, T2, T3.
    destruct (apply_parts_slot d0 M Is c ups ks HR0) as (m' & E1 & R1); auto. fold ms in R1.
    rewrite E1. cbn [seq2].
    assert (HM : forall v, In v (ins_muts key_of ms c M) <-> In v M \/ last_mut c ms v).
    { intros v. apply no_hits_In; auto. apply (rp_mem _ _ _ _ HR). }
    set (M1 := ins_muts key_of ms c M) in *. set (d1 := set_mem d0 m') in *.
    assert (ER : exists r, d_mrange d1 = Some r /\ fst r <= fst span /\ (forall e, d_mrange d = Some e -> fst r <= fst e)).
    { unfold d1, d0. cbn. destruct (d_mrange d) as [e|]; eexists; (split; [reflexivity|]); cbn; split; try lia; intros e' E; inversion E; subst; lia. }
    destruct ER as (r & ER1 & ER2 & ER3).
    assert (EI : d_iranges d1 = d_iranges d) by reflexivity.
    assert (EIM : d_imm d1 = d_imm d) by reflexivity.
    assert (LY : forall v s, in_layer d M Is v s \/ (last_mut c ms v /\ fst span <= s) -> in_layer d1 M1 Is v s).
    { intros v s [(e & L & [[H1 H2]|H])|[H1 H2]].
      - exists r. split; [specialize (ER3 e H2); lia|]. left. split; auto. apply HM. auto.
      - exists e. split; auto.
      - exists r. split; [lia|]. left. split; auto. apply HM. auto. }
    assert (DONE : exists d' M' Is', (d1, true) = (d', true) /\
      rep d' M' Is' /\ d_levels d' = d_levels d /\ d_clock d' = c + 1 /\ d_next_id d' = d_next_id d /\
      length (d_iranges d') = length (d_imm d') /\
      (forall v ls, In v (store M' Is' ls) <-> In v (store M Is ls) \/ last_mut c ms v) /\
      (forall v s, in_layer d M Is v s \/ (last_mut c ms v /\ fst span <= s) -> in_layer d' M' Is' v s)).
    { exists d1, M1, Is. split; auto. split; auto. split; auto. split; auto. split; auto. split; [now rewrite EI, EIM|].
      split; auto. intros v ls. rewrite !store_In, HM. tauto. }
    unfold maybe_seal. destruct dec; [|exact DONE]. unfold seal_now.
    rewrite (seal_repr key_of _ _ (rp_mem _ _ _ _ R1)). destruct M1 as [|a M0] eqn:EM; [exact DONE|]. rewrite <- EM in *. clear DONE.
    assert (NE : M1 <> []) by (rewrite EM; discriminate).
    pose proof R1 as [HM1 HI1 HG1 HS1 HD1 HN1 HC1].
    exists (add_immutable d1 (mem_new (m_capacity (d_mem d1))) (seg_of M1)), [], (Is ++ [M1]).
    split; [auto|]. split; [|split; [auto|split; [auto|split; [auto|split; [|split]]]]].
    - constructor; cbn [add_immutable d_mem d_imm d_levels d_next_id]; auto.
      + apply mem_new_repr.
      + now rewrite HI1, map_app.
      + apply Forall_app. split; auto. constructor; auto. eapply good_of; eauto.
    - cbn [add_immutable d_iranges d_imm]. rewrite !app_length, EI, EIM, HL. reflexivity.
    - intros v ls. rewrite !store_In, concat_app, in_app_iff. cbn [concat]. rewrite app_nil_r, HM. cbn. tauto.
    - intros v s H. apply LY in H as (e & L & H). exists e. split; auto. right. cbn [add_immutable d_iranges].
      assert (LEN : length (d_iranges d1) = length Is) by (rewrite EI, HL, <- EIM, HI1, map_length; reflexivity).
      destruct H as [[H1 H2]|(k & I & H1 & H2 & H3)].
      + exists (length Is), M1. split; [rewrite nth_error_app2, Nat.sub_diag by lia; reflexivity|]. split; auto.
        rewrite nth_error_app2, LEN, Nat.sub_diag by lia. cbn [nth_error]. now rewrite H2.
      + exists k, I. split; [rewrite nth_error_app1; auto; apply nth_error_Some; congruence|]. split; auto.
        rewrite nth_error_app1; auto. apply nth_error_Some. congruence.
  Qed.

  Lemma span_fold l : forall m r, fst r <= m -> fst (fold_left range_extend (@acks_of rec m l) r) = fst r.
  Proof.
    induction l as [|a l IH]; intros m r H; cbn [acks_of fold_left]; auto. rewrite IH; cbn; lia.
  Qed.
  Lemma span_first (l : list rec) n : l <> [] -> exists r, span_of (acks_of n l) = Some r /\ fst r = n.
  Proof.
    destruct l as [|a l]; [congruence|]. intros _. cbn [acks_of span_of]. eexists. split; [reflexivity|]. rewrite span_fold; cbn; lia.
  Qed.

  Lemma live_floor_le (d : db K R) r : d_mrange d = Some r \/ In (Some r) (d_iranges d) ->
    exists lf, live_floor d = Some lf /\ lf <= fst r.
  Proof.
    unfold live_floor.
    assert (G : forall l m, (exists x, m = Some x /\ x <= fst r) \/ In (Some r) l ->
      exists lf, fold_left (fun m r0 => match m, r0 with Some a, Some b => Some (N.min a (fst b)) | None, Some b => Some (fst b) | m0, None => m0 end)
                   l m = Some lf /\ lf <= fst r).
    { induction l as [|x l IH]; intros m [H|H]; cbn [fold_left].
      - exact H.
      - destruct H.
      - apply IH. left. destruct H as (z & -> & L). destruct x as [b|]; eexists; (split; [reflexivity|]); lia.
      - apply IH. destruct H as [->|H]; auto. left. destruct m; eexists; (split; [reflexivity|]); lia. }
    intros [H|H]; apply G; [left|right; auto]. rewrite H. cbn. eexists. split; [reflexivity|]. lia.
  Qed.

  Lemma cover_write hz (S S' : list vers) h c ms : cover hz S (hv h) ->
    (forall v, In v S' <-> In v S \/ last_mut c ms v) -> cover hz S' (hv (h ++ [(c, ms)])).
  Proof.
    intros [C1 C2] HV.
    assert (HH : forall v, In v (hv (h ++ [(c, ms)])) <-> In v (hv h) \/ last_mut c ms v).
    { intros v. rewrite hv_app, in_app_iff, (hv_In key_of [(c, ms)]). cbn. split.
      - intros [H|(x & [<-|[]] & H)]; auto.
      - intros [H|H]; auto. right. exists (c, ms). auto. }
    split.
    - intros v Hv. apply HH. apply HV in Hv as [Hv|Hv]; auto.
    - intros v Hv. apply HH in Hv as [Hv|Hv]; [|left; apply HV; auto].
      destruct (C2 v Hv) as [H|(w & W1 & W2)]; [left; apply HV; auto|]. right. exists w. split; auto. apply HV; auto.
  Qed.

  Lemma last_commit_app (a b : list rec) t : last_commit commit_of (a ++ b) t = last_commit commit_of b (last_commit commit_of a t).
  Proof. unfold last_commit. apply fold_left_app. Qed.
  Lemma last_commit_none (a : list rec) t : no_commit a -> last_commit commit_of a t = t.
  Proof.
    unfold last_commit. revert t. induction a as [|x a IH]; intros t H; cbn [fold_left]; auto. rewrite IH.
    - destruct x; cbn; auto. exfalso. eapply H. cbn; eauto.
    - intros i s Hs. apply (H i s). cbn; auto.
  Qed.
  Lemma last_commit_txn b0 id (ps : list pay) c t : b0 = [] \/ b0 = [RBegin id] ->
    last_commit commit_of (b0 ++ map (RPay id) ps ++ [RCommit id c]) t = Some c.
  Proof. intros _. rewrite app_assoc, last_commit_app. reflexivity. Qed.

  Section Conf.
    Variable cf : wconf.
    Hypothesis HNB : c_retention cf = None.
    Hypothesis HST : c_state cf = true.

    Lemma rc_number (newt : list (N * frame rec)) n (l : list rec) : map snd newt = number n l -> map rc newt = l.
    Proof. intros E. transitivity (map snd (map snd newt)); [symmetry; apply map_map|]. rewrite E. apply number_snd. Qed.

    Lemma jinv_write y w dec n : jinv y -> room y -> write_ok key_of w -> mem_slots (st_db (y_st y)) ->
      exists y', write key_of row_bytes del_bytes size cf w dec n y = Some y' /\ jinv y' /\
        st_hist (y_st y') = st_hist (y_st y) ++
          match recs key_of (st_db (y_st y)) w (y_prov y) (d_clock (st_db (y_st y))) with [] => [] | _ => [(d_clock (st_db (y_st y)), wr_muts key_of w)] end.
    Proof.
      intros HJ (HC1 & HC2 & HC3 & HC4) HW HSL. set (d := st_db (y_st y)) in *. set (id := y_prov y) in *.
      unfold write. fold d id. destruct (call_of key_of row_bytes del_bytes d w id HW) as [(ups & ks & HCL)|[E1 E2]].
      2:{ rewrite E1. eexists. split; [reflexivity|]. cbn [y_st st_hist]. rewrite (E2 (y_st y)) by reflexivity. cbn [st_hist]. split; [|now rewrite app_nil_r].
          destruct HJ. constructor; auto. }
      pose proof HCL as [K1 K2 K3 K4 K5 K6 K7]. set (c := d_clock d) in *. destruct (K6 c) as (b0 & ER & HB0).
      destruct (part_pays_spec key_of ups ks c K1 K2) as (Q1 & Q2 & Q3 & Q4). specialize (Q4 K3). set (ps := part_pays ups (map Some ks) c) in *.
      destruct (recs key_of d w id c) as [|r0 l0] eqn:EL; [exfalso; destruct b0; [destruct ps; discriminate|discriminate]|].
      set (l := r0 :: l0) in *. rewrite <- EL in *.
      assert (LEN : (length l <= 4)%nat).
      { rewrite <- EL, ER, !app_length, map_length. cbn [length]. destruct HB0 as [->| ->]; cbn [length]; lia. }
      destruct (jv_mem _ HJ) as (M & Is & HR & HCV & HD). fold d in HR, HCV, HD.
      set (h := st_hist (y_st y)) in *. set (hz := st_horizon (y_st y)) in *. set (lg := y_log y) in *.
      destruct (enqueues_ext size (@commit_of K R) cf HNB l lg (di_w _ _ _ _ _ _ _ _ HD)) as (lg' & newt & EE & W1 & W2 & W3 & W4 & W5 & W6 & W7 & W8 & W9); [lia|lia|].
      rewrite EL, EE. destruct (span_first l (w_next lg)) as (sp & ES & EF); [discriminate|]. rewrite ES.
      pose proof (K7 (y_st y) (Some sp) dec eq_refl) as STEP. rewrite STEP. clear STEP.
      assert (FRESH : forall x m, In x M -> In m (map Put ups ++ map Del ks) -> ~ hits key_of (d_clock d) m (fst x)).
      { intros x m Hx Hm. apply (mem_fresh key_of (y_st y) M Is (jinv_inv _ HJ) HCV _ x m Hx Hm). }
      destruct (mem_step d M Is ups ks sp (match w with WCommit _ _ => false | _ => dec end) HR (jv_rng _ HJ) HSL HC1 K1 FRESH)
        as (d' & M' & Is' & E1 & R1 & L1 & L2 & L3 & L4 & L5 & L6). fold c in E1, L2, L5, L6.
      rewrite E1.
      assert (EA : ack (y_st y) (wr_muts key_of w) (d', true) = mkSt d' (h ++ [(c, wr_muts key_of w)]) hz).
      { unfold ack. cbn. destruct (wr_muts key_of w); [congruence|reflexivity]. }
      rewrite EA. set (ms := wr_muts key_of w) in *. set (h' := h ++ [(c, ms)]) in *.
      pose proof (rc_number _ _ _ W3) as ERC. rewrite <- EL, ER in ERC.
      assert (WS : ws_commit (w_disk lg') = Some c).
      { rewrite W9 by (auto; discriminate). rewrite W8, <- EL, ER. now apply last_commit_txn. }
      assert (HDN : dinv (fun v s => in_layer d M Is v s \/ (last_mut c ms v /\ w_next lg <= s)) h' hz (d_levels d) lg' (y_refs y) (y_ids y)).
      { eapply dinv_txn; eauto.
        - apply (jv_fresh _ HJ).
        - intros t Ht. apply (in_map snd) in Ht. rewrite W3 in Ht. now apply number_fst in Ht.
        - apply (jv_clock _ HJ).
        - intros v. rewrite <- (K5 c). apply Q2. }
      assert (LAY : forall v s, in_layer d M Is v s \/ (last_mut c ms v /\ w_next lg <= s) -> in_layer d' M' Is' v s).
      { intros v s H. apply L6. rewrite EF, (K5 c). exact H. }
      assert (FR' : forall j, id + 1 <= j -> since j (log_recs lg') = []).
      { intros j Hj. rewrite (log_recs_ext _ _ _ W2), ERC, (since_other j id); [apply (jv_fresh _ HJ); unfold id in *; lia| |lia]. now apply new_of_id. }
      assert (HLT : Forall (fun x => fst x < c) h) by apply (jv_clock _ HJ).
      (* what remains: any log and references that keep the durable part *)
      assert (FIN : forall lg'' refs'' pre, log_recs lg' = pre ++ log_recs lg'' -> w_state lg'' = w_state lg' -> w_disk lg'' = w_disk lg' ->
                dinv (in_layer d' M' Is') h' hz (d_levels d) lg'' refs'' (y_ids y) ->
                jinv (mkSys (mkSt d' h' hz) lg'' refs'' (y_ids y) (y_seen y) (id + 1))).
      { intros lg'' refs'' pre EP ES' ED' HDD. constructor; cbn [y_st st_db st_hist st_horizon y_log y_refs y_ids y_seen y_prov]; auto.
        - exists M', Is'. rewrite L1. split; auto. split; auto. apply (cover_write hz (store M Is (d_levels d))); auto.
          intros v. rewrite L5, (K5 c). tauto.
        - rewrite L2. apply Forall_app. split; [|repeat constructor; cbn; lia]. eapply Forall_impl; [|exact HLT]. intros x Hx. cbn in Hx. lia.
        - pose proof (jv_hz _ HJ) as X. fold d c hz in X. rewrite L2. lia.
        - intros j Hj. apply (since_suffix j pre). rewrite <- EP. auto.
        - rewrite ES', ED'. now rewrite W9 by (auto; discriminate).
        - intros _ x Hx. exists c. rewrite ED'. split; auto. apply in_app_or in Hx as [Hx|[<-|[]]]; [|cbn; lia].
          rewrite Forall_forall in HLT. specialize (HLT x Hx). cbn in HLT. lia.
        - rewrite L1. apply (jv_seen _ HJ). }
      assert (PLAIN : jinv (mkSys (mkSt d' h' hz) lg' (y_refs y) (y_ids y) (y_seen y) (id + 1))).
      { apply (FIN lg' (y_refs y) []); auto. eapply dinv_mono; [|exact HDN]. intros v s _. apply LAY. }
      destruct w as [rows|rows|snap mm]; try (eexists; split; [reflexivity|split; [exact PLAIN|reflexivity]]).
      assert (EB : Nat.ltb (length h) (length (st_hist (mkSt d' h' hz))) = true).
      { apply Nat.ltb_lt. cbn [st_hist]. unfold h'. rewrite app_length. cbn. lia. }
      rewrite EB, EF. unfold finalize. set (live := match live_floor d with Some p => N.min p (w_next lg) | None => w_next lg end).
      destruct (seg_refs _ (Some live) (w_files lg')) as [|rf0 rfs] eqn:ERF; [eexists; split; [reflexivity|split; [exact PLAIN|reflexivity]]|].
      rewrite <- ERF. set (refs' := seg_refs (option_map r_seq (floor_of (y_refs y))) (Some live) (w_files lg')) in *.
      eexists. split; [reflexivity|]. split; [|reflexivity].
      destruct (prune_spec (floor_of refs') n lg' W1) as (a & EFI & _ & _ & _ & _ & _ & _ & ESS & EDD).
      apply (FIN _ refs' (map rc (tagged a))); auto.
      { unfold log_recs. rewrite EFI at 1. now rewrite tagged_app, map_app. }
      assert (FOK : fok (w_files lg')) by apply (wi_files _ W1).
      eapply (dinv_publish key_of); [exact HDN| | | | |].
      - split; [apply seg_refs_sorted, (fo_segs _ FOK)|]. intros r Hr. eapply seg_refs_on; exact Hr.
      - apply (di_ids _ _ _ _ _ _ _ _ HDN).
      - apply (di_hz _ _ _ _ _ _ _ _ HDN).
      - intros v Hv. destruct (di_dur _ _ _ _ _ _ _ _ HDN v Hv) as [H|(q & s & A1 & A2 & A3)]; [left; exact H|right].
        exists q, s. split; auto. split; [|apply LAY; exact A3].
        destruct (at_log_In key_of _ v q s A1) as (x & Hx).
        eapply loc_live; [exact FOK|exact Hx| |apply (lo_ids _ _ _ A2)].
        unfold live. destruct A3 as [(r & Hr & A3)|[_ A3]]; [|destruct (live_floor d); lia].
        destruct (live_floor_le d r) as (lf & LF1 & LF2).
        { destruct A3 as [[_ A3]|(k & I & _ & _ & A3)]; [auto|right]. eapply nth_error_In; eauto. }
        rewrite LF1. lia.
      - intros x Hx. right. exists c. split; auto. apply in_app_or in Hx as [Hx|[<-|[]]]; [|cbn; lia].
        rewrite Forall_forall in HLT. specialize (HLT x Hx). cbn in HLT. lia.
    Qed.

    (** *** Rotation *)
    Lemma jinv_rotate y : jinv y -> room y ->
      exists y', ystep key_of row_bytes del_bytes size cf y YRotate = Some y' /\ jinv y' /\ st_hist (y_st y') = st_hist (y_st y).
    Proof.
      intros HJ (HC1 & HC2 & HC3 & HC4). destruct (jv_mem _ HJ) as (M & Is & HR & HCV & HD).
      destruct (rotate_now_ext cf HNB (y_log y) (di_w _ _ _ _ _ _ _ _ HD)) as (lg' & E & W1 & W2 & W3 & W4 & W5 & W6 & W7); [lia|].
      cbn [ystep]. rewrite E. eexists. split; [reflexivity|]. split; [|reflexivity].
      assert (EW : ws_commit (w_disk lg') = ws_commit (w_disk (y_log y))).
      { destruct W7 as [->| ->]; auto. rewrite W6. apply (jv_st _ HJ). }
      assert (EL : log_recs lg' = log_recs (y_log y)).
      { rewrite (log_recs_ext _ _ _ W2). cbn. now rewrite app_nil_r. }
      destruct HJ as [J1 J2 J3 J4 J5 J6 J7 J8]. constructor; cbn [y_st y_log y_refs y_ids y_seen y_prov]; auto.
      - exists M, Is. split; auto. split; auto. eapply (dinv_part key_of) with (newt := []) (id := y_prov y); eauto.
        + intros i t [].
        + constructor.
      - rewrite EL. auto.
      - rewrite W6, EW. auto.
      - rewrite EW. auto.
    Qed.

    (** *** Flush *)
    Lemma flush_tables level d M Is : rep d M Is -> Is <> [] ->
      exists d', flush key_of level d = (d', true) /\ rep d' M [] /\ d_clock d' = d_clock d /\ d_mrange d' = d_mrange d /\
        d_imm d' = [] /\ d_iranges d' = skipn (length (d_imm d)) (d_iranges d) /\
        (forall v, In v (flat_map tver (concat (d_levels d'))) <-> In v (concat Is) \/ In v (flat_map tver (concat (d_levels d)))).
    Proof.
      intros HR HIs. destruct (flush_spec key_of level d M Is HR) as (d' & Is' & ok & E & R' & EC & _ & _ & HOK). destruct (HOK HIs) as [-> ->].
      exists d'. split; auto. split; auto. split; auto.
      pose proof HR as [HM HI HG HS HD HN HC]. unfold flush in E. rewrite HI in E. destruct Is as [|A Is]; [congruence|].
      cbn [map] in E. change (seg_of A :: map seg_of Is) with (map seg_of (A :: Is)) in E.
      destruct (write_flush_repr key_of (d_next_id d) (A :: Is) HG) as (t & D & X & E1 & E2 & E3 & E4 & E5 & E6); [discriminate|].
      rewrite E1 in E. inversion E; subst d'. clear E. cbn [d_mrange d_imm d_iranges d_levels]. split; auto. split; auto. split; [now rewrite HI|].
      set (B := A :: Is) in *. set (ls' := tidy (@t_id K R) (add_ssts (@t_id K R) level [t] (d_levels d))) in *.
      assert (HP : Permutation (concat ls') (t :: concat (d_levels d))).
      { unfold ls'. etransitivity; [apply tidy_perm|]. apply (add_ssts_perm (@t_id K R) level [t]).
        - repeat constructor. simpl; tauto.
        - intros e [<-|[]]. rewrite E2. eapply ids_bound; eauto. lia. }
      assert (HO : sst_ok key_of t (concat B)).
      { exists D, X. split; auto. split; auto. intros v. symmetry. apply E4. }
      destruct (sst_ok_tok key_of t (concat B) HO) as [T1 T2].
      { inversion HG as [|x l (_ & _ & HA) HX EX]. unfold B. simpl. destruct A; [exfalso; apply HA; reflexivity|discriminate]. }
      intros v. rewrite <- T1, <- in_app_iff. change (tver t ++ flat_map tver (concat (d_levels d))) with (flat_map tver (t :: concat (d_levels d))).
      split; intros H; (eapply Permutation_in; [|exact H]); apply Permutation_flat_map; auto using Permutation_sym.
    Qed.

    Lemma jinv_flush y level n : jinv y ->
      jinv (flush_sys key_of level n y) /\ st_hist (y_st (flush_sys key_of level n y)) = st_hist (y_st y).
    Proof.
      intros HJ. destruct (jv_mem _ HJ) as (M & Is & HR & HCV & HD). unfold flush_sys.
      set (d := st_db (y_st y)) in *. set (h := st_hist (y_st y)) in *. set (hz := st_horizon (y_st y)) in *. set (lg := y_log y) in *.
      pose proof (rp_imm _ _ _ _ HR) as EI.
      destruct Is as [|A Is0].
      { cbn [map] in EI. unfold flush. rewrite EI. cbn [y_st st_hist]. split; auto. destruct HJ. constructor; auto. }
      set (Is := A :: Is0) in *.
      destruct (flush_tables level d M Is HR) as (d' & E & R' & EC & EM & EI' & ERG & HT); [discriminate|]. rewrite E. cbn [y_st st_hist].
      split; [|reflexivity]. set (cut := option_map r_seq (floor_of (y_refs y))). set (refs := seg_refs cut (option_map fst (d_mrange d)) (w_files lg)).
      assert (W : winv lg) by apply (di_w _ _ _ _ _ _ _ _ HD).
      assert (FOK : fok (w_files lg)) by apply (wi_files _ W).
      assert (NE : d_imm d <> []) by (rewrite EI; discriminate).
      destruct (prune_spec (floor_of refs) n lg W) as (a & EFI & _ & _ & _ & _ & _ & _ & ESS & EDD).
      constructor; cbn [y_st st_db st_hist st_horizon y_log y_refs y_ids y_seen y_prov].
      - exists M, []. split; auto. split.
        + destruct HCV as [C1 C2].
          assert (ST : forall v, In v (store M [] (d_levels d')) <-> In v (store M Is (d_levels d))).
          { intros v. assert (~ In v (concat [])) by (intros []). rewrite !store_In, HT. tauto. }
          split; [intros v Hv; apply C1, ST, Hv|]. intros v Hv. destruct (C2 v Hv) as [H|(w & W1 & W2)]; [left; apply ST; auto|right; exists w; split; auto; apply ST; auto].
        + eapply (dinv_publish key_of); [exact HD| | | | |].
          * split; [apply seg_refs_sorted, (fo_segs _ FOK)|]. intros r Hr. eapply seg_refs_on; exact Hr.
          * intros t I x [Ht|Ht] Hx; [|eapply (di_ids _ _ _ _ _ _ _ _ HD); eauto]. inversion Ht as [[E1 E2]]. clear Ht.
            assert (I = map r_seq refs) as -> by (destruct refs; [discriminate|inversion E2; auto]).
            apply in_map_iff in Hx as (r & <- & Hr). apply ref_le; auto. eapply seg_refs_on; exact Hr.
          * apply (di_hz _ _ _ _ _ _ _ _ HD).
          * intros v Hv. destruct (di_dur _ _ _ _ _ _ _ _ HD v Hv) as [[H|(w & W1 & W2)]|(q & s & A1 & A2 & A3)].
            -- left. left. apply HT. auto.
            -- left. right. exists w. split; auto. apply HT. auto.
            -- destruct A3 as (r & Hr & [[A3 A4]|(k & I & A3 & A4 & _)]).
               ++ right. exists q, s. split; auto. destruct (at_log_In key_of _ v q s A1) as (x & Hx).
                  assert (QI : In q (map r_seq refs)) by (unfold refs; rewrite A4; cbn [option_map]; eapply seg_refs_live; eauto).
                  split.
                  ** unfold refs. rewrite A4. cbn [option_map]. eapply loc_live; [exact FOK|exact Hx|exact Hr|].
                     intros t I x' [Ht|Ht] Hx' L; [|eapply (lo_ids _ _ _ A2); eauto]. inversion Ht as [[E1 E2]]. clear Ht.
                     unfold refs in QI. rewrite A4 in *. cbn [option_map] in *.
                     destruct (seg_refs cut (Some (fst r)) (w_files lg)); [discriminate|inversion E2; auto].
                  ** exists r. split; auto. left. rewrite EM. auto.
               ++ left. left. apply HT. left. apply in_concat. exists I. split; auto. eapply nth_error_In; eauto.
          * intros c Hc. right. apply (jv_hint _ HJ NE c Hc).
      - rewrite EC. apply (jv_clock _ HJ).
      - rewrite EC. apply (jv_hz _ HJ).
      - rewrite ERG, EI', skipn_length. pose proof (jv_rng _ HJ). fold d in H. cbn. lia.
      - intros j Hj. apply (since_suffix j (map rc (tagged a))). 
        replace (map rc (tagged a) ++ log_recs (prune (floor_of refs) n lg)) with (log_recs lg); [apply (jv_fresh _ HJ j Hj)|].
        unfold log_recs. rewrite EFI at 1. now rewrite tagged_app, map_app.
      - rewrite ESS, EDD. apply (jv_st _ HJ).
      - rewrite EI'. congruence.
      - intros t Ht. apply in_or_app. left. unfold level_ids. now apply in_map.
    Qed.

    (** *** Compaction *)
    Lemma max_attained l : fold_right N.max 0 l = 0 \/ In (fold_right N.max 0 l) l.
    Proof. induction l as [|a l IH]; cbn; auto. destruct (N.max_spec a (fold_right N.max 0 l)) as [[_ ->]|[_ ->]]; tauto. Qed.

    Lemma compact_keep d M Is mc ch tk h d' : rep d M Is ->
      (forall l t, In (l, t_id t) (tk_input tk) -> In t (concat (d_levels d)) -> faithful ch t) ->
      increasing h -> (forall v, In v (flat_map tver (concat (d_levels d))) -> In v (hv h)) ->
      compact key_of row_bytes del_bytes mc ch tk d = (d', true) ->
      rep d' M Is /\
      (forall v, In v (flat_map tver (concat (d_levels d'))) -> In v (flat_map tver (concat (d_levels d)))) /\
      (forall v, In v (flat_map tver (concat (d_levels d))) -> In v (flat_map tver (concat (d_levels d'))) \/
         exists w, In w (flat_map tver (concat (d_levels d'))) /\ same_key (vkey w) (vkey v) /\ vts v < vts w /\ vts w <= newest_input d tk) /\
      (newest_input d tk = 0 \/ exists v, In v (flat_map tver (concat (d_levels d))) /\ vts v = newest_input d tk).
    Proof.
      intros HR HF HI HV E. destruct (compact_spec key_of row_bytes del_bytes d M Is mc ch tk HR HF) as (d2 & changed & E' & R' & _ & _ & _ & _ & _ & Y1 & _).
      rewrite E in E'. inversion E'; subst d2 changed. clear E'. split; auto.
      destruct (Y1 eq_refl) as (ins & outs & Bs & ER & TL & E2 & E4 & E3 & _ & P1 & P2 & _).
      assert (NI : forall p, In p ins -> forall v, In v (tver (snd p)) -> vts v <= newest_input d tk).
      { intros p Hp v Hv. destruct (P1 p Hp) as [Q1 Q2]. apply max_In. apply in_flat_map. exists (snd p). split; [|eapply tver_ts; eauto].
        apply filter_In. split; auto. now apply VersionFacts.mem_id_In. }
      assert (OV : forall v, In v (flat_map tver outs) <-> In v (concat Bs)).
      { intros v. clear - E2. induction E2 as [|a B l Bs H E2 IH]; simpl; [tauto|].
        destruct H as (H1 & _ & _ & _ & H2). destruct (sst_ok_tok key_of a B H1 H2) as [H3 _].
        rewrite !in_app_iff, H3, IH. tauto. }
      destruct E3 as (M1 & M2 & M3).
      split; [|split].
      - intros v Hv. apply in_flat_map in Hv as (t & Ht & Hv). apply TL in Ht as [Ht|[Ht _]].
        + assert (HB : In v (concat Bs)) by (apply OV, in_flat_map; eauto).
          destruct (M2 v HB) as [HB1 _]. apply in_flat_map in HB1 as (p & Hp & HB1). apply in_flat_map. exists (snd p). split; auto. now apply P1.
        + apply in_flat_map. eauto.
      - intros v Hv0. pose proof Hv0 as Hv. apply in_flat_map in Hv as (t & Ht & Hv).
        destruct (in_dec N.eq_dec (t_id t) (map snd (tk_input tk))) as [Hid|Hid].
        + destruct (P2 t Ht Hid) as (l & Hl).
          assert (HVI : In v (flat_map (fun p => tver (snd p)) ins)) by (apply in_flat_map; exists (l, t); auto).
          destruct (M3 v HVI) as [F|(w & W1 & W2)]; [discriminate|].
          assert (WS : In w (flat_map tver (concat (d_levels d')))).
          { apply OV in W1. apply in_flat_map in W1 as (t' & T1 & T2). apply in_flat_map. exists t'. split; auto. apply TL. auto. }
          destruct (M2 w W1) as (W0 & W3 & _). specialize (W3 v HVI).
          apply in_flat_map in W0 as (p & Hp & W0).
          assert (WN : vts w <= newest_input d tk) by (eapply NI; eauto).
          assert (WL : vts v <= vts w) by (apply W3; unfold same_key in *; korder).
          destruct (N.eq_dec (vts v) (vts w)) as [ET|NT].
          * left. assert (v = w) as ->; auto. apply (hv_unique key_of h); auto; [|unfold same_key in *; korder].
            apply HV, in_flat_map. exists (snd p). split; auto. now apply P1.
          * right. exists w. split; auto. split; auto. lia.
        + left. apply in_flat_map. exists t. split; auto. apply TL. auto.
      - destruct (max_attained (flat_map (fun t : sst K R => map snd (t_rows t) ++ map snd (t_dels t))
         (filter (fun t : sst K R => mem_id (t_id t) (map snd (tk_input tk))) (concat (d_levels d))))) as [H|H]; [left; exact H|right].
        apply in_flat_map in H as (t & Ht & H). apply filter_In in Ht as [Ht _].
        pose proof (rp_sst _ _ _ _ HR) as HT. rewrite Forall_forall in HT.
        destruct (ts_tver key_of t _ (HT t Ht) H) as (v & V1 & V2). exists v. split; auto. apply in_flat_map. eauto.
    Qed.

    Lemma jinv_compact y mc ch tk n : jinv y ->
      (forall l t, In (l, t_id t) (tk_input tk) -> In t (concat (d_levels (st_db (y_st y)))) -> faithful ch t) ->
      jinv (compact_sys key_of row_bytes del_bytes mc ch tk n y) /\
      st_hist (y_st (compact_sys key_of row_bytes del_bytes mc ch tk n y)) = st_hist (y_st y).
    Proof.
      intros HJ HF. destruct (jv_mem _ HJ) as (M & Is & HR & HCV & HD). unfold compact_sys. cbn [step].
      set (d := st_db (y_st y)) in *. set (h := st_hist (y_st y)) in *. set (hz := st_horizon (y_st y)) in *. set (lg := y_log y) in *.
      destruct (compact_front key_of row_bytes del_bytes mc ch tk d) as (F1 & F2 & F3 & F4 & F5).
      destruct (compact key_of row_bytes del_bytes mc ch tk d) as [d' changed] eqn:EC. cbn [fst snd] in *.
      destruct changed; cbn [y_st st_hist st_db]; (split; [|reflexivity]).
      - assert (TS : forall v, In v (flat_map tver (concat (d_levels d))) -> In v (hv h)).
        { intros v Hv. apply (proj1 HCV), store_In. auto. }
        destruct (compact_keep d M Is mc ch tk h d' HR HF (di_inc _ _ _ _ _ _ _ _ HD) TS EC) as (R' & NEW & KEEP & NW).
        set (union := flat_map (fun i => match ids_of (y_ids y) (snd i) with Some l => l | None => [] end) (tk_input tk)).
        set (out := match union with [] => None | _ => Some union end).
        set (fr := filter (fun t => d_next_id d <=? t) (level_ids (d_levels d'))).
        set (ids' := map (fun t => (t, out)) fr ++ y_ids y). set (refs := refs_after ids' (level_ids (d_levels d')) (y_refs y)).
        assert (W : winv lg) by apply (di_w _ _ _ _ _ _ _ _ HD).
        destruct (di_refs _ _ _ _ _ _ _ _ HD) as [RS1 RS2].
        destruct (refs_after_ok ids' (level_ids (d_levels d')) (y_refs y) RS1) as (RA1 & RA2 & RA3). fold refs in RA1, RA2, RA3.
        assert (UN : forall x, In x union -> exists t I, In (t, Some I) (y_ids y) /\ In x I /\ incl I union).
        { intros x Hx. apply in_flat_map in Hx as (i & Hi & Hx). unfold ids_of in Hx.
          destruct (find (fun e => fst e =? snd i) (y_ids y)) as [[t o]|] eqn:EF; [|destruct Hx]. cbn [snd] in Hx. destruct o as [I|]; [|destruct Hx].
          pose proof EF as EF0. apply find_some in EF as [EF _]. exists t, I. split; auto. split; auto.
          intros z Hz. apply in_flat_map. exists i. split; auto. unfold ids_of. rewrite EF0. exact Hz. }
        assert (NEWID : forall t I x, In (t, Some I) (map (fun t => (t, out)) fr) -> In x I -> I = union).
        { intros t I x Ht _. apply in_map_iff in Ht as (t' & Ht & _). inversion Ht as [[E1 E2]]. unfold out in E2. destruct union; [discriminate|]. now inversion E2. }
        assert (LOC : forall q, loc_ok q (y_refs y) (y_ids y) -> loc_ok q refs ids').
        { intros q HQ. apply RA3. apply loc_ids; auto. intros t I x Ht Hx L. pose proof (NEWID t I x Ht Hx) as EU. rewrite EU in Hx |- *.
          destruct (UN x Hx) as (t2 & I2 & U1 & U2 & U3). apply U3. eapply (lo_ids _ _ _ HQ); eauto. }
        destruct (prune_spec (floor_of refs) n lg W) as (a & EFI & _ & _ & _ & _ & _ & _ & ESS & EDD).
        assert (HM : forall v w, same_key (vkey w) (vkey v) -> vts v < vts w -> vts w <= hz -> In w (flat_map tver (concat (d_levels d))) ->
                   sstcov (N.max hz (newest_input d tk)) (d_levels d') v).
        { intros v w K1 L1 L2 Hw. right. destruct (KEEP w Hw) as [H|(u & U1 & U2 & U3 & U4)].
          - exists w. split; auto. split; auto. split; auto. lia.
          - exists u. split; auto. split; [unfold same_key in *; korder|]. split; lia. }
        constructor; cbn [y_st st_db st_hist st_horizon y_log y_refs y_ids y_seen y_prov]; fold union out fr ids' refs.
        + exists M, Is. split; auto. split.
          * destruct HCV as [C1 C2]. split.
            -- intros v Hv. apply C1. apply store_In in Hv as [Hv|[Hv|Hv]]; apply store_In; auto.
            -- intros v Hv. assert (LIFT : forall v, sstcov (N.max hz (newest_input d tk)) (d_levels d') v -> In v (store M Is (d_levels d')) \/
                  exists w, In w (store M Is (d_levels d')) /\ same_key (vkey w) (vkey v) /\ vts v < vts w /\ vts w <= N.max hz (newest_input d tk)).
               { intros u [H|(w & W1 & W2)]; [left; apply store_In; auto|right; exists w; split; auto; apply store_In; auto]. }
               assert (KT : forall v, In v (flat_map tver (concat (d_levels d))) -> sstcov (N.max hz (newest_input d tk)) (d_levels d') v).
               { intros u Hu. destruct (KEEP u Hu) as [H|(w & W1 & W2 & W3 & W4)]; [left; auto|]. right. exists w. split; auto. split; auto. split; auto. lia. }
               destruct (C2 v Hv) as [H|(w & W1 & W2 & W3 & W4)].
               ++ apply store_In in H as [H|[H|H]]; [left; apply store_In; auto|left; apply store_In; auto|apply LIFT, KT, H].
               ++ apply store_In in W1 as [H|[H|H]].
                  ** right. exists w. split; [apply store_In; auto|]. split; auto. split; auto. lia.
                  ** right. exists w. split; [apply store_In; auto|]. split; auto. split; auto. lia.
                  ** apply LIFT. eapply HM; eauto.
          * eapply (dinv_publish key_of); [exact HD| | | | |].
            -- split; auto.
            -- intros t I x Ht Hx. apply in_app_or in Ht as [Ht|Ht]; [|eapply (di_ids _ _ _ _ _ _ _ _ HD); eauto].
               rewrite (NEWID t I x Ht Hx) in Hx. destruct (UN x Hx) as (t2 & I2 & U1 & U2 & _). eapply (di_ids _ _ _ _ _ _ _ _ HD); eauto.
            -- destruct NW as [NW|(v & NW1 & NW2)].
               ++ rewrite NW, N.max_0_r. apply (di_hz _ _ _ _ _ _ _ _ HD).
               ++ destruct (hv_ts key_of h v (TS v NW1)) as (c & C1 & C2).
                  destruct (di_hz _ _ _ _ _ _ _ _ HD) as [HZ|(c' & C1' & C2')].
                  ** right. exists c. split; auto. rewrite HZ. rewrite <- NW2, C2. lia.
                  ** right. destruct (N.le_gt_cases hz (newest_input d tk)) as [L|L].
                     { exists c. split; auto. rewrite <- C2, NW2. lia. }
                     { exists c'. split; auto. lia. }
            -- intros v Hv. destruct (di_dur _ _ _ _ _ _ _ _ HD v Hv) as [[H|(w & W1 & W2 & W3 & W4)]|(q & s & A1 & A2 & A3)].
               ++ left. destruct (KEEP v H) as [H'|(w & W1 & W2 & W3 & W4)]; [left; auto|]. right. exists w. split; auto. split; auto. split; auto. lia.
               ++ left. eapply HM; eauto.
               ++ right. exists q, s. split; auto. split; auto. destruct A3 as (r & A3 & A4). exists r. split; auto. rewrite F3, F4. exact A4.
            -- intros c Hc. destruct (di_hint _ _ _ _ _ _ _ _ HD c Hc) as [(v & q & s & A1 & A2 & A3)|H]; [left|right; exact H].
               exists v, q, s. auto.
        + rewrite F5. apply (jv_clock _ HJ).
        + rewrite F5. pose proof (jv_hz _ HJ) as X. fold hz d in X. pose proof (newest_le key_of (y_st y) tk (jinv_inv _ HJ)) as Y. fold d in Y. lia.
        + rewrite F2, F4. apply (jv_rng _ HJ).
        + intros j Hj. apply (since_suffix j (map rc (tagged a))).
          replace (map rc (tagged a) ++ log_recs (prune (floor_of refs) n lg)) with (log_recs lg); [apply (jv_fresh _ HJ j Hj)|].
          unfold log_recs. rewrite EFI at 1. now rewrite tagged_app, map_app.
        + rewrite ESS, EDD. apply (jv_st _ HJ).
        + rewrite F2, EDD. apply (jv_hint _ HJ).
        + intros t Ht. apply in_or_app. left. unfold level_ids. now apply in_map.
      - destruct (compact_spec key_of row_bytes del_bytes d M Is mc ch tk HR HF) as (d2 & changed & E' & R' & _ & _ & _ & _ & N1 & _).
        rewrite EC in E'. inversion E'; subst d2 changed. specialize (N1 eq_refl).
        destruct HJ as [J1 J2 J3 J4 J5 J6 J7 J8]. constructor; cbn [y_st st_db st_hist st_horizon y_log y_refs y_ids y_seen y_prov]; rewrite ?F2, ?F4, ?F5, ?N1; auto.
        exists M, Is. split; auto. split; auto. eapply dinv_mono; [|exact HD]. intros v s _ (r & A1 & A2). exists r. split; auto. rewrite F3, F4. exact A2.
    Qed.

    (** *** Crash and restart *)
    Lemma firstn_S {A} (l : list A) j a : nth_error l j = Some a -> firstn (S j) l = firstn j l ++ [a].
    Proof. revert j. induction l as [|x l IH]; intros [|j] H; cbn in *; try discriminate; [inversion H; auto|]. now rewrite (IH j H). Qed.
    Lemma number_app n (a b : list rec) : number n (a ++ b) = number n a ++ number (n + N.of_nat (length a)) b.
    Proof.
      revert n. induction a as [|x a IH]; intros n; cbn [number app length]; [now rewrite N.add_0_r|]. rewrite IH. replace (n + N.of_nat (S (length a))) with (n + 1 + N.of_nat (length a)) by lia. reflexivity.
    Qed.

    Lemma crash_log_ext l j sg lg : winv lg -> w_next lg + N.of_nat (length l) < 2 ^ 64 -> w_nseg lg + N.of_nat (length l) < 2 ^ 64 ->
      exists lg' newt, crash_log size cf l j sg lg = Some lg' /\ winv lg' /\ ext lg lg' newt /\
        map snd newt = number (w_next lg) (firstn (S j) l) /\ w_nseg lg' <= w_nseg lg + N.of_nat (length l) /\
        (ws_commit (w_disk lg') = ws_commit (w_disk lg) \/
         ws_commit (w_disk lg') = last_commit commit_of (firstn (S j) l) (ws_commit (w_state lg)) \/
         ws_commit (w_disk lg') = last_commit commit_of (firstn j l) (ws_commit (w_state lg))).
    Proof.
      intros HW H1 H2. unfold crash_log. assert (LE : (length (firstn j l) <= length l)%nat) by (rewrite firstn_length; lia).
      destruct (enqueues_ext size (@commit_of K R) cf HNB (firstn j l) lg HW) as (w1 & n1 & EE & W1 & W2 & W3 & W4 & W5 & W6 & W7 & W8 & W9); [lia|lia|].
      rewrite EE.
      assert (D1 : ws_commit (w_disk w1) = ws_commit (w_disk lg) \/ ws_commit (w_disk w1) = last_commit commit_of (firstn j l) (ws_commit (w_state lg))).
      { destruct (firstn j l) as [|x f] eqn:EF; [left; now rewrite W7|right]. rewrite W9 by (auto; discriminate). exact W8. }
      destruct (nth_error l j) as [a|] eqn:EN.
      - assert (LJ : (j < length l)%nat) by (apply nth_error_Some; congruence).
        assert (LF : length (firstn j l) = j) by (apply firstn_length_le; lia).
        destruct (until_ext size (@commit_of K R) cf HNB sg a w1 W1) as (w2 & E2 & V1 & V2 & V3 & V4 & V5); [lia|lia|].
        exists w2, (n1 ++ [(w_seg w1, (w_next w1, a))]). split; auto. split; auto. split; [eapply ext_trans; eauto|].
        split; [rewrite map_app, W3, (firstn_S _ _ _ EN), number_app, W4; reflexivity|]. split; [lia|].
        destruct V5 as [V5|[_ V5]].
        + rewrite V5. tauto.
        + right. left. rewrite V5, (firstn_S _ _ _ EN), last_commit_app, W8. unfold last_commit. cbn. reflexivity.
      - apply nth_error_None in EN. exists w1, n1. split; auto. split; auto. split; auto.
        rewrite (@firstn_all2 _ (S j) l) by lia. rewrite (@firstn_all2 _ j l) in * by lia. split; auto. split; auto. tauto.
    Qed.

    Definition durable (h : list (hcommit K R)) (y : sys K R) : Prop :=
      dinv (fun _ _ => True) h (st_horizon (y_st y)) (d_levels (st_db (y_st y))) (y_log y) (y_refs y) (y_ids y) /\
      (forall v, In v (flat_map tver (concat (d_levels (st_db (y_st y))))) -> In v (hv h)) /\
      Forall (fun c => fst c + 1 < 2 ^ 64) h /\ w_nseg (y_log y) < 2 ^ 64.

    Lemma jinv_durable y : jinv y -> room y -> durable (st_hist (y_st y)) y.
    Proof.
      intros HJ (HC1 & HC2 & HC3 & HC4). destruct (jv_mem _ HJ) as (M & Is & HR & HCV & HD). split; [|split; [|split]].
      - eapply dinv_mono; [|exact HD]. auto.
      - intros v Hv. apply (proj1 HCV), store_In. auto.
      - eapply Forall_impl; [|apply (jv_clock _ HJ)]. intros c Hc. cbn in Hc. lia.
      - lia.
    Qed.

    (** The history after a crash: an interrupted write counts when its commit record was written. *)
    Lemma jinv_crash y fl : jinv y -> room y -> inflight_ok key_of fl ->
      exists y0, crash key_of size cf fl y = Some y0 /\ durable (st_hist (y_st y0)) y0 /\
        st_db (y_st y0) = st_db (y_st y) /\ y_seen y0 = y_seen y /\
        (st_hist (y_st y0) = st_hist (y_st y) \/
         exists w j sg, fl = Some (w, j, sg) /\ st_hist (y_st y0) = st_hist (y_st y) ++ [(d_clock (st_db (y_st y)), wr_muts key_of w)]).
    Proof.
      intros HJ HRM HFL. pose proof HRM as (HC1 & HC2 & HC3 & HC4). destruct fl as [[[w j] sg]|].
      2:{ exists y. cbn. split; auto. split; auto. apply jinv_durable; auto. }
      cbn [inflight_ok] in HFL. cbn [crash]. set (d := st_db (y_st y)) in *. set (id := y_prov y) in *. set (c := d_clock d) in *.
      destruct (jinv_durable y HJ HRM) as (HD & HT & HB & HN). set (h := st_hist (y_st y)) in *. set (lg := y_log y) in *.
      assert (HW : winv lg) by apply (di_w _ _ _ _ _ _ _ _ HD).
      destruct (call_of key_of row_bytes del_bytes d w id HFL) as [(ups & ks & HCL)|[E1 E2]].
      2:{ rewrite E1. assert (EC : crash_log size cf [] j sg lg = Some lg) by (unfold crash_log; rewrite firstn_nil; destruct j; reflexivity).
          rewrite EC. eexists. split; [reflexivity|]. cbn [length y_st st_hist st_db y_seen].
          assert (X : forall b : bool, (if b then [] else []) = @nil (hcommit K R)) by (now intros []). rewrite ?X, app_nil_r.
          split; [|auto]. split; [exact HD|]. split; [exact HT|]. split; [exact HB|exact HN]. }
      pose proof HCL as [K1 K2 K3 K4 K5 K6 K7]. destruct (K6 c) as (b0 & ER & HB0).
      destruct (part_pays_spec key_of ups ks c K1 K2) as (Q1 & Q2 & Q3 & Q4). specialize (Q4 K3). set (ps := part_pays ups (map Some ks) c) in *.
      set (l := recs key_of d w id c) in *.
      assert (LEN : (length l <= 4)%nat).
      { rewrite ER, !app_length, map_length. cbn [length]. destruct HB0 as [->| ->]; cbn [length]; lia. }
      destruct (crash_log_ext l j sg lg HW) as (lg' & newt & EE & W1 & W2 & W3 & W4 & W5); [lia|lia|]. rewrite EE.
      pose proof (rc_number _ _ _ W3) as ERC.
      assert (LNE : l <> []) by (rewrite ER; destruct b0; [destruct ps; discriminate|discriminate]).
      eexists. split; [reflexivity|]. cbn [y_st st_hist st_db y_seen].
      destruct (Nat.ltb_spec (S j) (length l)) as [LT|GE].
      - (* no commit record *)
        rewrite app_nil_r. split; [|auto]. split; [|split; [exact HT|split; [exact HB|cbn [y_log]; lia]]]. cbn [y_st y_log y_refs y_ids st_horizon st_db].
        assert (PF : exists u v, b0 ++ map (RPay id) ps = firstn (S j) l ++ v /\ firstn (S j) l = firstn j l ++ u).
        { assert (LP : (S j <= length (b0 ++ map (RPay id) ps))%nat).
          { rewrite ER, app_assoc, app_length in LT. cbn [length] in LT. lia. }
          assert (EF : firstn (S j) l = firstn (S j) (b0 ++ map (RPay id) ps)).
          { rewrite ER, app_assoc, firstn_app. replace (S j - _)%nat with 0%nat by lia. cbn [firstn]. now rewrite app_nil_r. }
          destruct (nth_error l j) as [a|] eqn:EN; [|apply nth_error_None in EN; lia].
          exists [a], (skipn (S j) (b0 ++ map (RPay id) ps)). rewrite EF at 1. rewrite firstn_skipn. split; auto. now apply firstn_S. }
        destruct PF as (u & v & PF1 & PF2).
        assert (NC : no_commit (firstn (S j) l)).
        { intros i t H. apply (pays_no_commit id c b0 ps HB0 i t). rewrite PF1. apply in_or_app. auto. }
        assert (NC' : no_commit (firstn j l)).
        { intros i t H. apply (NC i t). rewrite PF2. apply in_or_app. auto. }
        eapply (dinv_part key_of) with (id := id); eauto.
        + now rewrite ERC.
        + rewrite ERC. assert (X : Forall (of_id id) l) by (rewrite ER; now apply new_of_id).
          rewrite Forall_forall in *. intros r Hr. apply X. rewrite <- (firstn_skipn (S j) l). apply in_or_app. auto.
        + apply (jv_fresh _ HJ).
        + rewrite !last_commit_none in W5 by auto. pose proof (jv_st _ HJ) as ST0. fold lg in ST0. rewrite ST0 in W5. destruct W5 as [W5|[W5|W5]]; exact W5.
      - rewrite firstn_all2 in ERC by lia.
        assert (EX : match l, wr_muts key_of w with [], _ => [] | _, [] => [] | _, ms => [(c, ms)] end = [(c, wr_muts key_of w)]).
        { destruct l; [congruence|]. destruct (wr_muts key_of w); [congruence|auto]. }
        rewrite EX. set (ms := wr_muts key_of w) in *.
        split; [|split; [reflexivity|split; [reflexivity|right; exists w, j, sg; auto]]].
        split; [|split; [|split]]; cbn [y_st y_log y_refs y_ids st_horizon st_db].
        + eapply dinv_mono; [|eapply (dinv_txn key_of) with (n0 := 0) (ms := ms) (b0 := b0) (ps := ps) (id := id) (c := c)]; eauto.
          * rewrite ERC. exact ER.
          * apply (jv_fresh _ HJ).
          * intros t _. lia.
          * apply (jv_clock _ HJ).
          * intros v. rewrite <- (K5 c). apply Q2.
          * destruct W5 as [W5|[W5|W5]]; auto; rewrite W5.
            -- rewrite firstn_all2 by lia. right. rewrite ER. now apply last_commit_txn.
            -- destruct (Nat.eq_dec (S j) (length l)) as [EJ|NJ].
               ++ left. rewrite last_commit_none; [apply (jv_st _ HJ)|]. intros i t H.
                  apply (pays_no_commit id c b0 ps HB0 i t).
                  replace (firstn j l) with (b0 ++ map (RPay id) ps) in H; auto.
                  rewrite ER, app_assoc, firstn_app.
                  assert (j = length (b0 ++ map (RPay id) ps)).
                  { rewrite ER, app_assoc, app_length in EJ. cbn [length] in EJ. lia. }
                  subst j. rewrite firstn_all, Nat.sub_diag. cbn [firstn]. now rewrite app_nil_r.
               ++ right. rewrite firstn_all2 by lia. rewrite ER. now apply last_commit_txn.
        + intros v Hv. rewrite hv_app. apply in_or_app. left. auto.
        + apply Forall_app. split; [exact HB|]. constructor; [exact HC1|constructor].
        + lia.
    Qed.

    Lemma dinv_log X h hz ls lg lg' refs ids : dinv X h hz ls lg refs ids -> w_files lg' = w_files lg -> w_seg lg' = w_seg lg ->
      ws_commit (w_disk lg') = ws_commit (w_disk lg) -> winv lg' -> dinv X h hz ls lg' refs ids.
    Proof.
      intros [H1 H2 H3 H4 H5 H6 H7 H8 H9 H10 H11] E1 E2 E3 HW. constructor; unfold log_recs in *; rewrite ?E1, ?E2, ?E3; auto.
      intros c Hc. destruct (H8 c Hc) as [H|H]; [left|right]; rewrite ?E1, ?E3; exact H.
    Qed.

    Lemma records_log (w : writer rec) : records w = log_recs w.
    Proof. unfold records, log_recs. rewrite flat_tagged. apply map_map. Qed.

    (** Reopening after a crash recovers the whole history. *)
    Lemma reopen_inv h y decs : durable h y -> st_hist (y_st y) = h ->
      Forall (tok key_of) (concat (d_levels (st_db (y_st y)))) -> NoDup (map (@t_id K R) (concat (d_levels (st_db (y_st y))))) ->
      (1 <= m_capacity (d_mem (st_db (y_st y))))%nat ->
      (forall t, In t (concat (d_levels (st_db (y_st y)))) -> In (t_id t) (y_seen y)) ->
      Forall (fun i => i + 1 < 2 ^ 64) (y_seen y) ->
      exists y1, reopen key_of size cf decs y = Some y1 /\ inv (y_st y1) /\ st_hist (y_st y1) = h /\
        st_horizon (y_st y1) = st_horizon (y_st y) /\ d_levels (st_db (y_st y1)) = d_levels (st_db (y_st y)) /\
        d_clock (st_db (y_st y1)) < 2 ^ 64 /\
        y_seen y1 = y_seen y /\ d_next_id (st_db (y_st y1)) = next_id_of (y_seen y) /\
        (restart_ok y y1 -> jinv y1).
    Proof.
      intros (HD & HT & HB & HN) EH H1 H2 H3 H4 H5. set (d := st_db (y_st y)) in *. set (lg := y_log y) in *. unfold reopen. fold d lg. rewrite HST, EH.
      pose proof (di_w _ _ _ _ _ _ _ _ HD) as HW.
      destruct (frames_floor lg (y_refs y) HW (di_refs _ _ _ _ _ _ _ _ HD)) as (pre & tg & ET & EF & HP).
      assert (EFR : map snd (frames_from (floor_of (y_refs y)) (w_files lg)) = map rc tg) by (rewrite EF; apply map_map).
      rewrite EFR.
      assert (NID : Forall (fun t => t_id t < next_id_of (y_seen y)) (concat (d_levels d))).
      { apply Forall_forall. intros t Ht. pose proof (H4 t Ht) as HS. unfold next_id_of.
        destruct (y_seen y) as [|i0 sn] eqn:ES; [destruct HS|]. rewrite <- ES in *.
        assert (MX : In (fold_right N.max 0 (y_seen y)) (y_seen y)).
        { destruct (max_attained (y_seen y)) as [E|E]; auto. rewrite E. pose proof (max_In _ _ HS) as X. rewrite E in X.
          replace 0 with (t_id t) by lia. exact HS. }
        rewrite Forall_forall in H5. specialize (H5 _ MX). rewrite sat1_small by auto. pose proof (max_In _ _ HS). lia. }
      destruct (recover_inv key_of _ h _ _ lg (y_refs y) (y_ids y) (m_capacity (d_mem d)) (next_id_of (y_seen y)) decs pre tg HD HT H1 NID H2 H3 HB ET HP)
        as (d' & M & Is & ER & R1 & R2 & R3 & R4 & R5 & R6 & R7 & R8 & R9 & R10).
      rewrite ER. destruct (open_files size cf HNB (w_disk lg) lg) as (lg' & EO & O1 & O2 & O3 & O4 & O5 & O6).
      { pose proof (wi_seg _ HW). lia. }
      rewrite EO. eexists. split; [reflexivity|]. cbn [y_st st_hist st_db st_horizon].
      split; [|split; [reflexivity|split; [reflexivity|split; [exact R3|split; [|split; [reflexivity|split; [exact R4|]]]]]]].
      - constructor; cbn [st_db st_hist st_horizon]; auto; [|apply (di_inc _ _ _ _ _ _ _ _ HD)]. exists M, Is. auto.
      - destruct R8 as [->|(c & C1 & ->)]; [reflexivity|]. rewrite Forall_forall in HB. exact (HB c C1).
      - destruct (O4 HST) as [O7 O8]. intros (S1 & S2 & S3). cbn [y_log y_st st_db] in S1, S2, S3. fold lg in S1, S2.
        assert (HW' : winv lg').
        { destruct HW as [V1 V2 V3 V4 V5]. constructor; rewrite ?O1, ?O2; auto. intros t Ht. apply S2. rewrite flat_tagged. now apply in_map. now rewrite <- O2. }
        assert (EL : log_recs lg' = log_recs lg) by (unfold log_recs; now rewrite O1).
        constructor; cbn [y_st st_db st_hist st_horizon y_log y_refs y_ids y_seen y_prov]; auto.
        + exists M, Is. split; auto. split; auto. rewrite R3. apply (dinv_log _ _ _ _ lg); auto. now rewrite O8.
        + intros j Hj. rewrite EL. unfold open_prov in Hj. rewrite files_rev in Hj.
          destruct S1 as [(f & i & L1 & L2 & L3)|S1].
          * rewrite L1, L2, sat1_small in Hj by auto. destruct (last_tagged lg f L1) as (pre' & EL').
            apply (di_tail _ _ _ _ _ _ _ _ HD (map rc pre') (snd f) i j); auto; [|lia].
            unfold log_recs. rewrite EL', map_app. reflexivity.
          * destruct (since j (log_recs lg)) as [|p l] eqn:ES; auto. exfalso.
            assert (X : In p (since j (log_recs lg))) by (rewrite ES; cbn; auto). apply since_In in X as (a & b & E & U).
            apply (S1 j p). exists a, b. rewrite records_log. auto.
        + now rewrite O7, O8.
        + congruence.
        + rewrite R3. auto.
    Qed.
  End Conf.
End WalDbSteps.
