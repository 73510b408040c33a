(** Runs of the database with its log keep the invariant; recovery from it. *)
From Coq Require Import List NArith Bool Sorted Permutation Lia Arith.
From Verif Require Import Base.Order Model.OMap Model.KeyTs Model.MemTable Model.Immutable
     Model.SsTable Model.Version Model.Compact Model.Planner Model.Db Model.DbCompact Model.WalScan Model.Replay
     Model.WalWriter Spec.Mvcc Spec.Valid Spec.History Spec.ReplaySpec Model.Run Model.WalDb Spec.Recover
     Proof.OMapFacts Proof.MemFacts Proof.ViewFacts Proof.HistFacts Proof.CompactOut Proof.CompactFacts Proof.DbFacts Proof.RunFacts Proof.Refine
     Proof.StorageProps Proof.ReplayFacts Proof.ReplayGen Proof.WriterFacts Proof.RecoverDb Proof.LogFacts Proof.WalDbInv.
Import ListNotations.
Local Arguments kcmp : simpl never.
Local Open Scope N_scope.

Section WalDbRun.
  Context {K : Type} {KO : KeyOrd K} {R : Type}.
  Variable key_of : R -> option K.
  Variable row_bytes : R -> nat.
  Variable del_bytes : K -> nat.
  Variable size : rec K R -> N.
  Notation vers := (@vers K R).
  Notation tver := (tver key_of).
  Notation store := (store key_of).
  Notation rep := (rep key_of).
  Notation last_mut := (last_mut key_of).
  Notation rec := (rec K R).
  Notation pay := (pay K R).
  Notation hv := (hv key_of).
  Notation at_log := (at_log key_of).
  Notation dinv := (dinv key_of).
  Notation sstcov := (sstcov key_of).
  Notation inv := (inv key_of).

  (** [v] is in the memtable or a segment whose recorded frame range starts at or before [s]. *)
  Definition in_layer (d : db K R) (M : list vers) (Is : list (list vers)) (v : vers) (s : N) : Prop :=
    exists r, fst r <= s /\
      ((In v M /\ d_mrange d = Some r) \/
       exists k I, nth_error Is k = Some I /\ In v I /\ nth_error (d_iranges d) k = Some (Some r)).

  (** *** Recovery *)
  Lemma recover_inv X h hz ls lg refs ids cap nid decs pre tg :
    dinv X h hz ls lg refs ids ->
    (forall v, In v (flat_map tver (concat ls)) -> In v (hv h)) ->
    Forall (tok key_of) (concat ls) -> Forall (fun t => t_id t < nid) (concat ls) ->
    NoDup (map (@t_id K R) (concat ls)) -> (1 <= cap)%nat ->
    Forall (fun c => fst c + 1 < 2 ^ 64) h ->
    tagged (w_files lg) = pre ++ tg ->
    (forall t, In t pre -> exists r, floor_of refs = Some r /\ fst t < r_seq r) ->
    exists d M Is,
      recover_db key_of cap ls nid (floor_of refs) (ws_commit (w_disk lg)) decs (map rc tg) = Some d /\
      rep d M Is /\ cover hz (store M Is (d_levels d)) (hv h) /\
      d_levels d = ls /\ d_next_id d = nid /\ m_capacity (d_mem d) = cap /\
      Forall (fun c => fst c < d_clock d) h /\ hz <= d_clock d - 1 /\
      (d_clock d = 0 \/ exists c, In c h /\ d_clock d = fst c + 1) /\
      length (d_iranges d) = length (d_imm d) /\
      (d_imm d = [] -> dinv (in_layer d M Is) h hz ls lg refs ids).
  Proof.
    intros HD HT H1 H2 H3 HC HB ET HP. pose proof HD as [D1 D2 D3 D4 D5 D6 D7 D8 D9 D10 D11].
    assert (EL : log_recs lg = map rc pre ++ map rc tg) by (unfold log_recs; now rewrite ET, map_app).
    assert (AP : forall p ts, applied (map rc tg) p ts -> applied (log_recs lg) p ts).
    { intros p ts Hp. rewrite EL. pose proof (applied_ext (map rc pre) _ [] p ts Hp) as X0. now rewrite app_nil_r in X0. }
    assert (AT : forall v q s, at_log (tagged (w_files lg)) v q s -> loc_ok q refs ids -> at_log tg v q s).
    { intros v q s HL HO. rewrite ET in HL. apply at_log_suffix in HL; auto. intros t Ht. destruct (HP t Ht) as (r & E & L).
      pose proof (lo_floor _ _ _ HO r E). lia. }
    destruct (recover_spec key_of (hv h) cap ls nid (floor_of refs) (ws_commit (w_disk lg)) decs (map rc tg))
      as (d & M & Is & E & HR & EL' & EN & EC & ECL & ERG & EMR & HV); auto.
    { intros v w Hv Hw Hk Ht. eapply hv_unique; eauto. }
    exists d, M, Is. split; auto. split; auto.
    assert (VIN : forall v, In v (M ++ concat Is) -> In v (hv h)).
    { intros v Hv. apply HV in Hv as (p & ts & Hp & Hv). apply AP, D3 in Hp as (_ & _ & Hp). auto. }
    assert (FOUND : forall v q s, at_log (tagged (w_files lg)) v q s -> loc_ok q refs ids -> In v (M ++ concat Is)).
    { intros v q s HL HO. apply HV. apply (at_log_applied key_of tg v q s). auto. }
    split.
    { rewrite EL'. split.
      - intros v Hv. apply store_In in Hv as [Hv|[Hv|Hv]]; auto; apply VIN, in_or_app; auto.
      - intros v Hv. destruct (D4 v Hv) as [[H|(w & W1 & W2)]|(q & s & A1 & A2 & _)].
        + left. apply store_In. auto.
        + right. exists w. split; auto. apply store_In. auto.
        + left. pose proof (FOUND v q s A1 A2) as F. apply store_In. apply in_app_or in F. tauto. }
    split; auto. split; auto. split; auto.
    (* the clock *)
    assert (CLK : Forall (fun c => fst c < d_clock d) h /\ (d_clock d = 0 \/ exists c, In c h /\ d_clock d = fst c + 1)).
    { rewrite ECL. rewrite Forall_forall in HB. destruct (newest (gtimes [] (map rc tg))) as [t|] eqn:EG.
      - pose proof (newest_In _ _ EG) as GI. apply gtimes_In in GI as (p & GP).
        assert (HIT : exists c, In c h /\ fst c = t).
        { destruct (D3 p t (AP _ _ GP)) as (K1 & _ & K2). destruct (keyed_muts key_of p K1) as [K3 K4].
          destruct (last_mut_exists key_of t _ K3 K4) as (v & Hv). destruct (hv_ts key_of h v (K2 v Hv)) as (c & C1 & C2).
          exists c. split; auto. rewrite <- C2. now apply last_mut_ts in Hv. }
        destruct HIT as (ct & C1 & C2). pose proof (HB ct C1) as CB. cbn in CB.
        rewrite sat1_small by lia. split; [|right; exists ct; split; [auto|lia]].
        apply Forall_forall. intros c Hc. destruct (N.le_gt_cases (fst c) t) as [L|L]; [lia|]. exfalso.
        destruct GP as (a & id & b & c0 & EG' & U).
        assert (E' : log_recs lg = (map rc pre ++ a ++ RPay id p :: b) ++ RCommit id t :: c0).
        { rewrite EL, EG', <- !app_assoc. reflexivity. }
        destruct (D5 _ _ _ _ _ E' Hc L) as (p' & Hp').
        assert (GI2 : In (fst c) (gtimes [] (map rc tg))).
        { apply gtimes_In. exists p'. rewrite EG'. pose proof (applied_ext (a ++ RPay id p :: b ++ [RCommit id t]) c0 [] p' _ Hp') as X0.
          rewrite app_nil_r, <- !app_assoc in X0. cbn [app] in X0. rewrite <- app_assoc in X0. exact X0. }
        pose proof (newest_ge _ _ _ EG GI2). lia.
      - apply newest_none in EG.
        assert (HIN : forall c, In c h -> exists t, ws_commit (w_disk lg) = Some t /\ fst c <= t).
        { intros c Hc. destruct (D8 c Hc) as [(v & q & s & A1 & A2 & A3)|H]; auto. exfalso.
          destruct (at_log_applied key_of tg v q s (AT _ _ _ A1 A3)) as (p & ts & Hp & _).
          assert (In ts (gtimes [] (map rc tg))) by (apply gtimes_In; eauto). rewrite EG in H. destruct H. }
        destruct (ws_commit (w_disk lg)) as [t|] eqn:EW.
        + destruct (D9 t eq_refl) as (ct & C1 & C2). pose proof (HB ct C1) as CB. cbn in CB. rewrite sat1_small by lia. split; [|right; exists ct; split; [auto|lia]].
          apply Forall_forall. intros c Hc. destruct (HIN c Hc) as (t' & T1 & T2). inversion T1; subst. lia.
        + split; auto. apply Forall_forall. intros c Hc. destruct (HIN c Hc) as (t' & T1 & _). discriminate. }
    destruct CLK as [CL1 CL2]. split; auto. split.
    { destruct D10 as [->|(c & Hc & L)]; [lia|]. rewrite Forall_forall in CL1. specialize (CL1 c Hc). cbn in CL1. lia. }
    split; auto. split; auto.
    intros EI. constructor; auto. intros v Hv. destruct (D4 v Hv) as [H|(q & s & A1 & A2 & _)]; auto. right. exists q, s. split; auto. split; auto.
    pose proof (FOUND v q s A1 A2) as F.
    assert (Is = []) as ->. { pose proof (rp_imm _ _ _ _ HR) as HI. rewrite EI in HI. destruct Is; [auto|discriminate]. }
    cbn [concat] in F. rewrite app_nil_r in F.
    destruct (at_log_In key_of tg v q s (AT _ _ _ A1 A2)) as (x & Hx).
    specialize (EMR EI). destruct tg as [|t0 tg']; [destruct Hx|]. cbn [map] in EMR.
    assert (Hx' : In (q, (s, x)) (tagged (w_files lg))) by (rewrite ET; apply in_or_app; auto).
    destruct (floor_of refs) as [fr|] eqn:EF.
    - exists (r_first fr, r_last fr). split; [|left; auto]. cbn [fst].
      assert (HFR : In fr refs) by (destruct refs; inversion EF; cbn; auto).
      eapply first_le; [apply (wi_files _ D2)|apply (proj2 D6 fr HFR)|exact Hx'|apply (lo_floor _ _ _ A2 fr EF)].
    - exists (1, 1). split; [|left; auto]. cbn [fst]. apply (wi_one _ D2 _ Hx').
  Qed.

  (** *** The records of a call *)
  Lemma part_pays_spec ups (ks : list K) ts : Forall (fun r => key_of r <> None) ups ->
    separate key_of (map Put ups) (map Del ks) ->
    (forall p, In p (part_pays ups (map Some ks) ts) -> pay_keyed key_of p /\ pay_cts p = ts) /\
    (forall v, last_mut ts (map Put ups ++ map Del ks) v <->
       exists p, In p (part_pays ups (map Some ks) ts) /\ last_mut ts (pay_muts p) v) /\
    (length (part_pays ups (map Some ks) ts) <= 2)%nat /\
    (ups <> [] \/ ks <> [] -> part_pays ups (map Some ks) ts <> []).
  Proof.
    intros HK HS. unfold part_pays.
    assert (PU : forall p, In p (match ups with [] => [] | _ => [LRows ups ts] end : list pay) <-> ups <> [] /\ p = LRows ups ts).
    { intros p. destruct ups; cbn; [split; [tauto|intros [H _]; congruence]|]. split; [intros [<-|[]]; split; [discriminate|auto]|intros [_ ->]; auto]. }
    assert (PD : forall p, In p (match map Some ks with [] => [] | _ => [LDels (map Some ks) ts] end : list pay) <-> ks <> [] /\ p = LDels (map Some ks) ts).
    { intros p. destruct ks; cbn [map]; [cbn; split; [tauto|intros [H _]; congruence]|]. split; [intros [<-|[]]; split; [discriminate|auto]|intros [_ ->]; cbn; auto]. }
    assert (ED : flat_map (fun k => match k with Some k => [@Del K R k] | None => [] end) (map Some ks) = map Del ks).
    { clear. induction ks; cbn; auto. now rewrite IHks. }
    split; [|split; [|split]].
    - intros p Hp. apply in_app_or in Hp as [Hp|Hp].
      + apply PU in Hp as [H ->]. cbn. auto.
      + apply PD in Hp as [H ->]. cbn. split; auto. split; [destruct ks; [congruence|discriminate]|].
        apply Forall_map, Forall_forall. intros k _. discriminate.
    - intros v. rewrite (separate_app key_of ts _ _ v HS). split.
      + intros [H|H].
        * exists (LRows ups ts). split; auto. apply in_or_app. left. apply PU. split; auto. intros ->. eapply last_mut_nil; eauto.
        * exists (LDels (map Some ks) ts). cbn [pay_muts]. rewrite ED. split; auto. apply in_or_app. right. apply PD. split; auto.
          intros ->. eapply last_mut_nil; eauto.
      + intros (p & Hp & Hv). apply in_app_or in Hp as [Hp|Hp].
        * apply PU in Hp as [_ ->]. auto.
        * apply PD in Hp as [_ ->]. cbn [pay_muts] in Hv. rewrite ED in Hv. auto.
    - destruct ups, ks; cbn; lia.
    - intros [H|H]; [destruct ups; [congruence|discriminate]|]. destruct ks; [congruence|]. cbn [map]. intros F. apply app_eq_nil in F as [_ F]. discriminate.
  Qed.

  (** What a call that writes anything does, uniformly: upserts, then deletes. *)
  Record call (d : db K R) (w : wr K R) (id : N) (ups : list R) (ks : list K) : Prop := {
    cl_keyed : Forall (fun r => key_of r <> None) ups;
    cl_sep : separate key_of (map Put ups) (map Del ks);
    cl_some : ups <> [] \/ ks <> [];
    cl_muts : wr_muts key_of w <> [];
    cl_last : forall ts v, last_mut ts (map Put ups ++ map Del ks) v <-> last_mut ts (wr_muts key_of w) v;
    cl_recs : forall ts, exists b0, recs key_of d w id ts = b0 ++ map (RPay id) (part_pays ups (map Some ks) ts) ++ [RCommit id ts] /\
                (b0 = [] \/ b0 = [RBegin id]);
    cl_step : forall s span dec, st_db s = d ->
      step key_of row_bytes del_bytes s (write_op w span dec) =
      ack s (wr_muts key_of w)
        (seq2 (apply_parts key_of ups (map Some ks) (d_clock d) (observe_range span (tick d)))
              (maybe_seal key_of (match w with WCommit _ _ => false | _ => dec end)))
  }.
  Lemma call_of d w id : write_ok key_of w ->
    (exists ups ks, call d w id ups ks) \/
    ((forall ts, recs key_of d w id ts = []) /\
     forall s span dec, st_db s = d -> step key_of row_bytes del_bytes s (write_op w span dec) = mkSt d (st_hist s) (st_horizon s)).
  Proof.
    intros HW. destruct w as [rows|rows|snap ms]; cbn [write_ok] in HW.
    - destruct HW as [H1 H2]. left. exists rows, []. constructor; cbn [wr_muts map]; auto.
      + intros x y kx ky _ [].
      + destruct rows; [congruence|discriminate].
      + intros ts v. now rewrite app_nil_r.
      + intros ts. exists []. split; auto. unfold part_pays. cbn. destruct rows; [congruence|]. reflexivity.
      + intros s span dec E. subst d. cbn [write_op step]. unfold ingest, apply_parts. destruct rows as [|r rows]; [congruence|].
        f_equal. destruct (put_rows _ _ _ _) as [d1 [|]]; reflexivity.
    - destruct HW as [H1 H2]. destruct rows as [|p0 rows0].
      { right. split; [reflexivity|]. intros s span dec E. subst d. cbn [write_op step ingest_with_tombstones]. unfold ack. cbn. now rewrite app_nil_r. }
      left. set (rows := p0 :: rows0) in *. exists (part_upserts rows), (tomb_keys key_of rows).
      assert (EK : part_deletes key_of rows = map Some (tomb_keys key_of rows)) by (apply part_deletes_keys; auto).
      assert (NE : tomb_muts key_of rows <> []).
      { unfold rows. cbn. inversion H1; subst. destruct p0 as [r [|]]; cbn in *; [destruct (key_of r); [discriminate|congruence]|discriminate]. }
      constructor; cbn [wr_muts]; auto.
      + apply Forall_forall. intros x Hx. unfold part_upserts in Hx. apply in_map_iff in Hx as (q & <- & Hq).
        apply filter_In in Hq as [Hq _]. rewrite Forall_forall in H1. exact (H1 q Hq).
      + now apply tomb_sep.
      + destruct (part_upserts rows) as [|u us] eqn:EU; [right|left; discriminate]. destruct (tomb_keys key_of rows) eqn:ET; [|discriminate].
        exfalso. destruct (tomb_muts key_of rows) as [|m l] eqn:EM; [congruence|]. assert (X : In m (tomb_muts key_of rows)) by (rewrite EM; cbn; auto).
        apply tomb_muts_In in X; auto. rewrite EU, ET in X. destruct X.
      + intros ts v. symmetry. now apply tomb_last.
      + intros ts. exists []. split; auto. cbn [recs app]. unfold rows. fold rows. now rewrite EK.
      + intros s span dec E. subst d. cbn [write_op step]. unfold ingest_with_tombstones, rows. fold rows. now rewrite EK.
    - cbn [recs]. destruct (stage key_of ms) as [|e st] eqn:ES.
      { right. split; [reflexivity|]. intros s span dec E. subst d. cbn [write_op step]. rewrite ES. cbn [commit].
        unfold ack. cbn. destruct (accepted key_of ms) as [|m l] eqn:EA; [now rewrite app_nil_r|]. exfalso.
        destruct (last_mut_exists key_of 0 (accepted key_of ms)) as (v & Hv).
        - rewrite EA. discriminate.
        - apply Forall_forall. intros x Hx. unfold accepted in Hx. apply filter_In in Hx as [_ Hx]. destruct (mut_key key_of x); [discriminate|discriminate Hx].
        - apply last_accepted in Hv. rewrite ES in Hv. destruct Hv. }
      rewrite <- ES. destruct (has_conflict d snap (stage key_of ms)) eqn:EC.
      { right. split; [reflexivity|]. intros s span dec E. subst d. cbn [write_op step]. unfold commit. rewrite ES in *. rewrite EC.
        unfold ack. cbn. destruct (accepted key_of ms); now rewrite app_nil_r. }
      left. set (sg := stage key_of ms) in *. exists (staged_rows sg), (staged_keys sg).
      assert (AN : accepted key_of ms <> []).
      { intros F. assert (X : In (at_ts 0 e) (map (at_ts 0) sg)) by (rewrite ES; cbn; auto). apply last_accepted in X. rewrite F in X.
        eapply last_mut_nil; eauto. }
      constructor; cbn [wr_muts]; auto.
      + apply Forall_forall. intros r Hr. unfold staged_rows in Hr. apply in_flat_map in Hr as ([k [r'|]] & H & Hr); cbn in Hr; [|destruct Hr]. destruct Hr as [<-|[]].
        rewrite (stage_keyed key_of ms k r' H). discriminate.
      + intros x y kx ky Hx Hy EX EY HQ. assert (x = y).
        { eapply (stage_uniq key_of ms x y kx ky); eauto; apply in_or_app; [left|right]; auto. }
        subst y. apply in_map_iff in Hx as (a & <- & _). apply in_map_iff in Hy as (b & F & _). discriminate.
      + rewrite ES. destruct e as [k [r|]]; cbn; [left|right]; discriminate.
      + intros ts v. apply staged_last.
      + intros ts. exists [RBegin id]. split; auto. rewrite <- staged_dels_keys. cbn [recs]. fold sg. rewrite ES in *. rewrite EC. reflexivity.
      + intros s span dec E. subst d. cbn [write_op step]. fold sg. unfold commit. rewrite ES at 1. rewrite EC, staged_dels_keys.
        destruct (apply_parts _ _ _ _ _) as [d1 [|]]; reflexivity.
  Qed.
End WalDbRun.
