(** The invariant of the database with its log. *)
From Coq Require Import List NArith Bool Sorted Permutation Lia Arith.
From Verif Require Import Base.Order Model.OMap Model.KeyTs Model.MemTable Model.Immutable
     Model.SsTable Model.Version Model.Compact Model.Planner Model.Db Model.DbCompact Model.WalScan Model.Replay
     Model.WalWriter Spec.Mvcc Spec.Valid Spec.History Spec.ReplaySpec Model.Run Model.WalDb Spec.Recover
     Proof.HistFacts Proof.DbFacts Proof.RunFacts Proof.Refine
     Proof.ReplayFacts Proof.ReplayGen Proof.WriterFacts Proof.RecoverDb Proof.LogFacts.
Import ListNotations.
Local Arguments kcmp : simpl never.
Local Open Scope N_scope.

Section WalDbInv.
  Context {K : Type} {KO : KeyOrd K} {R : Type}.
  Variable key_of : R -> option K.
  Notation vers := (@vers K R).
  Notation tver := (tver key_of).
  Notation last_mut := (last_mut key_of).
  Notation rec := (rec K R).
  Notation pay := (pay K R).
  Notation hv := (hv key_of).
  Notation at_log := (at_log key_of).
  Notation levels := (list (list (sst K R))).

  (** [v] is in a table, or a newer version of its key, not newer than the horizon, is. *)
  Definition sstcov (hz : N) (ls : levels) (v : vers) : Prop :=
    In v (flat_map tver (concat ls)) \/
    exists w, In w (flat_map tver (concat ls)) /\ same_key (vkey w) (vkey v) /\ vts v < vts w /\ vts w <= hz.

  (** The timestamp of [c] can be found again. *)
  Definition hinted (lg : writer rec) (refs : list seg_ref) (ids : list (N * option (list N))) (c : hcommit K R) : Prop :=
    (exists v q s, at_log (tagged (w_files lg)) v q s /\ vts v = fst c /\ loc_ok q refs ids) \/
    exists t, ws_commit (w_disk lg) = Some t /\ fst c <= t.
  Definition tail_fresh (l : list rec) : Prop :=
    forall pre r i j, l = pre ++ [r] -> tail_id r = Some i -> i < j -> since j l = [].

  (** What is on disk suffices to recover the history [h]; [X v s] is known of a version [v]
      that only the log, in frame [s], has. *)
  Record dinv (X : vers -> N -> Prop) (h : list (hcommit K R)) (hz : N) (ls : levels) (lg : writer rec)
         (refs : list seg_ref) (ids : list (N * option (list N))) : Prop := {
    di_inc : increasing h;
    di_w : winv lg;
    di_sound : forall p ts, applied (log_recs lg) p ts -> pay_ok key_of (hv h) ts p;
    di_dur : forall v, In v (hv h) -> sstcov hz ls v \/
      exists q s, at_log (tagged (w_files lg)) v q s /\ loc_ok q refs ids /\ X v s;
    di_later : forall a i t b c, log_recs lg = a ++ RCommit i t :: b -> In c h -> t < fst c -> exists p, applied b p (fst c);
    di_refs : refs_ok (w_files lg) refs;
    di_ids : forall t I x, In (t, Some I) ids -> In x I -> x <= w_seg lg;
    di_hint : forall c, In c h -> hinted lg refs ids c;
    di_hint' : forall t, ws_commit (w_disk lg) = Some t -> exists c, In c h /\ fst c = t;
    di_hz : hz = 0 \/ exists c, In c h /\ hz <= fst c;
    di_tail : tail_fresh (log_recs lg)
  }.

  Lemma dinv_mono (X X' : vers -> N -> Prop) h hz ls lg refs ids :
    (forall v s, In v (hv h) -> X v s -> X' v s) -> dinv X h hz ls lg refs ids -> dinv X' h hz ls lg refs ids.
  Proof.
    intros HX [H1 H2 H3 H4 H5 H6 H7 H8 H9 H10 H11]. constructor; auto.
    intros v Hv. destruct (H4 v Hv) as [H|(q & s & A1 & A2 & A3)]; auto. right. exists q, s. auto.
  Qed.

  Lemma log_recs_ext (lg lg' : writer rec) newt : ext lg lg' newt -> log_recs lg' = log_recs lg ++ map rc newt.
  Proof. intros HE. unfold log_recs. now rewrite (ex_tagged _ _ _ HE), map_app. Qed.
  Lemma ref_prefix X h hz ls lg refs ids lg' newt : dinv X h hz ls lg refs ids -> ext lg lg' newt ->
    refs_ok (w_files lg') refs /\ (forall t I x, In (t, Some I) ids -> In x I -> x <= w_seg lg').
  Proof.
    intros HD HE. split; [eapply refs_ok_grows; [apply (ex_grows _ _ _ HE)|apply (di_refs _ _ _ _ _ _ _ HD)]|].
    intros t I x Ht Hx. pose proof (di_ids _ _ _ _ _ _ _ HD t I x Ht Hx). pose proof (ex_seg _ _ _ HE). lia.
  Qed.
  Lemma hinted_ext lg lg' newt refs ids c : ext lg lg' newt -> ws_commit (w_disk lg') = ws_commit (w_disk lg) ->
    hinted lg refs ids c -> hinted lg' refs ids c.
  Proof.
    intros HE EW [(v & q & s & A1 & A2 & A3)|(t & T1 & T2)]; [left|right].
    - exists v, q, s. split; auto. rewrite (ex_tagged _ _ _ HE). now apply at_log_app.
    - exists t. rewrite EW. auto.
  Qed.

  (** Records without a commit, of a transaction that is not in the log. *)
  Lemma dinv_part X h hz ls lg refs ids lg' newt id :
    dinv X h hz ls lg refs ids -> winv lg' -> ext lg lg' newt ->
    no_commit (map rc newt) -> Forall (of_id id) (map rc newt) -> (forall j, id <= j -> since j (log_recs lg) = []) ->
    ws_commit (w_disk lg') = ws_commit (w_disk lg) ->
    dinv X h hz ls lg' refs ids.
  Proof.
    intros HD HW HE HN HO HF EW. pose proof (log_recs_ext _ _ _ HE) as EL. destruct (ref_prefix _ _ _ _ _ _ _ _ _ HD HE) as [R1 R2].
    destruct HD as [H1 H2 H3 H4 H5 H6 H7 H8 H9 H10 H11]. constructor; auto.
    - intros p ts Hp. rewrite EL in Hp. apply applied_no_commit in Hp; auto.
    - intros v Hv. destruct (H4 v Hv) as [H|(q & s & A1 & A2 & A3)]; auto. right. exists q, s. split; auto.
      rewrite (ex_tagged _ _ _ HE). now apply at_log_app.
    - intros a i t b c E Hc L. rewrite EL in E. apply app_case in E as [(b1 & E1 & ->)|(a1 & E1 & ->)].
      + destruct (H5 _ _ _ _ _ E1 Hc L) as (p & Hp). exists p. apply (applied_ext [] b1 (map rc newt) p _ Hp).
      + exfalso. apply (HN i t). rewrite E1. apply in_or_app. cbn. auto.
    - intros c Hc. eapply hinted_ext; eauto.
    - rewrite EW. exact H9.
    - intros pre r i j E1 E2 L. destruct newt as [|t0 newt0].
      + cbn [map] in EL. rewrite app_nil_r in EL. rewrite EL in *. eapply H11; eauto.
      + set (nt := t0 :: newt0) in *. destruct (exists_last (l := nt)) as (n1 & x & EN); [discriminate|].
        rewrite EL, EN, map_app, app_assoc in E1. cbn [map] in E1. apply app_inj_tail in E1 as [_ E1].
        assert (of_id id r).
        { rewrite Forall_forall in HO. apply HO. rewrite EN, map_app. apply in_or_app. right. cbn. auto. }
        assert (i = id) as ->.
        { destruct r; cbn in *; try discriminate; congruence. }
        rewrite EL, (since_other j id) by (auto; lia). apply HF. lia.
  Qed.

  (** A whole transaction. *)
  Lemma dinv_txn X h hz ls lg refs ids lg' newt id c ms b0 ps n0 :
    dinv X h hz ls lg refs ids -> winv lg' -> ext lg lg' newt ->
    map rc newt = b0 ++ map (RPay id) ps ++ [RCommit id c] -> b0 = [] \/ b0 = [RBegin id] ->
    (forall j, id <= j -> since j (log_recs lg) = []) ->
    (forall t, In t newt -> n0 <= fst (snd t)) ->
    Forall (fun x => fst x < c) h ->
    (forall p, In p ps -> pay_keyed key_of p /\ pay_cts p = c) ->
    (forall v, last_mut c ms v <-> exists p, In p ps /\ last_mut c (pay_muts p) v) ->
    ps <> [] ->
    (ws_commit (w_disk lg') = ws_commit (w_disk lg) \/ ws_commit (w_disk lg') = Some c) ->
    dinv (fun v s => X v s \/ (last_mut c ms v /\ n0 <= s)) (h ++ [(c, ms)]) hz ls lg' refs ids.
  Proof.
    intros HD HW HE EN HB0 HF HS0 HLT HP HM HPS HWS. pose proof (log_recs_ext _ _ _ HE) as EL.
    destruct (ref_prefix _ _ _ _ _ _ _ _ _ HD HE) as [R1 R2]. rewrite EN in EL.
    assert (HV : forall v, In v (hv (h ++ [(c, ms)])) <-> In v (hv h) \/ last_mut c ms v).
    { intros v. rewrite hv_app, in_app_iff, (hv_In key_of [(c, ms)]). cbn. split.
      - intros [H|(x & [<-|[]] & H)]; auto.
      - intros [H|H]; auto. right. exists (c, ms). auto. }
    assert (NEWLOC : forall v, last_mut c ms v -> exists q s, at_log (tagged (w_files lg')) v q s /\ loc_ok q refs ids /\ n0 <= s).
    { intros v Hv. apply HM in Hv as (p & Hp & Hv). destruct (new_position id c b0 ps p Hp) as (u & w & E & U).
      rewrite E in EN. apply rc_split in EN as (tu & q & s & tv & q2 & s2 & tw & E1 & E2).
      exists q, s. split; [|split].
      - rewrite (ex_tagged _ _ _ HE), E1. exists (tagged (w_files lg) ++ tu), id, p, tv, q2, s2, c, tw.
        rewrite <- app_assoc. split; auto. rewrite E2. auto.
      - assert (In (q, (s, RPay id p)) newt) by (rewrite E1; apply in_or_app; cbn; auto).
        apply (loc_fresh lg); [apply (di_w _ _ _ _ _ _ _ HD)|apply (di_refs _ _ _ _ _ _ _ HD)|apply (ex_new _ _ _ HE _ H)|apply (di_ids _ _ _ _ _ _ _ HD)].
      - apply (HS0 (q, (s, RPay id p))). rewrite E1. apply in_or_app. cbn. auto. }
    assert (VEX : exists v, last_mut c ms v).
    { destruct ps as [|p ps']; [congruence|]. destruct (HP p (or_introl eq_refl)) as [K1 _].
      destruct (keyed_muts key_of p K1) as [K2 K3]. destruct (last_mut_exists key_of c _ K2 K3) as (v & Hv).
      exists v. apply HM. exists p. cbn. auto. }
    destruct HD as [H1 H2 H3 H4 H5 H6 H7 H8 H9 H10 H11]. constructor; auto.
    - apply SSort_app. split; auto. split; [repeat constructor|].
      intros a b Ha [<-|[]]. rewrite Forall_forall in HLT. apply HLT. exact Ha.
    - intros p ts Hp. rewrite EL in Hp. apply applied_new in Hp as [Hp|[-> Hp]]; [| |auto|apply HF; lia].
      + destruct (H3 p ts Hp) as (A1 & A2 & A3). split; auto. split; auto. intros v Hv. apply HV. auto.
      + destruct (HP p Hp) as [A1 A2]. split; auto. split; auto. intros v Hv. apply HV. right. apply HM. eauto.
    - intros v Hv. apply HV in Hv as [Hv|Hv].
      + destruct (H4 v Hv) as [H|(q & s & A1 & A2 & A3)]; auto. right. exists q, s. split; auto.
        rewrite (ex_tagged _ _ _ HE). now apply at_log_app.
      + right. destruct (NEWLOC v Hv) as (q & s & A1 & A2 & A3). exists q, s. auto.
    - intros a i t b c' E Hc L. rewrite EL in E. apply app_case in E as [(b1 & E1 & ->)|(a1 & E1 & ->)].
      + apply in_app_or in Hc as [Hc|[<-|[]]].
        * destruct (H5 _ _ _ _ _ E1 Hc L) as (p & Hp). exists p. apply (applied_ext [] b1 _ p _ Hp).
        * cbn [fst]. destruct ps as [|p ps']; [congruence|]. exists p. destruct (new_position id c b0 (p :: ps') p) as (u & w & E & U); [cbn; auto|].
          rewrite E. exists (b1 ++ u), id, w, []. rewrite <- app_assoc. auto.
      + exfalso. assert (t = c).
        { destruct b0 as [|x b0']; [|destruct HB0 as [HB0|HB0]; [discriminate|inversion HB0; subst]].
          - cbn [app] in E1. assert (In (RCommit i t) (map (RPay id) ps ++ [RCommit id c])) by (rewrite E1; apply in_or_app; cbn; auto).
            apply in_app_or in H as [H|[H|[]]]; [apply in_map_iff in H as (p & F & _); discriminate|]. inversion H. auto.
          - assert (In (RCommit i t) ([RBegin id] ++ map (RPay id) ps ++ [RCommit id c])) by (rewrite E1; apply in_or_app; cbn; auto).
            apply in_app_or in H as [[H|[]]|H]; [discriminate|].
            apply in_app_or in H as [H|[H|[]]]; [apply in_map_iff in H as (p & F & _); discriminate|]. inversion H. auto. }
        subst t. apply in_app_or in Hc as [Hc|[<-|[]]]; [|cbn in L; lia]. rewrite Forall_forall in HLT. specialize (HLT c' Hc). cbn in HLT. lia.
    - intros c' Hc. apply in_app_or in Hc as [Hc|[<-|[]]].
      + destruct HWS as [HWS|HWS]; [eapply hinted_ext; eauto|]. right. exists c. split; auto. rewrite Forall_forall in HLT. specialize (HLT c' Hc). cbn in HLT. lia.
      + destruct VEX as (v & Hv). left. destruct (NEWLOC v Hv) as (q & s & A1 & A2 & A3). exists v, q, s. split; auto. split; auto.
        rewrite (last_mut_ts _ _ _ _ Hv). reflexivity.
    - intros t Ht. destruct HWS as [HWS|HWS]; rewrite HWS in Ht.
      + destruct (H9 t Ht) as (x & X1 & X2). exists x. split; auto. apply in_or_app; auto.
      + inversion Ht; subst. exists (t, ms). split; auto. apply in_or_app; cbn; auto.
    - destruct H10 as [H10|(x & X1 & X2)]; auto. right. exists x. split; auto. apply in_or_app; auto.
    - intros pre r i j E1 E2 L. rewrite EL in E1. rewrite !app_assoc in E1. apply app_inj_tail in E1 as [_ <-].
      cbn in E2. inversion E2; subst i. rewrite EL, (since_other j id); [apply HF; lia| |lia]. now apply new_of_id.
  Qed.

  (** Publishing references and pruning. *)
  Lemma dinv_publish (X X' : vers -> N -> Prop) h hz ls lg refs ids hz' ls' refs' ids' n :
    dinv X h hz ls lg refs ids ->
    refs_ok (w_files lg) refs' ->
    (forall t I x, In (t, Some I) ids' -> In x I -> x <= w_seg lg) ->
    (hz' = 0 \/ exists c, In c h /\ hz' <= fst c) ->
    (forall v, In v (hv h) -> sstcov hz' ls' v \/
       exists q s, at_log (tagged (w_files lg)) v q s /\ loc_ok q refs' ids' /\ X' v s) ->
    (forall c, In c h -> hinted lg refs' ids' c) ->
    dinv X' h hz' ls' (prune (floor_of refs') n lg) refs' ids'.
  Proof.
    intros HD HR HI HZ HDUR HH. destruct HD as [H1 H2 H3 H4 H5 H6 H7 H8 H9 H10 H11].
    destruct (prune_spec (floor_of refs') n lg H2) as (a & EF & HA & PW & _ & _ & ES & EC & _ & ED).
    assert (ET : tagged (w_files lg) = tagged a ++ tagged (w_files (prune (floor_of refs') n lg))) by (now rewrite EF at 1; rewrite tagged_app).
    assert (EL : log_recs lg = map rc (tagged a) ++ log_recs (prune (floor_of refs') n lg)) by (unfold log_recs; now rewrite ET, map_app).
    assert (AT : forall v q s, at_log (tagged (w_files lg)) v q s -> loc_ok q refs' ids' ->
                 at_log (tagged (w_files (prune (floor_of refs') n lg))) v q s).
    { intros v q s HL HO. rewrite ET in HL. apply at_log_suffix in HL; auto. intros [s' f] Ht. apply tagged_In in Ht as (l & Ht & _).
      specialize (HA _ Ht). destruct (floor_of refs') as [fr|] eqn:EFR; [|destruct HA]. pose proof (lo_floor _ _ _ HO fr EFR). cbn in *. lia. }
    constructor; auto.
    - intros p ts Hp. apply H3. rewrite EL. pose proof (applied_ext (map rc (tagged a)) _ [] p ts Hp) as X0. now rewrite app_nil_r in X0.
    - intros v Hv. destruct (HDUR v Hv) as [H|(q & s & A1 & A2 & A3)]; auto. right. exists q, s. auto.
    - intros b i t d c E Hc L. apply (H5 (map rc (tagged a) ++ b) i t); auto. rewrite EL, E, app_assoc. reflexivity.
    - apply (refs_ok_prune a); [now rewrite <- EF|exact HA].
    - rewrite ES. exact HI.
    - intros c Hc. destruct (HH c Hc) as [(v & q & s & A1 & A2 & A3)|(t & T1 & T2)]; [left; exists v, q, s; auto|right; exists t; rewrite ED; auto].
    - rewrite ED. exact H9.
    - intros pre r i j E1 E2 L. apply (since_suffix j (map rc (tagged a))). rewrite <- EL.
      apply (H11 (map rc (tagged a) ++ pre) r i j); auto. rewrite EL, E1, app_assoc. reflexivity.
  Qed.
End WalDbInv.
