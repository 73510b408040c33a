(** The run of the database against its history: the invariant and what reads return. *)
From Coq Require Import List NArith Bool Sorted Permutation Lia Arith.
From Verif Require Import Base.Order Base.Sub Model.OMap Model.KeyTs Model.MemTable Model.Immutable
     Model.SsTable Model.MergeStream Model.KeyBounds Model.DbScan Model.Version Model.Db Model.Compact
     Model.Planner Model.DbCompact Spec.Mvcc Spec.KeySet Spec.Valid Spec.History Model.Run
     Proof.OMapFacts Proof.MemFacts Proof.ViewFacts Proof.SstFacts Proof.MergeFacts Proof.ScanFacts
     Proof.HistFacts Proof.CompactFacts Proof.CompactLoop Proof.CompactOut Proof.VersionFacts Proof.LiveFacts Proof.DbFacts
     Proof.RunFacts.
Import ListNotations.
Local Arguments kcmp : simpl never.

Section Refine.
  Context {K : Type} {KO : KeyOrd K} {R : Type}.
  Variable key_of : R -> option K.
  Variable row_bytes : R -> nat.
  Variable del_bytes : K -> nat.
  Notation vers := (@vers K R).
  Notation tver := (tver key_of).
  Notation store := (store key_of).
  Notation rep := (rep key_of).
  Notation step := (step key_of row_bytes del_bytes).
  Notation run := (run key_of row_bytes del_bytes).
  Notation op_ok := (op_ok key_of).
  Notation ops_ok := (ops_ok key_of row_bytes del_bytes).
  Notation push_ok := (push_ok key_of).

  (** [S] holds the versions [V] except for some that a newer version, not newer than the
      horizon, hides. *)
  Definition cover (hz : N) (S V : list vers) : Prop :=
    (forall v, In v S -> In v V) /\
    (forall v, In v V -> In v S \/ exists w, In w S /\ same_key (vkey w) (vkey v) /\ (vts v < vts w)%N /\ (vts w <= hz)%N).

  Lemma cover_newest hz S V ts v : cover hz S V -> (hz <= ts)%N ->
    (newest_visible S ts v <-> newest_visible V ts v).
  Proof.
    intros [C1 C2] HZ. split; intros (H1 & H2 & H3).
    - split; auto. split; auto. intros w Hw Hk Ht. destruct (C2 w Hw) as [Hs|(u & U1 & U2 & U3 & U4)]; auto.
      assert (vts u <= vts v)%N; [|lia]. apply H3; auto; [|lia]. unfold same_key in *. korder.
    - split.
      + destruct (C2 v H1) as [Hs|(u & U1 & U2 & U3 & U4)]; auto. exfalso.
        assert (vts u <= vts v)%N; [|lia]. apply H3; auto; lia.
      + split; auto.
  Qed.

  Record inv (s : state K R) : Prop := {
    iv_rep : exists M Is, rep (st_db s) M Is /\
             cover (st_horizon s) (store M Is (d_levels (st_db s))) (hv key_of (st_hist s));
    iv_inc : increasing (st_hist s);
    iv_clock : Forall (fun c => (fst c < d_clock (st_db s))%N) (st_hist s);
    iv_hz : (st_horizon s <= d_clock (st_db s) - 1)%N
  }.

  Lemma inv_start capacity : 1 <= capacity -> inv (start capacity).
  Proof.
    intros HC. constructor; simpl.
    - exists [], []. split.
      + constructor; simpl; auto; try constructor. constructor. constructor.
      + split; intros v [].
    - constructor.
    - constructor.
    - lia.
  Qed.

  Lemma hv_clock h c v : Forall (fun x : hcommit K R => (fst x < c)%N) h -> In v (hv key_of h) -> (vts v < c)%N.
  Proof.
    intros H Hv. apply hv_ts in Hv as (x & Hx & ->). rewrite Forall_forall in H. now apply H.
  Qed.

  (** *** One write *)
  Lemma fresh_hits h c (S : list vers) ms : Forall (fun x : hcommit K R => (fst x < c)%N) h ->
    (forall v, In v S -> In v (hv key_of h)) ->
    forall w m, In w S -> In m ms -> ~ hits key_of c m (fst w).
  Proof.
    intros HC HS w m Hw _ Hh. apply HS in Hw. apply (hv_clock _ _ _ HC) in Hw.
    unfold hits in Hh. destruct (mut_key key_of m); auto. apply kts_eq in Hh. simpl in Hh. destruct Hh as [_ E].
    unfold vts in Hw. rewrite <- E in Hw. lia.
  Qed.

  Lemma inv_write s d' M' Is' ok ms (M : list vers) Is :
    inv s -> rep (st_db s) M Is ->
    cover (st_horizon s) (store M Is (d_levels (st_db s))) (hv key_of (st_hist s)) ->
    rep d' M' Is' -> d_levels d' = d_levels (st_db s) -> d_clock d' = (d_clock (st_db s) + 1)%N ->
    (forall v, In v (store M' Is' (d_levels (st_db s))) <->
       In v (store M Is (d_levels (st_db s))) \/ (ok = true /\ last_mut key_of (d_clock (st_db s)) ms v)) ->
    inv (ack s ms (d', ok)).
  Proof.
    intros [I1 I2 I3 I4] HR HC HR' EL EC HV. set (c := d_clock (st_db s)) in *.
    assert (HH : (ms <> [] /\ ok = true /\ st_hist (ack s ms (d', ok)) = st_hist s ++ [(c, ms)]) \/
                 ((forall v, ~ (ok = true /\ last_mut key_of c ms v)) /\ st_hist (ack s ms (d', ok)) = st_hist s)).
    { unfold ack; simpl. destruct ms as [|m ms].
      - right. rewrite app_nil_r. split; auto. intros v [_ F]. eapply last_mut_nil; eauto.
      - destruct ok; [left|right].
        + split; [discriminate|]. auto.
        + rewrite app_nil_r. split; auto. intros v [F _]. discriminate. }
    assert (EI : forall v, In v (hv key_of (st_hist (ack s ms (d', ok)))) <->
                 In v (hv key_of (st_hist s)) \/ (ok = true /\ last_mut key_of c ms v)).
    { intros v. destruct HH as [(_ & -> & E)|[HN E]]; rewrite E.
      - rewrite hv_app, in_app_iff. rewrite (hv_In key_of [(c, ms)]). simpl. split.
        + intros [H|(x & [<-|[]] & H)]; auto.
        + intros [H|[_ H]]; auto. right. exists (c, ms). auto.
      - split; auto. intros [H|H]; auto. exfalso. eapply HN; eauto. }
    constructor.
    - exists M', Is'. split; [exact HR'|]. simpl. rewrite EL.
      destruct HC as [C1 C2]. split.
      + intros v Hv. apply EI. apply HV in Hv as [Hv|Hv]; auto.
      + intros v Hv. apply EI in Hv as [Hv|Hv].
        * destruct (C2 v Hv) as [H|(w & W1 & W2)]; [left; apply HV; auto|].
          right. exists w. split; auto. apply HV; auto.
        * left. apply HV. auto.
    - destruct HH as [(_ & _ & E)|[_ E]]; rewrite E; auto.
      apply StronglySorted_app. split; auto. split; [repeat constructor|].
      intros a b Ha [<-|[]]. rewrite Forall_forall in I3. apply I3. exact Ha.
    - simpl. rewrite EC. assert (IM : Forall (fun x : hcommit K R => (fst x < c + 1)%N) (st_hist s)).
      { eapply Forall_impl; [|exact I3]. intros a Ha. simpl in Ha. fold c in Ha. lia. }
      destruct HH as [(_ & _ & E)|[_ E]]; simpl in E; rewrite E; auto.
      apply Forall_app. split; auto. constructor; auto. simpl. lia.
    - simpl. rewrite EC. fold c in I4. lia.
  Qed.

  Definition clock_room (s : state K R) : Prop := (d_clock (st_db s) + 1 < 2 ^ 64)%N.

  Lemma rep_tick d M Is span : rep d M Is -> rep (observe_range span (tick d)) M Is.
  Proof. intros H. eapply rep_same; eauto; destruct span; reflexivity. Qed.
  Lemma tick_rest (d : db K R) span : (d_clock d + 1 < 2 ^ 64)%N ->
    let d1 := observe_range span (tick d) in
    d_levels d1 = d_levels d /\ d_clock d1 = (d_clock d + 1)%N /\ d_next_id d1 = d_next_id d.
  Proof.
    intros H. destruct span; cbn [observe_range tick d_levels d_clock d_next_id]; rewrite N.mod_small by exact H; auto.
  Qed.

  Lemma mem_fresh s M Is : inv s ->
    cover (st_horizon s) (store M Is (d_levels (st_db s))) (hv key_of (st_hist s)) ->
    forall ms w m, In w M -> In m ms -> ~ hits key_of (d_clock (st_db s)) m (fst w).
  Proof.
    intros HI [C1 _] ms w m Hw Hm. apply (fresh_hits (st_hist s) _ M ms) with (w := w); auto.
    - apply iv_clock; auto.
    - intros v Hv. apply C1, store_In. auto.
  Qed.

  Lemma parts_then_seal s M Is ups (ks : list K) span dec (ms : list (mut K R)) :
    inv s -> clock_room s -> rep (st_db s) M Is ->
    cover (st_horizon s) (store M Is (d_levels (st_db s))) (hv key_of (st_hist s)) ->
    Forall (fun r => key_of r <> None) ups ->
    separate key_of (map Put ups) (map Del ks) ->
    (forall v, last_mut key_of (d_clock (st_db s)) (map Put ups ++ map Del ks) v <->
               last_mut key_of (d_clock (st_db s)) ms v) ->
    inv (ack s ms (seq2 (apply_parts key_of ups (map Some ks) (d_clock (st_db s))
                                      (observe_range span (tick (st_db s)))) (maybe_seal key_of dec))).
  Proof.
    intros HI HCR HR HC HK HS HL. set (c := d_clock (st_db s)) in *.
    destruct (tick_rest (st_db s) span HCR) as (T1 & T2 & T3).
    destruct (apply_parts_spec key_of (observe_range span (tick (st_db s))) M Is c ups ks (rep_tick _ _ _ _ HR) HK HS)
      as (d1 & M1 & Is1 & ok & E1 & R1 & (S1 & S2 & S3) & V1).
    { intros w m Hw Hm. eapply mem_fresh; eauto. }
    rewrite E1. cbn [seq2]. destruct ok.
    - destruct (maybe_seal_spec key_of dec d1 M1 Is1 R1) as (d2 & M2 & Is2 & E2 & R2 & (Q1 & Q2 & Q3) & V2).
      rewrite E2. eapply inv_write; eauto; [congruence|congruence|].
      intros v. rewrite V2, V1, HL. reflexivity.
    - eapply inv_write; eauto; [congruence|congruence|].
      intros v. rewrite V1. split; intros [H|[H _]]; auto; discriminate.
  Qed.

  (** *** Streams of SSTs *)
  Lemma zip_fst ds : forall xs, concat (map fst (@zip_stream K R ds xs)) = concat ds.
  Proof.
    induction ds as [|d ds IH]; intros xs; simpl.
    - induction xs; simpl; auto.
    - destruct xs; simpl; now rewrite IH.
  Qed.
  Lemma zip_snd ds : forall xs, concat (map bdels (@zip_stream K R ds xs)) = concat xs.
  Proof.
    induction ds as [|d ds IH]; intros xs; simpl.
    - induction xs; simpl; auto. now rewrite IHxs.
    - destruct xs; simpl; rewrite IH; auto.
  Qed.
  Lemma zip_nonempty ds : forall xs, Forall (fun b => b <> []) ds -> Forall (fun b => b <> []) xs ->
    Forall nonempty_batch (@zip_stream K R ds xs).
  Proof.
    induction ds as [|d ds IH]; intros xs HD HX; simpl.
    - induction HX; simpl; constructor; auto. right. exact H.
    - inversion HD; subst. destruct xs; simpl; constructor; auto; try (left; exact H1).
      inversion HX; subst. auto.
  Qed.
  Lemma zip_clean ds xs : ds = [] \/ xs = [] \/ (length ds <= 1 /\ length xs <= 1) ->
    clean_stream (@zip_stream K R ds xs).
  Proof.
    intros [->|[->|[H1 H2]]].
    - right. left. intros b Hb. simpl in Hb. apply in_map_iff in Hb as (x & <- & _). reflexivity.
    - left. induction ds as [|d ds IH]; simpl; [intros b []|]. intros b [<-|Hb]; auto.
    - right. right. destruct ds as [|d [|d' ds]]; simpl in *; try lia; destruct xs as [|x [|x' xs]]; simpl in *; try lia.
  Qed.
  Lemma concat_nil {A} (l : list (list A)) : Forall (fun b => b <> []) l -> concat l = [] -> l = [].
  Proof. intros H E. destruct H as [|b l Hb _]; auto. simpl in E. destruct b; [congruence|discriminate]. Qed.

  Lemma wsorted_drow (D : list ((K * N) * R)) :
    StronglySorted (fun a b => kcmp (fst a) (fst b) <> Gt) D -> wsorted (map (fun e => (fst e, Some (snd e))) D).
  Proof.
    unfold wsorted. induction 1 as [|a D H IH HF]; simpl; constructor; auto.
    rewrite Forall_map. exact HF.
  Qed.
  Lemma wsorted_xver (X : list (K * N)) :
    StronglySorted (fun a b : K * N => kcmp a b <> Gt) X -> wsorted (map (@xver K R) X).
  Proof.
    unfold wsorted. induction 1 as [|a D H IH HF]; simpl; constructor; auto.
    rewrite Forall_map. exact HF.
  Qed.

  Lemma stream_of_ok ch t : tok key_of t -> faithful ch t ->
    stream_ok key_of (stream_of ch t) /\ sdata key_of (stream_of ch t) ++ sdels (stream_of ch t) = tver t.
  Proof.
    intros [(D & X & HR & HV & HC) _] (F1 & F2 & F3 & F4 & F5).
    pose proof HR as (E1 & HK & E2 & S1 & S2).
    assert (A1 : sdata key_of (stream_of ch t) = map (fun e => (fst e, Some (snd e))) D).
    { unfold sdata, stream_of. rewrite zip_fst, F1, E1. apply dver_drow; auto. }
    assert (A2 : sdels (stream_of ch t) = map (@xver K R) X).
    { unfold sdels, stream_of. rewrite zip_snd, F2, E2. reflexivity. }
    split.
    - constructor.
      + apply zip_clean. destruct F5 as [F|[F|F]]; auto.
        * left. apply concat_nil; auto. congruence.
        * right; left. apply concat_nil; auto. congruence.
      + apply zip_nonempty; auto.
      + unfold stream_of. rewrite zip_fst, F1, E1. rewrite Forall_map. eapply Forall_impl; [|exact HK].
        intros e He. unfold keyed_row. simpl. congruence.
      + rewrite A1. apply wsorted_drow; auto.
      + rewrite A2. apply wsorted_xver; auto.
    - rewrite A1, A2, (tver_repr key_of t D X HR). reflexivity.
  Qed.

  Lemma hv_unique h (v w : vers) : increasing h -> In v (hv key_of h) -> In w (hv key_of h) ->
    same_key (vkey v) (vkey w) -> vts v = vts w -> v = w.
  Proof.
    intros HI Hv Hw Hk Ht. apply hv_In in Hv as (c & Hc & Hv). apply hv_In in Hw as (c' & Hc' & Hw).
    assert (c = c').
    { eapply increasing_ts_inj; eauto. rewrite <- (last_mut_ts _ _ _ _ Hv), <- (last_mut_ts _ _ _ _ Hw). exact Ht. }
    subst c'. apply commit_vers_In in Hv, Hw.
    eapply osorted_unique; eauto. apply commit_vers_sorted. apply kts_eq. split; auto.
  Qed.

  Lemma ids_from_In n : forall id x, In x (ids_from id n) -> (id <= x < id + N.of_nat n)%N.
  Proof.
    induction n as [|n IH]; intros id x H; simpl in H; [destruct H|].
    destruct H as [->|H]; [lia|]. apply IH in H. lia.
  Qed.
  Lemma ids_from_NoDup n : forall id, NoDup (ids_from id n).
  Proof.
    induction n as [|n IH]; intros id; simpl; constructor; auto.
    intros F. apply ids_from_In in F. lia.
  Qed.

  (** Everything a compaction does to the database. *)
  Lemma NoDup_app_l {A} (a b : list A) : NoDup (a ++ b) -> NoDup a.
  Proof.
    induction a as [|x a IH]; simpl; intros H; [constructor|]. inversion H as [|? ? N1 N2]; subst. constructor; auto.
    intros F. apply N1, in_or_app; auto.
  Qed.
  Lemma NoDup_app_r {A} (a b : list A) : NoDup (a ++ b) -> NoDup b.
  Proof. induction a as [|x a IH]; simpl; auto. intros H. inversion H; auto. Qed.
  Lemma NoDup_nth_level (ls : list (list (sst K R))) l : NoDup (map (@t_id K R) (concat ls)) -> NoDup (map (@t_id K R) (nth l ls [])).
  Proof.
    revert l. induction ls as [|b ls IH]; intros [|l]; simpl; auto; try constructor; rewrite map_app; intros H.
    - now apply NoDup_app_l in H.
    - apply NoDup_app_r in H. auto.
  Qed.
  Lemma compact_spec d M Is cf ch tk : rep d M Is ->
    (forall l t, In (l, t_id t) (tk_input tk) -> In t (concat (d_levels d)) -> faithful ch t) ->
    exists d' changed, compact key_of row_bytes del_bytes cf ch tk d = (d', changed) /\
      rep d' M Is /\ d_clock d' = d_clock d /\ (d_next_id d <= d_next_id d')%N /\
      d_mem d' = d_mem d /\ d_imm d' = d_imm d /\
      (changed = false -> d_levels d' = d_levels d) /\
      (changed = true -> exists ins outs Bs,
         resolve_inputs (@t_id K R) (d_levels d) (tk_input tk) = Some ins /\
         (forall t, In t (concat (d_levels d')) <->
            In t outs \/ (In t (concat (d_levels d)) /\ ~ In (t_id t) (map snd (tk_input tk)))) /\
         Forall2 (out_ok key_of) outs Bs /\ Forall (capped row_bytes del_bytes cf) Bs /\
         merged (flat_map (fun p => tver (snd p)) ins) None (concat Bs) /\
         (forall t, In t outs -> (d_next_id d <= t_id t)%N) /\
         (forall p, In p ins -> In (snd p) (concat (d_levels d)) /\ In (t_id (snd p)) (map snd (tk_input tk))) /\
         (forall t, In t (concat (d_levels d)) -> In (t_id t) (map snd (tk_input tk)) -> exists l, In (l, t) ins) /\
         (forall l t, In t (nth l (d_levels d') []) <->
            (l = tk_target tk /\ In t outs) \/ (In t (nth l (d_levels d) []) /\ ~ In (l, t_id t) (tk_input tk)))) /\
      (changed = false <-> (tk_input tk = [] \/ resolve_inputs (@t_id K R) (d_levels d) (tk_input tk) = None)).
  Proof.
    intros HR HF. pose proof HR as [HM HI HG HS HD HN HC]. unfold compact.
    destruct (resolve_inputs (@t_id K R) (d_levels d) (tk_input tk)) as [ins|] eqn:ER.
    2:{ exists d, false. split; auto. split; auto. split; auto. split; [lia|]. split; auto. split; auto. split; auto.
        split; [discriminate|tauto]. }
    destruct (resolve_In (@t_id K R) _ _ _ ER) as [R1 R2].
    destruct ins as [|p0 ins0].
    { simpl in R1. exists d, false. split; auto. split; auto. split; auto. split; [lia|]. split; auto. split; auto. split; auto.
      split; [discriminate|]. rewrite <- R1. tauto. }
    set (ins := p0 :: ins0) in *.
    assert (R3 : forall p, In p ins -> In (snd p) (concat (d_levels d)) /\ In (t_id (snd p)) (map snd (tk_input tk))).
    { intros p Hp. rewrite Forall_forall in R2. destruct (R2 p Hp) as [_ X]. split; [apply In_nth_level; eauto|].
      rewrite <- R1, map_map. apply in_map_iff. exists p. auto. }
    assert (ST : forall p, In p ins -> stream_ok key_of (stream_of ch (snd p)) /\
               sdata key_of (stream_of ch (snd p)) ++ sdels (stream_of ch (snd p)) = tver (snd p)).
    { intros p Hp. destruct (R3 p Hp) as [X1 X2]. apply stream_of_ok.
      - rewrite Forall_forall in HS. auto.
      - apply (HF (fst p)); auto. rewrite <- R1. apply in_map_iff. exists p. split; auto. }
    assert (SV : svers key_of (map (fun p => stream_of ch (snd p)) ins) = flat_map (fun p => tver (snd p)) ins).
    { unfold svers. clear - ST. induction ins as [|p l IH]; simpl; auto.
      rewrite (proj2 (ST p (or_introl eq_refl))), IH; auto. intros q Hq. apply ST. simpl; auto. }
    destruct (merge_exec_spec key_of row_bytes del_bytes cf (map (fun p => stream_of ch (snd p)) ins) (d_next_id d))
      as (outs & Bs & next' & E1 & E2 & E3 & E4 & E5 & E6).
    { apply Forall_map, Forall_forall. intros p Hp. apply ST; auto. }
    { rewrite SV. unfold ins. simpl. rewrite Forall_forall in HS.
      destruct (HS (snd p0)) as [_ HX]; [apply R3; simpl; auto|]. intros F. apply app_eq_nil in F as [F _]. auto. }
    rewrite SV in E3. rewrite E1.
    assert (OI : forall t, In t outs -> (d_next_id d <= t_id t < next')%N).
    { intros t Ht. apply (in_map (@t_id K R)) in Ht. rewrite E5 in Ht. apply ids_from_In in Ht. lia. }
    destruct (outcome_spec (@t_id K R) (mkVer 0 (d_levels d) [] None None) (tk_input tk) ins outs (tk_target tk))
      as (v' & V1 & V2 & V3).
    { exact HN. } { exact ER. } { rewrite E5. apply ids_from_NoDup. }
    { intros e He. simpl. eapply ids_bound; eauto. apply OI. exact He. }
    simpl in V2. rewrite V1.
    assert (OT : forall t, In t outs -> tok key_of t).
    { intros t Ht. clear - E2 Ht. induction E2 as [|a B l Bs H E2 IH]; [destruct Ht|].
      destruct Ht as [->|Ht]; auto. destruct H as (H1 & _ & _ & _ & H2). now apply (sst_ok_tok key_of t B). }
    eexists _, true. split; [reflexivity|]. cbn [d_clock d_next_id d_mem d_imm d_levels].
    split; [|split; [reflexivity|split; [lia|split; [reflexivity|split; [reflexivity|split; [discriminate|split]]]]]].
    - constructor; cbn [d_mem d_imm d_levels d_next_id]; auto.
      + apply Forall_forall. intros t Ht. apply V2 in Ht as [Ht|[Ht _]]; auto. rewrite Forall_forall in HS. auto.
      + apply Forall_forall. intros t Ht. apply V2 in Ht as [Ht|[Ht _]].
        * apply OI in Ht. lia.
        * rewrite Forall_forall in HD. specialize (HD t Ht). simpl in HD. lia.
    - intros _. exists ins, outs, Bs. split; auto. split; [exact V2|]. split; auto. split; auto. split; auto. split.
      { intros t Ht. apply OI in Ht. lia. }
      split; auto. split.
      2:{ rewrite <- R1. apply (outcome_levels (@t_id K R) (mkVer 0 (d_levels d) [] None None) v' ins outs (tk_target tk)); auto.
          - simpl. intros l. apply NoDup_nth_level. exact HN.
          - rewrite E5. apply ids_from_NoDup.
          - simpl. intros e He F. apply OI in He. apply in_map_iff in F as (x & X1 & X2).
            assert (X3 : In x (concat (d_levels d))) by (apply In_nth_level; eauto).
            rewrite Forall_forall in HD. specialize (HD x X3). simpl in HD. lia. }
      intros t Ht Hid. rewrite <- R1, map_map in Hid. apply in_map_iff in Hid as (p & P1 & P2).
      exists (fst p). destruct p as [l t']. simpl in *.
      assert (t' = t); [|subst; auto]. destruct (R3 _ P2) as [P3 _]. simpl in P3.
      clear - HN Ht P1 P3. induction (concat (d_levels d)) as [|x l IH]; [destruct Ht|].
      simpl in HN. inversion HN as [|? ? N1 N2]; subst. destruct Ht as [->|Ht], P3 as [->|P3]; auto.
      + exfalso. apply N1. rewrite <- P1. now apply in_map.
      + exfalso. apply N1. rewrite P1. now apply in_map.
    - split; [discriminate|]. intros [F|F]; [|discriminate]. rewrite F in R1. discriminate.
  Qed.

  Lemma tver_ts (t : sst K R) v : In v (tver t) -> In (vts v) (map snd (t_rows t) ++ map snd (t_dels t)).
  Proof.
    unfold tver. rewrite !in_app_iff, in_flat_map, in_map_iff. intros [((r & u) & H1 & H2)|((k & u) & <- & H)].
    - left. unfold dver in H2. simpl in H2. destruct (key_of r); [|destruct H2]. destruct H2 as [<-|[]].
      apply in_map_iff. exists (r, u). auto.
    - right. apply in_map_iff. exists (k, u). auto.
  Qed.
  Lemma ts_tver (t : sst K R) u : tok key_of t -> In u (map snd (t_rows t) ++ map snd (t_dels t)) ->
    exists v, In v (tver t) /\ vts v = u.
  Proof.
    intros [(D & X & (E1 & HK & E2 & _) & _) _] H. unfold tver. rewrite in_app_iff in H. destruct H as [H|H].
    - apply in_map_iff in H as ((r & u') & <- & H). rewrite E1 in H. apply in_map_iff in H as (((k & t1) & r') & E & H).
      unfold drow in E. simpl in E. inversion E; subst. unfold dkeyed in HK. rewrite Forall_forall in HK. specialize (HK _ H). simpl in HK.
      exists ((k, u'), Some r). split; auto. apply in_app_iff. left. apply in_flat_map. exists (r, u').
      split; [rewrite E1; apply in_map_iff; exists ((k, u'), r); auto|]. unfold dver. simpl. rewrite HK. simpl; auto.
    - apply in_map_iff in H as ((k & u') & <- & H). exists ((k, u'), None). split; auto. apply in_app_iff. right.
      apply in_map_iff. exists (k, u'). auto.
  Qed.
  Lemma max_In l u : In u l -> (u <= fold_right N.max 0 l)%N.
  Proof. induction l as [|a l IH]; simpl; [tauto|]. intros [->|H]; [lia|]. specialize (IH H). lia. Qed.
  Lemma max_le l m : (forall u, In u l -> (u <= m)%N) -> (fold_right N.max 0 l <= m)%N.
  Proof. induction l as [|a l IH]; simpl; intros H; [lia|]. pose proof (H a (or_introl eq_refl)). assert (fold_right N.max 0 l <= m)%N by (apply IH; auto). lia. Qed.

  Lemma newest_le s tk : inv s -> (newest_input (st_db s) tk <= d_clock (st_db s) - 1)%N.
  Proof.
    intros [(M & Is & HR & HC) I2 I3 I4].
    apply max_le. intros u Hu. apply in_flat_map in Hu as (t & Ht & Hu). apply filter_In in Ht as [Ht _].
    pose proof (rp_sst _ _ _ _ HR) as HT. rewrite Forall_forall in HT.
    destruct (ts_tver t u (HT t Ht) Hu) as (v & V1 & <-).
    assert (V2 : In v (store M Is (d_levels (st_db s)))) by (apply store_In; right; right; apply in_flat_map; eauto).
    destruct HC as [C1 _]. apply C1 in V2. apply (hv_clock _ _ _ I3) in V2. lia.
  Qed.

  Lemma inv_compact s cf ch tk : inv s -> op_ok s (OCompact cf ch tk) -> inv (step s (OCompact cf ch tk)).
  Proof.
    intros I0 HO. pose proof I0 as [(M & Is & HR & HC) I2 I3 I4]. cbn [Run.step].
    destruct (compact_spec (st_db s) M Is cf ch tk HR HO)
      as (d' & changed & E & R' & EC & _ & _ & _ & N1 & Y1 & _).
    rewrite E. destruct changed.
    - destruct (Y1 eq_refl) as (ins & outs & Bs & ER & TL & E2 & E4 & E3 & _ & P1 & P2 & _).
      set (S1 := store M Is (d_levels (st_db s))) in *.
      assert (NI : forall p, In p ins -> forall v, In v (tver (snd p)) -> (vts v <= newest_input (st_db s) tk)%N).
      { intros p Hp v Hv. destruct (P1 p Hp) as [Q1 Q2]. apply max_In. apply in_flat_map. exists (snd p). split; [|now apply tver_ts].
        apply filter_In. split; auto. now apply mem_id_In. }
      pose proof (newest_le s tk I0) as NM.
      constructor; simpl; auto; [|rewrite EC; auto|rewrite EC; lia].
      exists M, Is. split; auto.
      assert (OV : forall v, In v (flat_map tver outs) <-> In v (concat Bs)).
      { intros v. clear - E2. induction E2 as [|a B l Bs H E2 IH]; simpl; [tauto|].
        destruct H as (H1 & _ & _ & _ & H2). destruct (sst_ok_tok key_of a B H1 H2) as [H3 _].
        rewrite !in_app_iff, H3, IH. tauto. }
      assert (OLD : forall p, In p ins -> forall v, In v (tver (snd p)) -> In v S1).
      { intros p Hp v Hv. apply store_In. right. right. apply in_flat_map. exists (snd p). split; auto. now apply P1. }
      destruct E3 as (M1 & M2 & M3). destruct HC as [C1 C2].
      assert (NEW : forall v, In v (store M Is (d_levels d')) -> In v S1).
      { intros v Hv. apply store_In in Hv as [Hv|[Hv|Hv]]; [apply store_In; auto|apply store_In; auto|].
        apply in_flat_map in Hv as (t & Ht & Hv). apply TL in Ht as [Ht|[Ht _]].
        - assert (HB : In v (concat Bs)) by (apply OV, in_flat_map; eauto).
          destruct (M2 v HB) as [HB1 _]. apply in_flat_map in HB1 as (p & Hp & HB1). eapply OLD; eauto.
        - apply store_In. right. right. apply in_flat_map. eauto. }
      assert (KEEP : forall v, In v S1 -> In v (store M Is (d_levels d')) \/
                exists w, In w (store M Is (d_levels d')) /\ same_key (vkey w) (vkey v) /\ (vts v < vts w)%N /\
                  (vts w <= newest_input (st_db s) tk)%N).
      { intros v Hv. pose proof Hv as Hv0. apply store_In in Hv as [Hv|[Hv|Hv]]; [left; apply store_In; auto|left; apply store_In; auto|].
        apply in_flat_map in Hv as (t & Ht & Hv).
        destruct (in_dec N.eq_dec (t_id t) (map snd (tk_input tk))) as [Hid|Hid].
        - destruct (P2 t Ht Hid) as (l & Hl).
          assert (HVI : In v (flat_map (fun p => tver (snd p)) ins)) by (apply in_flat_map; exists (l, t); auto).
          destruct (M3 v HVI) as [F|(w & W1 & W2)]; [discriminate|].
          assert (WS : In w (store M Is (d_levels d'))).
          { apply store_In. right. right. apply OV in W1. apply in_flat_map in W1 as (t' & T1 & T2).
            apply in_flat_map. exists t'. split; auto. apply TL. auto. }
          destruct (M2 w W1) as (W0 & W3 & _). specialize (W3 v HVI).
          assert (WN : (vts w <= newest_input (st_db s) tk)%N).
          { apply in_flat_map in W0 as (p & Hp & W0). eapply NI; eauto. }
          assert (WL : (vts v <= vts w)%N) by (apply W3; unfold same_key in *; korder).
          destruct (N.eq_dec (vts v) (vts w)) as [ET|NT].
          + left. assert (v = w) as ->; auto. apply (hv_unique (st_hist s)); auto. unfold same_key in *; korder.
          + right. exists w. split; auto. split; auto. lia.
        - left. apply store_In. right. right. apply in_flat_map. exists t. split; auto. apply TL. auto. }
      split.
      + intros v Hv. auto.
      + intros v Hv. destruct (C2 v Hv) as [Hs|(u & U1 & U2 & U3 & U4)].
        * destruct (KEEP v Hs) as [H|(w & W1 & W2 & W3 & W4)]; auto. right. exists w.
          split; auto. split; auto. split; auto. lia.
        * right. destruct (KEEP u U1) as [H|(w & W1 & W2 & W3 & W4)].
          -- exists u. split; auto. split; auto. split; auto. lia.
          -- exists w. split; auto. split; [unfold same_key in *; korder|]. split; lia.
    - constructor; simpl; auto; [|rewrite EC; auto|rewrite EC; auto].
      exists M, Is. split; auto. rewrite N1 by auto. exact HC.
  Qed.

  (** *** Any step *)
  Lemma null_dec rows : null_key key_of rows \/ Forall (fun r => key_of r <> None) rows.
  Proof.
    induction rows as [|r rows [(x & H1 & H2)|H]]; [now right|left; exists x; simpl; auto|].
    destruct (key_of r) eqn:E; [right; constructor; auto; congruence|left; exists r; simpl; auto].
  Qed.

  Lemma rows_op_ok (s : state K R) rows span dec : Forall (fun r => key_of r <> None) rows -> op_ok s (OIngest rows span dec).
  Proof. rewrite Forall_forall. intros H (r & Hr & E). elim (H r Hr E). Qed.
  Lemma tomb_op_ok (s : state K R) rows span dec : Forall (fun p : R * bool => key_of (fst p) <> None) rows ->
    tomb_separate key_of rows -> op_ok s (OTomb rows span dec).
  Proof.
    intros H1 H2. split; [|split; auto].
    - intros (r & Hr & E). exfalso. unfold part_upserts in Hr. apply in_map_iff in Hr as (p & <- & Hp).
      apply filter_In in Hp as [Hp _]. rewrite Forall_forall in H1. exact (H1 p Hp E).
    - left. eapply Forall_impl; [|exact H1]. auto.
  Qed.

  (** A batch with a null key is rejected; the versions stay. *)
  Lemma put_rows_rejected d M Is ts rows : rep d M Is -> null_key key_of rows ->
    length (m_batches (d_mem d)) < m_capacity (d_mem d) ->
    exists m', put_rows key_of rows ts d = (set_mem d m', false) /\ rep (set_mem d m') M Is /\
               m_index m' = m_index (d_mem d).
  Proof.
    intros HR (r & Hr & Ek) HS. unfold put_rows, mem_insert_batch.
    pose proof (try_insert_batch_repr key_of (d_mem d) rows ts M (rp_mem _ _ _ _ HR)) as H.
    destruct (try_insert_batch key_of (d_mem d) rows (repeat ts (length rows))) as [m'|m'|] eqn:ET.
    - destruct H as (_ & _ & H & _). rewrite Forall_forall in H. elim (H r Hr Ek).
    - destruct H as (H1 & H2 & _). exists m'. split; [reflexivity|]. split.
      + destruct HR. constructor; simpl; auto. now rewrite H2.
      + unfold try_insert_batch in ET. destruct (Nat.leb _ _); [discriminate|].
        destruct (project_view key_of rows); inversion ET; reflexivity.
    - lia.
  Qed.

  Lemma inv_rejected s M Is ms span m' : inv s -> clock_room s ->
    rep (set_mem (observe_range span (tick (st_db s))) m') M Is ->
    cover (st_horizon s) (store M Is (d_levels (st_db s))) (hv key_of (st_hist s)) -> rep (st_db s) M Is ->
    inv (ack s ms (set_mem (observe_range span (tick (st_db s))) m', false)).
  Proof.
    intros HI HCR HR' HC HR. destruct (tick_rest (st_db s) span HCR) as (T1 & T2 & T3).
    eapply inv_write; eauto. intros v. split; auto. intros [H|[F _]]; [auto|discriminate].
  Qed.

  Lemma inv_step s o : inv s -> clock_room s -> op_ok s o -> inv (step s o).
  Proof.
    intros HI HCR HO. pose proof (iv_rep _ HI) as (M & Is & HR & HC). destruct o as [rows span dec|rows span dec|ts ms span| |cf ch tk].
    - (* ingest *)
      cbn [Run.step]. unfold ingest. destruct (null_dec rows) as [HN|HK].
      { destruct (put_rows_rejected (observe_range span (tick (st_db s))) M Is (d_clock (st_db s)) rows (rep_tick _ _ _ _ HR) HN)
          as (m' & E1 & R1 & _).
        { specialize (HO HN). unfold has_slot in HO. destruct span; exact HO. }
        rewrite E1. cbn [seq2]. eapply inv_rejected; eauto. }
      clear HO. rename HK into HO.
      pose proof (parts_then_seal s M Is rows [] span dec (map Put rows) HI HCR HR HC HO) as H.
      assert (H' := H). clear H. destruct rows as [|r rows].
      + (* an empty batch still takes a slot of the memtable *)
        destruct (tick_rest (st_db s) span HCR) as (T1 & T2 & T3).
        destruct (put_rows_spec key_of (observe_range span (tick (st_db s))) M Is (d_clock (st_db s)) [] (rep_tick _ _ _ _ HR) HO)
          as [(d1 & M1 & Is1 & E1 & R1 & (S1 & S2 & S3) & V1 & _)|[E1 _]].
        { intros w m _ []. }
        * rewrite E1. cbn [seq2].
          destruct (maybe_seal_spec key_of dec d1 M1 Is1 R1) as (d2 & M2 & Is2 & E2 & R2 & (Q1 & Q2 & Q3) & V2).
          rewrite E2. eapply inv_write; eauto; [congruence|congruence|].
          intros v. rewrite V2, V1. tauto.
        * rewrite E1. cbn [seq2]. eapply inv_write; eauto using rep_tick. intros v. split; auto.
          intros [H|[F _]]; [auto|discriminate].
      + unfold apply_parts in H'. cbn [map] in H'.
        assert (E : forall x : db K R * bool, seq2 x (fun d1 => (d1, true)) = x) by (intros [d b]; destruct b; reflexivity).
        rewrite E in H'. apply H'.
        * intros x y kx ky _ [].
        * intros v. now rewrite app_nil_r.
    - (* ingest with tombstones *)
      destruct HO as (HO0 & HO1' & HO2). cbn [Run.step]. unfold ingest_with_tombstones.
      assert (HOK : null_key key_of (part_upserts rows) \/ Forall (fun p => key_of (fst p) <> None) rows).
      { destruct (null_dec (part_upserts rows)) as [HN|HK]; [auto|]. destruct HO1' as [HO1'|HN]; [right|auto].
        rewrite Forall_forall in *. intros [r b] Hp. destruct b; [apply (HO1' _ Hp eq_refl)|].
        apply HK. unfold part_upserts. apply in_map_iff. exists (r, false). split; auto. apply filter_In. auto. }
      destruct HOK as [HN|HO1].
      { destruct rows as [|p rows]; [destruct HN as (x & [] & _)|]. set (rows' := p :: rows) in *.
        destruct (put_rows_rejected (observe_range span (tick (st_db s))) M Is (d_clock (st_db s)) (part_upserts rows') (rep_tick _ _ _ _ HR) HN)
          as (m' & E1 & R1 & _).
        { specialize (HO0 HN). unfold has_slot in HO0. destruct span; exact HO0. }
        assert (EP : apply_parts key_of (part_upserts rows') (part_deletes key_of rows') (d_clock (st_db s)) (observe_range span (tick (st_db s)))
                     = (set_mem (observe_range span (tick (st_db s))) m', false)).
        { unfold apply_parts. destruct (part_upserts rows') as [|u us]; [destruct HN as (x & [] & _)|]. rewrite E1. reflexivity. }
        rewrite EP. cbn [seq2]. eapply inv_rejected; eauto. }
      destruct rows as [|p rows].
      + unfold ack. simpl. rewrite app_nil_r. destruct HI. constructor; simpl; auto.
      + rewrite part_deletes_keys by exact HO1.
        apply parts_then_seal with (M := M) (Is := Is); auto.
        * apply Forall_forall. intros r Hr. unfold part_upserts in Hr. apply in_map_iff in Hr as (q & <- & Hq).
          apply filter_In in Hq as [Hq _]. rewrite Forall_forall in HO1. exact (HO1 q Hq).
        * apply tomb_sep; auto.
        * intros v. symmetry. apply tomb_last; auto.
    - (* commit *)
      cbn [Run.step]. unfold commit. destruct (stage key_of ms) as [|e st] eqn:ES.
      + assert (EA : accepted key_of ms = []).
        { destruct (accepted key_of ms) as [|a l] eqn:EA; auto. exfalso.
          destruct (last_mut_exists key_of 0%N (accepted key_of ms)) as (v & Hv).
          - rewrite EA. discriminate.
          - apply Forall_forall. intros x Hx. apply filter_In in Hx as [_ Hx].
            destruct (mut_key key_of x); congruence.
          - apply last_accepted in Hv. rewrite ES in Hv. destruct Hv. }
        rewrite EA. unfold ack. simpl. rewrite app_nil_r. destruct HI. constructor; simpl; auto.
      + destruct (has_conflict (st_db s) ts (e :: st)) eqn:EC.
        * unfold ack. simpl.
          replace (match accepted key_of ms with [] => [] | _ :: _ => [] end) with (@nil (hcommit K R)) by (destruct (accepted key_of ms); auto).
          rewrite app_nil_r. destruct HI. constructor; simpl; auto.
        * rewrite <- ES. rewrite staged_dels_keys.
          pose proof (parts_then_seal s M Is (staged_rows (stage key_of ms)) (staged_keys (stage key_of ms)) span false
                        (accepted key_of ms) HI HCR HR HC) as H.
          assert (EQ : forall x : db K R * bool, seq2 x (maybe_seal key_of false) = x) by (intros [d b]; destruct b; reflexivity).
          rewrite EQ in H.
          destruct (apply_parts key_of (staged_rows (stage key_of ms)) (map Some (staged_keys (stage key_of ms)))
                     (d_clock (st_db s)) (observe_range span (tick (st_db s)))) as [d' ok] eqn:EP.
          replace (match (if ok then COk else CError) with COk => true | _ => false end) with ok by (destruct ok; auto).
          apply H.
          -- apply Forall_forall. intros r Hr. apply in_flat_map in Hr as ([k [r'|]] & H1 & H2); simpl in H2; [|destruct H2].
             destruct H2 as [->|[]]. rewrite (stage_keyed key_of _ _ _ H1). discriminate.
          -- intros x y kx ky Hx Hy EX EY F.
             assert (x = y) by (apply (stage_uniq key_of ms x y kx ky); auto; apply in_app_iff; auto). subst y.
             apply in_map_iff in Hx as (r & <- & _). apply in_map_iff in Hy as (k & E' & _). discriminate.
          -- intros v. apply staged_last.
    - (* flush *)
      cbn [Run.step]. destruct (flush_spec key_of level (st_db s) M Is HR) as (d' & Is' & ok & E & R' & EC & V & _).
      rewrite E. simpl. destruct HI as [I1 I2 I3 I4]. constructor; simpl; auto; [|rewrite EC; auto|rewrite EC; auto].
      exists M, Is'. split; auto. destruct HC as [C1 C2]. split.
      + intros v Hv. apply C1, V, Hv.
      + intros v Hv. destruct (C2 v Hv) as [H|(w & W1 & W2)]; [left; now apply V|right; exists w; split; auto; now apply V].
    - now apply inv_compact.
  Qed.

  (** *** The clock *)
  Lemma apply_insert_rest d r : same_rest d (fst (@apply_insert K R d r)).
  Proof. destruct r as [m [g|]|m|]; repeat split. Qed.
  Lemma put_rows_rest rows ts (d : db K R) : same_rest d (fst (put_rows key_of rows ts d)).
  Proof. apply apply_insert_rest. Qed.
  Lemma put_deletes_rest ks ts (d : db K R) : same_rest d (fst (put_deletes key_of ks ts d)).
  Proof. apply apply_insert_rest. Qed.
  Lemma maybe_seal_rest dec (d : db K R) : same_rest d (fst (maybe_seal key_of dec d)).
  Proof. unfold maybe_seal, seal_now. destruct dec; [destruct (seal key_of (d_mem d))|]; repeat split. Qed.
  Lemma same_rest_trans (a b c : db K R) : same_rest a b -> same_rest b c -> same_rest a c.
  Proof. intros (A1 & A2 & A3) (B1 & B2 & B3). repeat split; congruence. Qed.
  Lemma seq2_rest (d : db K R) r f : same_rest d (fst r) -> (forall d, same_rest d (fst (f d))) -> same_rest d (fst (seq2 r f)).
  Proof.
    destruct r as [d1 ok]. simpl. intros H1 H2. destruct ok; simpl; auto. eapply same_rest_trans; eauto.
  Qed.
  Lemma apply_parts_rest ups ks ts (d : db K R) : same_rest d (fst (apply_parts key_of ups ks ts d)).
  Proof.
    unfold apply_parts. apply seq2_rest.
    - destruct ups; [repeat split|apply put_rows_rest].
    - intros d1. destruct ks; [repeat split|apply put_deletes_rest].
  Qed.
  Lemma compact_front cf ch tk (d : db K R) :
    let d' := fst (compact key_of row_bytes del_bytes cf ch tk d) in
    d_mem d' = d_mem d /\ d_imm d' = d_imm d /\ d_mrange d' = d_mrange d /\ d_iranges d' = d_iranges d /\ d_clock d' = d_clock d.
  Proof.
    unfold compact. destruct (resolve_inputs _ _ _) as [[|p ins]|]; simpl; auto.
    destruct (merge_exec _ _ _ _ _ _) as [[outs next]|]; simpl; auto.
    destruct (apply_edits _ _ _); simpl; auto 6.
  Qed.
  Lemma compact_clock cf ch tk (d : db K R) : d_clock (fst (compact key_of row_bytes del_bytes cf ch tk d)) = d_clock d.
  Proof.
    unfold compact. destruct (resolve_inputs _ _ _) as [[|p ins]|]; auto.
    destruct (merge_exec _ _ _ _ _ _) as [[outs next]|]; auto.
    destruct (apply_edits _ _ _); auto.
  Qed.
  Lemma flush_clock level (d : db K R) : d_clock (fst (flush key_of level d)) = d_clock d.
  Proof. unfold flush. destruct (d_imm d); auto. destruct (write_flush _ _ _); auto. Qed.

  Lemma step_clock s o : clock_room s ->
    (d_clock (st_db s) <= d_clock (st_db (step s o)) <= d_clock (st_db s) + 1)%N.
  Proof.
    intros HCR. destruct o as [rows span dec|rows span dec|ts ms span| |cf ch tk]; cbn [Run.step].
    - destruct (tick_rest (st_db s) span HCR) as (_ & T2 & _). unfold ack. simpl st_db.
      destruct (seq2_rest (observe_range span (tick (st_db s)))
                  (put_rows key_of rows (d_clock (st_db s)) (observe_range span (tick (st_db s)))) (maybe_seal key_of dec)) as (_ & E & _).
      + apply put_rows_rest.
      + apply maybe_seal_rest.
      + unfold ingest. rewrite E, T2. lia.
    - destruct rows as [|p rows]; [simpl; lia|].
      destruct (tick_rest (st_db s) span HCR) as (_ & T2 & _). unfold ack. simpl st_db.
      unfold ingest_with_tombstones.
      destruct (seq2_rest (observe_range span (tick (st_db s)))
                  (apply_parts key_of (part_upserts (p :: rows)) (part_deletes key_of (p :: rows)) (d_clock (st_db s))
                     (observe_range span (tick (st_db s)))) (maybe_seal key_of dec)) as (_ & E & _).
      + apply apply_parts_rest.
      + apply maybe_seal_rest.
      + rewrite E, T2. lia.
    - unfold commit. destruct (stage key_of ms) as [|e st]; [simpl; lia|].
      destruct (has_conflict _ _ _); [simpl; lia|].
      destruct (tick_rest (st_db s) span HCR) as (_ & T2 & _).
      destruct (apply_parts_rest (staged_rows (e :: st)) (staged_dels (e :: st)) (d_clock (st_db s)) (observe_range span (tick (st_db s)))) as (_ & E & _).
      destruct (apply_parts _ _ _ _ _) as [d' ok]. simpl in *. rewrite E, T2. lia.
    - simpl. rewrite flush_clock. lia.
    - pose proof (compact_clock cf ch tk (st_db s)) as E. destruct (compact _ _ _ _ _ _ _). simpl in *. rewrite E. lia.
  Qed.

  Theorem inv_run ops : forall s, inv s -> (d_clock (st_db s) + N.of_nat (length ops) < 2 ^ 64)%N -> ops_ok s ops ->
    inv (run s ops) /\ (d_clock (st_db s) <= d_clock (st_db (run s ops)) <= d_clock (st_db s) + N.of_nat (length ops))%N.
  Proof.
    induction ops as [|o ops IH]; intros s HI HL HO.
    - simpl. split; auto. lia.
    - simpl in HO. destruct HO as [HO1 HO2]. cbn [length] in *. rewrite Nat2N.inj_succ in *.
      assert (HCR : clock_room s) by (unfold clock_room; lia).
      pose proof (step_clock s o HCR) as HS.
      destruct (IH (step s o)) as [I1 I2]; auto.
      + now apply inv_step.
      + lia.
      + split; [exact I1|]. change (run s (o :: ops)) with (run (step s o) ops). lia.
  Qed.

  (** *** Reads *)
  Lemma tok_store_ok ls : Forall (tok key_of) (concat ls) -> Forall2 (sst_ok key_of) (concat ls) (map tver (concat ls)).
  Proof. induction 1 as [|t l [H _] HF IH]; simpl; constructor; auto. Qed.

  Lemma seg_safe_of ts (A : list vers) : seg_safe ts (seg_of A) -> seg_prune_safe ts A.
  Proof.
    unfold seg_safe, seg_prune_safe. simpl. intros H (u & U1 & U2) HU v Hv.
    destruct (vval v) as [r|] eqn:EV; [apply HU; auto; congruence|].
    assert (UI : forall w r, In w A -> vval w = Some r -> In (r, vts w) (ups A)).
    { intros [[k t] o] r Hw E. unfold vval in E. simpl in E. subst o. unfold ups. apply in_flat_map.
      exists ((k, t), Some r). simpl; auto. }
    apply H.
    - destruct (vval u) as [r|] eqn:EU; [|congruence]. specialize (UI u r U1 EU).
      destruct (ups A); [destruct UI|discriminate].
    - intros p Hp. apply in_map_iff in Hp as ([r t] & <- & Hp). simpl. unfold ups in Hp.
      apply in_flat_map in Hp as ([[k t'] [r'|]] & H1 & H2); simpl in H2; [|destruct H2].
      destruct H2 as [E|[]]. inversion E; subst. apply (HU ((k, t), Some r)); auto. discriminate.
    - apply in_map_iff. exists (fst v). split; auto. unfold dels. apply in_flat_map. exists v. split; auto.
      unfold vval in EV. rewrite EV. simpl; auto.
  Qed.

  Theorem read_spec s prune cp limit ts : inv s -> (d_clock (st_db s) < 2 ^ 64)%N ->
    cp_sound key_of cp -> push_ok prune cp ts (d_levels (st_db s)) ->
    Forall (seg_safe ts) (d_imm (st_db s)) -> (st_horizon s <= ts)%N ->
    exists full out,
      scan key_of prune cp (mkSnap ts (d_levels (st_db s))) limit (st_db s) = Some out /\
      out = match limit with Some n => firstn n full | None => full end /\
      lists_table key_of (as_of key_of (st_hist s) ts) (c_full cp) full.
  Proof.
    intros [(M & Is & HR & HC) I2 I3 I4] HCl HCP [HP1 HP2] HSafe HZ.
    pose proof HR as [HM HI HG HS HD HN HCap].
    assert (ESt : store M Is (d_levels (st_db s)) = M ++ concat Is ++ concat (map tver (concat (d_levels (st_db s))))).
    { unfold DbFacts.store. now rewrite flat_map_concat_map. }
    destruct HC as [C1 C2]. assert (HKV : keyedv key_of (store M Is (d_levels (st_db s)))).
    { intros kt r H. apply C1 in H. eapply hv_keyed; eauto. }
    destruct (scan_exact key_of prune cp false limit (d_mem (st_db s)) M Is (d_levels (st_db s))
                (map tver (concat (d_levels (st_db s)))) ts HM HG (tok_store_ok _ HS)) as (full & out & E1 & E2 & E3 & E4); auto.
    - rewrite <- ESt. apply Forall_forall. intros v Hv. apply C1 in Hv. apply (hv_clock _ _ _ I3) in Hv. unfold ts_max. lia.
    - apply Forall_forall. intros A HA. apply seg_safe_of. rewrite Forall_forall in HSafe. apply HSafe. rewrite HI.
      now apply in_map.
    - intros t r u k Ht Hr Hu Hk. destruct (HP2 t r u k Ht Hr Hk) as [H|[H|H]]; auto; [lia|]. right.
      intros w r' Hw Hwk _ Hr'. rewrite <- ESt in Hw. destruct w as [kt o]. unfold vval in Hr'. simpl in Hr'. subst o.
      apply (H r' (fst kt)); [now apply HKV in Hw|exact Hwk].
    - rewrite <- ESt. intros v w Hv Hw. apply (hv_consistent key_of _ I2); auto.
    - exists full, out. split; [|split; auto].
      + unfold scan, scan_txn. simpl. rewrite HI. exact E1.
      + apply read_lists_table; auto. intros kt r. rewrite E4, <- ESt.
        rewrite (cover_newest _ _ _ ts _ (conj C1 C2) HZ). reflexivity.
  Qed.
End Refine.
