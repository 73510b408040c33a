(** A planned and executed scan returns the newest visible version of every key. *)
From Coq Require Import List NArith Bool Sorted Permutation Lia Arith.
From Verif Require Import Base.Order Base.Sub Model.OMap Model.KeyTs Model.MemTable Model.Immutable
     Model.SsTable Model.MergeStream Model.KeyBounds Model.DbScan Spec.Mvcc Spec.KeySet Spec.Valid
     Proof.OMapFacts Proof.MemFacts Proof.ViewFacts Proof.SstFacts Proof.MergeFacts Proof.KeyBoundsFacts.
Import ListNotations.
Local Arguments kcmp : simpl never.

Section ScanFacts.
  Context {K : Type} {KO : KeyOrd K} {R : Type}.
  Variable key_of : R -> option K.
  Notation vers := (@vers K R).

  (** An SSTable holding the versions [A], with covering statistics. *)
  Definition sst_ok (t : sst K R) (A : list vers) : Prop :=
    exists D X, sst_repr key_of t D X /\ (forall v, In v A <-> In v (sst_vers D X)) /\
                covers (t_min_key t) (t_max_key t) (t_min_ts t) (t_max_ts t) A.

  (** No visible row of this key satisfies the predicate. *)
  Definition dead (V : list vers) (ts : N) (full : R -> bool) (k : K) : Prop :=
    forall w r, In w V -> same_key (vkey w) k -> (vts w <= ts)%N -> vval w = Some r -> full r = false.

  (** A segment is not skipped because its rows are newer than [ts] while a tombstone of
      it is visible. *)
  Definition seg_prune_safe (ts : N) (A : list vers) : Prop :=
    (exists u, In u A /\ vval u <> None) ->
    (forall u, In u A -> vval u <> None -> (ts < vts u)%N) ->
    forall v, In v A -> (ts < vts v)%N.

  Lemma all_some_app {A} (l1 l2 : list (option A)) s1 s2 :
    all_some l1 = Some s1 -> all_some l2 = Some s2 -> all_some (l1 ++ l2) = Some (s1 ++ s2).
  Proof.
    revert s1. induction l1 as [|[a|] l1 IH]; simpl; intros s1 H1 H2; inversion H1; subst; auto.
    destruct (all_some l1); inversion H1; subst. now rewrite (IH l eq_refl H2).
  Qed.

  Lemma fetch_prune ov ts (segs : list (seg K R)) pre :
    fetch_segs (prune_from (length pre) ov ts segs) (pre ++ segs) = filter (seg_kept ov ts) segs.
  Proof.
    revert pre. induction segs as [|s r IH]; intros pre; simpl; auto.
    assert (E : S (length pre) = length (pre ++ [s])) by (rewrite app_length; simpl; lia).
    replace (pre ++ s :: r) with ((pre ++ [s]) ++ r) by (now rewrite <- app_assoc).
    destruct (seg_kept ov ts s).
    - unfold fetch_segs in *. simpl. rewrite <- app_assoc. simpl.
      rewrite nth_error_app2, Nat.sub_diag by lia. simpl. f_equal.
      replace (pre ++ s :: r) with ((pre ++ [s]) ++ r) by (now rewrite <- app_assoc).
      rewrite E. apply IH.
    - rewrite E. apply IH.
  Qed.

  Lemma prune_nil ov ts (segs : list (seg K R)) i :
    prune_from i ov ts segs = [] <-> filter (seg_kept ov ts) segs = [].
  Proof.
    revert i. induction segs as [|s r IH]; intros i; simpl; [tauto|].
    destruct (seg_kept ov ts s); [split; discriminate|apply IH].
  Qed.

  Lemma seg_kept_dead (kb : option (kbounds K)) ts A (v : vers) :
    good key_of A -> seg_prune_safe ts A ->
    seg_kept (option_map kb_overlaps kb) ts (seg_of A) = false ->
    In v A -> (vts v <= ts)%N ->
    exists b, kb = Some b /\ kb_in b (vkey v) = false.
  Proof.
    intros (HS & HK & HN) HP H Hv Ht. unfold seg_kept in H.
    assert (EC : seg_entry_count (seg_of A) = length A).
    { unfold seg_entry_count. rewrite <- (map_length fst), <- (map_length fst A).
      simpl. now rewrite seg_idx_keys. }
    rewrite EC in H. destruct (Nat.eqb_spec (length A) 0) as [E|_].
    { destruct A; [congruence|discriminate]. }
    assert (HT : match seg_commit_ts_bounds (seg_of A) with
                 | Some (mn, _) => negb (N.ltb ts mn) | None => true end = true).
    { unfold seg_commit_ts_bounds.
      replace (map fst (s_mvcc (seg_of A))) with (map snd (ups A)) by (simpl; now rewrite map_map).
      pose proof (ts_bounds_spec (map snd (ups A))) as HB.
      destruct (ts_bounds (map snd (ups A))) as [[mn mx]|] eqn:EB; auto.
      destruct HB as (B1 & _ & B2). apply negb_true_iff, N.ltb_ge.
      destruct (N.le_gt_cases mn ts) as [|HL]; auto. exfalso.
      assert (HX : forall u, In u A -> vval u <> None -> (ts < vts u)%N).
      { intros [[k t] [r|]] Hu Hx; [|exfalso; apply Hx; reflexivity].
        assert (In t (map snd (ups A))) as Ht'.
        { apply in_map_iff. exists (r, t). split; auto. unfold ups. apply in_flat_map.
          exists (k, t, Some r). split; auto. simpl; auto. }
        apply B2 in Ht'. unfold vts; simpl. lia. }
      assert (HE : exists u, In u A /\ vval u <> None).
      { apply in_map_iff in B1 as ([r t] & E1 & E2). unfold ups in E2. apply in_flat_map in E2 as ([[k t'] [r'|]] & E3 & E4); simpl in E4; [|contradiction].
        exists (k, t', Some r'). split; auto. discriminate. }
      specialize (HP HE HX v Hv). lia. }
    destruct kb as [b|]; simpl in H.
    2:{ rewrite HT in H. discriminate. }
    exists b. split; auto.
    rewrite seg_min_key_of, seg_max_key_of in H.
    destruct A as [|a A']; [contradiction|].
    destruct (rev (a :: A')) as [|z zs] eqn:ER.
    { apply (f_equal (@length _)) in ER. rewrite rev_length in ER. discriminate. }
    destruct (kb_overlaps b (vkey a) (vkey z)) eqn:EO; [congruence|].
    apply (kb_overlaps_sound _ _ _ _ EO).
    - destruct Hv as [<-|Hv]; [rewrite kcmp_refl; discriminate|].
      inversion HS as [|? ? _ F]; subst. rewrite Forall_forall in F.
      apply F, kts_lt_cases in Hv. unfold vkey. destruct Hv as [E|[E _]]; rewrite E; discriminate.
    - assert (EA : a :: A' = rev zs ++ [z]).
      { rewrite <- (rev_involutive (a :: A')), ER. reflexivity. }
      rewrite EA in Hv, HS. apply StronglySorted_app in HS as (_ & _ & HS).
      apply in_app_iff in Hv as [Hv|[<-|[]]]; [|rewrite kcmp_refl; discriminate].
      specialize (HS v z Hv (or_introl eq_refl)). apply kts_lt_cases in HS.
      unfold vkey. destruct HS as [E|[E _]]; rewrite E; discriminate.
  Qed.

  Lemma mem_kept_dead (kb : option (kbounds K)) ts m A (v : vers) :
    mem_repr key_of m A -> mem_kept kb ts m = false -> In v A -> (vts v <= ts)%N ->
    exists b, kb = Some b /\ kb_in b (vkey v) = false.
  Proof.
    intros (HS & HF) H Hv Ht. unfold mem_kept in H.
    assert (EI : map fst (m_index m) = map fst A).
    { clear -HF. induction HF as [|e u l l' [E _] _ IH]; simpl; auto. now rewrite E, IH. }
    unfold mem_row_count in H. destruct (Nat.eqb_spec (length (m_index m)) 0) as [E|_].
    { apply (f_equal (@length _)) in EI. rewrite !map_length, E in EI. destruct A; [contradiction|discriminate]. }
    assert (HT : match mem_commit_ts_bounds m with Some (mn, _) => negb (N.ltb ts mn) | None => true end = true).
    { unfold mem_commit_ts_bounds.
      replace (map (fun e : K * N * mloc => snd (fst e)) (m_index m)) with (map vts A).
      2:{ rewrite <- (map_map fst snd), EI, map_map. reflexivity. }
      pose proof (ts_bounds_spec (map vts A)) as HB.
      destruct (ts_bounds (map vts A)) as [[mn mx]|]; auto.
      destruct HB as (_ & _ & B2). specialize (B2 (vts v) (in_map _ _ _ Hv)).
      apply negb_true_iff, N.ltb_ge. lia. }
    rewrite HT, andb_true_r in H. unfold mem_key_bounds in H.
    assert (E1 : match m_index m with e :: _ => Some (fst (fst e)) | [] => None end
                 = match A with a :: _ => Some (vkey a) | [] => None end).
    { destruct (m_index m), A; simpl in EI; try discriminate; auto. injection EI as E _. unfold vkey. now rewrite E. }
    assert (E2 : match rev (m_index m) with e :: _ => Some (fst (fst e)) | [] => None end
                 = match rev A with a :: _ => Some (vkey a) | [] => None end).
    { apply (f_equal (@rev _)) in EI. rewrite <- !map_rev in EI.
      destruct (rev (m_index m)), (rev A); simpl in EI; try discriminate; auto. injection EI as E _. unfold vkey. now rewrite E. }
    rewrite E1, E2 in H.
    destruct A as [|a A']; [contradiction|].
    destruct (rev (a :: A')) as [|z zs] eqn:ER.
    { apply (f_equal (@length _)) in ER. rewrite rev_length in ER. discriminate. }
    destruct kb as [b|]; [|discriminate]. exists b. split; auto.
    apply (kb_overlaps_sound _ _ _ _ H).
    - destruct Hv as [<-|Hv]; [rewrite kcmp_refl; discriminate|].
      inversion HS as [|? ? _ F]; subst. rewrite Forall_forall in F.
      apply F, kts_lt_cases in Hv. unfold vkey. destruct Hv as [E|[E _]]; rewrite E; discriminate.
    - assert (EA : a :: A' = rev zs ++ [z]).
      { rewrite <- (rev_involutive (a :: A')), ER. reflexivity. }
      rewrite EA in Hv, HS. apply StronglySorted_app in HS as (_ & _ & HS).
      apply in_app_iff in Hv as [Hv|[<-|[]]]; [|rewrite kcmp_refl; discriminate].
      specialize (HS v z Hv (or_introl eq_refl)). apply kts_lt_cases in HS.
      unfold vkey. destruct HS as [E|[E _]]; rewrite E; discriminate.
  Qed.

  Lemma sst_kept_dead (kb : option (kbounds K)) ts (t : sst K R) A (v : vers) :
    covers (t_min_key t) (t_max_key t) (t_min_ts t) (t_max_ts t) A ->
    sst_kept kb ts t = false -> In v A -> (vts v <= ts)%N ->
    exists b, kb = Some b /\ kb_in b (vkey v) = false.
  Proof.
    intros HC H Hv Ht. destruct (HC v Hv) as ((mn & E1 & L1) & (mx & E2 & L2) & (mt & E3 & L3) & _).
    unfold sst_kept in H. rewrite E1, E2, E3 in H.
    replace (negb (N.ltb ts mt)) with true in H by (symmetry; apply negb_true_iff, N.ltb_ge; lia).
    rewrite andb_true_r in H. destruct kb as [b|]; [|discriminate]. exists b. split; auto.
    destruct (kb_empty b) eqn:EE; [unfold kb_in; now rewrite EE|].
    apply (kb_overlaps_sound _ _ _ _ H L1 L2).
  Qed.

  Section Plan.
    Variables (prune : sst K R -> list (R * N)) (cp : cpred K R) (force : bool) (limit : option nat).
    Variables (m : mem K R) (M : list vers) (Is : list (list vers)).
    Variables (levels : list (list (sst K R))) (As : list (list vers)) (ts : N).
    Let V := M ++ concat Is ++ concat As.
    Let p := plan_scan prune cp force m (map seg_of Is) levels ts limit.

    Hypothesis HM : mem_repr key_of m M.
    Hypothesis HI : Forall (good key_of) Is.
    Hypothesis HA : Forall2 sst_ok (concat levels) As.
    Hypothesis HT : Forall (fun v => (vts v <= ts_max)%N) V.
    Hypothesis HC : cp_sound key_of cp.
    Hypothesis HP : Forall (seg_prune_safe ts) Is.
    (** Pruning selects rows of the file. *)
    Hypothesis HPR : forall t, In t (concat levels) -> sublist (prune t) (t_rows t).
    (** A row dropped below the merge belongs to a key no visible row of which matches. *)
    Hypothesis HPD : forall t r u k, In t (concat levels) -> In (r, u) (t_rows t) -> (u <= ts)%N ->
      key_of r = Some k ->
      (In (r, u) (prune t) /\ opt_pred (c_push cp) r = true) \/ dead V ts (c_full cp) k.

    Lemma V_keyed : keyedv key_of V.
    Proof.
      intros kt r H. unfold V in H. rewrite !in_app_iff in H. destruct H as [H|[H|H]].
      - pose proof (mem_repr_keyed _ _ _ HM) as HK. unfold keyed in HK. rewrite Forall_forall in HK.
        apply (HK _ H).
      - apply in_concat in H as (A & H1 & H2). rewrite Forall_forall in HI.
        destruct (HI A H1) as (_ & HK & _). unfold keyed in HK. rewrite Forall_forall in HK. apply (HK _ H2).
      - apply in_concat in H as (A & H1 & H2).
        clear - HA H1 H2. revert H1. induction HA as [|t B ts' Bs (D & X & HR & HV & _) HA' IH]; [contradiction|].
        intros [->|H1]; auto.
        apply HV in H2. unfold sst_vers in H2. rewrite in_app_iff, !in_map_iff in H2.
        destruct H2 as [(e & E & H2)|(e & E & H2)]; [|discriminate].
        destruct HR as (_ & HK & _). unfold dkeyed in HK. rewrite Forall_forall in HK.
        inversion E; subst. apply (HK _ H2).
    Qed.

    Lemma bounds_dead v b : c_bounds cp = Some b -> kb_in b (vkey v) = false -> In v V -> dead V ts (c_full cp) (vkey v).
    Proof.
      intros E H Hv w r Hw Hk _ Hr. destruct (c_full cp r) eqn:F; auto.
      destruct w as [kt o]; simpl in Hr. unfold vval in Hr; simpl in Hr. subst o.
      pose proof (V_keyed _ _ Hw) as HK.
      pose proof (cs_bounds _ _ HC _ _ _ E HK F) as HB.
      unfold vkey in *; simpl in *. rewrite (kb_in_same_key b _ _ Hk) in HB. congruence.
    Qed.

    Lemma range_dead v : In v V -> key_in (p_range p) (vkey v) = false -> dead V ts (c_full cp) (vkey v).
    Proof.
      intros Hv H. unfold p, plan_scan in H. cbn [p_range] in H.
      destruct (c_bounds cp) as [b|] eqn:E; [|discriminate].
      destruct (kb_empty b) eqn:EE.
      { unfold kb_range in H. rewrite EE in H. discriminate. }
      rewrite kb_range_in in H by auto. eapply bounds_dead; eauto.
    Qed.

    (** The streams of the plan are views of bags [vss]; what the bags lack is dead. *)
    Lemma build_streams_views :
      exists srcs vss,
        build_streams key_of None m (map seg_of Is) p = Some srcs /\
        Forall2 (fun vs s => is_view vs ts (snd s)) vss srcs /\
        (forall v, In v (concat vss) -> In v V) /\
        (forall kt r, In (kt, Some r) (concat vss) ->
           (mem_kept (c_bounds cp) ts m
              || negb (Nat.eqb (length (prune_segments (option_map kb_overlaps (c_bounds cp)) ts (map seg_of Is))) 0) = true
            /\ (forall kb, c_bounds cp = Some kb -> kb_in kb (fst kt) = true))
           \/ (select_ssts prune (c_bounds cp) ts (concat levels) <> [] /\ opt_pred (c_push cp) r = true)) /\
        (forall v, In v V -> (vts v <= ts)%N -> In v (concat vss) \/ dead V ts (c_full cp) (vkey v)).
    Proof.
      set (ov := option_map kb_overlaps (c_bounds cp)).
      set (rng := p_range p).
      assert (HMt : Forall (fun v => (vts v <= ts_max)%N) M) by (unfold V in HT; rewrite Forall_app in HT; apply HT).
      assert (HIt : forall A, In A Is -> Forall (fun v => (vts v <= ts_max)%N) A).
      { intros A HA'. unfold V in HT. rewrite !Forall_app in HT. destruct HT as (_ & HT' & _).
        rewrite Forall_forall in HT' |- *. intros v Hv. apply HT'. apply in_concat. eauto. }
      assert (HMS : osorted M) by apply HM.
      (* memtable *)
      set (mv := if mem_kept (c_bounds cp) ts m then [in_bounds rng M] else []).
      set (ms := if mem_kept (c_bounds cp) ts m then [(1, visible_scan ts None false (in_bounds rng M))] else []).
      assert (EM : all_some (if p_mem p then [source_of 1 (mem_scan m (p_ts p) (p_range p))] else []) = Some ms).
      { unfold ms, p, plan_scan at 1. cbn [p_mem]. destruct (mem_kept (c_bounds cp) ts m); auto.
        change (p_ts _) with ts. fold p. fold rng. rewrite (mem_scan_repr _ _ _ _ _ HM). reflexivity. }
      assert (VM : Forall2 (fun vs s => is_view vs ts (snd s)) mv ms).
      { unfold mv, ms. destruct (mem_kept (c_bounds cp) ts m); constructor; [|constructor].
        apply visible_scan_view, osorted_wsorted, in_bounds_sorted, HMS. }
      (* immutables *)
      set (KI := filter (fun A => seg_kept ov ts (seg_of A)) Is).
      set (iv := map (in_bounds rng) KI).
      set (iss := map (fun A => (2, visible_scan ts None false (in_bounds rng A))) KI).
      assert (EF : fetch_segs (p_imm p) (map seg_of Is) = map seg_of KI).
      { unfold p, plan_scan. cbn [p_imm]. unfold prune_segments. fold ov.
        pose proof (fetch_prune ov ts (map seg_of Is) []) as E. simpl in E. rewrite E.
        unfold KI. now rewrite filter_map_comm. }
      assert (EI : all_some (map (fun s => source_of 2 (seg_scan s (p_ts p) (p_range p))) (fetch_segs (p_imm p) (map seg_of Is))) = Some iss).
      { rewrite EF, map_map. unfold iss. change (p_ts p) with ts. fold rng. clearbody KI rng. clear -key_of.
        induction KI as [|A l IH]; simpl; auto. rewrite (seg_scan_repr key_of). simpl. now rewrite IH. }
      assert (VI : Forall2 (fun vs s => is_view vs ts (snd s)) iv iss).
      { unfold iv, iss. assert (HK : Forall (good key_of) KI).
        { rewrite Forall_forall in *. intros A HA'. apply filter_In in HA'. apply HI, HA'. }
        clearbody KI rng. clear -HK. induction HK as [|A l (HS & _) _ IH]; simpl; constructor; auto.
        apply visible_scan_view, osorted_wsorted, in_bounds_sorted, HS. }
      (* sstables *)
      set (sel := select_ssts prune (c_bounds cp) ts (concat levels)).
      assert (ES : exists ss sv,
        all_some (map (fun tr => source_of 3 (sst_scan key_of (opt_pred (p_push p)) (snd tr) (t_dels (fst tr)) (p_ts p))) (p_ssts p)) = Some ss /\
        Forall2 (fun vs s => is_view vs ts (snd s)) sv ss /\
        (forall v, In v (concat sv) -> In v (concat As)) /\
        (forall kt r, In (kt, Some r) (concat sv) -> sel <> [] /\ opt_pred (c_push cp) r = true) /\
        (forall v, In v (concat As) -> (vts v <= ts)%N -> In v (concat sv) \/ dead V ts (c_full cp) (vkey v))).
      { assert (EP : p_ssts p = sel) by reflexivity. rewrite EP. change (p_ts p) with ts.
        assert (EPU : sel <> [] -> p_push p = c_push cp).
        { intros HN. unfold p, plan_scan. cbn [p_push]. fold sel. destruct sel; [congruence|reflexivity]. }
        assert (G : forall T B, Forall2 sst_ok T B -> (forall t, In t T -> In t (concat levels)) ->
          (forall A v, In A B -> In v A -> In v V) ->
          (select_ssts prune (c_bounds cp) ts T <> [] -> sel <> []) ->
          exists ss sv,
            all_some (map (fun tr => source_of 3 (sst_scan key_of (opt_pred (p_push p)) (snd tr) (t_dels (fst tr)) ts))
                          (select_ssts prune (c_bounds cp) ts T)) = Some ss /\
            Forall2 (fun vs s => is_view vs ts (snd s)) sv ss /\
            (forall v, In v (concat sv) -> In v (concat B)) /\
            (forall kt r, In (kt, Some r) (concat sv) -> sel <> [] /\ opt_pred (c_push cp) r = true) /\
            (forall v, In v (concat B) -> (vts v <= ts)%N -> In v (concat sv) \/ dead V ts (c_full cp) (vkey v))).
        { induction 1 as [|t A T B (D & X & HR & HV & HCov) _ IH]; intros HIn HVin Hsel.
          - exists [], []. simpl. repeat split; try constructor; try contradiction.
          - destruct IH as (ss & sv & I1 & I2 & I3 & I4 & I5).
            { intros; apply HIn; right; auto. }
            { intros A' v HA' Hv. apply (HVin A'); auto. right; auto. }
            { intros HN. apply Hsel. simpl. intros E. apply app_eq_nil in E as [_ E]. apply HN, E. }
            assert (Ht : In t (concat levels)) by (apply HIn; left; auto).
            destruct HR as (R1 & R2 & R3 & R4 & R5).
            pose proof (HPR t Ht) as HSub. rewrite R1 in HSub.
            apply sublist_map_inv in HSub as (D' & ED & HSub).
            cbn [select_ssts flat_map]. fold (select_ssts prune (c_bounds cp) ts T).
            destruct (sst_kept (c_bounds cp) ts t) eqn:EK.
            + assert (Hcase : (exists rest, (match prune t, t_dels t with [], [] => [] | rows, _ => [(t, rows)] end) = rest
                       /\ ((rest = [] /\ prune t = [] /\ X = []) \/ rest = [(t, prune t)]))).
              { eexists; split; [reflexivity|]. destruct (prune t) eqn:E1, (t_dels t) eqn:E2; try (right; reflexivity). left; repeat split; congruence. }
              destruct Hcase as (rest & ER & [(ER1 & ER2 & ER3)|ER1]); rewrite ER, ER1.
              * simpl. exists ss, sv. repeat split; auto.
                -- intros v Hv. apply in_app_iff. right. apply I3, Hv.
                -- eapply I4; eauto.
                -- eapply I4; eauto.
                -- intros v Hv Hts. apply in_app_iff in Hv as [Hv|Hv]; [|apply I5; auto].
                   right. apply HV in Hv. rewrite ER3 in Hv. unfold sst_vers in Hv. simpl in Hv. rewrite app_nil_r in Hv.
                   apply in_map_iff in Hv as (e & <- & He).
                   assert (Hrow : In (drow e) (t_rows t)) by (rewrite R1; apply in_map, He).
                   pose proof R2 as R2'. unfold dkeyed in R2'. rewrite Forall_forall in R2'. specialize (R2' e He).
                   unfold drow in Hrow. unfold vts in Hts; simpl in Hts. unfold vkey; simpl.
                   destruct (HPD t _ _ _ Ht Hrow Hts R2') as [[Hx _]|Hd]; auto.
                   rewrite ER2 in Hx. contradiction.
              * assert (HN : sel <> []).
                { apply Hsel. cbn [select_ssts flat_map]. rewrite EK.
                  intros E. apply app_eq_nil in E as [E _]. rewrite ER, ER1 in E. discriminate. }
                rewrite (EPU HN).
                assert (K' : dkeyed key_of D') by (eapply sublist_Forall; eauto).
                destruct (sst_scan_view key_of (opt_pred (c_push cp)) D' X ts K') as (out & O1 & O2 & _); auto.
                { eapply sublist_sorted; eauto. }
                cbn [map app all_some]. cbn [fst snd]. rewrite R3, ED, O1. cbn [source_of all_some].
                rewrite (EPU HN) in I1. rewrite I1. exists ((3, out) :: ss), (sst_vers (filter (fun e => opt_pred (c_push cp) (snd e)) D') X :: sv).
                split; auto. split; [constructor; auto|]. split; [|split].
                -- intros v Hv. simpl in Hv. apply in_app_iff in Hv as [Hv|Hv]; apply in_app_iff; [left|right; apply I3, Hv].
                   apply HV. unfold sst_vers in *. rewrite in_app_iff in Hv |- *. destruct Hv as [Hv|Hv]; auto. left.
                   apply in_map_iff in Hv as (e & <- & He). apply in_map_iff. exists e. split; auto.
                   apply filter_In in He as [He _]. eapply sublist_In; eauto.
                -- intros kt r Hv. simpl in Hv. apply in_app_iff in Hv as [Hv|Hv]; [|eapply I4; eauto].
                   split; auto. unfold sst_vers in Hv. rewrite in_app_iff, !in_map_iff in Hv.
                   destruct Hv as [(e & E & He)|(e & E & He)]; [|discriminate].
                   apply filter_In in He as [_ He]. inversion E; subst. exact He.
                -- intros v Hv Hts. simpl in Hv. apply in_app_iff in Hv as [Hv|Hv].
                   2:{ destruct (I5 v Hv Hts); auto. left. simpl. apply in_app_iff; auto. }
                   apply HV in Hv. unfold sst_vers in Hv. rewrite in_app_iff, !in_map_iff in Hv.
                   destruct Hv as [(e & E & He)|(e & E & He)].
                   ++ assert (Hrow : In (drow e) (t_rows t)) by (rewrite R1; apply in_map, He).
                      pose proof R2 as R2'. unfold dkeyed in R2'. rewrite Forall_forall in R2'. specialize (R2' e He).
                      assert (Hsrow : vts v = snd (fst e)) by (subst v; reflexivity).
                      unfold drow in Hrow. rewrite Hsrow in Hts.
                      destruct (HPD t _ _ _ Ht Hrow Hts R2') as [[Hx Hy]|Hd].
                      2:{ right. subst v. exact Hd. }
                      left. simpl. apply in_app_iff. left. unfold sst_vers. rewrite in_app_iff, in_map_iff. left.
                      rewrite ED in Hx. apply in_map_iff in Hx as (e' & E' & He').
                      exists e'. split.
                      2:{ apply filter_In. split; auto. unfold drow in E'. inversion E' as [[E1 E2]]. rewrite E1. exact Hy. }
                      subst v. unfold drow in E'. inversion E' as [[E1 E2]]. rewrite E1. f_equal.
                      unfold dkeyed in K'. rewrite Forall_forall in K'. specialize (K' e' He'). rewrite E1 in K'.
                      destruct e as [[a b] c], e' as [[a' b'] c']; simpl in *. congruence.
                   ++ left. simpl. apply in_app_iff. left. unfold sst_vers. rewrite in_app_iff. right. apply in_map_iff. eauto.
            + simpl. exists ss, sv. repeat split; auto.
              -- intros v Hv. apply in_app_iff. right. apply I3, Hv.
              -- eapply I4; eauto.
              -- eapply I4; eauto.
              -- intros v Hv Hts. apply in_app_iff in Hv as [Hv|Hv]; [|apply I5; auto].
                 right. destruct (sst_kept_dead _ _ _ _ _ HCov EK Hv Hts) as (b & Eb & Hb).
                 eapply bounds_dead; eauto. eapply HVin; [left; reflexivity|auto]. }
        apply (G (concat levels) As); auto.
        intros A v HA' Hv. unfold V. rewrite !in_app_iff. right; right. apply in_concat. eauto. }
      destruct ES as (ss & sv & S1 & S2 & S3 & S4 & S5).
      exists (ms ++ iss ++ ss), (mv ++ iv ++ sv).
      split; [|split; [|split; [|split]]].
      - unfold build_streams. rewrite app_nil_l.
        apply all_some_app; [exact EM|]. apply all_some_app; [exact EI|exact S1].
      - apply Forall2_app; auto. apply Forall2_app; auto.
      - intros v Hv. rewrite !concat_app, !in_app_iff in Hv. unfold V. rewrite !in_app_iff.
        destruct Hv as [Hv|[Hv|Hv]].
        + left. unfold mv in Hv. destruct (mem_kept _ _ _); [|contradiction]. simpl in Hv. rewrite app_nil_r in Hv.
          apply in_bounds_In in Hv; auto. apply Hv.
        + right; left. unfold iv in Hv. apply in_concat in Hv as (B & HB & Hv). apply in_map_iff in HB as (A & <- & HA').
          apply filter_In in HA' as [HA' _]. apply in_bounds_In in Hv; auto. apply in_concat. exists A. split; auto. apply Hv.
        + right; right. apply S3, Hv.
      - assert (RB : forall (v : vers) A, Forall (fun v => (vts v <= ts_max)%N) A -> In v (in_bounds rng A) ->
                  (c_bounds cp <> None -> kb_empty match c_bounds cp with Some b => b | None => kb_none end = false) ->
                  forall kb, c_bounds cp = Some kb -> kb_in kb (vkey v) = true).
        { intros v A HAt Hv HNE kb E. apply in_bounds_In in Hv as [_ Hv]; auto.
          rewrite E in HNE. specialize (HNE ltac:(discriminate)).
          unfold rng, p, plan_scan in Hv. cbn [p_range] in Hv. rewrite E in Hv.
          rewrite kb_range_in in Hv; auto. }
        intros kt r Hv. rewrite !concat_app, !in_app_iff in Hv. destruct Hv as [Hv|[Hv|Hv]].
        + left. unfold mv in Hv. destruct (mem_kept (c_bounds cp) ts m) eqn:E; [|contradiction]. simpl in Hv. rewrite app_nil_r in Hv.
          split; auto. change (fst kt) with (vkey (kt, Some r)). eapply RB; eauto.
          intros HX. destruct (c_bounds cp) as [b|]; [|congruence]. destruct (kb_empty b) eqn:EE; auto.
          unfold mem_kept in E. destruct (Nat.eqb (mem_row_count m) 0) eqn:E0; [discriminate|].
          unfold mem_key_bounds in E. destruct (m_index m) as [|i0 il] eqn:EIx.
          { unfold mem_row_count in E0. rewrite EIx in E0. discriminate. }
          destruct (rev (i0 :: il)) eqn:ER; [apply (f_equal (@length _)) in ER; rewrite rev_length in ER; discriminate|].
          unfold kb_overlaps in E. rewrite EE in E. discriminate.
        + left. unfold iv in Hv. apply in_concat in Hv as (B & HB & Hv). apply in_map_iff in HB as (A & <- & HA').
          apply filter_In in HA' as [HA' HKept]. split.
          * rewrite orb_true_iff. right. apply negb_true_iff, Nat.eqb_neq. intros E. apply length_zero_iff_nil in E.
            unfold prune_segments in E. apply prune_nil in E. rewrite filter_map_comm in E.
            apply map_eq_nil in E. fold ov in E. fold KI in E.
            assert (In A KI) by (apply filter_In; auto). rewrite E in H. contradiction.
          * change (fst kt) with (vkey (kt, Some r)). eapply RB with (A := A); eauto. intros HX.
            unfold ov in HKept. destruct (c_bounds cp) as [b|]; [|congruence]. destruct (kb_empty b) eqn:EE; auto.
            simpl in HKept. unfold seg_kept in HKept. destruct (Nat.eqb _ 0); [discriminate|].
            rewrite seg_min_key_of, seg_max_key_of in HKept.
            rewrite Forall_forall in HI. destruct (HI A HA') as (_ & _ & HNE).
            destruct A as [|a A']; [congruence|].
            destruct (rev (a :: A')) eqn:ER; [apply (f_equal (@length _)) in ER; rewrite rev_length in ER; discriminate|].
            unfold kb_overlaps in HKept. rewrite EE in HKept. discriminate.
        + right. eapply S4; eauto.
      - intros v Hv Hts. pose proof Hv as HvV. unfold V in Hv. rewrite !in_app_iff in Hv.
        rewrite !concat_app, !in_app_iff. destruct Hv as [Hv|[Hv|Hv]].
        + destruct (mem_kept (c_bounds cp) ts m) eqn:E.
          * destruct (key_in rng (vkey v)) eqn:EK.
            -- left; left. unfold mv. simpl. rewrite app_nil_r. apply in_bounds_In; auto.
            -- right. apply range_dead; auto.
          * right. destruct (mem_kept_dead _ _ _ _ _ HM E Hv Hts) as (b & Eb & Hb). eapply bounds_dead; eauto.
        + apply in_concat in Hv as (A & HA' & Hv).
          destruct (seg_kept ov ts (seg_of A)) eqn:E.
          * destruct (key_in rng (vkey v)) eqn:EK.
            -- left; right; left. unfold iv. apply in_concat. exists (in_bounds rng A). split.
               ++ apply in_map. apply filter_In; auto.
               ++ apply in_bounds_In; auto.
            -- right. apply range_dead; auto.
          * right.
            destruct (seg_kept_dead _ _ _ _ (proj1 (Forall_forall _ _) HI A HA') (proj1 (Forall_forall _ _) HP A HA') E Hv Hts) as (b & Eb & Hb). eapply bounds_dead; eauto.
        + destruct (S5 v Hv Hts); auto.
    Qed.

    (** The final filter decides the predicate on every row of the streams. *)
    Lemma resid_exact (kt : K * N) r (W : list vers) :
      key_of r = Some (fst kt) ->
      ((mem_kept (c_bounds cp) ts m
              || negb (Nat.eqb (length (prune_segments (option_map kb_overlaps (c_bounds cp)) ts (map seg_of Is))) 0) = true
            /\ (forall kb, c_bounds cp = Some kb -> kb_in kb (fst kt) = true))
           \/ (select_ssts prune (c_bounds cp) ts (concat levels) <> [] /\ opt_pred (c_push cp) r = true)) ->
      opt_pred (p_resid p) r = c_full cp r.
    Proof.
      intros HK H. unfold p, plan_scan. cbn [p_resid].
      set (sel := select_ssts prune (c_bounds cp) ts (concat levels)) in *.
      set (hns := mem_kept (c_bounds cp) ts m || _) in *.
      destruct (c_true cp) eqn:ET.
      - rewrite (cs_true _ _ HC ET r). rewrite !andb_false_r.
        pose proof (cs_true _ _ HC ET r) as HF. pose proof (proj1 (cs_split _ _ HC r _ HK) HF) as [_ H2].
        pose proof (cs_nonsst' _ _ HC r _ HK HF) as H3.
        destruct (c_resid cp) as [f|]; destruct hns; simpl in *; try destruct (c_nonsst cp); simpl in *; auto.
        + now rewrite H2, H3.
      - rewrite !andb_true_r.
        destruct (match c_resid cp with Some _ => match sel with [] => false | _ :: _ => true end | None => false end) eqn:EQ; [reflexivity|].
        destruct (c_full cp r) eqn:EF.
        + pose proof (proj1 (cs_split _ _ HC r _ HK) EF) as [_ H2].
          pose proof (cs_nonsst' _ _ HC r _ HK EF) as H3.
          destruct force; simpl.
          * destruct (c_resid cp); simpl in *; rewrite ?H2, ?EF; auto.
          * destruct (c_resid cp) as [f|]; destruct hns; simpl in *; try destruct (c_nonsst cp); simpl in *; rewrite ?H2, ?H3; auto.
        + destruct force; simpl.
          { destruct (c_resid cp); simpl in *; rewrite ?EF, ?andb_false_r; auto. }
          destruct H as [[Hn Hb]|[Hs Hp]].
          * rewrite Hn. destruct (opt_pred (c_nonsst cp) r) eqn:E3.
            { rewrite (cs_nonsst _ _ HC r _ HK E3 Hb) in EF. discriminate. }
            destruct (c_nonsst cp); simpl in *; [|discriminate].
            destruct (c_resid cp); simpl in *; rewrite ?E3, ?andb_false_r; auto.
          * destruct (c_resid cp) as [f|] eqn:ER.
            { destruct sel; [congruence|discriminate]. }
            assert (c_full cp r = true) as F by (apply (cs_split _ _ HC r _ HK); rewrite ER; simpl; auto).
            congruence.
    Qed.

    (** Main scan theorem: exactly the newest visible rows that satisfy the predicate, in
        key order, cut to the limit. *)
    Theorem scan_exact : consistent V ->
      exists full out,
        exec_plan key_of None m (map seg_of Is) p = Some out /\
        out = match limit with Some n => firstn n full | None => full end /\
        ascending (fun e : (K * N) * R => fst (fst e)) full /\
        (forall kt r, In (kt, r) full <-> newest_visible V ts (kt, Some r) /\ c_full cp r = true).
    Proof.
      intros HCons. destruct build_streams_views as (srcs & vss & B1 & B2 & B3 & B4 & B5).
      set (W := concat vss) in *.
      assert (HW : Forall (fun s => wsorted (snd s)) srcs).
      { clear -B2. induction B2; constructor; auto. eapply is_view_wsorted; eauto. }
      destruct (merge_streams_merged srcs HW) as (out & M1 & M2).
      pose proof (views_merge ts srcs vss out B2 M2) as HV. fold W in HV.
      assert (KW : keyedv key_of W) by (intros kt r Hin; apply V_keyed, B3, Hin).
      assert (CW : consistent W) by (intros a b Ha Hb; apply HCons; apply B3; auto).
      pose proof (is_view_read key_of W ts out HV CW KW) as (RA & RI).
      set (full := filter (fun e => opt_pred (p_resid p) (snd e)) (live_rows out)).
      exists full.
      assert (EX : exec_plan key_of None m (map seg_of Is) p = Some (match limit with Some n => firstn n full | None => full end)).
      { unfold exec_plan. rewrite B1. change (p_limit p) with limit. unfold full. destruct (p_resid p) as [f|] eqn:EP.
        - rewrite M1. reflexivity.
        - replace (filter (fun e => opt_pred None (snd e)) (live_rows out)) with (live_rows out).
          2:{ clear. induction (live_rows out) as [|x l IH]; simpl; auto. f_equal; exact IH. }
          destruct limit as [n|]; [|exact M1]. unfold merge_streams in *. now apply merge_run_limit. }
      eexists. split; [exact EX|]. split; [reflexivity|]. split.
      - unfold full. apply StronglySorted_filter. exact RA.
      - intros kt r. unfold full. rewrite filter_In. cbn [snd]. rewrite RI. split.
        + intros [HN HF].
          pose proof HN as (HNin & HNt & HNmax).
          assert (HKr : key_of r = Some (fst kt)) by (apply KW, HNin).
          rewrite (resid_exact kt r W HKr (B4 _ _ HNin)) in HF. split; auto.
          split; [apply B3, HNin|]. split; auto. intros w Hw Hk Ht.
          destruct (B5 w Hw Ht) as [Hw'|Hd]; [apply HNmax; auto|].
          exfalso. specialize (Hd (kt, Some r) r (B3 _ HNin)). rewrite Hd in HF; auto; try discriminate.
          unfold same_key in *. now apply kcmp_eq_sym.
        + intros [(HNin & HNt & HNmax) HF].
          destruct (B5 _ HNin HNt) as [Hw|Hd].
          2:{ exfalso. rewrite (Hd (kt, Some r) r HNin) in HF; auto; try discriminate. apply kcmp_refl. }
          split.
          * split; auto.
          * rewrite (resid_exact kt r W (KW _ _ Hw) (B4 _ _ Hw)). exact HF.
    Qed.
  End Plan.
End ScanFacts.
