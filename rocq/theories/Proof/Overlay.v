(** A scan inside a transaction: staged mutations win over every stored version. *)
From Coq Require Import List NArith Bool Sorted Permutation Lia Arith.
From Verif Require Import Base.Order Base.Sub Model.OMap Model.KeyTs Model.MemTable Model.Immutable
     Model.SsTable Model.MergeStream Model.KeyBounds Model.DbScan Spec.Mvcc Spec.KeySet Spec.Valid
     Proof.OMapFacts Proof.MemFacts Proof.ViewFacts Proof.SstFacts Proof.MergeFacts Proof.KeyBoundsFacts
     Proof.ScanFacts.
Import ListNotations.
Local Arguments kcmp : simpl never.

Section Overlay.
  Context {K : Type} {KO : KeyOrd K} {R : Type}.
  Variable key_of : R -> option K.
  Notation vers := (@vers K R).
  Notation source := (@source K R).

  (** Moving the overlay one timestamp up does not change the order of the merge. *)
  Variable T : N.
  Definition lower_kt (kt : K * N) : K * N := (fst kt, N.min (snd kt) T).
  Definition lower (v : vers) : vers := (lower_kt (fst v), snd v).
  Definition lower_row (e : (K * N) * R) : (K * N) * R := (lower_kt (fst e), snd e).
  Definition low_src (s : source) : source := (fst s, map lower (snd s)).

  Definition below (s : source) : Prop := fst s >= 1 /\ Forall (fun v : vers => (vts v <= T)%N) (snd s).
  Definition overlay_src (s : source) : Prop := fst s = 0 /\ Forall (fun v : vers => vts v = (T + 1)%N) (snd s).
  Definition osrcs (l : list source) : Prop :=
    match l with [] => False | o :: r => overlay_src o /\ Forall below r end.

  Lemma lower_id (v : vers) : (vts v <= T)%N -> lower v = v.
  Proof.
    destruct v as [[k t] o]. unfold lower, lower_kt, vts. simpl. intros H. now rewrite N.min_l.
  Qed.
  Lemma low_src_id s : below s -> low_src s = s.
  Proof.
    destruct s as [p es]. intros [_ H]. unfold low_src. simpl in *. f_equal.
    induction H as [|v l Hv _ IH]; simpl; auto. now rewrite lower_id, IH.
  Qed.
  Lemma low_rest l : Forall below l -> map low_src l = l.
  Proof. induction 1 as [|s l H _ IH]; simpl; auto. now rewrite low_src_id, IH. Qed.

  Definition low_h (h : @hentry K R) : @hentry K R := let '(j, p, e) := h in (j, p, lower e).

  Lemma heap_min_In i (l : list source) j p e : heap_min i l = Some (j, p, e) ->
    exists s, In s l /\ fst s = p /\ In e (snd s) /\ exists n, j = i + n /\ nth_error l n = Some s.
  Proof.
    revert i. induction l as [|[q es] l IH]; intros i H; [discriminate|]. cbn [heap_min] in H.
    destruct es as [|x es].
    - apply IH in H as (s & A & B & C & n & D & E). exists s. simpl. repeat split; auto. exists (S n). split; [lia|auto].
    - destruct (heap_min (S i) l) as [[[j' p'] e']|] eqn:EM.
      + destruct (heap_cmp (i, q, x) (j', p', e')).
        1,2: inversion H; subst; exists (p, e :: es); simpl; repeat split; auto; exists 0; split; [lia|auto].
        inversion H; subst. destruct (IH _ EM) as (s & A & B & C & n & D & E). exists s. simpl. repeat split; auto. exists (S n). split; [lia|auto].
      + inversion H; subst. exists (p, e :: es). simpl. repeat split; auto. exists 0. split; [lia|auto].
  Qed.

  Lemma heap_min_low l : osrcs l -> heap_min 0 (map low_src l) = option_map low_h (heap_min 0 l).
  Proof.
    destruct l as [|[p es] l]; [intros []|]. intros [[HP HO] HB]. simpl in HP. subst p.
    cbn [map]. change (low_src (0, es)) with (@pair nat (list vers) 0 (map lower es)). cbn [heap_min]. rewrite (low_rest l HB).
    destruct es as [|e es]; cbn [map].
    - destruct (heap_min 1 l) as [[[j p] e]|] eqn:E; auto. simpl.
      apply heap_min_In in E as (s & A & B & C & _). rewrite Forall_forall in HB. destruct (HB s A) as [_ H].
      rewrite Forall_forall in H. now rewrite (lower_id e (H e C)).
    - destruct (heap_min 1 l) as [[[j p] f]|] eqn:E; auto.
      apply heap_min_In in E as (s & A & B & C & _). rewrite Forall_forall in HB. destruct (HB s A) as [H1 H2].
      rewrite Forall_forall in H2. specialize (H2 f C). simpl in HO. inversion HO as [|? ? H3 _]; subst.
      assert (EC : heap_cmp (0, 0, lower e) (j, fst s, f) = heap_cmp (0, 0, e) (j, fst s, f)).
      { destruct e as [[k t] v], f as [[l' u] w]. unfold vts in *. simpl in H2, H3 |- *. subst t.
        destruct (kcmp k l'); auto.
        rewrite (proj2 (N.compare_lt_iff u (T + 1)%N)) by lia. rewrite N.min_r by lia.
        destruct (N.compare_spec u T) as [->|HL|HG]; auto; [|lia].
        destruct (fst s); [lia|reflexivity]. }
      match goal with |- context [heap_cmp (0, 0, lower e) ?b] => change (heap_cmp (0, 0, lower e) b) with (heap_cmp (0, 0, lower e) (j, fst s, f)) end.
      match goal with |- context [heap_cmp ?a ?b] => replace (heap_cmp a b) with (heap_cmp (0, 0, e) (j, fst s, f)) by (symmetry; exact EC) end.
      destruct (heap_cmp (0, 0, e) (j, fst s, f)); auto. simpl. now rewrite (lower_id f H2).
  Qed.

  Lemma advance_low i l : map low_src (advance i l) = advance i (map low_src l).
  Proof.
    revert i. induction l as [|[p es] l IH]; intros i.
    { destruct i; reflexivity. }
    cbn [map]. destruct i; simpl.
    - f_equal. unfold low_src. simpl. now destruct es.
    - f_equal. apply IH.
  Qed.
  Lemma below_adv i l : Forall below l -> Forall below (advance i l).
  Proof.
    intros H. revert i. induction H as [|[p es] l [H1 H2] HF IH]; intros i; [destruct i; constructor|].
    destruct i; simpl; constructor; auto.
    - split; auto. simpl in *. destruct H2; simpl; auto.
    - split; auto.
  Qed.
  Lemma osrcs_adv i l : osrcs l -> osrcs (advance i l).
  Proof.
    destruct l as [|[p es] l]; [intros []|]. intros [[H1 H2] H3]. destruct i; simpl; split; auto.
    - split; auto. simpl in *. destruct H2; simpl; auto.
    - split; auto.
    - now apply below_adv.
  Qed.

  Lemma merge_low fuel : forall lim buf l, osrcs l ->
    merge_run fuel lim (option_map lower buf) (map low_src l)
    = option_map (map lower_row) (merge_run fuel lim buf l).
  Proof.
    induction fuel as [|fuel IH]; intros lim buf l HO; cbn [merge_run]; rewrite (heap_min_low l HO).
    - destruct lim as [[|n]|]; auto; destruct (heap_min 0 l) as [[[j p] e]|]; auto;
        destruct buf as [[kt [r|]]|]; auto.
    - destruct (heap_min 0 l) as [[[j p] e]|]; cbn [option_map low_h].
      2:{ destruct lim as [[|n]|]; auto; destruct buf as [[kt [r|]]|]; auto. }
      pose proof (osrcs_adv j l HO) as HA. rewrite <- advance_low.
      destruct buf as [[bk bv]|]; cbn [option_map].
      + change (lower (bk, bv)) with (lower_kt bk, bv). cbv iota.
        change (fst (lower_kt bk)) with (fst bk). change (fst (fst (lower e))) with (fst (fst e)).
        pose proof (fun lim => IH lim (Some e) _ HA) as I1. pose proof (fun lim => IH lim (Some (bk, bv)) _ HA) as I2.
        cbn [option_map] in I1, I2. change (lower (bk, bv)) with (lower_kt bk, bv) in I2.
        rewrite !I1, !I2.
        destruct lim as [[|n]|]; auto; destruct (keqb (fst bk) (fst (fst e))); auto; destruct bv as [r|]; auto.
        * destruct (merge_run fuel (decrement_limit (Some (S n))) (Some e) (advance j l)); reflexivity.
        * destruct (merge_run fuel (decrement_limit None) (Some e) (advance j l)); reflexivity.
      + pose proof (fun lim => IH lim (Some e) _ HA) as I1. cbn [option_map] in I1. rewrite !I1.
        destruct lim as [[|n]|]; auto.
  Qed.

  Lemma len_low l : length (concat (map snd (map low_src l))) = length (concat (map snd l)).
  Proof. induction l as [|[p es] l IH]; simpl; auto. now rewrite !app_length, map_length, IH. Qed.
  Lemma merge_streams_low lim l : osrcs l ->
    merge_streams lim (map low_src l) = option_map (map lower_row) (merge_streams lim l).
  Proof. intros H. unfold merge_streams. rewrite len_low. apply (merge_low _ lim None l H). Qed.

  (** *** The overlay and the layers below it *)
  Definition raise (v : vers) : vers := ((vkey v, T + 1)%N, vval v).

  Lemma raise_lower ov : Forall (fun v : vers => vts v = T) ov -> map lower (map raise ov) = ov.
  Proof.
    induction 1 as [|v l H _ IH]; simpl; auto. rewrite IH. f_equal.
    destruct v as [[k t] o]. unfold vts in H. simpl in H. subst t. unfold lower, raise, lower_kt, vkey, vval. simpl.
    now rewrite N.min_r by lia.
  Qed.
  Lemma raise_ascending ov : ascending vkey ov -> ascending vkey (map raise ov).
  Proof.
    induction 1 as [|v l H IH HF]; simpl; constructor; auto. rewrite Forall_forall in *. intros w Hw.
    apply in_map_iff in Hw as (x & <- & Hx). apply (HF x Hx).
  Qed.
  Lemma raise_view ov : ascending vkey ov -> is_view (map raise ov) (T + 1) (map raise ov).
  Proof.
    intros H. split; [now apply raise_ascending|]. split.
    - intros v Hv. apply in_map_iff in Hv as (x & <- & Hx). split; [now apply in_map|]. split; [apply N.le_refl|].
      intros w Hw _ _. apply in_map_iff in Hw as (y & <- & Hy). apply N.le_refl.
    - intros v Hv _. exists v. split; auto. apply kcmp_refl.
  Qed.
  Definition old (vs : list vers) : list vers := filter (fun v => N.leb (vts v) T) vs.
  Lemma old_In vs v : In v (old vs) <-> In v vs /\ (vts v <= T)%N.
  Proof. unfold old. now rewrite filter_In, N.leb_le. Qed.
  Lemma old_view vs es : is_view vs T es -> is_view (old vs) (T + 1) es.
  Proof.
    intros (H1 & H2 & H3). split; auto. split.
    - intros v Hv. destruct (H2 v Hv) as (A & B & C). split; [apply old_In; auto|]. split; [lia|].
      intros w Hw Hk _. apply old_In in Hw as [Hw Ht]. auto.
    - intros v Hv _. apply old_In in Hv as [Hv Ht]. auto.
  Qed.
  Lemma old_concat vss v : In v (concat (map old vss)) <-> In v (concat vss) /\ (vts v <= T)%N.
  Proof.
    induction vss as [|vs vss IH]; simpl; [tauto|]. rewrite !in_app_iff, IH, old_In. tauto.
  Qed.
End Overlay.

Section TxnScan.
  Context {K : Type} {KO : KeyOrd K} {R : Type}.
  Variable key_of : R -> option K.
  Notation vers := (@vers K R).

  Lemma build_streams_prio m imms p srcs :
    build_streams key_of None m imms p = Some srcs -> Forall (fun s => fst s >= 1) srcs.
  Proof.
    unfold build_streams. rewrite app_nil_l.
    assert (G : forall l s, Forall (fun o : option (@source K R) => match o with Some s => fst s >= 1 | None => True end) l ->
                all_some l = Some s -> Forall (fun s => fst s >= 1) s).
    { intros l s H. revert s. induction H as [|[a|] l H _ IH]; simpl; intros s E; inversion E; subst; auto.
      destruct (all_some l) as [s0|]; inversion E; subst. constructor; auto. }
    apply G. rewrite !Forall_app. split; [|split].
    - destruct (p_mem p); constructor; auto. unfold source_of. destruct (mem_scan _ _ _); simpl; auto.
    - apply Forall_forall. intros o Ho. apply in_map_iff in Ho as (s & <- & _). unfold source_of. destruct (seg_scan _ _ _); simpl; auto.
    - apply Forall_forall. intros o Ho. apply in_map_iff in Ho as (s & <- & _). unfold source_of. destruct (sst_scan _ _ _ _ _); simpl; auto.
  Qed.

  Section Plan.
    Variables (prune : sst K R -> list (R * N)) (cp : cpred K R) (limit : option nat).
    Variables (m : mem K R) (M : list vers) (Is : list (list vers)).
    Variables (levels : list (list (sst K R))) (As : list (list vers)) (ts : N).
    Let V := M ++ concat Is ++ concat As.
    Let p := plan_scan prune cp true m (map seg_of Is) levels ts limit.

    Hypothesis HM : mem_repr key_of m M.
    Hypothesis HI : Forall (good key_of) Is.
    Hypothesis HA : Forall2 (sst_ok key_of) (concat levels) As.
    Hypothesis HT : Forall (fun v => (vts v <= ts_max)%N) V.
    Hypothesis HC : cp_sound key_of cp.
    Hypothesis HP : Forall (seg_prune_safe ts) Is.
    Hypothesis HPR : forall t, In t (concat levels) -> sublist (prune t) (t_rows t).
    Hypothesis HPD : forall t r u k, In t (concat levels) -> In (r, u) (t_rows t) -> (u <= ts)%N ->
      key_of r = Some k ->
      (In (r, u) (prune t) /\ opt_pred (c_push cp) r = true) \/ dead V ts (c_full cp) k.

    Lemma resid_force r k : key_of r = Some k -> opt_pred (p_resid p) r = c_full cp r.
    Proof.
      intros HK. unfold p, plan_scan. cbn [p_resid].
      set (sel := select_ssts prune (c_bounds cp) ts (concat levels)) in *.
      set (hns := mem_kept (c_bounds cp) ts m || _) in *.
      destruct (c_true cp) eqn:ET.
      - rewrite (cs_true _ _ HC ET r). rewrite !andb_false_r.
        pose proof (cs_true _ _ HC ET r) as HF. pose proof (proj1 (cs_split _ _ HC r _ HK) HF) as [_ H2].
        pose proof (cs_nonsst' _ _ HC r _ HK HF) as H3.
        destruct (c_resid cp) as [f|]; destruct hns; simpl in *; try destruct (c_nonsst cp); simpl in *; auto.
        + now rewrite H2, H3.
      - rewrite !andb_true_r.
        destruct (match c_resid cp with Some _ => match sel with [] => false | _ :: _ => true end | None => false end) eqn:EQ; [reflexivity|].
        destruct (c_full cp r) eqn:EF.
        + pose proof (proj1 (cs_split _ _ HC r _ HK) EF) as [_ H2].
          destruct (c_resid cp); simpl in *; rewrite ?H2, ?EF; auto.
        + destruct (c_resid cp); simpl in *; rewrite ?EF, ?andb_false_r; auto.
    Qed.

    Theorem overlay_exact ov : consistent V ->
      ascending vkey ov -> Forall (fun v : vers => vts v = ts) ov -> keyedv key_of ov ->
      exists full out,
        exec_plan key_of (Some ov) m (map seg_of Is) p = Some out /\
        out = match limit with Some n => firstn n full | None => full end /\
        ascending (fun e : (K * N) * R => fst (fst e)) full /\
        (forall kt r, In (kt, r) full <->
           c_full cp r = true /\
           (In (kt, Some r) ov \/
            ((forall v, In v ov -> ~ same_key (vkey v) (fst kt)) /\ newest_visible V ts (kt, Some r)))).
    Proof.
      intros HCons OA OT OK. destruct (build_streams_views key_of prune cp true limit m M Is levels As ts HM HI HA HT HC HP HPR HPD) as (srcs & vss & B1 & B2 & B3 & B4 & B5).
      fold V in B3, B5. fold p in B1.
      set (W := concat vss) in *.
      assert (HB : Forall (below ts) srcs).
      { apply build_streams_prio in B1. clear -B1 B2. revert B1. induction B2 as [|vs s vss srcs (_ & H & _) _ IH]; intros B1; constructor.
        - inversion B1; subst. split; auto. apply Forall_forall. intros v Hv. apply (H v Hv).
        - inversion B1; auto. }
      set (srcs' := (0, map (raise ts) ov) :: srcs).
      assert (HOS : osrcs ts srcs').
      { split; auto. split; auto. simpl. apply Forall_forall. intros v Hv. apply in_map_iff in Hv as (x & <- & _). reflexivity. }
      assert (ELow : map (low_src ts) srcs' = (0, ov) :: srcs).
      { unfold srcs'. cbn [map]. rewrite (low_rest ts srcs HB). unfold low_src. simpl. now rewrite raise_lower. }
      assert (HW : Forall (fun s => wsorted (snd s)) srcs').
      { constructor; simpl.
        - eapply is_view_wsorted. now apply raise_view.
        - clear -B2. induction B2; constructor; auto. eapply is_view_wsorted; eauto. }
      destruct (merge_streams_merged srcs' HW) as (out & M1 & M2).
      set (X := map (raise ts) ov ++ concat (map (old ts) vss)).
      assert (HV : is_view X (ts + 1) out).
      { apply (views_merge (ts + 1) srcs' (map (raise ts) ov :: map (old ts) vss)); auto.
        constructor; [now apply raise_view|]. clear -B2. induction B2; constructor; auto. now apply old_view. }
      assert (XIn : forall v, In v X <-> (exists x, In x ov /\ v = raise ts x) \/ (In v W /\ (vts v <= ts)%N)).
      { intros v. unfold X. rewrite in_app_iff, old_concat, in_map_iff. fold W. split; intros [H|H]; auto; left.
        - destruct H as (x & E & H). eauto.
        - destruct H as (x & H & E). eauto. }
      assert (KX : keyedv key_of X).
      { intros kt r Hin. apply XIn in Hin as [(x & Hx & E)|[Hin _]].
        - destruct x as [[k t] o]. unfold raise, vkey, vval in E. simpl in E. inversion E; subst. apply (OK _ _ Hx).
        - eapply V_keyed; try eassumption. apply B3, Hin. }
      assert (OU : forall x y, In x ov -> In y ov -> same_key (vkey x) (vkey y) -> x = y).
      { clear -OA. induction OA as [|a l H IH HF]; intros x y; [intros []|]. rewrite Forall_forall in HF. intros [<-|Hx] [<-|Hy] E; auto.
        - specialize (HF y Hy). unfold same_key in E. congruence.
        - specialize (HF x Hx). unfold same_key in E. rewrite (kcmp_opp (vkey x)), E in HF. discriminate. }
      assert (CX : consistent X).
      { intros a b Ha Hb E1 E2. apply XIn in Ha as [(x & Hx & ->)|[Ha Ha']]; apply XIn in Hb as [(y & Hy & ->)|[Hb Hb']].
        - rewrite (OU x y); auto.
        - exfalso. unfold raise, vts in E2, Hb'. simpl in E2. unfold vts in Hb'. lia.
        - exfalso. unfold raise, vts in E2, Ha'. simpl in E2. unfold vts in Ha'. lia.
        - apply HCons; auto. }
      pose proof (is_view_read key_of X (ts + 1) out HV CX KX) as (RA & RI).
      set (rows := map (lower_row ts) (live_rows out)).
      assert (EM : merge_streams None ((0, ov) :: srcs) = Some rows).
      { rewrite <- ELow, (merge_streams_low _ _ _ HOS), M1. reflexivity. }
      set (full := filter (fun e => opt_pred (p_resid p) (snd e)) rows).
      exists full.
      assert (EX : exec_plan key_of (Some ov) m (map seg_of Is) p = Some (match limit with Some n => firstn n full | None => full end)).
      { unfold exec_plan.
        assert (EB : build_streams key_of (Some ov) m (map seg_of Is) p = Some ((0, ov) :: srcs)).
        { unfold build_streams in *. cbn [app all_some] in *. rewrite B1. reflexivity. }
        rewrite EB. change (p_limit p) with limit. unfold full. destruct (p_resid p) as [f|] eqn:EP.
        - rewrite EM. reflexivity.
        - replace (filter (fun e => opt_pred None (snd e)) rows) with rows.
          2:{ clear. induction rows as [|x l IH]; simpl; auto. f_equal; exact IH. }
          destruct limit as [n|]; [|exact EM]. unfold merge_streams in *. now apply merge_run_limit. }
      assert (RowIn : forall kt r, In (kt, r) rows <->
                (In (kt, Some r) ov \/
                 ((forall v, In v ov -> ~ same_key (vkey v) (fst kt)) /\ newest_visible W ts (kt, Some r)))).
      { intros kt r. unfold rows. rewrite in_map_iff. split.
        - intros ([kt' r'] & E & Hin). apply RI in Hin. destruct Hin as (N1 & N2 & N3).
          unfold lower_row in E. simpl in E. inversion E; subst r'. clear E. apply XIn in N1 as [(x & Hx & E)|[N1 N1']].
          + left. destruct x as [[k t] o]. rewrite Forall_forall in OT. pose proof (OT _ Hx) as Et. unfold vts in Et. simpl in Et. subst t.
            unfold raise, vkey, vval in E. simpl in E. inversion E; subst. unfold lower_kt. simpl. rewrite N.min_r by lia. exact Hx.
          + right. assert (EK : lower_kt ts kt' = kt').
            { destruct kt' as [k t]. unfold lower_kt. simpl. unfold vts in N1'. simpl in N1'. now rewrite N.min_l. }
            rewrite EK. split.
            * intros v Hv Hk. assert (HR' : In (raise ts v) X) by (apply XIn; eauto).
              specialize (N3 _ HR' Hk (N.le_refl _)). unfold raise, vts in N3, N1'. simpl in *. lia.
            * split; auto. split; auto. intros w Hw Hk Ht. apply N3; auto; [|lia]. apply XIn; auto.
        - intros [Hov|[Hno (N1 & N2 & N3)]].
          + exists ((fst kt, ts + 1)%N, r). split.
            * unfold lower_row, lower_kt. simpl. rewrite N.min_r by lia. rewrite Forall_forall in OT. specialize (OT _ Hov). unfold vts in OT. simpl in OT. destruct kt; simpl in *. now subst.
            * apply RI. split; [apply XIn; left; exists (kt, Some r); auto|]. split; [apply N.le_refl|]. intros w Hw Hk Ht. exact Ht.
          + exists (kt, r). split.
            * unfold lower_row, lower_kt. simpl. unfold vts in N2. simpl in N2. rewrite N.min_l by auto. now destruct kt.
            * apply RI. split; [apply XIn; auto|]. split; [lia|]. intros w Hw Hk Ht.
              apply XIn in Hw as [(x & Hx & ->)|[Hw Hw']]; [exfalso; apply (Hno x Hx Hk)|]. apply N3; auto. }
      assert (RowAsc : ascending (fun e : (K * N) * R => fst (fst e)) rows).
      { unfold rows. clear -RA. induction RA as [|a l H IH HF]; simpl; constructor; auto.
        rewrite Forall_forall in *. intros e He. apply in_map_iff in He as (x & <- & Hx). apply (HF x Hx). }
      eexists. split; [exact EX|]. split; [reflexivity|]. split.
      - unfold full. apply StronglySorted_filter. exact RowAsc.
      - intros kt r. unfold full. rewrite filter_In. cbn [snd]. rewrite RowIn.
        assert (KV : keyedv key_of V) by (intros ? ? ?; eapply V_keyed; eassumption).
        split.
        + intros [HN HF].
          assert (HKr : key_of r = Some (fst kt)).
          { destruct HN as [HN|[_ (HN & _)]]; [apply (OK _ _ HN)|apply KV, B3, HN]. }
          rewrite (resid_force r _ HKr) in HF. split; auto.
          destruct HN as [HN|[HN1 (HNin & HNt & HNmax)]]; auto. right. split; auto.
          split; [apply B3, HNin|]. split; auto. intros w Hw Hk Ht.
          destruct (B5 w Hw Ht) as [Hw'|Hd]; [apply HNmax; auto|].
          exfalso. specialize (Hd (kt, Some r) r (B3 _ HNin)). rewrite Hd in HF; auto; try discriminate.
          unfold same_key in *. now apply kcmp_eq_sym.
        + intros [HF HN].
          assert (HKr : key_of r = Some (fst kt)).
          { destruct HN as [HN|[_ (HN & _)]]; [apply (OK _ _ HN)|apply KV, HN]. }
          rewrite (resid_force r _ HKr). split; auto.
          destruct HN as [HN|[HN1 (HNin & HNt & HNmax)]]; auto. right. split; auto.
          destruct (B5 _ HNin HNt) as [Hw|Hd].
          2:{ exfalso. rewrite (Hd (kt, Some r) r HNin) in HF; auto; try discriminate. apply kcmp_refl. }
          split; auto.
    Qed.
  End Plan.
End TxnScan.
