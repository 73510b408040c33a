(** Frame numbers over the life of a log. *)
From Coq Require Import List NArith Bool Sorted Lia Arith.
From Verif Require Import Base.Sub Model.WalScan Model.WalWriter Spec.WriterSpec Proof.WriterRun.
Import ListNotations.
Local Open Scope N_scope.

Lemma sublist_nil {A} (l : list A) : sublist [] l.
Proof. induction l; constructor; auto. Qed.
Lemma flat_sublist {A} (f : N * list (frame A) -> bool) (fs : files A) : sublist (flat (filter f fs)) (flat fs).
Proof.
  induction fs as [|s fs IH]; cbn; [constructor|]. destruct (f s); cbn.
  - apply sublist_app; [apply sublist_refl|exact IH].
  - change (flat_map snd (filter f fs)) with ([] ++ flat (filter f fs)). apply sublist_app; [apply sublist_nil|exact IH].
Qed.
Lemma flat_app {A} (a b : files A) : flat (a ++ b) = flat a ++ flat b.
Proof. unfold flat. apply flat_map_app. Qed.

Section WriterLife.
  Context {A : Type}.
  Variable size : A -> N.
  Variable commit_of : A -> option N.
  Variable cf : wconf.
  Notation writer := (writer A).
  Notation nums w := (map fst (flat (w_files w))).

  (** [m] bounds the numbers given out. *)
  Record wl (m : N) (w : writer) : Prop := {
    wl_sorted : StronglySorted N.lt (nums w);
    wl_below : Forall (fun n => n < w_next w) (nums w);
    wl_one : 1 <= w_next w;
    wl_max : w_next w <= m;
    wl_state : c_state cf = true -> forall n, ws_frame (w_state w) = Some n -> n < w_next w;
    wl_disk : c_state cf = true -> ws_frame (w_disk w) = ws_frame (w_state w)
  }.
  (** The saved state names the last number given out. *)
  Definition wd (w : writer) : Prop := match ws_frame (w_state w) with Some n => w_next w = n + 1 | None => w_next w = 1 /\ nums w = [] end.
  (** The same files, or fewer. *)
  Lemma wl_fewer m w w' : wl m w -> sublist (flat (w_files w')) (flat (w_files w)) -> w_next w' = w_next w ->
    ws_frame (w_state w') = ws_frame (w_state w) -> ws_frame (w_disk w') = ws_frame (w_disk w) -> wl m w'.
  Proof.
    intros [S B O M T D] H E1 E2 E3. apply (sublist_map fst) in H. constructor; rewrite ?E1, ?E2, ?E3; auto.
    - eapply sublist_sorted; eauto.
    - eapply sublist_Forall; eauto.
  Qed.
  Lemma evict_fewer limit bytes : forall done (fs : files A) done' fs', evict limit done bytes fs = Some (done', fs') ->
    sublist (flat fs') (flat fs).
  Proof.
    induction done as [|d done IH]; intros fs done' fs' H; cbn [evict] in H.
    - destruct (_ <=? _); inversion H; subst; apply sublist_refl.
    - destruct (_ <=? _); [inversion H; subst; apply sublist_refl|].
      destruct (has_file _ _); [|discriminate]. apply IH in H. eapply sublist_trans; [exact H|]. apply flat_sublist.
  Qed.
  Lemma enforce_wl m w w' : wl m w -> enforce cf w = Some w' -> wl m w' /\ w_next w' = w_next w /\ w_cur w' = w_cur w.
  Proof.
    intros H. unfold enforce. destruct (c_retention cf) as [limit|]; [|intros E; inversion E; subst; auto].
    destruct (evict _ _ _ _) as [[done old]|] eqn:E; [|discriminate]. intros E1; inversion E1; subst; clear E1.
    split; [|auto]. eapply wl_fewer; [exact H|..]; try reflexivity. unfold w_files. cbn [w_old w_seg w_cur].
    rewrite !flat_app. apply sublist_app; [|apply sublist_refl]. eapply evict_fewer; eauto.
  Qed.
  Lemma rotate_wl m w w' : wl m w -> rotate cf w = Some w' -> wl m w' /\ w_next w' = w_next w.
  Proof.
    intros H E. unfold rotate in E. eapply enforce_wl in E as (E1 & E2 & E3); [split; [exact E1|exact E2]|].
    eapply wl_fewer; [exact H|..]; try reflexivity. unfold w_files. cbn [w_old w_seg w_cur]. rewrite !flat_app. cbn. rewrite !app_nil_r. apply sublist_refl.
  Qed.

  (** After a frame is written and before the state is saved. *)
  Record wmid (m : N) (w : writer) : Prop := {
    wm_sorted : StronglySorted N.lt (nums w);
    wm_below : Forall (fun n => n < w_next w) (nums w);
    wm_one : 2 <= w_next w;
    wm_max : w_next w <= m;
    wm_state : c_state cf = true -> forall n, ws_frame (w_disk w) = Some n -> n < w_next w
  }.
  Lemma sorted_snoc (l : list N) x : StronglySorted N.lt l -> Forall (fun n => n < x) l -> StronglySorted N.lt (l ++ [x]).
  Proof.
    induction 1 as [|y l S IH F]; intros H; cbn; [repeat constructor|]. inversion H; subst. constructor; auto.
    apply Forall_app. auto.
  Qed.
  Lemma put_mid m w a : wl m w -> m + 1 < 2 ^ 64 -> wmid (m + 1) (put size a w).
  Proof.
    intros [S B O M T D] HM.
    assert (EN : w_next (put size a w) = w_next w + 1) by (cbn; unfold sat1; lia).
    assert (EF : nums (put size a w) = nums w ++ [w_next w]).
    { unfold w_files. cbn [put w_old w_seg w_cur]. rewrite !flat_app. cbn. rewrite !app_nil_r, !map_app. cbn. now rewrite app_assoc. }
    constructor; rewrite ?EN, ?EF; try lia.
    - now apply sorted_snoc.
    - apply Forall_app. split; [|constructor; [lia|constructor]]. eapply Forall_impl; [|exact B]. cbn; lia.
    - intros HC n Hn. cbn [put w_disk] in Hn. rewrite D in Hn by auto. specialize (T HC n Hn). lia.
  Qed.
  Lemma maybe_rotate_mid m w w' : wmid m w -> maybe_rotate cf w = Some w' -> wmid m w' /\ w_next w' = w_next w /\ ws_frame (w_state w') = ws_frame (w_state w).
  Proof.
    intros H. unfold maybe_rotate. destruct (_ || _); [intros E; inversion E; subst; auto|].
    unfold rotate, enforce. destruct (c_retention cf) as [limit|].
    - destruct (evict _ _ _ _) as [[done old]|] eqn:E; [|discriminate]. intros E1; inversion E1; subst; clear E1.
      split; [|auto]. apply evict_fewer in E. cbn [w_old] in E. destruct H as [S B O M T]. apply (sublist_map fst) in E.
      assert (EF : map fst (flat (w_old w ++ [(w_seg w, w_cur w)])) = nums w) by reflexivity.
      constructor; cbn [w_next]; auto; unfold w_files; cbn [w_old w_seg w_cur]; rewrite flat_app; cbn; rewrite app_nil_r.
      + eapply sublist_sorted; eauto.
      + eapply sublist_Forall; eauto.
    - intros E; inversion E; subst; clear E. split; [|auto]. destruct H as [S B O M T].
      constructor; cbn [w_next]; auto; unfold w_files in *; cbn [w_old w_seg w_cur]; rewrite !flat_app in *; cbn in *; rewrite !app_nil_r in *; auto.
  Qed.
  Lemma enqueue_wl m w a w' k : wl m w -> m + 1 < 2 ^ 64 -> enqueue size commit_of cf a w = Some (w', k) -> wl (m + 1) w' /\ wd w'.
  Proof.
    intros H HM. unfold enqueue. destruct (maybe_rotate _ _) as [w1|] eqn:E; [|discriminate]. intros E1.
    assert (EW : w' = persist cf (progress commit_of a w1)) by congruence. clear E1. subst w'.
    eapply maybe_rotate_mid in E as [[S B O M T] _]; [|apply put_mid; eauto].
    split; [|unfold wd, persist; destruct (c_state cf); cbn; lia].
    unfold persist. destruct (c_state cf) eqn:EC; constructor; cbn [w_next w_files w_old w_seg w_cur progress w_state w_disk ws_frame]; auto; try lia; try congruence.
    intros _ n Hn. inversion Hn; lia.
  Qed.
  Lemma rotate_now_wl m w w' : wl m w -> rotate_now cf w = Some w' -> wl m w' /\ (wd w -> wd w').
  Proof.
    intros H. unfold rotate_now. destruct (_ =? _); [intros E; inversion E; subst; auto|].
    destruct (rotate cf w) as [w1|] eqn:E; [|discriminate]. cbn. intros E1; inversion E1; subst; clear E1.
    assert (WD : wd w -> wd w1).
    { clear H. unfold rotate, enforce in E. destruct (c_retention cf) as [limit|].
      - destruct (evict _ _ _ _) as [[done old]|] eqn:EV; [|discriminate]. inversion E; subst; clear E. cbn [w_old] in EV. apply evict_fewer in EV.
        unfold wd. cbn [w_state w_next ws_frame]. destruct (ws_frame (w_state w)); auto. intros [H1 H2]. split; auto.
        apply (sublist_map fst) in EV. change (map fst (flat (w_old w ++ [(w_seg w, w_cur w)]))) with (nums w) in EV. rewrite H2 in EV.
        apply sublist_nil_inv in EV. unfold w_files. cbn [w_old w_seg w_cur]. rewrite flat_app, map_app. cbn [flat flat_map snd app map]. rewrite app_nil_r. exact EV.
      - inversion E; subst; clear E. unfold wd. cbn [w_state w_next ws_frame]. destruct (ws_frame (w_state w)); auto. intros [H1 H2]. split; auto.
        unfold w_files at 1. cbn [w_old w_seg w_cur]. rewrite flat_app, map_app. cbn [flat flat_map snd app map]. rewrite app_nil_r. exact H2. }
    apply (rotate_wl m) in E as [[S B O M T D] _]; auto. split; [|unfold wd, persist, w_files in *; destruct (c_state cf); cbn in *; auto]. unfold persist. destruct (c_state cf) eqn:EC; constructor; cbn [w_next w_files w_old w_seg w_cur w_state w_disk]; auto; congruence.
  Qed.
  Lemma drop_fewer floor : forall fs n, sublist (flat (drop_below floor n fs)) (flat (fs : files A)).
  Proof.
    induction fs as [|s fs IH]; intros n; [destruct n; constructor|]. destruct n as [|n]; [apply sublist_refl|].
    cbn [drop_below]. destruct (_ <? _).
    - change (flat (s :: fs)) with (snd s ++ flat fs). change (flat (drop_below floor n fs)) with ([] ++ flat (drop_below floor n fs)).
      apply sublist_app; [apply sublist_nil|apply IH].
    - change (flat (s :: fs)) with (snd s ++ flat fs). change (flat (s :: drop_below floor (S n) fs)) with (snd s ++ flat (drop_below floor (S n) fs)).
      apply sublist_app; [apply sublist_refl|apply IH].
  Qed.
  Lemma prune_wl m floor n w : wl m w -> wl m (prune floor n w).
  Proof.
    intros H. unfold prune. destruct floor as [f|]; auto. eapply wl_fewer; [exact H|..]; try reflexivity.
    unfold w_files. cbn [w_old w_seg w_cur]. rewrite !flat_app. apply sublist_app; [apply drop_fewer|apply sublist_refl].
  Qed.

  Lemma last_frame_app (l : list (frame A)) f : last_frame l = Some f -> exists r, l = r ++ [f].
  Proof. unfold last_frame. destruct (rev l) as [|g r] eqn:E; [discriminate|]. intros H; inversion H; subst. exists (rev r). now rewrite <- (rev_involutive l), E. Qed.
  Lemma last_frame_none (l : list (frame A)) : last_frame l = None -> l = [].
  Proof. unfold last_frame. destruct (rev l) eqn:E; [|discriminate]. intros _. now rewrite <- (rev_involutive l), E. Qed.
  Lemma sorted_last (l : list N) x : StronglySorted N.lt (l ++ [x]) -> Forall (fun n => n <= x) (l ++ [x]).
  Proof.
    induction l as [|y l IH]; cbn; intros H; [repeat constructor; lia|]. inversion H as [|? ? S F]; subst. constructor; auto.
    apply Forall_app in F as [_ F]. inversion F; subst. lia.
  Qed.

  (** Opening. *)
  Definition known (w : writer) := w_cur w <> [] \/
    c_state cf = true /\ forall f, In f (flat (w_files w)) -> exists n, ws_frame (w_disk w) = Some n /\ fst f <= n.
  Lemma open_wl m w w' : StronglySorted N.lt (nums w) -> Forall (fun n => n < m) (nums w) -> 1 <= m -> m < 2 ^ 64 ->
    (c_state cf = true -> forall n, ws_frame (w_disk w) = Some n -> n < m) -> known w ->
    open size cf (w_files w) (w_disk w) = Some w' -> wl m w' /\ (c_state cf = true -> Forall (fun n => n < w_next w') (nums w)).
  Proof.
    intros S B O M T HK E. unfold open in E. unfold w_files at 1 in E. rewrite rev_app_distr in E. cbn [rev app] in E. rewrite rev_involutive in E.
    set (n1 := match last_frame (w_cur w) with Some f => sat1 (fst f) | None => 1 end) in E.
    set (n2 := if c_state cf then match ws_frame (w_disk w) with Some n => N.max n1 (sat1 n) | None => n1 end else n1) in E.
    set (ns := if c_state cf then _ else sat1 (w_seg w)) in E. set (dn := flat_map _ (w_old w)) in E.
    set (st := if c_state cf then w_disk w else wstate0) in E.
    assert (B1 : 1 <= n1 <= m /\ (w_cur w <> [] -> Forall (fun n => n < n1) (nums w))).
    { unfold n1. destruct (last_frame (w_cur w)) as [f|] eqn:EL.
      - apply last_frame_app in EL as (r & EL).
        assert (EF : nums w = map fst (flat (w_old w) ++ r) ++ [fst f]).
        { unfold w_files. rewrite flat_app. cbn. rewrite app_nil_r, EL, app_assoc, map_app. reflexivity. }
        assert (HF : fst f < m). { rewrite EF in B. apply Forall_app in B as [_ B]. now inversion B. }
        unfold sat1. split; [lia|]. intros _. rewrite EF in *. apply sorted_last in S. eapply Forall_impl; [|exact S]. cbn. lia.
      - apply last_frame_none in EL. split; [lia|congruence]. }
    assert (B2 : 1 <= n2 <= m /\ n1 <= n2).
    { unfold n2. destruct (c_state cf); [|lia]. destruct (ws_frame (w_disk w)) as [n|]; [|lia].
      specialize (T eq_refl n eq_refl). unfold sat1. lia. }
    assert (B3 : Forall (fun n => n < N.max n2 1) (nums w)).
    { destruct HK as [HK|[HC HK]].
      - apply B1 in HK. eapply Forall_impl; [|exact HK]. cbn. lia.
      - apply Forall_forall. intros x Hx. apply in_map_iff in Hx as (f & <- & Hf). destruct (HK f Hf) as (n & E1 & E2).
        unfold n2. rewrite HC, E1. specialize (T HC n E1). unfold sat1. lia. }
    assert (HW : wl m (mkWr (w_old w) (w_seg w) (w_cur w) (frames_bytes size (w_cur w)) dn (N.max n2 1) ns st st)).
    { constructor; cbn [w_next w_state w_disk]; auto; try lia.
      intros HC n Hn. unfold st in Hn. rewrite HC in Hn. unfold n2. rewrite HC, Hn. specialize (T HC n Hn). unfold sat1. lia. }
    apply (enforce_wl m) in E as (E1 & E2 & E3); auto. split; auto. intros _. now rewrite E2.
  Qed.
  Lemma open_wd m w w' : wl m w -> m < 2 ^ 64 -> c_state cf = true -> wd w ->
    open size cf (w_files w) (w_disk w) = Some w' -> wl m w' /\ wd w'.
  Proof.
    intros [S B O M T D] HM HC HD E.
    assert (HK : known w).
    { right. split; auto. intros f Hf. rewrite D by auto. unfold wd in HD. destruct (ws_frame (w_state w)) as [n|] eqn:EN.
      - exists n. split; auto. rewrite Forall_forall in B. specialize (B (fst f) (in_map fst _ _ Hf)). lia.
      - destruct HD as [_ HD]. apply (in_map fst) in Hf. now rewrite HD in Hf. }
    assert (BM : Forall (fun n => n < m) (nums w)) by (eapply Forall_impl; [|exact B]; cbn; lia).
    destruct (open_wl m w w' S BM ltac:(lia) HM) as [W F]; auto.
    { intros _ n Hn. rewrite D in Hn by auto. specialize (T HC n Hn). lia. }
    split; auto. unfold open in E. unfold w_files at 1 in E. rewrite rev_app_distr in E. cbn [rev app] in E. rewrite rev_involutive in E.
    rewrite HC in E.
    assert (EN : N.max (match ws_frame (w_disk w) with
        | Some n => N.max match last_frame (w_cur w) with Some f => sat1 (fst f) | None => 1 end (sat1 n)
        | None => match last_frame (w_cur w) with Some f => sat1 (fst f) | None => 1 end end) 1 = w_next w).
    { rewrite D by auto. unfold wd in HD. destruct (last_frame (w_cur w)) as [f|] eqn:EL.
      - apply last_frame_app in EL as (r & EL).
        assert (HF : fst f < w_next w).
        { rewrite Forall_forall in B. apply B. unfold w_files. rewrite flat_app. cbn. rewrite app_nil_r, EL, !map_app. apply in_or_app. right.
          apply in_or_app. right. now left. }
        destruct (ws_frame (w_state w)) as [n|]; [unfold sat1; lia|]. destruct HD as [_ HD]. exfalso.
        unfold w_files in HD. rewrite flat_app in HD. cbn in HD. rewrite app_nil_r, EL, !map_app in HD. apply app_eq_nil in HD as [_ HD]. apply app_eq_nil in HD as [_ HD]. discriminate.
      - destruct (ws_frame (w_state w)) as [n|]; [unfold sat1; lia|lia]. }
    rewrite EN in E. unfold enforce in E. destruct (c_retention cf) as [limit|].
    - destruct (evict _ _ _ _) as [[done old]|] eqn:EV; [|discriminate]. inversion E; subst w'; clear E. cbn [w_old] in EV. apply evict_fewer in EV.
      unfold wd in *. cbn [w_state w_next]. rewrite D by auto. destruct (ws_frame (w_state w)); auto. destruct HD as [H1 H2]. split; auto.
      apply (sublist_map fst) in EV. unfold w_files in *. cbn [w_old w_seg w_cur]. rewrite flat_app, map_app in *. apply app_eq_nil in H2 as [H2 H3].
      assert (HN : sublist (map fst (flat old)) (@nil N)) by (rewrite <- H2; exact EV). apply sublist_nil_inv in HN.
      transitivity ((@nil N) ++ []); [|reflexivity]. f_equal; assumption.
    - inversion E; subst w'; clear E. unfold wd in *. cbn [w_state w_next]. rewrite D by auto. exact HD.
  Qed.

  Lemma wd_put_free m floor n w : wl m w -> wd w -> wd (prune floor n w).
  Proof.
    intros _ H. unfold prune. destruct floor as [f|]; auto. unfold wd in *. cbn [w_state w_next]. destruct (ws_frame (w_state w)); auto.
    destruct H as [H1 H2]. split; auto. unfold w_files in *. cbn [w_old w_seg w_cur]. rewrite flat_app, map_app in *. apply app_eq_nil in H2 as [H2 H3].
    pose proof (sublist_map fst _ _ (drop_fewer (r_seq f) (w_old w) n)) as X. 
    assert (HN : sublist (map fst (flat (drop_below (r_seq f) n (w_old w)))) (@nil N)) by (rewrite <- H2; exact X). apply sublist_nil_inv in HN.
    transitivity ((@nil N) ++ []); [|reflexivity]. f_equal; assumption.
  Qed.

  Lemma at_crash_mid m during w w1 : wl m w -> m + 1 < 2 ^ 64 -> at_crash size commit_of cf during w = Some w1 ->
    StronglySorted N.lt (nums w1) /\ Forall (fun n => n < m + 1) (nums w1) /\
    (c_state cf = true -> forall n, ws_frame (w_disk w1) = Some n -> n < m + 1).
  Proof.
    intros H HM. assert (HB : forall w : writer, wmid (m + 1) w -> StronglySorted N.lt (nums w) /\ Forall (fun n => n < m + 1) (nums w) /\
      (c_state cf = true -> forall n, ws_frame (w_disk w) = Some n -> n < m + 1)).
    { intros v [S B O M T]. split; auto. split; [eapply Forall_impl; [|exact B]; cbn; lia|]. intros HC n Hn. specialize (T HC n Hn). lia. }
    assert (HL : forall k (w : writer), k <= m + 1 -> wl k w -> StronglySorted N.lt (nums w) /\ Forall (fun n => n < m + 1) (nums w) /\
      (c_state cf = true -> forall n, ws_frame (w_disk w) = Some n -> n < m + 1)).
    { intros k v Hk [S B O M T D]. split; auto. split; [eapply Forall_impl; [|exact B]; cbn; lia|]. intros HC n Hn. rewrite D in Hn by auto. specialize (T HC n Hn). lia. }
    destruct during as [[st a]|]; cbn [at_crash].
    - destruct st; cbn [enqueue_until].
      + intros E; inversion E; subst. apply HB. now apply put_mid.
      + intros E. apply (maybe_rotate_mid (m + 1)) in E as [E _]; auto. now apply put_mid.
      + destruct (enqueue size commit_of cf a w) as [[w2 k]|] eqn:E; [|discriminate]. cbn. intros E1; inversion E1; subst.
        apply (enqueue_wl m) in E as [E _]; auto. apply (HL (m + 1)); auto; lia.
    - intros E; inversion E; subst. apply (HL m); auto. lia.
  Qed.

  Lemma wl_mono m m' w : wl m w -> m <= m' -> wl m' w.
  Proof. intros [S B O M T D] H. constructor; auto. lia. Qed.

  Lemma cmd_wl m c w w' : wl m w -> m + 1 < 2 ^ 64 -> wlife_step size commit_of cf (WCmd c) w = Some w' -> wl (m + 1) w' /\ (wd w -> wd w').
  Proof.
    intros H HM. cbn. destruct c as [a|]; cbn.
    - destruct (enqueue size commit_of cf a w) as [[w1 k]|] eqn:E; [|discriminate]. cbn. intros E1; inversion E1; subst.
      apply (enqueue_wl m) in E as [E1' E2]; auto.
    - destruct (rotate_now cf w) as [w1|] eqn:E; [|discriminate]. cbn. intros E1; inversion E1; subst.
      apply (rotate_now_wl m) in E as [E1' E2]; auto. split; auto. eapply wl_mono; eauto. lia.
  Qed.

  Lemma life_known es : forall m w w', wl m w -> m + N.of_nat (length es) < 2 ^ 64 ->
    numbers_known size commit_of cf es w -> wlife_run size commit_of cf es w = Some w' -> exists m', wl m' w'.
  Proof.
    induction es as [|e es IH]; intros m w w' H HM HK HR; [cbn in HR; inversion HR; subst; eauto|].
    cbn [wlife_run numbers_known] in *. cbn [length] in HM. rewrite Nat2N.inj_succ in HM. destruct HK as [HK1 HK2].
    destruct (wlife_step size commit_of cf e w) as [w1|] eqn:E; [|discriminate].
    apply (IH (m + 1) w1 w'); auto; [|lia]. destruct e as [c|floor n|during].
    - apply (cmd_wl m) in E as [E _]; auto. lia.
    - cbn in E. inversion E; subst. eapply wl_mono; [apply prune_wl; exact H|lia].
    - cbn [wlife_step] in E. destruct (at_crash size commit_of cf during w) as [w2|] eqn:E2; [|discriminate].
      destruct (at_crash_mid m during w w2 H ltac:(lia) E2) as (S & B & T).
      apply (open_wl (m + 1) w2 w1) in E as [E _]; auto; try lia.
  Qed.
  Lemma life_orderly es : c_state cf = true -> forall m w w', wl m w -> wd w -> m + N.of_nat (length es) < 2 ^ 64 ->
    Forall orderly es -> wlife_run size commit_of cf es w = Some w' -> exists m', wl m' w'.
  Proof.
    intros HC. induction es as [|e es IH]; intros m w w' H HD HM HO HR; [cbn in HR; inversion HR; subst; eauto|].
    cbn [wlife_run] in *. cbn [length] in HM. rewrite Nat2N.inj_succ in HM. inversion HO as [|? ? O1 O2]; subst.
    destruct (wlife_step size commit_of cf e w) as [w1|] eqn:E; [|discriminate].
    assert (X : wl (m + 1) w1 /\ wd w1); [|destruct X; apply (IH (m + 1) w1 w'); auto; lia]. destruct e as [c|floor n|during].
    - apply (cmd_wl m) in E as [E E1]; auto. lia.
    - cbn in E. inversion E; subst. split; [eapply wl_mono; [apply prune_wl; exact H|lia]|]. eapply wd_put_free; eauto.
    - cbn [wlife_step] in E. destruct (at_crash size commit_of cf during w) as [w2|] eqn:E2; [|discriminate].
      assert (X : wl (m + 1) w2 /\ wd w2).
      { destruct during as [[[] a]|]; try (elim O1; fail); cbn [at_crash enqueue_until] in E2.
        - destruct (enqueue size commit_of cf a w) as [[w3 k]|] eqn:E3; [|discriminate]. cbn in E2. inversion E2; subst.
          apply (enqueue_wl m) in E3; auto. lia.
        - inversion E2; subst. split; auto. eapply wl_mono; eauto. lia. }
      destruct X as [X1 X2]. apply (open_wd (m + 1)) in E; auto. lia.
  Qed.

  Lemma new_wl w0 : open size cf [] wstate0 = Some w0 -> wl 1 w0 /\ wd w0.
  Proof.
    unfold open. cbn [rev last_frame wstate0 ws_frame ws_seg flat_map]. intros E.
    replace (if c_state cf then wstate0 else wstate0) with wstate0 in E by (destruct (c_state cf); reflexivity).
    replace (if c_state cf then 1 else 1) with 1 in E by (destruct (c_state cf); reflexivity).
    match type of E with enforce cf ?x = _ => set (u := x) in E end.
    assert (HU : wl 1 u) by (constructor; cbn; auto; try lia; try constructor; discriminate).
    assert (HE : w_state w0 = wstate0 /\ w_next w0 = 1 /\ w_old w0 = [] /\ w_cur w0 = []).
    { unfold enforce in E. destruct (c_retention cf); [|inversion E; subst; cbn; auto].
      cbn in E. destruct (_ <=? _); inversion E; subst; cbn; auto. }
    apply (enforce_wl 1) in E as (E1 & _); auto. split; auto. destruct HE as (H1 & H2 & H3 & H4).
    unfold wd, w_files. now rewrite H1, H2, H3, H4.
  Qed.

  Lemma c48_known es w0 w : open size cf [] wstate0 = Some w0 -> 1 + N.of_nat (length es) < 2 ^ 64 ->
    numbers_known size commit_of cf es w0 -> wlife_run size commit_of cf es w0 = Some w -> StronglySorted N.lt (nums w).
  Proof. intros E HM HK HR. apply new_wl in E as [E _]. destruct (life_known es 1 w0 w E HM HK HR) as [m H]. apply H. Qed.
  Lemma c48_orderly es w0 w : open size cf [] wstate0 = Some w0 -> 1 + N.of_nat (length es) < 2 ^ 64 ->
    c_state cf = true -> Forall orderly es -> wlife_run size commit_of cf es w0 = Some w -> StronglySorted N.lt (nums w).
  Proof. intros E HM HC HO HR. apply new_wl in E as [E ED]. destruct (life_orderly es HC 1 w0 w E ED HM HO HR) as [m H]. apply H. Qed.
End WriterLife.

(** Records are their sizes. *)
Definition life_conf : wconf := mkConf 20 None true.
Definition life_ok : list (wlife N) :=
  [WCmd (Append 10); WCmd (Append 10); WCrash None; WCmd (Append 5); WCrash (Some (Written, 6)); WCmd (Append 9);
   WPrune (Some (mkRef 1 1 1)) 1; WCmd NewSegment; WCrash None; WCmd (Append 3)].
Lemma life_ok_known : exists w0, open (fun n : N => n) life_conf [] wstate0 = Some w0 /\
  numbers_known (fun n => n) (fun _ => None) life_conf life_ok w0 /\
  option_map (fun w => map (fun s => (fst s, map fst (snd s))) (w_files w)) (wlife_run (fun n => n) (fun _ => None) life_conf life_ok w0)
    = Some [(1, [3; 4; 5]); (2, [6])].
Proof.
  eexists. split; [vm_compute; reflexivity|]. split; [|vm_compute; reflexivity].
  vm_compute. repeat split; try (left; discriminate); right; (split; [reflexivity|]); intros f Hf;
    repeat destruct Hf as [<-|Hf]; try (destruct Hf; fail); eexists; (split; [reflexivity|]); discriminate.
Qed.
(** The state is not corrected when the log is opened: a rotation before the next write
    leaves an empty newest file and a state that is one frame behind. *)
Definition life_bad : list (wlife N) := [WCrash (Some (Written, 10)); WCmd NewSegment; WCrash None; WCmd (Append 5)].
Lemma c48_stale : exists w0 w, open (fun n : N => n) life_conf [] wstate0 = Some w0 /\
  wlife_run (fun n => n) (fun _ => None) life_conf life_bad w0 = Some w /\ ~ NoDup (map fst (flat (w_files w))).
Proof.
  eexists _, _. split; [vm_compute; reflexivity|]. split; [vm_compute; reflexivity|]. vm_compute. intros F. inversion F as [|? ? F1 _]; subst. apply F1. now left.
Qed.
