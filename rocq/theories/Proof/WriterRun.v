(** The writer over sequences of commands, with and without a retention budget. *)
From Coq Require Import List NArith Bool Sorted Lia Arith.
From Verif Require Import Model.WalScan Model.WalWriter Spec.WriterSpec Proof.WriterFacts.
Import ListNotations.
Local Open Scope N_scope.

Lemma flat_skipn {A} (fs : files A) j (x : list (frame A)) : exists k, flat (skipn j fs) ++ x = skipn k (flat fs ++ x).
Proof.
  revert j. induction fs as [|s fs IH]; intros [|j]; try (exists 0%nat; reflexivity).
  destruct (IH j) as (k & E). exists (length (snd s) + k)%nat. change (flat (s :: fs)) with (snd s ++ flat fs). cbn [skipn]. rewrite E, <- app_assoc.
  rewrite (skipn_app _ (snd s)), (skipn_all2 (snd s)) by lia. cbn [app]. f_equal. lia.
Qed.
Lemma skip_skip {A} j k (l : list A) : skipn j (skipn k l) = skipn (k + j) l.
Proof. revert l. induction k as [|k IH]; intros l; [reflexivity|]. destruct l; cbn; [now destruct j|auto]. Qed.

Section WriterRun.
  Context {A : Type}.
  Variable size : A -> N.
  Variable commit_of : A -> option N.
  Variable cf : wconf.
  Notation writer := (writer A).

  Lemma evict_skip limit bytes : forall done (fs : files A), map fst done = map fst fs -> NoDup (map fst fs) ->
    exists j, evict limit done bytes fs = Some (skipn j done, skipn j fs).
  Proof.
    induction done as [|d done IH]; intros fs E HN.
    - destruct fs; [|discriminate]. exists 0%nat. cbn. destruct (_ <=? _); reflexivity.
    - destruct fs as [|s fs]; [discriminate|]. cbn [map] in *. inversion E as [[E1 E2]]. inversion HN as [|? ? N1 N2]; subst.
      cbn [evict]. destruct (_ <=? _); [exists 0%nat; reflexivity|].
      assert (H1 : has_file (fst d) (s :: fs) = true) by (cbn; now rewrite E1, N.eqb_refl).
      assert (H2 : remove_file (fst d) (s :: fs) = fs).
      { unfold remove_file. cbn [filter]. rewrite E1, N.eqb_refl. cbn [negb].
        clear - N1. induction fs as [|t fs IH]; [reflexivity|]. cbn [filter map In] in *.
        destruct (N.eqb_spec (fst t) (fst s)) as [F|F]; [elim N1; auto|]. cbn. f_equal. apply IH. tauto. }
      rewrite H1, H2. destruct (IH fs E2 N2) as (j & EJ). exists (S j). exact EJ.
  Qed.

  (** The files hold, from some point on, the records of [l], numbered from 1. *)
  Record wk (l : list A) (w : writer) : Prop := {
    wk_sorted : StronglySorted N.lt (map fst (w_files w));
    wk_seg : w_seg w < w_nseg w;
    wk_done : map fst (w_done w) = map fst (w_old w);
    wk_next : w_next w = 1 + N.of_nat (length l);
    wk_flat : exists k, flat (w_files w) = skipn k (number 1 l);
    wk_all : c_retention cf = None -> flat (w_files w) = number 1 l
  }.

  Lemma number_snoc n l (a : A) : number n (l ++ [a]) = number n l ++ [(n + N.of_nat (length l), a)].
  Proof.
    revert n. induction l as [|b l IH]; intros n; cbn [number app length]; [now rewrite N.add_0_r|].
    rewrite IH, Nat2N.inj_succ. replace (n + 1 + N.of_nat (length l)) with (n + N.succ (N.of_nat (length l))) by lia. reflexivity.
  Qed.
  Lemma number_length n l : length (number n l : list (frame A)) = length l.
  Proof. revert n. induction l; intros; cbn; auto. Qed.

  Lemma sorted_nodup (l : list N) : StronglySorted N.lt l -> NoDup l.
  Proof. induction 1 as [|x l HS IH HF]; constructor; auto. intros H. rewrite Forall_forall in HF. specialize (HF x H). lia. Qed.

  Lemma enforce_keep l w : wk l w -> exists w', enforce cf w = Some w' /\ wk l w' /\
    w_seg w' = w_seg w /\ w_cur w' = w_cur w /\ w_bytes w' = w_bytes w /\ w_next w' = w_next w /\ w_nseg w' = w_nseg w.
  Proof.
    intros HW. unfold enforce. destruct (c_retention cf) as [limit|] eqn:ER; [|exists w; auto 8].
    destruct HW as [H1 H2 H3 H4 (k & H5) H6].
    assert (HN : NoDup (map fst (w_old w))).
    { unfold w_files in H1. rewrite map_app in H1. apply sorted_nodup in H1. now apply NoDup_remove_1 in H1; rewrite app_nil_r in H1. }
    destruct (evict_skip limit (w_bytes w) (w_done w) (w_old w) H3 HN) as (j & EJ). rewrite EJ. eexists. split; [reflexivity|].
    split; [|cbn; auto].
    constructor; unfold w_files in *; cbn [w_old w_seg w_cur w_done w_next w_nseg]; auto.
    - rewrite <- (firstn_skipn j (w_old w)), <- app_assoc, map_app in H1. apply SSort_app in H1. tauto.
    - rewrite <- !skipn_map, H3. reflexivity.
    - destruct (flat_skipn (w_old w) j (flat [(w_seg w, w_cur w)])) as (k' & E'). exists (k + k')%nat. unfold flat in *. rewrite flat_map_app in *.
      rewrite E', H5. apply skip_skip.
    - congruence.
  Qed.

  Lemma rotate_keep l w : wk l w -> w_nseg w + 1 < 2 ^ 64 -> exists w', rotate cf w = Some w' /\ wk l w' /\ w_nseg w' = w_nseg w + 1 /\ w_next w' = w_next w.
  Proof.
    intros HW HN. unfold rotate.
    match goal with |- exists w', enforce cf ?x = _ /\ _ => destruct (enforce_keep l x) as (w' & E & K1 & K2 & K3 & K4 & K5 & K6) end.
    - destruct HW as [H1 H2 H3 H4 (k & H5) H6].
      constructor; unfold w_files in *; cbn [w_old w_seg w_cur w_done w_next w_nseg]; auto.
      + rewrite map_app. cbn [map fst]. apply SSort_app. split; auto. split; [repeat constructor|].
        intros a b Ha [<-|[]]. rewrite map_app in *. cbn [map fst] in *. apply SSort_app in H1 as (_ & _ & H1).
        apply in_app_or in Ha as [Ha|[<-|[]]]; auto. specialize (H1 a (w_seg w) Ha (or_introl eq_refl)). lia.
      + rewrite sat1_small by auto. lia.
      + rewrite !map_app, H3. reflexivity.
      + exists k. unfold flat in *. rewrite flat_map_app. cbn. rewrite app_nil_r. exact H5.
      + intros HB. unfold flat in *. rewrite flat_map_app. cbn. rewrite app_nil_r. auto.
    - exists w'. split; auto. split; auto. cbn in *. rewrite K6. split; auto. now apply sat1_small.
  Qed.

  Lemma skipn_snoc {B} k (l : list B) x : (k <= length l)%nat -> skipn k l ++ [x] = skipn k (l ++ [x]).
  Proof. intros H. rewrite skipn_app. replace (k - length l)%nat with 0%nat by lia. reflexivity. Qed.

  Lemma put_keep l w a : wk l w -> w_next w + 1 < 2 ^ 64 -> wk (l ++ [a]) (put size a w).
  Proof.
    intros [H1 H2 H3 H4 (k & H5) H6] HN. constructor; unfold w_files, put in *; cbn [w_old w_seg w_cur w_done w_next w_nseg]; auto.
    - rewrite map_app in *. exact H1.
    - rewrite sat1_small, H4, app_length by auto. cbn [length]. rewrite Nat2N.inj_add. lia.
    - assert (E : flat (w_old w ++ [(w_seg w, w_cur w ++ [(w_next w, a)])]) = flat (w_old w ++ [(w_seg w, w_cur w)]) ++ [(w_next w, a)]).
      { unfold flat. rewrite !flat_map_app. cbn. rewrite !app_nil_r. apply app_assoc. }
      rewrite E, H5, number_snoc, H4. destruct (Nat.le_gt_cases k (length (number 1 l))) as [L|L].
      + exists k. now apply skipn_snoc.
      + exists (length (number 1 l)). rewrite <- (skipn_snoc (length (number 1 l))) by lia. f_equal. rewrite skipn_all. apply skipn_all2. lia.
    - intros HB. specialize (H6 HB). unfold flat in *. rewrite flat_map_app in *. cbn in *. rewrite app_nil_r in *. rewrite app_assoc, H6, number_snoc, H4. reflexivity.
  Qed.

  Lemma persist_keep l w : wk l w -> wk l (persist cf w).
  Proof. intros [H1 H2 H3 H4 H5 H6]. unfold persist. destruct (c_state cf); constructor; auto. Qed.
  Lemma progress_keep l w a : wk l w -> wk l (progress commit_of a w).
  Proof. intros [H1 H2 H3 H4 H5 H6]. constructor; auto. Qed.
  Lemma persist_next (w : writer) : w_next (persist cf w) = w_next w /\ w_nseg (persist cf w) = w_nseg w.
  Proof. unfold persist. destruct (c_state cf); auto. Qed.

  Lemma enqueue_keep l w a : wk l w -> w_next w + 1 < 2 ^ 64 -> w_nseg w + 1 < 2 ^ 64 ->
    exists w', enqueue size commit_of cf a w = Some (w', (w_next w, w_next w)) /\ wk (l ++ [a]) w' /\
      w_next w' = w_next w + 1 /\ w_nseg w' <= w_nseg w + 1.
  Proof.
    intros HW HN HS. pose proof (put_keep l w a HW HN) as HP. unfold enqueue.
    assert (EN : w_next (put size a w) = w_next w + 1) by (cbn; now apply sat1_small).
    assert (R : exists w1, maybe_rotate cf (put size a w) = Some w1 /\ wk (l ++ [a]) w1 /\ w_next w1 = w_next w + 1 /\ w_nseg w1 <= w_nseg w + 1).
    { unfold maybe_rotate. destruct (_ || _).
      - eexists. split; [reflexivity|]. split; auto. split; auto. cbn. lia.
      - destruct (rotate_keep _ _ HP HS) as (w1 & E & K1 & K2 & K3). exists w1. split; auto. split; auto. split; [congruence|]. rewrite K2. cbn. lia. }
    destruct R as (w1 & E & K1 & K2 & K3). rewrite E. eexists. split; [|split; [apply persist_keep, progress_keep, K1|]].
    - do 3 f_equal. rewrite K2. lia.
    - destruct (persist_next (progress commit_of a w1)) as [-> ->]. cbn. auto.
  Qed.
  Lemma rotate_now_keep l w : wk l w -> w_nseg w + 1 < 2 ^ 64 ->
    exists w', rotate_now cf w = Some w' /\ wk l w' /\ w_next w' = w_next w /\ w_nseg w' <= w_nseg w + 1.
  Proof.
    intros HW HS. unfold rotate_now. destruct (_ =? _); [exists w; repeat split; auto; try apply HW; lia|].
    destruct (rotate_keep l w HW HS) as (w' & E & K1 & K2 & K3). rewrite E. cbn. eexists. split; [reflexivity|].
    split; [now apply persist_keep|]. destruct (persist_next w') as [-> ->]. split; [auto|lia].
  Qed.

  Lemma wexec_keep cmds : forall l w, wk l w -> w_next w + N.of_nat (length cmds) < 2 ^ 64 -> w_nseg w + N.of_nat (length cmds) < 2 ^ 64 ->
    exists w' acks, wexec size commit_of cf cmds w = Some (w', acks) /\ wk (l ++ appended cmds) w' /\
      forall i, nth_error acks i = option_map (fun _ => (w_next w + N.of_nat i, w_next w + N.of_nat i)) (nth_error (appended cmds) i).
  Proof.
    induction cmds as [|c cmds IH]; intros l w HW HN HS; cbn [length] in *; rewrite ?Nat2N.inj_succ in *.
    - exists w, []. cbn. rewrite app_nil_r. split; auto. split; auto. intros [|i]; reflexivity.
    - destruct c as [a|]; cbn [wexec].
      + destruct (enqueue_keep l w a HW) as (w1 & E1 & K1 & K2 & K3); [lia|lia|].
        destruct (IH _ _ K1) as (w2 & acks & E2 & K4 & K5); [lia|lia|]. rewrite E1, E2. eexists _, _. split; [reflexivity|].
        cbn [appended flat_map app]. fold (appended cmds). rewrite <- app_assoc in K4. split; [exact K4|].
        intros [|i]; cbn [nth_error option_map].
        * rewrite N.add_0_r. reflexivity.
        * rewrite K5, K2. destruct (nth_error (appended cmds) i); cbn [option_map]; auto. do 2 f_equal; lia.
      + destruct (rotate_now_keep l w HW) as (w1 & E1 & K1 & K2 & K3); [lia|]. rewrite E1.
        destruct (IH _ _ K1) as (w2 & acks & E2 & K4 & K5); [lia|lia|]. rewrite E2. exists w2, acks. split; auto. split; auto.
        cbn [appended flat_map app]. fold (appended cmds). rewrite K2 in K5. exact K5.
  Qed.

  Lemma number_nth l : forall n i, nth_error (number n l : list (frame A)) i = option_map (fun a => (n + N.of_nat i, a)) (nth_error l i).
  Proof.
    induction l as [|a l IH]; intros n [|i]; cbn [number nth_error option_map]; auto.
    - now rewrite N.add_0_r.
    - rewrite IH, Nat2N.inj_succ. destruct (nth_error l i); cbn; auto. do 2 f_equal. lia.
  Qed.

  Lemma open_new (w : writer) : open size cf [] wstate0 = Some w -> wk [] w /\ w_next w = 1 /\ w_nseg w = 1.
  Proof.
    unfold open, enforce. cbn. assert (K : forall st, wk [] (mkWr [] 0 [] 0 [] 1 1 st st)).
    { intros st. constructor; cbn; auto; [repeat constructor|lia|exists 0%nat; reflexivity]. }
    destruct (c_retention cf), (c_state cf); cbn; try destruct (0 <=? _); intros H; inversion H; subst; auto.
  Qed.

  Lemma writer_frames cmds w0 : open size cf [] wstate0 = Some w0 -> N.of_nat (length cmds) + 1 < 2 ^ 64 ->
    exists w acks frames k, wexec size commit_of cf cmds w0 = Some (w, acks) /\
      numbered_from_1 frames (appended cmds) /\ acks_from_1 acks (appended cmds) /\
      flat (w_files w) = skipn k frames /\ (c_retention cf = None -> k = 0%nat) /\
      StronglySorted N.lt (map fst (w_files w)).
  Proof.
    intros E0 HL. destruct (open_new w0 E0) as (K0 & N0 & S0).
    destruct (wexec_keep cmds [] w0 K0) as (w & acks & E & K & HA); [lia|lia|].
    cbn [app] in K. destruct (wk_flat _ _ K) as (k & EF).
    exists w, acks, (number 1 (appended cmds)). rewrite N0 in HA.
    destruct (c_retention cf) eqn:ER.
    - exists k. split; auto. split; [intros i; apply number_nth|]. split; [exact HA|]. split; auto. split; [discriminate|apply (wk_sorted _ _ K)].
    - exists 0%nat. split; auto. split; [intros i; apply number_nth|]. split; [exact HA|]. split; [apply (wk_all _ _ K ER)|]. split; auto. apply (wk_sorted _ _ K).
  Qed.
End WriterRun.
