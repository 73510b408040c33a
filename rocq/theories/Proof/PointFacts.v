(** What a stop of the machine leaves of the log: proofs. *)
From Coq Require Import List Arith NArith Bool Sorted Lia.
From Verif Require Import Model.WalSync Spec.SyncSpec Spec.PointSpec Proof.SyncFacts Proof.SyncInv Proof.SyncProps Proof.SyncWit.
Import ListNotations.

Lemma read_point (lower : sfile -> nat) old cur left : Forall (fun f => lower f = length (f_frames f)) old ->
  Forall2 (fun f k => lower f <= k <= length (f_frames f)) (old ++ [cur]) (map fst left) ->
  initial_part (read_files (old ++ [cur]) left) (written (old ++ [cur])).
Proof.
  revert left. induction old as [|f old IH]; intros left HO HS; cbn [app] in HS.
  - destruct left as [|[k h] left]; inversion HS as [|? ? ? r H1 H2]; subst. destruct left; [|inversion H2].
    exists k. cbn [app read_files written flat_map fst snd]. rewrite app_nil_r. destruct h; now rewrite app_nil_r.
  - destruct left as [|[k h] left]; inversion HS as [|? ? ? r H1 H2]; subst. inversion HO as [|? ? O1 O2]; subst.
    destruct (IH left O2 H2) as (n & E). cbn [fst] in H1. assert (k = length (f_frames f)) by lia. subst k.
    cbn [app read_files written flat_map]. rewrite firstn_all. destruct h.
    + exists (length (f_frames f)). rewrite app_nil_r, firstn_app, Nat.sub_diag, firstn_all. cbn. now rewrite app_nil_r.
    + exists (length (f_frames f) + n). rewrite E. fold (written (old ++ [cur])). rewrite firstn_app_2. reflexivity.
Qed.
Lemma run_ok cf es : forall z, files_ok cf (z_w z) -> events_fit cf z es -> files_ok cf (z_w (srun cf es z)).
Proof.
  induction es as [|e es IH]; intros z H F; [exact H|]. destruct F as [F1 F2]. cbn [srun]. apply IH; auto. now apply step_ok.
Qed.
Theorem point_power cf t0 es : y_policy cf <> Disabled -> events_fit cf (sstart cf t0) es ->
  let z := srun cf es (sstart cf t0) in
  forall power left, survives power (y_files (z_w z)) (map fst left) ->
    initial_part (read_files (y_files (z_w z)) left) (written_now z).
Proof.
  intros HP HF z power left HS.
  assert (K : files_ok cf (z_w z)) by (apply run_ok; [apply start_ok|exact HF]).
  assert (HS' : survives true (y_files (z_w z)) (map fst left)).
  { destruct power; [exact HS|]. apply survives_weaker; [eapply all_fine; eauto|exact HS]. }
  apply (read_point f_disk); [|exact HS'].
  assert (S : synced (y_policy cf) = true) by (destruct (y_policy cf); cbn; congruence).
  eapply Forall_impl; [|apply (fo_full _ _ K S)]. apply full_old.
Qed.
Theorem point_process cf t0 es : events_fit cf (sstart cf t0) es ->
  let z := srun cf es (sstart cf t0) in
  forall left, survives false (y_files (z_w z)) (map fst left) ->
    initial_part (read_files (y_files (z_w z)) left) (written_now z).
Proof.
  intros HF z left HS. assert (K : files_ok cf (z_w z)) by (apply run_ok; [apply start_ok|exact HF]).
  apply (read_point f_os); [|exact HS]. apply (fo_old _ _ K).
Qed.

(** *** The order of the writes *)
Inductive sub {A} : list A -> list A -> Prop :=
| sub_nil : sub [] []
| sub_skip a l m : sub l m -> sub l (a :: m)
| sub_keep a l m : sub l m -> sub (a :: l) (a :: m).
Lemma sub_refl {A} (l : list A) : sub l l.
Proof. induction l; [apply sub_nil|now apply sub_keep]. Qed.
Lemma sub_none {A} (l : list A) : sub [] l.
Proof. induction l; [apply sub_nil|now apply sub_skip]. Qed.
Lemma sub_app {A} (a b c d : list A) : sub a b -> sub c d -> sub (a ++ c) (b ++ d).
Proof. induction 1; intros H2; cbn; [exact H2|apply sub_skip; auto|apply sub_keep; auto]. Qed.
Lemma sub_firstn {A} k (l : list A) : sub (firstn k l) l.
Proof. revert k. induction l as [|a l IH]; intros [|k]; cbn; try apply sub_none; apply sub_keep; auto. Qed.
Lemma sub_trans {A} (a b c : list A) : sub a b -> sub b c -> sub a c.
Proof.
  intros H1 H2. revert a H1. induction H2 as [|x l m _ IH|x l m H IH]; intros a H1; [exact H1|apply sub_skip; auto|].
  inversion H1; subst; [apply sub_skip|apply sub_keep]; auto.
Qed.
Lemma sub_all {A} (P : A -> Prop) l m : sub l m -> Forall P m -> Forall P l.
Proof. induction 1; intros F; auto; inversion F; subst; auto. Qed.
Lemma sub_sorted {A} (R : A -> A -> Prop) l m : sub l m -> StronglySorted R m -> StronglySorted R l.
Proof.
  induction 1 as [|a l m H IH|a l m H IH]; intros S; auto; inversion S; subst; auto. constructor; auto.
  eapply sub_all; eauto.
Qed.
Definition ordered (n : N) (l : list (N * N)) : Prop := in_order l /\ Forall (fun a => (fst a < n)%N) l.
Lemma ordered_sub n l m : sub l m -> ordered n m -> ordered n l.
Proof. intros H [A B]. split; [eapply sub_sorted; eauto|eapply sub_all; eauto]. Qed.
Lemma ordered_more n m l : (n <= m)%N -> ordered n l -> ordered m l.
Proof. intros H [A B]. split; auto. eapply Forall_impl; [|exact B]. cbn. intros; lia. Qed.
Lemma ordered_put n l size : ordered n l -> ordered (n + 1) (l ++ [(n, size)]).
Proof.
  intros [A B]. split.
  - unfold in_order in *. induction A as [|a l A IH F]; cbn; [repeat constructor|]. inversion B; subst.
    constructor; [auto|]. apply Forall_app. split; [exact F|repeat constructor; auto].
  - apply Forall_app. split; [eapply Forall_impl; [|exact B]; cbn; intros; lia|]. repeat constructor. cbn. lia.
Qed.

Definition here (w : swriter) : list (N * N) := written (y_files w).
Lemma here_eq w : here w = written (y_old w) ++ f_frames (y_cur w).
Proof. unfold here, y_files. rewrite written_app. cbn. now rewrite app_nil_r. Qed.
Lemma here_same w w' : y_old w' = y_old w -> f_frames (y_cur w') = f_frames (y_cur w) -> here w' = here w.
Proof. intros A B. now rewrite !here_eq, A, B. Qed.
Lemma here_put cf x w : here (put_frame cf x w) = here w ++ [x].
Proof. rewrite !here_eq. cbn. now rewrite app_assoc. Qed.
Lemma here_flush cf b t w : here (flush_if_needed cf b t w) = here w.
Proof. unfold flush_if_needed. destruct (_ || _); [|reflexivity]. apply here_same; reflexivity. Qed.
Lemma here_sync w : here (sync_now w) = here w.
Proof. apply here_same; reflexivity. Qed.
Lemma here_rotate cf t w : here (rotate_segment cf t w) = here w.
Proof.
  unfold rotate_segment, flush_if_needed. cbn [orb].
  destruct (y_policy cf); rewrite !here_eq; cbn [sync_now y_old y_cur f_frames empty_file]; rewrite !written_app; cbn; rewrite !app_nil_r; reflexivity.
Qed.
Lemma here_maybe cf w : here (fst (maybe_sync cf w)) = here w.
Proof.
  unfold maybe_sync. destruct (y_policy cf); repeat (match goal with |- context [if ?b then _ else _] => destruct b end); cbn [fst];
    try apply here_sync; reflexivity.
Qed.
Lemma here_enqueue cf x t w : here (fst (handle_enqueue cf x t w)) = here w ++ [x].
Proof.
  unfold handle_enqueue.
  set (w2 := match y_max_age cf with Some age => _ | None => _ end).
  assert (E2 : here w2 = here w ++ [x]).
  { unfold w2. rewrite <- (here_put cf). destruct (y_max_age cf); [|reflexivity]. destruct (_ && _); apply here_same; reflexivity. }
  clearbody w2. unfold maybe_rotate_segment. destruct (_ || _ || _).
  - pose proof (here_maybe cf (flush_if_needed cf false t w2)) as M. destruct (maybe_sync cf _). cbn [fst] in *.
    now rewrite M, here_flush.
  - pose proof (here_maybe cf (rotate_segment cf t (flush_if_needed cf false t w2))) as M. destruct (maybe_sync cf _). cbn [fst] in *.
    now rewrite M, here_rotate, here_flush.
Qed.
Lemma batch_order cf cmds : forall id dir w, ordered id (here w) ->
  ordered (id + N.of_nat (length cmds)) (here (fst (handle_batch cf id cmds dir w))).
Proof.
  induction cmds as [|[size t] r IH]; intros id dir w H; cbn [handle_batch length].
  - cbn. now rewrite N.add_0_r.
  - pose proof (here_enqueue cf (id, size) t w) as E. destruct (handle_enqueue cf (id, size) t w) as [w1 d1]. cbn [fst] in E.
    replace (id + N.of_nat (S (length r)))%N with (id + 1 + N.of_nat (length r))%N by lia. apply IH. rewrite E. now apply ordered_put.
Qed.
Lemma here_open cf fs t : fs <> [] -> here (open_log cf fs t) = written fs.
Proof. intros H. unfold here. now rewrite open_files. Qed.
Lemma crash_sub power fs : forall kept, sub (written (crash_files power fs kept)) (written fs).
Proof.
  induction fs as [|f fs IH]; intros [|k kept]; cbn; try apply sub_none.
  apply sub_app; [apply sub_firstn|apply IH].
Qed.
Lemma repair_sub tl fs : sub (written (repair tl fs)) (written fs).
Proof.
  unfold repair. destruct (rev fs) as [|f r] eqn:E.
  - apply sub_none.
  - rewrite <- (rev_involutive fs), E. cbn [rev]. rewrite !written_app. apply sub_app; [apply sub_refl|].
    unfold written. cbn. rewrite !app_nil_r. destruct tl as [|stops]; cbn; [apply sub_refl|apply sub_firstn].
Qed.
Lemma repair_some tl fs : fs <> [] -> repair tl fs <> [].
Proof.
  intros H. unfold repair. destruct (rev fs) as [|f r] eqn:E.
  - apply (f_equal (@rev sfile)) in E. rewrite rev_involutive in E. cbn in E. contradiction.
  - destruct (rev r); discriminate.
Qed.
Lemma files_some w : y_files w <> [].
Proof. unfold y_files. destruct (y_old w); discriminate. Qed.
Lemma here_tick cf t w : here (timer_elapsed cf t w) = here w.
Proof.
  rewrite tick_unfold. transitivity (here (tick2 t (tick1 cf t w))); [apply here_same; reflexivity|].
  assert (E1 : here (tick1 cf t w) = here w).
  { unfold tick1. destruct (y_rot_at w); [|reflexivity]. destruct (_ <=? _)%N; [|reflexivity].
    destruct (0 <? y_bytes w)%N; [|apply here_same; reflexivity].
    rewrite <- (here_rotate cf t w). apply here_same; reflexivity. }
  rewrite <- E1. generalize (tick1 cf t w). intros w1. unfold tick2.
  destruct (y_sync_at w1); [|reflexivity]. destruct (_ <=? _)%N; [|reflexivity]. cbv zeta. destruct (0 <? _)%N; apply here_same; reflexivity.
Qed.
Lemma here_shutdown cf t w : here (shutdown cf t w) = here w.
Proof.
  unfold shutdown. destruct (y_policy cf); rewrite ?here_sync; apply here_flush.
Qed.
Lemma step_order cf z e : event_fits cf z e -> ordered (z_next z) (here (z_w z)) -> ordered (z_next (sstep cf z e)) (here (z_w (sstep cf z e))).
Proof.
  intros F H. destruct e as [cmds t|t|t|t|power cmds more kept tl t]; cbn [sstep].
  - pose proof (batch_order cf cmds (z_next z) DNone (z_w z) H) as B.
    destruct (handle_batch cf (z_next z) cmds DNone (z_w z)) as [w dir]. cbn [fst z_next z_w] in *.
    unfold here in *. now rewrite directive_files.
  - cbn [z_next z_w]. unfold rotation_request. destruct (y_bytes (z_w z) =? 0)%N; [exact H|].
    unfold here. rewrite directive_files. fold (here (rotate_segment cf t (z_w z))). now rewrite here_rotate.
  - cbn [z_next z_w]. now rewrite here_tick.
  - cbn [z_next z_w]. rewrite here_open by apply files_some. fold (here (shutdown cf t (z_w z))). now rewrite here_shutdown.
  - cbn [z_next z_w].
    assert (O : ordered (z_next z + N.of_nat (length cmds) + match more with Some _ => 1 | None => 0 end) (here (stopped cf z cmds more))).
    { pose proof (batch_order cf cmds (z_next z) DNone (z_w z) H) as B. unfold stopped. destruct more as [size|].
      - rewrite here_put. now apply ordered_put.
      - now rewrite N.add_0_r. }
    destruct F as (_ & _ & FS).
    assert (NE : crash_files power (y_files (stopped cf z cmds more)) kept <> []).
    { pose proof (files_some (stopped cf z cmds more)) as Y. destruct FS; [contradiction|]. discriminate. }
    rewrite here_open by (apply repair_some; exact NE).
    eapply ordered_sub; [|exact O]. eapply sub_trans; [apply repair_sub|apply crash_sub].
Qed.
Theorem run_order cf t0 es : events_fit cf (sstart cf t0) es -> in_order (written_now (srun cf es (sstart cf t0))).
Proof.
  assert (G : forall es z, events_fit cf z es -> ordered (z_next z) (here (z_w z)) -> in_order (written_now (srun cf es z))).
  { clear. induction es as [|e es IH]; intros z F H; [apply H|]. destruct F as [F1 F2]. cbn [srun]. apply IH; auto. now apply step_order. }
  intros F. apply G; auto. split; constructor.
Qed.

(** *** Without syncs *)
Definition ev_hole : list sevent := [EBatch [(60, 1); (70, 2)] 3; EBatch [(20, 11)] 12]%N.
Theorem hole_refuted : exists cf es left,
  y_policy cf = Disabled /\ prompt cf /\ events_fit cf (sstart cf 0) es /\ Forall (fun e => crash e = false) es /\
  survives true (y_files (z_w (srun cf es (sstart cf 0)))) (map fst left) /\
  ~ initial_part (read_files (y_files (z_w (srun cf es (sstart cf 0)))) left) (written_now (srun cf es (sstart cf 0))).
Proof.
  exists cf_off, ev_hole, [(1, false); (1, false)]. split; [reflexivity|]. split; [left; reflexivity|]. split; [vm_compute; repeat constructor|].
  split; [repeat constructor|]. split; [vm_compute; repeat constructor|].
  intros [n E]. vm_compute in E. destruct n as [|[|[|[|n]]]]; vm_compute in E; try discriminate.
Qed.
Lemma point_fits : y_policy cf_always <> Disabled /\ events_fit cf_always (sstart cf_always 0) ev_always /\
  survives true (y_files (z_w (srun cf_always ev_always (sstart cf_always 0)))) [3; 3; 1].
Proof. split; [discriminate|]. split; [apply always_fits|]. vm_compute. repeat constructor. Qed.
