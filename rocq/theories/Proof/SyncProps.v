(** The sync policies: proofs of the properties. *)
From Coq Require Import List Arith NArith Bool Lia.
From Verif Require Import Model.WalSync Spec.SyncSpec Proof.SyncFacts Proof.SyncInv.
Import ListNotations.

Lemma run_inv cf (I : ssys -> Prop) (ok : sevent -> Prop) : (forall z e, I z -> event_fits cf z e -> ok e -> I (sstep cf z e)) ->
  forall es z, I z -> events_fit cf z es -> Forall ok es -> I (srun cf es z).
Proof. intros H es. induction es as [|e r IH]; intros z HI HF HO; cbn; auto. destruct HF. inversion HO; subst. apply IH; auto. Qed.

Definition in_files (pick : list sfile -> list (N * N)) (z : ssys) : Prop :=
  forall i n a, In (i, n, a) (z_acked z) -> In (i, n) (pick (y_files (z_w z))).

Lemma safe_power cf z : files_ok cf (z_w z) -> synced (y_policy cf) = true -> in_files durable z -> forall i n a, In (i, n, a) (z_acked z) -> forall power, safe power z i.
Proof.
  intros H S HI i n a Ha power kept HK. apply (in_map fst (read_back _ _) (i, n)). apply (found_durable cf); auto.
  - destruct power; auto. apply survives_weaker; auto. now apply (all_fine cf).
  - eapply HI; eauto.
Qed.
Lemma safe_process cf z : files_ok cf (z_w z) -> in_files held z -> forall i n a, In (i, n, a) (z_acked z) -> safe false z i.
Proof. intros H HI i n a Ha kept HK. apply (in_map fst (read_back _ _) (i, n)). apply (found_held cf); auto. eapply HI; eauto. Qed.

(** *** Always *)
Lemma enqueue_always cf x t w : prompt cf -> y_policy cf = Always -> os_full (y_cur w) -> full (y_cur (fst (handle_enqueue cf x t w))).
Proof.
  intros HC HP H. pose proof (enqueue_clear cf x t w HC H) as A. rewrite enqueue_unfold in *. cbv zeta in *. cbn [fst] in *. unfold maybe_sync in *. rewrite HP in *. cbn [fst sync_now y_cur] in *.
  unfold os_full, full in *. cbn in *. auto.
Qed.
Lemma batch_always cf cmds : forall id dir w, prompt cf -> y_policy cf = Always -> os_full (y_cur w) -> cmds <> [] -> full (y_cur (fst (handle_batch cf id cmds dir w))).
Proof.
  induction cmds as [|[n t] r IH]; intros id dir w HC HP H HN; [congruence|]. cbn [handle_batch].
  pose proof (enqueue_always cf (id, n) t w HC HP H) as A. pose proof (enqueue_clear cf (id, n) t w HC H) as B. destruct (handle_enqueue cf (id, n) t w) as [w1 d1]. cbn [fst] in *.
  destruct r; [exact A|]. apply IH; auto. discriminate.
Qed.
(** Events other than batches keep what is durable. *)
Lemma step_durable cf z e : files_ok cf (z_w z) -> event_fits cf z e -> torn e = false -> incl (durable (y_files (z_w z))) (durable (y_files (z_w (sstep cf z e)))).
Proof.
  intros H HE HT. destruct e as [cmds t|t|t|t|power cmds more kept tl t]; cbn [sstep z_w].
  - destruct (batch_ok cf cmds (z_next z) DNone (z_w z) H) as (_ & (A & _)). destruct (handle_batch cf (z_next z) cmds DNone (z_w z)). cbn [z_w fst] in *. now rewrite directive_files.
  - now apply request_ok.
  - now apply tick_ok.
  - destruct (shutdown_ok cf t _ H) as (A & B & _). destruct (reopen_ok cf _ t A) as (_ & C & _). rewrite C. apply B.
  - destruct (stopped_ok cf z cmds more H) as (A & B). destruct HE as (_ & _ & HE). destruct (crash_repair_ok cf power _ kept tl t A HE) as (_ & _ & C & _).
    eapply incl_tran; [apply B|apply C]. destruct tl; [reflexivity|discriminate].
Qed.
Lemma step_acked cf z e i n a : In (i, n, a) (z_acked (sstep cf z e)) -> In (i, n, a) (z_acked z) \/ exists cmds t, e = EBatch cmds t /\ In (i, n, a) (numbered (z_next z) cmds t).
Proof.
  destruct e as [cmds t|t|t|t|power cmds more kept tl t]; cbn [sstep]; auto. destruct (handle_batch cf (z_next z) cmds DNone (z_w z)). cbn. intros H. apply in_app_or in H as [|]; eauto.
Qed.
Lemma numbered_nonempty i n a id cmds t : In (i, n, a) (numbered id cmds t) -> cmds <> []. Proof. intros H ->. destruct H. Qed.

Lemma step_held cf z e : files_ok cf (z_w z) -> event_fits cf z e -> power_loss e = false -> repair_stopped e = false ->
  incl (held (y_files (z_w z))) (held (y_files (z_w (sstep cf z e)))).
Proof.
  intros H HE HP HR. destruct e as [cmds t|t|t|t|power cmds more kept tl t]; cbn [sstep z_w].
  - destruct (batch_ok cf cmds (z_next z) DNone (z_w z) H) as (_ & (_ & B & _)). destruct (handle_batch cf (z_next z) cmds DNone (z_w z)). cbn [z_w fst] in *. now rewrite directive_files.
  - destruct (request_ok cf t _ H) as (_ & (_ & B & _)). auto.
  - destruct (tick_ok cf t _ H) as (_ & (_ & B & _)). auto.
  - destruct (shutdown_ok cf t _ H) as (B & (_ & C & _) & _). destruct (reopen_ok cf _ t B) as (_ & D & _). now rewrite D.
  - destruct power; [discriminate|]. destruct (stopped_ok cf z cmds more H) as (B & (_ & C & _)). destruct HE as (_ & _ & HE).
    destruct (crash_repair_ok cf false _ kept tl t B HE) as (_ & _ & _ & D & _). destruct D as (D & _); [destruct tl as [|[|]]; auto; discriminate|].
    eapply incl_tran; [exact C|auto].
Qed.
Definition always_inv (cf : sconf) (p : bool) (z : ssys) : Prop :=
  files_ok cf (z_w z) /\ os_full (y_cur (z_w z)) /\ in_files held z /\ (p = false -> in_files durable z).
Lemma always_step cf p z e r : prompt cf -> y_policy cf = Always -> always_inv cf p z -> event_fits cf z e -> repairs_last p (e :: r) ->
  always_inv cf (pending_after p e) (sstep cf z e).
Proof.
  intros HC HP (H & HF & HH & HD) HE (HR & _). pose proof (step_ok cf z e H HE) as A. split; auto. pose proof (step_clear cf z e HC H HE HF) as A2. split; auto.
  assert (S : synced (y_policy cf) = true) by now rewrite HP.
  assert (DH : in_files durable (sstep cf z e) -> in_files held (sstep cf z e)) by (intros X i n a Ha; apply durable_held; [now apply (all_fine cf)|eauto]).
  destruct e as [cmds t|t|t|t|power cmds more kept tl t].
  - destruct cmds as [|c cmds].
    + cbn [sstep handle_batch pending_after numbered] in *. split; [intros i n a Ha|intros P i n a Ha]; cbn [z_acked z_w] in *; rewrite app_nil_r in Ha; rewrite directive_files; [eauto|]. apply (HD P i n a Ha).
    + assert (D : in_files durable (sstep cf z (EBatch (c :: cmds) t))); [|split; auto].
      assert (NE : c :: cmds <> []) by discriminate.
      pose proof (batch_always cf (c :: cmds) (z_next z) DNone (z_w z) HC HP HF NE) as B. destruct (batch_ok cf (c :: cmds) (z_next z) DNone (z_w z) H) as (D & _ & _ & G).
      assert (W : incl (held (y_files (z_w z))) (written (y_files (z_w z)))).
      { unfold held, written. clear. intros x Hx. apply in_flat_map in Hx as (f & Hf & Hx). apply in_flat_map. exists f. split; auto. now apply firstn_incl in Hx. }
      intros i n a Ha. apply step_acked in Ha as [Ha|(cmds' & t' & E & Ha)].
      * specialize (G _ (W _ (HH i n a Ha))). cbn [sstep]. destruct (handle_batch cf (z_next z) (c :: cmds) DNone (z_w z)) as [w' dir]. cbn [z_w fst] in *. rewrite directive_files. apply (all_durable cf); auto.
      * injection E as <- <-. pose proof (batch_writes cf (c :: cmds) t (z_next z) DNone (z_w z) H i n a Ha) as C.
        cbn [sstep]. destruct (handle_batch cf (z_next z) (c :: cmds) DNone (z_w z)) as [w' dir]. cbn [z_w fst] in *. rewrite directive_files. apply (all_durable cf); auto.
  - split; [|intros P]; intros i n a Ha.
    + apply (step_held cf z (ERotate t)); auto. apply (HH i n a Ha).
    + apply (step_durable cf z (ERotate t)); auto. apply (HD P i n a Ha).
  - split; [|intros P]; intros i n a Ha.
    + apply (step_held cf z (ETick t)); auto. apply (HH i n a Ha).
    + apply (step_durable cf z (ETick t)); auto. apply (HD P i n a Ha).
  - assert (D : in_files durable (sstep cf z (EShutdown t))); [|split; auto].
    intros i n a Ha. cbn [sstep z_w z_acked] in *. destruct (shutdown_ok cf t _ H) as (C & (_ & D & _) & _ & F & _). destruct (reopen_ok cf _ t C) as (_ & G & _). rewrite G.
    apply (all_durable cf); auto. specialize (D _ (HH i n a Ha)). clear - D.
    unfold held, written in *. apply in_flat_map in D as (f & Hf & Hx). apply in_flat_map. exists f. split; auto. now apply firstn_incl in Hx.
  - destruct HR as (HR & HPW). destruct (stopped_ok cf z cmds more H) as (B & (G1 & G2 & _)).
    assert (DS : p = false \/ cmds <> [] -> forall i n a, In (i, n, a) (z_acked z) -> In (i, n) (durable (y_files (stopped cf z cmds more)))).
    { intros [P|NE] i n a Ha; [apply G1, (HD P i n a Ha)|].
      pose proof (batch_always cf cmds (z_next z) DNone (z_w z) HC HP HF NE) as X. destruct (batch_ok cf cmds (z_next z) DNone (z_w z) H) as (D & _ & Y & _).
      assert (Q : In (i, n) (durable (y_files (fst (handle_batch cf (z_next z) cmds DNone (z_w z)))))).
      { apply (all_durable cf); auto. specialize (Y _ (HH i n a Ha)). clear - Y. unfold held, written in *. apply in_flat_map in Y as (f & Hf & Hx). apply in_flat_map. exists f. split; auto. now apply firstn_incl in Hx. }
      unfold stopped. destruct more as [m|]; auto. destruct (put_ok cf ((z_next z + N.of_nat (length cmds))%N, m) _ D) as (_ & Z & _). auto. }
    pose proof HE as (_ & _ & HE'). destruct (crash_repair_ok cf power _ kept tl t B HE') as (_ & _ & C1 & C2 & _).
    destruct C2 as (C2 & C3); [destruct tl as [|[|]]; auto; discriminate|].
    split.
    + intros i n a Ha. cbn [sstep z_w z_acked] in *. destruct power; [apply C3, (DS (HPW eq_refl) i n a Ha)|apply C2; auto; apply G2, (HH i n a Ha)].
    + intros P i n a Ha. cbn [sstep z_w z_acked pending_after] in *. destruct tl; [|discriminate]. apply C1; auto. apply (DS) with a; auto.
      destruct power; [apply HPW; reflexivity|]. destruct cmds; [auto|right; discriminate].
Qed.
Lemma always_run cf : prompt cf -> y_policy cf = Always -> forall es p z, always_inv cf p z -> events_fit cf z es -> repairs_last p es -> always_inv cf (pending p es) (srun cf es z).
Proof.
  intros HC HP. induction es as [|e r IH]; intros p z HI HF HR; [exact HI|]. cbn [pending srun]. destruct HF as (HE & HF). apply IH; auto.
  - apply always_step with r; auto.
  - apply HR.
Qed.
Theorem always_safe cf t0 es : prompt cf -> y_policy cf = Always -> events_fit cf (sstart cf t0) es -> repairs_last false es ->
  forall i n a, In (i, n, a) (z_acked (srun cf es (sstart cf t0))) ->
  safe false (srun cf es (sstart cf t0)) i /\ (pending false es = false -> safe true (srun cf es (sstart cf t0)) i).
Proof.
  intros HC HP HF HR i n a Ha. destruct (always_run cf HC HP es false (sstart cf t0)) as (A & _ & B & C); auto.
  - split; [apply start_ok|]. split; [reflexivity|]. split; [intros ? ? ? []|intros _ ? ? ? []].
  - split; [now apply (safe_process cf) with n a|]. intros P. apply (safe_power cf _ A) with n a; auto. now rewrite HP.
Qed.

(** *** Process crashes *)
Lemma process_step cf z e : prompt cf -> files_ok cf (z_w z) /\ os_full (y_cur (z_w z)) /\ in_files held z -> event_fits cf z e -> power_loss e = false -> repair_stopped e = false ->
  files_ok cf (z_w (sstep cf z e)) /\ os_full (y_cur (z_w (sstep cf z e))) /\ in_files held (sstep cf z e).
Proof.
  intros HC (H & HF & HI) HE HP HR. pose proof (step_ok cf z e H HE) as A. split; auto. pose proof (step_clear cf z e HC H HE HF) as A2. split; auto.
  intros i n a Ha. apply step_acked in Ha as [Ha|(cmds & t & -> & Ha)].
  - apply (step_held cf z e); auto. apply (HI i n a Ha).
  - pose proof (batch_writes cf cmds t (z_next z) DNone (z_w z) H i n a Ha) as C. apply (all_held cf); auto.
    cbn [sstep]. destruct (handle_batch cf (z_next z) cmds DNone (z_w z)) as [w' dir]. cbn [z_w fst] in *. now rewrite directive_files.
Qed.
Theorem process_safe cf t0 es : prompt cf -> events_fit cf (sstart cf t0) es -> Forall (fun e => power_loss e = false /\ repair_stopped e = false) es ->
  forall i n a, In (i, n, a) (z_acked (srun cf es (sstart cf t0))) -> safe false (srun cf es (sstart cf t0)) i.
Proof.
  intros HC HF HP. assert (A : (fun z => files_ok cf (z_w z) /\ os_full (y_cur (z_w z)) /\ in_files held z) (srun cf es (sstart cf t0))).
  { apply (run_inv cf (fun z => files_ok cf (z_w z) /\ os_full (y_cur (z_w z)) /\ in_files held z) (fun e => power_loss e = false /\ repair_stopped e = false)); auto.
    - intros z e HI HE (HN & HR). now apply process_step.
    - split; [apply start_ok|]. split; [reflexivity|]. intros i n a []. }
  destruct A as (A & _ & B). intros i n a Ha. now apply (safe_process cf) with n a.
Qed.

(** *** An orderly shutdown *)
Lemma step_written cf z e : files_ok cf (z_w z) -> crash e = false -> in_files written z -> in_files written (sstep cf z e).
Proof.
  intros H HN HI i n a Ha. apply step_acked in Ha as [Ha|(cmds & t & -> & Ha)].
  - specialize (HI i n a Ha). destruct e as [cmds t|t|t|t|power cmds more kept tl t]; cbn [sstep z_w]; [| | | |discriminate].
    + destruct (batch_ok cf cmds (z_next z) DNone (z_w z) H) as (_ & (_ & _ & B)). destruct (handle_batch cf (z_next z) cmds DNone (z_w z)). cbn [z_w fst] in *. rewrite directive_files. auto.
    + destruct (request_ok cf t _ H) as (_ & (_ & _ & B)). auto.
    + destruct (tick_ok cf t _ H) as (_ & (_ & _ & B)). auto.
    + destruct (shutdown_ok cf t _ H) as (B & (_ & _ & C) & _). destruct (reopen_ok cf _ t B) as (_ & D & _). rewrite D. auto.
  - pose proof (batch_writes cf cmds t (z_next z) DNone (z_w z) H i n a Ha) as C.
    cbn [sstep]. destruct (handle_batch cf (z_next z) cmds DNone (z_w z)) as [w' dir]. cbn [z_w fst] in *. now rewrite directive_files.
Qed.
Lemma fit_no_crash cf es : forall z, Forall (fun e => crash e = false) es -> Forall (fun e => match e with EBatch cmds _ => Forall (fun c => (0 < fst c)%N) cmds | _ => True end) es -> events_fit cf z es.
Proof. induction es as [|e r IH]; intros z HN HS; cbn; auto. inversion HN; inversion HS; subst. split; auto. destruct e; cbn; auto. discriminate. Qed.
Lemma srun_app cf a b z : srun cf (a ++ b) z = srun cf b (srun cf a z). Proof. revert z. induction a; intros z; cbn; auto. Qed.
Theorem shutdown_safe cf t0 es t : y_policy cf <> Disabled -> events_fit cf (sstart cf t0) es -> Forall (fun e => crash e = false) es ->
  forall i n a, In (i, n, a) (z_acked (srun cf es (sstart cf t0))) -> forall power, safe power (srun cf (es ++ [EShutdown t]) (sstart cf t0)) i.
Proof.
  intros HP HF HN i n a Ha. rewrite srun_app. cbn [srun].
  assert (A : (fun z => files_ok cf (z_w z) /\ in_files written z) (srun cf es (sstart cf t0))).
  { apply (run_inv cf (fun z => files_ok cf (z_w z) /\ in_files written z) (fun e => crash e = false)); auto.
    - intros z e (HI & HW) HE HN'. split; [now apply step_ok|now apply step_written].
    - split; [apply start_ok|]. intros ? ? ? []. }
  destruct A as (A & B). set (z := srun cf es (sstart cf t0)) in *.
  assert (S : synced (y_policy cf) = true) by (destruct (y_policy cf); auto).
  apply (safe_power cf (sstep cf z (EShutdown t))) with n a; auto.
  - now apply (step_ok cf z (EShutdown t)).
  - intros i' n' a' Ha'. cbn [sstep z_w z_acked] in *. destruct (shutdown_ok cf t _ A) as (C & D & _ & F & _). destruct (reopen_ok cf _ t C) as (_ & G & _). rewrite G.
    apply (all_durable cf); auto. apply D. eauto.
Qed.
