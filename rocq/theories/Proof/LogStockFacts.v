(** Looking at the log while it is written: proofs. *)
From Coq Require Import List NArith PeanoNat Bool Lia.
From Verif Require Import Model.Columns Model.Frame Model.WalScan Spec.WalSpec Model.LogStock Spec.LogStockSpec
     Proof.FrameFacts Proof.WalDemo.
Import ListNotations.

Lemma log_all l : Forall frame_ok l -> segment_frames (log_bytes l) = (map read_back l, AtEnd).
Proof.
  intros H. rewrite <- (app_nil_r (log_bytes l)), frames_log by exact H.
  change (segment_frames []) with (@nil (header * bytes), AtEnd). cbn [fst snd]. now rewrite app_nil_r.
Qed.
Lemma found_all l : as_found l = map read_back l.
Proof. reflexivity. Qed.

(** A segment that holds whole frames is left alone. *)
Lemma left_alone l : Forall sound_frame l -> rewrite_with (log_bytes l) = None.
Proof.
  intros H. unfold rewrite_with.
  assert (H1 : Forall frame_ok l) by (eapply Forall_impl; [|exact H]; intros f [A _]; exact A).
  assert (H2 : Forall tail_ok l) by (eapply Forall_impl; [|exact H]; intros f [_ A]; exact A).
  rewrite (log_all l H1), (tail_all l 0 None H2). cbn [snd Nat.add].
  destruct (Nat.ltb_spec (length (log_bytes l)) (length (log_bytes l))); [lia|reflexivity].
Qed.

(** The state while nobody disturbs the writer. *)
Definition quiet (s : lstate) : Prop :=
  Forall (eq TIdle) (k_takers s) /\ Forall sound_frame (k_done s) /\
  match k_cur s with
  | None => k_file s = log_bytes (k_done s)
  | Some f => sound_frame f /\ exists m, (m < length (wbytes f))%nat /\
      k_file s = log_bytes (k_done s) ++ firstn m (wbytes f) /\ k_out s = skipn m (wbytes f)
  end.
Lemma quiet_start n : quiet (lstart n).
Proof. split; [|split; [constructor|reflexivity]]. cbn. induction n; constructor; auto. Qed.
Lemma taker_idle s i t : Forall (eq TIdle) (k_takers s) -> nth_error (k_takers s) i = Some t -> t = TIdle.
Proof. intros H E. apply nth_error_In in E. rewrite Forall_forall in H. symmetry. auto. Qed.
Lemma firstn_more {A} m n (l : list A) : firstn (m + n) l = firstn m l ++ firstn n (skipn m l).
Proof. revert l. induction m; intros [|a l]; cbn; try reflexivity; [now rewrite firstn_nil|now rewrite IHm]. Qed.
Lemma skipn_more {A} m n (l : list A) : skipn n (skipn m l) = skipn (m + n) l.
Proof. revert l. induction m; intros [|a l]; cbn; try reflexivity; [apply skipn_nil|apply IHm]. Qed.
Lemma wbytes_pos f : (0 < length (wbytes f))%nat.
Proof. rewrite wbytes_length. lia. Qed.

Lemma log_one g : log_bytes [g] = wbytes g.
Proof. unfold log_bytes. cbn [map concat]. apply app_nil_r. Qed.

Lemma quiet_step s e : quiet s ->
  (match e with LFrame f => sound_frame f | _ => True end) ->
  (match e with LRead _ => match k_cur s with Some f => k_out s = wbytes f | None => True end | _ => True end) ->
  quiet (lstep s e).
Proof.
  intros (HT & HD & HC) HS HU. destruct e as [f|n|i|i|i n]; cbn [lstep].
  - destruct (k_cur s) as [g|] eqn:C; [split; [exact HT|split; [exact HD|now rewrite C]]|].
    split; [exact HT|]. split; [exact HD|]. cbn [k_file k_cur k_out k_done k_takers]. split; [exact HS|]. exists 0%nat. split; [apply wbytes_pos|].
    split; [now rewrite app_nil_r|reflexivity].
  - destruct (k_cur s) as [g|] eqn:C; [|split; [exact HT|split; [exact HD|now rewrite C]]].
    destruct HC as (HG & m & HM & HF & HO). rewrite HF, HO, skipn_more, <- app_assoc, <- firstn_more.
    destruct (skipn (m + n) (wbytes g)) as [|b r] eqn:E.
    + split; [exact HT|]. cbn [k_file k_cur k_out k_done k_takers]. split; [apply Forall_app; split; [exact HD|repeat constructor; apply HG]|].
      rewrite log_app, log_one. f_equal.
      pose proof (firstn_skipn (m + n) (wbytes g)) as P. rewrite E, app_nil_r in P. exact P.
    + split; [exact HT|]. cbn [k_file k_cur k_out k_done k_takers]. split; [exact HD|]. split; [exact HG|]. exists (m + n)%nat. split; [|split; [reflexivity|now rewrite E]].
      assert (length (skipn (m + n) (wbytes g)) = S (length r)) by now rewrite E. rewrite skipn_length in H. lia.
  - destruct (nth_error (k_takers s) i) as [t|] eqn:N; [|split; auto].
    rewrite (taker_idle s i t HT N).
    assert (F : rewrite_with (k_file s) = None).
    { destruct (k_cur s) as [g|].
      - destruct HC as (HG & m & HM & HF & HO). rewrite HU in HO.
        assert (m = 0%nat).
        { assert (L : length (wbytes g) = length (skipn m (wbytes g))) by now rewrite <- HO. rewrite skipn_length in L. lia. }
        subst m. cbn [firstn] in HF. rewrite app_nil_r in HF. rewrite HF. now apply left_alone.
      - rewrite HC. now apply left_alone. }
    rewrite F. split; auto.
  - destruct (nth_error (k_takers s) i) as [t|] eqn:N; [|split; auto].
    rewrite (taker_idle s i t HT N). split; auto.
  - destruct (nth_error (k_takers s) i) as [t|] eqn:N; [|split; auto].
    rewrite (taker_idle s i t HT N). split; auto.
Qed.
Lemma quiet_run es : forall s, quiet s -> sound_frames es -> undisturbed s es -> quiet (lrun es s).
Proof.
  induction es as [|e es IH]; intros s HQ HS HU; [exact HQ|].
  inversion HS as [|? ? S1 S2]; subst. destruct HU as [U1 U2]. cbn [lrun fold_left]. apply IH; [|exact S2|exact U2].
  apply quiet_step; auto.
Qed.
Lemma quiet_found s : quiet s ->
  (k_cur s = None -> found s = (as_found (k_done s), AtEnd)) /\
  (exists e, found s = (as_found (k_done s), e) /\ (e = AtEnd \/ e = WalScan.Torn)).
Proof.
  intros (_ & HD & HC).
  assert (H1 : Forall frame_ok (k_done s)) by (eapply Forall_impl; [|exact HD]; intros f [A _]; exact A).
  unfold found. split.
  - intros C. rewrite C in HC. rewrite HC. now apply log_all.
  - destruct (k_cur s) as [g|].
    + destruct HC as (HG & m & HM & HF & _). rewrite HF, frames_log by exact H1. destruct m as [|m].
      * exists AtEnd. cbn [firstn]. change (segment_frames []) with (@nil (header * bytes), AtEnd). cbn [fst snd].
        rewrite app_nil_r. auto.
      * exists WalScan.Torn. rewrite frames_torn; [|apply HG|lia]. cbn [fst snd]. rewrite app_nil_r. auto.
    + exists AtEnd. rewrite HC. split; [now apply log_all|auto].
Qed.
Theorem c75_quiet n es : sound_frames es -> undisturbed (lstart n) es ->
  let s := lrun es (lstart n) in
  (exists e, found s = (as_found (k_done s), e) /\ (e = AtEnd \/ e = WalScan.Torn)) /\
  (k_cur s = None -> found s = (as_found (k_done s), AtEnd)) /\ Forall (eq TIdle) (k_takers s).
Proof.
  intros HS HU s. pose proof (quiet_run es (lstart n) (quiet_start n) HS HU) as Q.
  destruct (quiet_found _ Q) as [A B]. split; [exact B|split; [exact A|apply Q]].
Qed.

(** *** What happens otherwise *)
Definition fr1 : wframe := demo_frame 1%N (CmdRows 5 (demo_batch 12) (ts_column 8 1)).
Definition fr2 : wframe := demo_frame 2%N (CmdRows 6 (demo_batch 13) (ts_column 9 1)).
Definition lost_run : list levent :=
  [LFrame fr1; LBytes 1000; LFrame fr2; LBytes 10; LRead 0; LBytes 1000; LEmpty 0; LPut 0 1000].
Definition broken_run : list levent :=
  [LFrame fr1; LBytes 1000; LFrame fr2; LBytes 10; LRead 0; LEmpty 0; LPut 0 1000; LBytes 1000].
Definition quiet_run_demo : list levent :=
  [LFrame fr1; LRead 0; LBytes 10; LBytes 1000; LRead 1; LFrame fr2; LRead 0; LBytes 7].
Lemma fr_sound : sound_frame fr1 /\ sound_frame fr2.
Proof.
  split; (split; [split; [vm_compute; discriminate|split; [reflexivity|split; [reflexivity|vm_compute; repeat constructor]]]|]); vm_compute;
    repeat constructor.
Qed.
Lemma lost_sound : sound_frames lost_run.
Proof. destruct fr_sound. repeat constructor; auto; try apply H; try apply H0. Qed.
Lemma broken_sound : sound_frames broken_run.
Proof. destruct fr_sound. repeat constructor; auto; try apply H; try apply H0. Qed.
Lemma lost_result : at_rest (lrun lost_run (lstart 1)) /\ k_done (lrun lost_run (lstart 1)) = [fr1; fr2] /\
  found (lrun lost_run (lstart 1)) = (as_found [fr1], AtEnd).
Proof. split; [|split]; vm_compute; repeat constructor. Qed.
Lemma broken_result : at_rest (lrun broken_run (lstart 1)) /\ k_done (lrun broken_run (lstart 1)) = [fr1; fr2] /\
  found (lrun broken_run (lstart 1)) = (as_found [fr1], Broken BadMagic).
Proof. split; [|split]; vm_compute; repeat constructor. Qed.
Lemma quiet_demo : sound_frames quiet_run_demo /\ undisturbed (lstart 2) quiet_run_demo /\
  k_done (lrun quiet_run_demo (lstart 2)) = [fr1] /\ snd (found (lrun quiet_run_demo (lstart 2))) = WalScan.Torn.
Proof.
  split; [destruct fr_sound; repeat constructor; auto; try apply H; try apply H0|].
  split; [vm_compute; tauto|split; reflexivity].
Qed.
Theorem c75_lost : exists es, sound_frames es /\ at_rest (lrun es (lstart 1)) /\
  exists f g, k_done (lrun es (lstart 1)) = [f; g] /\ found (lrun es (lstart 1)) = (as_found [f], AtEnd).
Proof.
  destruct lost_result as (A & B & C). exists lost_run. split; [exact lost_sound|]. split; [exact A|].
  exists fr1, fr2. split; [exact B|exact C].
Qed.
Theorem c75_broken : exists es, sound_frames es /\ at_rest (lrun es (lstart 1)) /\
  exists f g, k_done (lrun es (lstart 1)) = [f; g] /\ found (lrun es (lstart 1)) = (as_found [f], Broken BadMagic).
Proof.
  destruct broken_result as (A & B & C). exists broken_run. split; [exact broken_sound|]. split; [exact A|].
  exists fr1, fr2. split; [exact B|exact C].
Qed.
