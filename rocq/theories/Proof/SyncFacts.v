(** Facts about flushing and syncing the log. *)
From Coq Require Import List Arith NArith Bool Lia.
From Verif Require Import Model.WalSync Spec.SyncSpec.
Import ListNotations.

Definition durable (fs : list sfile) : list (N * N) := flat_map (fun f => firstn (f_disk f) (f_frames f)) fs.
Definition held (fs : list sfile) : list (N * N) := flat_map (fun f => firstn (f_os f) (f_frames f)) fs.
Definition written (fs : list sfile) : list (N * N) := flat_map f_frames fs.

Definition fine (f : sfile) : Prop := f_disk f <= f_os f <= length (f_frames f).
Definition os_full (f : sfile) : Prop := f_os f = length (f_frames f).
Definition full (f : sfile) : Prop := f_os f = length (f_frames f) /\ f_disk f = length (f_frames f).

Lemma durable_app a b : durable (a ++ b) = durable a ++ durable b. Proof. apply flat_map_app. Qed.
Lemma held_app a b : held (a ++ b) = held a ++ held b. Proof. apply flat_map_app. Qed.
Lemma written_app a b : written (a ++ b) = written a ++ written b. Proof. apply flat_map_app. Qed.
Lemma durable_one f : durable [f] = firstn (f_disk f) (f_frames f). Proof. apply app_nil_r. Qed.
Lemma held_one f : held [f] = firstn (f_os f) (f_frames f). Proof. apply app_nil_r. Qed.
Lemma written_one f : written [f] = f_frames f. Proof. apply app_nil_r. Qed.

Lemma firstn_le {A} (l : list A) a b : a <= b -> incl (firstn a l) (firstn b l).
Proof.
  revert a b. induction l as [|x l IH]; intros [|a] [|b] H y; cbn; try lia; try tauto. intros [E|Hy]; auto. right. apply (IH a b); auto. lia.
Qed.
Lemma firstn_incl {A} n (l : list A) : incl (firstn n l) l.
Proof. intros x H. rewrite <- (firstn_skipn n l). apply in_or_app. auto. Qed.
Lemma firstn_grow {A} n (l : list A) x : n <= length l -> firstn n (l ++ [x]) = firstn n l.
Proof. intros H. rewrite firstn_app. replace (n - length l) with 0 by lia. cbn. apply app_nil_r. Qed.

(** [w'] keeps what [w] has, at every level. *)
Definition grows (fs fs' : list sfile) : Prop :=
  incl (durable fs) (durable fs') /\ incl (held fs) (held fs') /\ incl (written fs) (written fs').
Lemma grows_refl fs : grows fs fs. Proof. repeat split; apply incl_refl. Qed.
Lemma grows_trans a b c : grows a b -> grows b c -> grows a c.
Proof. intros (A & B & C) (D & E & F). repeat split; eapply incl_tran; eauto. Qed.
Lemma grows_app a b c : grows b c -> grows (a ++ b) (a ++ c).
Proof.
  intros (A & B & C). split; [|split]; rewrite ?durable_app, ?held_app, ?written_app; (apply incl_app; [apply incl_appl, incl_refl|apply incl_appr; auto]).
Qed.
Lemma grows_more a b : grows a (a ++ b).
Proof. split; [|split]; rewrite ?durable_app, ?held_app, ?written_app; apply incl_appl, incl_refl. Qed.

Lemma write_grows b x f : fine f -> grows [f] [file_write b x f].
Proof.
  intros [H1 H2]. split; [|split]; rewrite ?durable_one, ?held_one, ?written_one; cbn [file_write f_frames f_os f_disk].
  - rewrite firstn_grow by lia. apply incl_refl.
  - destruct b; [rewrite firstn_grow by lia; apply incl_refl|]. intros y Hy. apply firstn_incl in Hy.
    rewrite firstn_all2 by (rewrite app_length; cbn; lia). apply in_or_app. auto.
  - apply incl_appl, incl_refl.
Qed.
Lemma flush_grows f : fine f -> grows [f] [file_flush f].
Proof.
  intros [H1 H2]. split; [|split]; rewrite ?durable_one, ?held_one, ?written_one; cbn [file_flush f_frames f_os f_disk]; try apply incl_refl.
  apply firstn_le. lia.
Qed.
Lemma sync_grows f : fine f -> grows [f] [file_sync f].
Proof.
  intros [H1 H2]. split; [|split]; rewrite ?durable_one, ?held_one, ?written_one; cbn [file_sync f_frames f_os f_disk]; try apply incl_refl.
  apply firstn_le. lia.
Qed.
Lemma write_fine b x f : fine f -> fine (file_write b x f).
Proof. unfold fine. cbn. rewrite app_length. cbn. destruct b; lia. Qed.
Lemma flush_fine f : fine f -> fine (file_flush f). Proof. unfold fine. cbn. lia. Qed.
Lemma sync_fine f : fine f -> fine (file_sync f). Proof. unfold fine. cbn. lia. Qed.

(** *** The writer's files *)
Definition synced (p : policy) : bool := match p with Disabled => false | _ => true end.
Record files_ok (cf : sconf) (w : swriter) : Prop := {
  fo_old : Forall os_full (y_old w);
  fo_fine : Forall fine (y_old w);
  fo_full : synced (y_policy cf) = true -> Forall full (y_old w);
  fo_cur : fine (y_cur w)
}.
Lemma fo_with cf w w' : y_old w' = y_old w -> fine (y_cur w') -> files_ok cf w -> files_ok cf w'.
Proof. intros E F [A B C D]. constructor; rewrite ?E; auto. Qed.
Lemma grows_cur w w' : y_old w' = y_old w -> grows [y_cur w] [y_cur w'] -> grows (y_files w) (y_files w').
Proof. intros E G. unfold y_files. rewrite E. now apply grows_app. Qed.

Lemma put_ok cf x w : files_ok cf w -> files_ok cf (put_frame cf x w) /\ grows (y_files w) (y_files (put_frame cf x w)).
Proof.
  intros H. split; [apply (fo_with cf w); [reflexivity|apply write_fine, (fo_cur _ _ H)|exact H]|].
  apply grows_cur; [reflexivity|]. apply write_grows, (fo_cur _ _ H).
Qed.
Lemma flush_ok cf b t w : files_ok cf w -> files_ok cf (flush_if_needed cf b t w) /\ grows (y_files w) (y_files (flush_if_needed cf b t w)).
Proof.
  intros H. unfold flush_if_needed. destruct (_ || _); [|split; [auto|apply grows_refl]].
  split; [apply (fo_with cf w); [reflexivity|apply flush_fine, (fo_cur _ _ H)|exact H]|]. apply grows_cur; [reflexivity|]. apply flush_grows, (fo_cur _ _ H).
Qed.
Lemma sync_ok cf w : files_ok cf w -> files_ok cf (sync_now w) /\ grows (y_files w) (y_files (sync_now w)).
Proof.
  intros H. split; [apply (fo_with cf w); [reflexivity|apply sync_fine, (fo_cur _ _ H)|exact H]|]. apply grows_cur; [reflexivity|]. apply sync_grows, (fo_cur _ _ H).
Qed.
(** After a rotation the old segments are complete. *)
Lemma rotate_files cf t w : files_ok cf w -> exists f, y_files (rotate_segment cf t w) = y_old w ++ [f; empty_file] /\ f_frames f = f_frames (y_cur w) /\
  os_full f /\ fine f /\ (synced (y_policy cf) = true -> full f) /\ f_disk (y_cur w) <= f_disk f.
Proof.
  intros H. unfold rotate_segment, flush_if_needed. cbn [orb]. pose proof (fo_cur _ _ H) as [F1 F2].
  destruct (y_policy cf); cbn [synced sync_now y_old y_cur y_files]; unfold y_files; cbn [y_old y_cur]; eexists; rewrite <- app_assoc; (split; [reflexivity|]);
    cbn; unfold os_full, full, fine; cbn; repeat split; auto; lia || congruence.
Qed.
Lemma rotate_ok cf t w : files_ok cf w -> files_ok cf (rotate_segment cf t w) /\ grows (y_files w) (y_files (rotate_segment cf t w)).
Proof.
  intros H. destruct (rotate_files cf t w H) as (f & E & F1 & F2 & F3 & F4 & F5). split.
  - assert (EO : y_old (rotate_segment cf t w) = y_old w ++ [f] /\ y_cur (rotate_segment cf t w) = empty_file).
    { unfold y_files in E. assert (EC : y_cur (rotate_segment cf t w) = empty_file) by reflexivity. rewrite EC in *. split; auto.
      change [f; empty_file] with ([f] ++ [empty_file]) in E. rewrite app_assoc in E. now apply app_inj_tail in E. }
    destruct EO as [EO EC]. destruct H as [A B C D]. constructor; rewrite ?EO, ?EC.
    + apply Forall_app. auto.
    + apply Forall_app. auto.
    + intros S. apply Forall_app. auto.
    + unfold fine. cbn. lia.
  - rewrite E. change [f; empty_file] with ([f] ++ [empty_file]). rewrite app_assoc. eapply grows_trans; [|apply grows_more]. unfold y_files. apply grows_app.
    pose proof (fo_cur _ _ H) as [G1 G2]. unfold os_full in F2.
    split; [|split]; rewrite ?durable_one, ?held_one, ?written_one, ?F1; try apply incl_refl; apply firstn_le; auto. rewrite F2, F1. lia.
Qed.
Lemma maybe_rotate_ok cf t w : files_ok cf w -> files_ok cf (fst (maybe_rotate_segment cf t w)) /\ grows (y_files w) (y_files (fst (maybe_rotate_segment cf t w))).
Proof.
  intros H. unfold maybe_rotate_segment. destruct (_ || _); cbn [fst]; [split; [auto|apply grows_refl]|]. now apply rotate_ok.
Qed.
Lemma maybe_sync_ok cf w : files_ok cf w -> files_ok cf (fst (maybe_sync cf w)) /\ grows (y_files w) (y_files (fst (maybe_sync cf w))).
Proof.
  intros H. unfold maybe_sync. destruct (y_policy cf); try destruct (_ <=? _)%N; try destruct (_ <? _)%N; cbn [fst]; try (split; [auto|apply grows_refl]); now apply sync_ok.
Qed.
(** The age deadline does not touch the files. *)
Definition aged (cf : sconf) (was_empty : bool) (t : N) (w1 : swriter) : swriter :=
  match y_max_age cf with
  | Some age => if was_empty && (0 <? y_bytes w1)%N
                then mkSW (y_old w1) (y_cur w1) (y_bytes w1) (y_since w1) (y_flushed w1) (y_sync_at w1) (Some (t + age)%N) (y_timer w1)
                else w1
  | None => w1
  end.
Lemma aged_same cf b t w : y_old (aged cf b t w) = y_old w /\ y_cur (aged cf b t w) = y_cur w /\ y_since (aged cf b t w) = y_since w /\ y_sync_at (aged cf b t w) = y_sync_at w
  /\ y_bytes (aged cf b t w) = y_bytes w.
Proof. unfold aged. destruct (y_max_age cf); auto. destruct (_ && _); auto 6. Qed.
Lemma enqueue_unfold cf x t w : handle_enqueue cf x t w =
  let w3 := flush_if_needed cf false t (aged cf (y_bytes w =? 0)%N t (put_frame cf x w)) in
  let w4 := fst (maybe_rotate_segment cf t w3) in
  (fst (maybe_sync cf w4), if snd (maybe_rotate_segment cf t w3) then DCancel else snd (maybe_sync cf w4)).
Proof.
  unfold handle_enqueue. fold (aged cf (y_bytes w =? 0)%N t (put_frame cf x w)). cbv zeta. destruct (maybe_rotate_segment _ _ _) as [w4 r]. cbn [fst snd].
  destruct (maybe_sync cf w4). reflexivity.
Qed.
Lemma aged_ok cf b t w : files_ok cf w -> files_ok cf (aged cf b t w) /\ y_files (aged cf b t w) = y_files w.
Proof.
  intros H. destruct (aged_same cf b t w) as (A & B & _). split.
  - eapply fo_with; eauto. rewrite B. apply (fo_cur _ _ H).
  - unfold y_files. now rewrite A, B.
Qed.
Lemma enqueue_ok cf x t w : files_ok cf w -> files_ok cf (fst (handle_enqueue cf x t w)) /\ grows (y_files (put_frame cf x w)) (y_files (fst (handle_enqueue cf x t w))) /\
  grows (y_files w) (y_files (fst (handle_enqueue cf x t w))).
Proof.
  intros H. rewrite enqueue_unfold. cbv zeta. cbn [fst]. destruct (put_ok cf x w H) as (A1 & A2).
  destruct (aged_ok cf (y_bytes w =? 0)%N t _ A1) as (B1 & B2). destruct (flush_ok cf false t _ B1) as (C1 & C2). destruct (maybe_rotate_ok cf t _ C1) as (D1 & D2).
  destruct (maybe_sync_ok cf _ D1) as (E1 & E2). split; auto.
  assert (G : grows (y_files (put_frame cf x w)) (y_files (fst (maybe_sync cf (fst (maybe_rotate_segment cf t (flush_if_needed cf false t (aged cf (y_bytes w =? 0)%N t (put_frame cf x w))))))))).
  { rewrite <- B2. eapply grows_trans; [exact C2|]. eapply grows_trans; eauto. }
  split; auto. eapply grows_trans; eauto.
Qed.
Lemma batch_ok cf cmds : forall id dir w, files_ok cf w -> files_ok cf (fst (handle_batch cf id cmds dir w)) /\ grows (y_files w) (y_files (fst (handle_batch cf id cmds dir w))).
Proof.
  induction cmds as [|[size t] r IH]; intros id dir w H; cbn [handle_batch]; [split; [auto|apply grows_refl]|].
  destruct (enqueue_ok cf (id, size) t w H) as (A & _ & B). destruct (handle_enqueue cf (id, size) t w) as [w1 d1]. cbn [fst] in *.
  destruct (IH (id + 1)%N d1 w1 A) as (C & D). split; auto. eapply grows_trans; eauto.
Qed.
Lemma put_has cf x w : In x (written (y_files (put_frame cf x w))).
Proof. unfold y_files. rewrite written_app, written_one. cbn. apply in_or_app. right. apply in_or_app. cbn. auto. Qed.
Lemma batch_writes cf cmds t : forall id dir w, files_ok cf w ->
  forall i n a, In (i, n, a) (numbered id cmds t) -> In (i, n) (written (y_files (fst (handle_batch cf id cmds dir w)))).
Proof.
  induction cmds as [|[size t'] r IH]; intros id dir w H i n a Hi; cbn in Hi; [destruct Hi|]. cbn [handle_batch].
  destruct (enqueue_ok cf (id, size) t' w H) as (A & B & _). destruct (handle_enqueue cf (id, size) t' w) as [w1 d1]. cbn [fst] in *.
  destruct Hi as [E|Hi]; [|eapply IH; eauto]. injection E as <- <- <-.
  destruct (batch_ok cf r (id + 1)%N d1 w1 A) as (_ & (_ & _ & G)). apply G. destruct B as (_ & _ & B). apply B, put_has.
Qed.
