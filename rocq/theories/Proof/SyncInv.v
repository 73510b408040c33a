(** The promises of the sync policies. *)
From Coq Require Import List Arith NArith Bool Lia.
From Verif Require Import Model.WalSync Spec.SyncSpec Proof.SyncFacts.
Import ListNotations.

(** *** Reading back *)
Lemma read_all (lower : sfile -> nat) old cur kept : Forall (fun f => lower f = length (f_frames f)) old ->
  Forall2 (fun f k => lower f <= k <= length (f_frames f)) (old ++ [cur]) kept ->
  exists k, lower cur <= k <= length (f_frames cur) /\ read_back (old ++ [cur]) kept = written old ++ firstn k (f_frames cur).
Proof.
  revert kept. induction old as [|f old IH]; intros kept HO HS; cbn [app] in HS.
  - inversion HS as [|? k ? r H1 H2]; subst. inversion H2; subst. exists k. split; auto. cbn [app read_back written flat_map]. destruct (k <? length (f_frames cur)); now rewrite app_nil_r.
  - inversion HS as [|? k ? r H1 H2]; subst. inversion HO as [|? ? O1 O2]; subst. destruct (IH r O2 H2) as (k' & K1 & K2). exists k'. split; auto.
    cbn [app read_back written flat_map]. assert (k = length (f_frames f)) by lia. subst k. rewrite Nat.ltb_irrefl, firstn_all, K2. now rewrite <- app_assoc.
Qed.
Lemma full_old f : full f -> f_disk f = length (f_frames f). Proof. now intros []. Qed.
Lemma found_durable cf w kept : files_ok cf w -> synced (y_policy cf) = true -> survives true (y_files w) kept -> incl (durable (y_files w)) (read_back (y_files w) kept).
Proof.
  intros H S HS. destruct (read_all f_disk (y_old w) (y_cur w) kept) as (k & K1 & K2); auto.
  - eapply Forall_impl; [|apply (fo_full _ _ H S)]. apply full_old.
  - unfold y_files at 2. rewrite K2. unfold y_files. rewrite durable_app, durable_one. apply incl_app.
    + apply incl_appl. unfold durable, written. clear. intros x Hx. apply in_flat_map in Hx as (f & Hf & Hx). apply in_flat_map. exists f. split; auto. now apply firstn_incl in Hx.
    + apply incl_appr. apply firstn_le. lia.
Qed.
Lemma found_held cf w kept : files_ok cf w -> survives false (y_files w) kept -> incl (held (y_files w)) (read_back (y_files w) kept).
Proof.
  intros H HS. destruct (read_all f_os (y_old w) (y_cur w) kept) as (k & K1 & K2); auto.
  - apply (fo_old _ _ H).
  - unfold y_files at 2. rewrite K2. unfold y_files. rewrite held_app, held_one. apply incl_app.
    + apply incl_appl. unfold held, written. clear. intros x Hx. apply in_flat_map in Hx as (f & Hf & Hx). apply in_flat_map. exists f. split; auto. now apply firstn_incl in Hx.
    + apply incl_appr. apply firstn_le. lia.
Qed.
Lemma survives_weaker fs kept : Forall fine fs -> survives false fs kept -> survives true fs kept.
Proof.
  unfold survives. intros HF HS. induction HS as [|f k fs kept H _ IH]; constructor; inversion HF as [|? ? [F1 F2] F3]; subst; auto. lia.
Qed.
Lemma durable_held fs : Forall fine fs -> incl (durable fs) (held fs).
Proof.
  intros H. unfold durable, held. induction H as [|f fs [F1 F2] _ IH]; [apply incl_refl|]. cbn [flat_map].
  apply incl_app; [apply incl_appl, firstn_le; lia|apply incl_appr; auto].
Qed.
Lemma all_fine cf w : files_ok cf w -> Forall fine (y_files w).
Proof. intros H. apply Forall_app. split; [apply (fo_fine _ _ H)|]. constructor; auto. apply (fo_cur _ _ H). Qed.

(** *** Opening and crashing *)
Lemma open_files cf fs t : fs <> [] -> y_files (open_log cf fs t) = fs.
Proof.
  intros H. unfold open_log. destruct (rev fs) as [|f r] eqn:E.
  - apply (f_equal (@rev sfile)) in E. rewrite rev_involutive in E. cbn in E. contradiction.
  - unfold y_files. cbn. rewrite <- (rev_involutive fs), E. reflexivity.
Qed.
Lemma open_parts cf old cur t : y_old (open_log cf (old ++ [cur]) t) = old /\ y_cur (open_log cf (old ++ [cur]) t) = cur /\ y_since (open_log cf (old ++ [cur]) t) = 0%N
  /\ y_sync_at (open_log cf (old ++ [cur]) t) = None.
Proof. unfold open_log. rewrite rev_app_distr. cbn. rewrite rev_involutive. auto. Qed.
Lemma open_timer cf fs t : y_timer (open_log cf fs t) = earliest (y_sync_at (open_log cf fs t)) (y_rot_at (open_log cf fs t)).
Proof. unfold open_log. destruct (rev fs); reflexivity. Qed.

Lemma crash_ok (power : bool) f k : fine f -> (if power then f_disk f else f_os f) <= k <= length (f_frames f) ->
  os_full (crash_file power f k) /\ fine (crash_file power f k) /\ (full f -> full (crash_file power f k)) /\
  incl (durable [f]) (durable [crash_file power f k]) /\ (power = false -> incl (held [f]) (held [crash_file power f k])) /\
  incl (durable [f]) (written [crash_file power f k]).
Proof.
  intros [F1 F2] HK. assert (LEN : length (firstn k (f_frames f)) = k) by (apply firstn_length_le; lia).
  unfold os_full, fine, full. cbn [crash_file f_frames f_os f_disk]. rewrite LEN.
  split; auto. split; [destruct power; lia|]. split; [intros [G1 G2]; split; auto; destruct power; lia|].
  rewrite !durable_one, !held_one, written_one. cbn [crash_file f_frames f_os f_disk].
  assert (D1 : incl (firstn (f_disk f) (f_frames f)) (firstn k (f_frames f))) by (apply firstn_le; destruct power; lia).
  split; [|split].
  - destruct power; rewrite firstn_firstn; apply firstn_le; lia.
  - intros ->. rewrite firstn_firstn. apply firstn_le. lia.
  - exact D1.
Qed.
Lemma crash_files_ok cf power w kept t : files_ok cf w -> survives power (y_files w) kept ->
  let w' := open_log cf (crash_files power (y_files w) kept) t in
  files_ok cf w' /\ os_full (y_cur w') /\ incl (durable (y_files w)) (durable (y_files w')) /\ (power = false -> incl (held (y_files w)) (held (y_files w'))) /\
  incl (durable (y_files w)) (written (y_files w')) /\ y_since w' = 0%N /\ y_sync_at w' = None.
Proof.
  intros H HS. cbv zeta. unfold y_files in HS. apply Forall2_app_inv_l in HS as (k1 & k2 & S1 & S2 & ->).
  inversion S2 as [|? k ? r S3 S4]; subst. inversion S4; subst. clear S2 S4.
  assert (E : crash_files power (y_files w) (k1 ++ [k]) = crash_files power (y_old w) k1 ++ [crash_file power (y_cur w) k]).
  { unfold crash_files, y_files. clear - S1. induction S1; cbn; auto. now rewrite IHS1. }
  rewrite E. destruct (open_parts cf (crash_files power (y_old w) k1) (crash_file power (y_cur w) k) t) as (P1 & P2 & P3 & P4).
  rewrite open_files by (destruct (crash_files power (y_old w) k1); discriminate).
  destruct (crash_ok power (y_cur w) k (fo_cur _ _ H) S3) as (C1 & C2 & C3 & C4 & C5 & C6).
  assert (O : Forall os_full (crash_files power (y_old w) k1) /\ Forall fine (crash_files power (y_old w) k1) /\
              (Forall full (y_old w) -> Forall full (crash_files power (y_old w) k1)) /\
              incl (durable (y_old w)) (durable (crash_files power (y_old w) k1)) /\ (power = false -> incl (held (y_old w)) (held (crash_files power (y_old w) k1))) /\
              incl (durable (y_old w)) (written (crash_files power (y_old w) k1))).
  { pose proof (fo_fine _ _ H) as FF. clear - S1 FF. induction S1 as [|f k fs ks H1 _ IH]; [cbn; repeat apply conj; auto; intros; apply incl_refl|].
    inversion FF as [|? ? F1 F2]; subst. destruct (IH F2) as (A & B & C & D & E & G). destruct (crash_ok power f k F1 H1) as (A' & B' & C' & D' & E' & G').
    unfold crash_files. cbn [combine map]. fold (crash_files power fs ks). change (f :: fs) with ([f] ++ fs).
    change (crash_file power (fst (f, k)) (snd (f, k)) :: crash_files power fs ks) with ([crash_file power f k] ++ crash_files power fs ks).
    rewrite !durable_app, !held_app, !written_app. repeat split.
    - constructor; auto.
    - constructor; auto.
    - intros X. inversion X; subst. constructor; auto.
    - apply incl_app; [apply incl_appl|apply incl_appr]; auto.
    - intros P. apply incl_app; [apply incl_appl|apply incl_appr]; auto.
    - apply incl_app; [apply incl_appl|apply incl_appr]; auto. }
  destruct O as (O1 & O2 & O3 & O4 & O5 & O6).
  split; [constructor; rewrite ?P1, ?P2; auto; intros S; apply O3, (fo_full _ _ H S)|]. rewrite P2, P3, P4. split; auto.
  unfold y_files. rewrite !durable_app, !held_app, !written_app. repeat split; auto.
  - apply incl_app; [apply incl_appl|apply incl_appr]; auto.
  - intros P. apply incl_app; [apply incl_appl|apply incl_appr]; auto.
  - apply incl_app; [apply incl_appl|apply incl_appr]; auto.
Qed.

Lemma repair_open cf tl fs t : fs <> [] -> let w := open_log cf fs t in let w' := open_log cf (repair tl fs) t in
  y_old w' = y_old w /\ y_cur w' = rewritten tl (y_cur w) /\ y_since w' = 0%N /\ y_sync_at w' = None.
Proof.
  intros H. cbv zeta. destruct (exists_last H) as (old & cur & ->). unfold repair. rewrite rev_app_distr. cbn [rev app]. rewrite rev_involutive.
  destruct (open_parts cf old cur t) as (A & B & _). destruct (open_parts cf old (rewritten tl cur) t) as (A' & B' & C' & D'). rewrite A, B, A', B', C', D'. auto.
Qed.
Lemma repair_clean fs : repair Clean fs = fs.
Proof. unfold repair. rewrite <- (rev_involutive fs) at 2. destruct (rev fs); reflexivity. Qed.
Lemma min_le l : forall k, fold_left Nat.min l k <= k.
Proof. induction l as [|a l IH]; intros k; cbn; auto. specialize (IH (Nat.min k a)). lia. Qed.
Lemma rewritten_ok tl f : fine f -> os_full f -> fine (rewritten tl f) /\ os_full (rewritten tl f).
Proof.
  destruct tl as [|stops]; cbn [rewritten]; auto. intros _ _. unfold fine, os_full. cbn [f_frames f_os f_disk].
  pose proof (min_le stops (length (f_frames f))). rewrite firstn_length_le by lia. lia.
Qed.
Lemma rewritten_held tl f : os_full f -> (tl = Clean \/ tl = Torn []) -> held [rewritten tl f] = held [f].
Proof. intros E [->| ->]; auto. rewrite !held_one. cbn. rewrite firstn_firstn, Nat.min_id. now rewrite E. Qed.
Lemma crash_repair_ok cf power w kept tl t : files_ok cf w -> survives power (y_files w) kept ->
  let w' := open_log cf (repair tl (crash_files power (y_files w) kept)) t in
  files_ok cf w' /\ os_full (y_cur w') /\ (tl = Clean -> incl (durable (y_files w)) (durable (y_files w'))) /\
  (tl = Clean \/ tl = Torn [] -> (power = false -> incl (held (y_files w)) (held (y_files w'))) /\ incl (durable (y_files w)) (held (y_files w'))) /\
  (tl = Clean -> incl (durable (y_files w)) (written (y_files w'))) /\ y_since w' = 0%N /\ y_sync_at w' = None.
Proof.
  intros H HS. cbv zeta. assert (NE : crash_files power (y_files w) kept <> []).
  { unfold y_files in *. destruct (y_old w) as [|f fs]; inversion HS; subst; cbn; discriminate. }
  destruct (crash_files_ok cf power w kept t H HS) as (A & B & C & D & E & _).
  destruct (repair_open cf tl _ t NE) as (R1 & R2 & R3 & R4). destruct (rewritten_ok tl _ (fo_cur _ _ A) B) as (F1 & F2).
  split; [eapply fo_with; eauto; now rewrite R2|]. split; [now rewrite R2|]. split; [intros ->; now rewrite repair_clean|].
  split; [|split; [intros ->; now rewrite repair_clean|auto]].
  intros HT. assert (HH : held (y_files (open_log cf (repair tl (crash_files power (y_files w) kept)) t)) = held (y_files (open_log cf (crash_files power (y_files w) kept) t))).
  { unfold y_files at 1 3. rewrite !held_app, R1, R2. f_equal. now apply rewritten_held. }
  rewrite HH. split; auto. eapply incl_tran; [exact C|]. apply durable_held. now apply (all_fine cf).
Qed.

(** *** All events keep the files in order *)
Lemma recompute_ok cf w : files_ok cf w -> files_ok cf (recompute_timer w).
Proof. intros []. constructor; auto. Qed.
Lemma directive_ok cf dir t w : files_ok cf w -> files_ok cf (apply_directive dir t w).
Proof. intros H. apply recompute_ok. destruct dir; auto; destruct H; constructor; auto. Qed.
Lemma directive_files dir t w : y_files (apply_directive dir t w) = y_files w. Proof. destruct dir; reflexivity. Qed.
Lemma request_ok cf t w : files_ok cf w -> files_ok cf (rotation_request cf t w) /\ grows (y_files w) (y_files (rotation_request cf t w)).
Proof.
  intros H. unfold rotation_request. destruct (_ =? _)%N; [split; [now apply recompute_ok|apply grows_refl]|].
  destruct (rotate_ok cf t w H) as (A & B). split; [now apply directive_ok|]. now rewrite directive_files.
Qed.
Definition tick1 (cf : sconf) (t : N) (w : swriter) : swriter :=
  match y_rot_at w with
  | Some d => if (d <=? t)%N
              then let w' := if (0 <? y_bytes w)%N then rotate_segment cf t w else w in
                   mkSW (y_old w') (y_cur w') (y_bytes w') (y_since w') (y_flushed w') (y_sync_at w') None (y_timer w')
              else w
  | None => w
  end.
Definition tick2 (t : N) (w1 : swriter) : swriter :=
  match y_sync_at w1 with
  | Some d => if (d <=? t)%N then let w' := with_sync_at w1 None in if (0 <? y_since w')%N then sync_now w' else w' else w1
  | None => w1
  end.
Lemma tick_unfold cf t w : timer_elapsed cf t w = recompute_timer (tick2 t (tick1 cf t w)). Proof. reflexivity. Qed.
Lemma tick1_ok cf t w : files_ok cf w -> files_ok cf (tick1 cf t w) /\ grows (y_files w) (y_files (tick1 cf t w)).
Proof.
  intros H. unfold tick1. destruct (y_rot_at w) as [d|]; [|split; [auto|apply grows_refl]]. destruct (d <=? t)%N; [|split; [auto|apply grows_refl]].
  destruct (0 <? y_bytes w)%N.
  - destruct (rotate_ok cf t w H) as ([A1 A2 A3 A4] & B). split; [constructor; auto|exact B].
  - split; [destruct H; constructor; auto|apply grows_refl].
Qed.
Lemma tick2_ok cf t w : files_ok cf w -> files_ok cf (tick2 t w) /\ grows (y_files w) (y_files (tick2 t w)).
Proof.
  intros H. unfold tick2. destruct (y_sync_at w) as [d|]; [|split; [auto|apply grows_refl]]. destruct (d <=? t)%N; [|split; [auto|apply grows_refl]].
  cbv zeta. assert (H' : files_ok cf (with_sync_at w None)) by (destruct H; constructor; auto).
  destruct (0 <? _)%N; [|split; [auto|apply grows_refl]]. exact (sync_ok cf _ H').
Qed.
Lemma tick_ok cf t w : files_ok cf w -> files_ok cf (timer_elapsed cf t w) /\ grows (y_files w) (y_files (timer_elapsed cf t w)).
Proof.
  intros H. rewrite tick_unfold. destruct (tick1_ok cf t w H) as (A & B). destruct (tick2_ok cf t _ A) as (C & D).
  split; [now apply recompute_ok|]. eapply grows_trans; eauto.
Qed.
Lemma shutdown_ok cf t w : files_ok cf w -> let w' := shutdown cf t w in
  files_ok cf w' /\ grows (y_files w) (y_files w') /\ os_full (y_cur w') /\ (synced (y_policy cf) = true -> full (y_cur w')) /\ written (y_files w') = written (y_files w).
Proof.
  intros H. cbv zeta. destruct (flush_ok cf true t w H) as (A & B). unfold shutdown.
  assert (F : os_full (y_cur (flush_if_needed cf true t w))) by reflexivity.
  assert (W : written (y_files (flush_if_needed cf true t w)) = written (y_files w)) by (unfold y_files; rewrite !written_app; reflexivity).
  destruct (y_policy cf) eqn:E; cbn [synced];
    try (destruct (sync_ok cf _ A) as (C & D); split; [auto|]; split; [eapply grows_trans; eauto|]; split; [reflexivity|]; split; [split; reflexivity|rewrite <- W; unfold y_files; rewrite !written_app; reflexivity]).
  split; auto. split; auto. split; auto. split; [discriminate|auto].
Qed.
Lemma reopen_ok cf w t : files_ok cf w -> let w' := open_log cf (y_files w) t in
  files_ok cf w' /\ y_files w' = y_files w /\ y_cur w' = y_cur w /\ y_since w' = 0%N /\ y_sync_at w' = None.
Proof.
  intros H. cbv zeta. unfold y_files. destruct (open_parts cf (y_old w) (y_cur w) t) as (A & B & C & D). rewrite A, B, C, D.
  split; auto. destruct H. constructor; rewrite ?A, ?B; auto.
Qed.
Lemma stopped_ok cf z cmds more : files_ok cf (z_w z) -> files_ok cf (stopped cf z cmds more) /\ grows (y_files (z_w z)) (y_files (stopped cf z cmds more)).
Proof.
  intros H. unfold stopped. destruct (batch_ok cf cmds (z_next z) DNone (z_w z) H) as (A & B). destruct more as [n|]; auto.
  destruct (put_ok cf ((z_next z + N.of_nat (length cmds))%N, n) _ A) as (C & D). split; auto. eapply grows_trans; eauto.
Qed.

Lemma step_ok cf z e : files_ok cf (z_w z) -> event_fits cf z e -> files_ok cf (z_w (sstep cf z e)).
Proof.
  intros H HE. destruct e as [cmds t|t|t|t|power cmds more kept tl t]; cbn [sstep z_w].
  - destruct (batch_ok cf cmds (z_next z) DNone (z_w z) H) as (A & _). destruct (handle_batch cf (z_next z) cmds DNone (z_w z)). cbn. now apply directive_ok.
  - now apply request_ok.
  - now apply tick_ok.
  - apply reopen_ok. now apply shutdown_ok.
  - destruct (stopped_ok cf z cmds more H) as (A & _). destruct HE as (_ & _ & HE). exact (proj1 (crash_repair_ok cf power _ kept tl t A HE)).
Qed.
Lemma start_ok cf t : files_ok cf (z_w (sstart cf t)).
Proof. constructor; cbn; auto. unfold fine. cbn. lia. Qed.

(** *** Written bytes reach the operating system *)
Lemma enqueue_clear cf x t w : prompt cf -> os_full (y_cur w) -> os_full (y_cur (fst (handle_enqueue cf x t w))).
Proof.
  intros HC HF. rewrite enqueue_unfold. cbv zeta. cbn [fst].
  assert (A : os_full (y_cur (flush_if_needed cf false t (aged cf (y_bytes w =? 0)%N t (put_frame cf x w))))).
  { unfold flush_if_needed. destruct (aged_same cf (y_bytes w =? 0)%N t (put_frame cf x w)) as (_ & B & _). destruct HC as [HC|HC].
    - rewrite HC. cbn [N.eqb orb]. reflexivity.
    - destruct (_ || _ || _); [reflexivity|]. rewrite B. unfold os_full, put_frame, file_write. cbn. rewrite HC, app_length. cbn. lia. }
  set (w3 := flush_if_needed _ _ _ _) in *.
  assert (B : os_full (y_cur (fst (maybe_rotate_segment cf t w3)))). { unfold maybe_rotate_segment. destruct (_ || _); auto. reflexivity. }
  unfold maybe_sync. destruct (y_policy cf); try destruct (_ <=? _)%N; try destruct (_ <? _)%N; auto.
Qed.
Lemma batch_clear cf cmds : forall id dir w, prompt cf -> os_full (y_cur w) -> os_full (y_cur (fst (handle_batch cf id cmds dir w))).
Proof.
  induction cmds as [|[n t] r IH]; intros id dir w HC H; cbn [handle_batch]; auto.
  pose proof (enqueue_clear cf (id, n) t w HC H) as A. destruct (handle_enqueue cf (id, n) t w). auto.
Qed.
Lemma directive_cur dir t w : y_cur (apply_directive dir t w) = y_cur w. Proof. destruct dir; reflexivity. Qed.
Lemma step_clear cf z e : prompt cf -> files_ok cf (z_w z) -> event_fits cf z e -> os_full (y_cur (z_w z)) -> os_full (y_cur (z_w (sstep cf z e))).
Proof.
  intros HC HO HE H. destruct e as [cmds t|t|t|t|power cmds more kept tl t]; cbn [sstep z_w].
  - pose proof (batch_clear cf cmds (z_next z) DNone (z_w z) HC H) as A. destruct (handle_batch cf (z_next z) cmds DNone (z_w z)). cbn [z_w]. now rewrite directive_cur.
  - unfold rotation_request. destruct (_ =? _)%N; auto. rewrite directive_cur. reflexivity.
  - rewrite tick_unfold. change (os_full (y_cur (tick2 t (tick1 cf t (z_w z))))).
    assert (A : os_full (y_cur (tick1 cf t (z_w z)))).
    { unfold tick1. destruct (y_rot_at (z_w z)); auto. destruct (_ <=? _)%N; auto. destruct (_ <? _)%N; cbn; auto. reflexivity. }
    unfold tick2. destruct (y_sync_at _); auto. destruct (_ <=? _)%N; auto. cbv zeta. destruct (_ <? _)%N; auto.
  - destruct (shutdown_ok cf t (z_w z) HO) as (A & _ & B & _). destruct (reopen_ok cf _ t A) as (_ & _ & C & _). now rewrite C.
  - destruct (stopped_ok cf z cmds more HO) as (A & _). destruct HE as (_ & _ & HE). exact (proj1 (proj2 (crash_repair_ok cf power _ kept tl t A HE))).
Qed.

Lemma all_durable cf w : files_ok cf w -> synced (y_policy cf) = true -> full (y_cur w) -> incl (written (y_files w)) (durable (y_files w)).
Proof.
  intros H S F. assert (A : Forall full (y_files w)) by (apply Forall_app; split; [apply (fo_full _ _ H S)|auto]).
  clear - A. induction A as [|f fs [E1 E2] _ IH]; [intros x []|]. change (f :: fs) with ([f] ++ fs). rewrite durable_app, written_app, durable_one, written_one.
  rewrite E2, firstn_all. apply incl_app; [apply incl_appl, incl_refl|apply incl_appr; auto].
Qed.
Lemma all_held cf w : files_ok cf w -> os_full (y_cur w) -> incl (written (y_files w)) (held (y_files w)).
Proof.
  intros H F. assert (A : Forall os_full (y_files w)) by (apply Forall_app; split; [apply (fo_old _ _ H)|auto]).
  clear - A. induction A as [|f fs E _ IH]; [intros x []|]. change (f :: fs) with ([f] ++ fs). rewrite held_app, written_app, held_one, written_one.
  unfold os_full in E. rewrite E, firstn_all. apply incl_app; [apply incl_appl, incl_refl|apply incl_appr; auto].
Qed.
Lemma numbered_app_in l id cmds t x : In x (l ++ numbered id cmds t) -> In x l \/ In x (numbered id cmds t). Proof. apply in_app_or. Qed.
