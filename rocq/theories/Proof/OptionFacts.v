(** Lemmas about the options of the builder. *)
From Coq Require Import List NArith Bool Lia.
From Verif Require Import Model.Backpressure Model.WalSync Model.Options Spec.OptionSpec.
Import ListNotations.
Local Open Scope N_scope.

Definition said {A X} (says : A -> option X) (l : list A) (d : X) : X :=
  fold_left (fun x a => match says a with Some y => y | None => x end) l d.

Lemma said_takes {A X} (says : A -> option X) l d : takes says l d (said says l d).
Proof.
  induction l as [|a l IH] using rev_ind; [right; split; [constructor | reflexivity]|].
  unfold said. rewrite fold_left_app. cbn. fold (said says l d).
  destruct (says a) as [y|] eqn:Ea.
  - left. exists l, a, []. repeat split; [exact Ea | constructor].
  - destruct IH as [(l1 & b & l2 & -> & Eb & F)|[F E]].
    + left. exists l1, b, (l2 ++ [a]). rewrite <- app_assoc. cbn. repeat split; [exact Eb|].
      apply Forall_app. split; [exact F | constructor; [exact Ea | constructor]].
    + right. split; [apply Forall_app; split; [exact F | constructor; [exact Ea | constructor]] | exact E].
Qed.

Section Facts.
  Context {D B S Y : Type}.
  Notation over := (over D B S). Notation wset := (wset D B S). Notation rconf := (rconf D B S).
  Notation copts := (copts Y). Notation cset := (cset Y). Notation call := (call D B S Y).
  Notation builder := (builder D B S Y).
  Variables (leveled : Y) (home : D) (own : B) (kept : option S).
  Notation build := (build leveled). Notation call_apply := (call_apply leveled).
  Notation wal_for := (wal_for home own kept).

  Implicit Types calls : list call.

  (** *** The log *)
  Lemma merge_set (o n : over) s : merge o (set n s) = set (merge o n) s.
  Proof. destruct o, n, s; reflexivity. Qed.
  Lemma merge_fold l : forall (o n : over), merge o (fold_left set l n) = fold_left set l (merge o n).
  Proof.
    induction l as [|s l IH]; intros o n; [reflexivity|]. cbn. rewrite IH, merge_set. reflexivity.
  Qed.
  Lemma merge_none (o : over) : merge o over_none = o.
  Proof. destruct o; reflexivity. Qed.

  Lemma durable_apply (b : builder) c : b_durable (call_apply b c) = b_durable b.
  Proof. destruct c; reflexivity. Qed.
  Lemma durable_fold calls : forall b : builder, b_durable (fold_left call_apply calls b) = b_durable b.
  Proof. induction calls as [|c cs IH]; intros b; [reflexivity|]. cbn. rewrite IH. apply durable_apply. Qed.
  Lemma build_durable d calls : b_durable (build d calls) = d.
  Proof. unfold Options.build. rewrite durable_fold. reflexivity. Qed.

  Lemma wal_apply (b : builder) c o :
    b_wal b = Some o -> b_wal (call_apply b c) = Some (fold_left set (about_log c) o).
  Proof.
    intros E. destruct c; cbn; rewrite ?E; try reflexivity.
    rewrite merge_fold, merge_none. reflexivity.
  Qed.
  Lemma wal_fold calls : forall (b : builder) o,
    b_wal b = Some o -> b_wal (fold_left call_apply calls b) = Some (fold_left set (log_settings calls) o).
  Proof.
    induction calls as [|c cs IH]; intros b o E; [exact E|].
    cbn [fold_left]. rewrite (IH _ _ (wal_apply b c o E)). unfold log_settings. cbn [map concat].
    rewrite fold_left_app. reflexivity.
  Qed.
  Lemma wal_build calls : b_wal (build true calls) = Some (fold_left set (log_settings calls) over_none).
  Proof. apply wal_fold. reflexivity. Qed.

  Lemma set_bytes l : forall (o : over) x,
    pick (v_bytes (fold_left set l o)) x = said says_bytes l (pick (v_bytes o) x).
  Proof. induction l as [|s l IH]; intros o x; [reflexivity|]. cbn [fold_left]. rewrite IH. destruct o, s; reflexivity. Qed.
  Lemma set_age l : forall (o : over) x,
    pick (v_age (fold_left set l o)) x = said says_age l (pick (v_age o) x).
  Proof. induction l as [|s l IH]; intros o x; [reflexivity|]. cbn [fold_left]. rewrite IH. destruct o, s; reflexivity. Qed.
  Lemma set_flush l : forall (o : over) x,
    pick (v_flush (fold_left set l o)) x = said says_flush l (pick (v_flush o) x).
  Proof. induction l as [|s l IH]; intros o x; [reflexivity|]. cbn [fold_left]. rewrite IH. destruct o, s; reflexivity. Qed.
  Lemma set_sync l : forall (o : over) x,
    pick (v_sync (fold_left set l o)) x = said says_sync l (pick (v_sync o) x).
  Proof. induction l as [|s l IH]; intros o x; [reflexivity|]. cbn [fold_left]. rewrite IH. destruct o, s; reflexivity. Qed.
  Lemma set_mode l : forall (o : over) x,
    pick (v_mode (fold_left set l o)) x = said says_mode l (pick (v_mode o) x).
  Proof. induction l as [|s l IH]; intros o x; [reflexivity|]. cbn [fold_left]. rewrite IH. destruct o, s; reflexivity. Qed.
  Lemma set_keep l : forall (o : over) x,
    pick (v_keep (fold_left set l o)) x = said says_keep l (pick (v_keep o) x).
  Proof. induction l as [|s l IH]; intros o x; [reflexivity|]. cbn [fold_left]. rewrite IH. destruct o, s; reflexivity. Qed.
  Lemma set_queue l : forall (o : over) x,
    pick (v_queue (fold_left set l o)) x = said says_queue l (pick (v_queue o) x).
  Proof. induction l as [|s l IH]; intros o x; [reflexivity|]. cbn [fold_left]. rewrite IH. destruct o, s; reflexivity. Qed.
  Lemma set_dir l : forall (o : over) x,
    pick (v_dir (fold_left set l o)) x = said says_dir l (pick (v_dir o) x).
  Proof. induction l as [|s l IH]; intros o x; [reflexivity|]. cbn [fold_left]. rewrite IH. destruct o, s; reflexivity. Qed.
  Lemma set_back l : forall (o : over) x,
    pick (v_back (fold_left set l o)) x = said says_back l (pick (v_back o) x).
  Proof. induction l as [|s l IH]; intros o x; [reflexivity|]. cbn [fold_left]. rewrite IH. destruct o, s; reflexivity. Qed.
  Lemma set_store l : forall (o : over) x,
    pick (v_store (fold_left set l o)) x = said says_store l (pick (v_store o) x).
  Proof. induction l as [|s l IH]; intros o x; [reflexivity|]. cbn [fold_left]. rewrite IH. destruct o, s; reflexivity. Qed.

  Lemma wal_for_build calls :
    let l := log_settings calls in
    wal_for (build true calls)
    = mkR (said says_bytes l (mib 64)) (said says_age l None) (said says_flush l (ms 10))
          (said says_sync l (IntervalTime (ms 50))) (said says_mode l PointInTime) (said says_keep l None)
          (said says_queue l 65536) (said says_dir l home) (said says_back l own) (said says_store l kept) false.
  Proof.
    intros l. unfold Options.wal_for. rewrite wal_build. fold l. unfold apply.
    rewrite set_bytes, set_age, set_flush, set_sync, set_mode, set_keep, set_queue, set_dir, set_back, set_store.
    reflexivity.
  Qed.

  (** What [open] gives *)
  Lemma open_wal segments calls d :
    open leveled home own kept segments true calls = Opened d -> d = create home own kept (build true calls).
  Proof.
    unfold open, recover, create. rewrite build_durable. destruct segments; [|intros [= <-]; reflexivity].
    destruct (r_mode _); intros [= <-]; reflexivity.
  Qed.
  Lemma open_any segments durable calls d :
    open leveled home own kept segments durable calls = Opened d -> d = create home own kept (build durable calls).
  Proof.
    destruct durable; [apply open_wal|]. unfold open. rewrite build_durable. intros [= <-]. reflexivity.
  Qed.

  Lemma log_options segments calls d :
    open leveled home own kept segments true calls = Opened d ->
    exists c, d_wal d = Some c
      /\ takes says_bytes (log_settings calls) (mib 64) (r_bytes c)
      /\ takes says_age (log_settings calls) None (r_age c)
      /\ takes says_flush (log_settings calls) (ms 10) (r_flush c)
      /\ takes says_sync (log_settings calls) (IntervalTime (ms 50)) (r_sync c)
      /\ takes says_mode (log_settings calls) PointInTime (r_mode c)
      /\ takes says_keep (log_settings calls) None (r_keep c)
      /\ takes says_queue (log_settings calls) 65536 (r_queue c)
      /\ takes says_dir (log_settings calls) home (r_dir c)
      /\ takes says_back (log_settings calls) own (r_back c)
      /\ takes says_store (log_settings calls) kept (r_store c)
      /\ r_dry c = false.
  Proof.
    intros E. rewrite (open_wal _ _ _ E). exists (wal_for (build true calls)).
    split; [unfold create; rewrite build_durable; reflexivity|].
    rewrite (wal_for_build calls). cbn [r_bytes r_age r_flush r_sync r_mode r_keep r_queue r_dir r_back r_store r_dry].
    repeat split; apply said_takes.
  Qed.

  Lemma memory_no_log segments calls :
    exists d, open leveled home own kept segments false calls = Opened d /\ d_wal d = None.
  Proof.
    unfold open. rewrite build_durable. eexists. split; [reflexivity|]. unfold create.
    rewrite build_durable. reflexivity.
  Qed.

  Lemma open_same s1 s2 durable calls d1 d2 :
    open leveled home own kept s1 durable calls = Opened d1 ->
    open leveled home own kept s2 durable calls = Opened d2 -> d1 = d2.
  Proof. intros E1 E2. rewrite (open_any _ _ _ _ E1), (open_any _ _ _ _ E2). reflexivity. Qed.

  (** *** The recovery mode *)
  Lemma takes_det {A X} (says : A -> option X) l d x : takes says l d x -> x = said says l d.
  Proof.
    intros [(l1 & a & l2 & -> & Ea & F)|[F ->]].
    - unfold said. rewrite fold_left_app. cbn. rewrite Ea. clear Ea.
      induction F as [|b l2 Eb _ IH]; [reflexivity|]. cbn. rewrite Eb. exact IH.
    - unfold said. induction F as [|b l2 Eb _ IH]; [reflexivity|]. cbn. rewrite Eb. exact IH.
  Qed.
  Lemma open_iff segments calls m :
    takes says_mode (log_settings calls) PointInTime m ->
    (exists d, open leveled home own kept segments true calls = Opened d)
    \/ (m = AbsoluteConsistency \/ m = SkipCorrupted)
       /\ exists dir back, takes says_dir (log_settings calls) home dir
            /\ takes says_back (log_settings calls) own back /\ segments dir back = true.
  Proof.
    intros T. apply takes_det in T. unfold open. rewrite build_durable.
    unfold recover. rewrite (wal_for_build calls). cbn [r_dir r_back r_mode]. rewrite <- T.
    destruct segments eqn:Es; [|left; eexists; reflexivity].
    assert (P : exists dir back, takes says_dir (log_settings calls) home dir
            /\ takes says_back (log_settings calls) own back /\ segments dir back = true)
      by (eexists _, _; split; [apply said_takes|]; split; [apply said_takes | exact Es]).
    destruct m; [left; eexists; reflexivity | left; eexists; reflexivity | right; split; [left; reflexivity | exact P]
                | right; split; [right; reflexivity | exact P]].
  Qed.
  Lemma stuck segments calls dir back m :
    m = AbsoluteConsistency \/ m = SkipCorrupted ->
    takes says_mode (log_settings calls) PointInTime m ->
    takes says_dir (log_settings calls) home dir -> takes says_back (log_settings calls) own back ->
    segments dir back = true ->
    open leveled home own kept segments true calls = Unimplemented.
  Proof.
    intros Hm T Td Tb Es. apply takes_det in T. apply takes_det in Td. apply takes_det in Tb.
    unfold open, recover. rewrite build_durable, (wal_for_build calls). cbn [r_dir r_back r_mode].
    rewrite <- T, <- Td, <- Tb, Es. destruct Hm as [-> | ->]; reflexivity.
  Qed.
  Lemma fresh_opens segments calls dir back :
    takes says_dir (log_settings calls) home dir -> takes says_back (log_settings calls) own back ->
    segments dir back = false ->
    exists d, open leveled home own kept segments true calls = Opened d.
  Proof.
    intros Td Tb Es. apply takes_det in Td. apply takes_det in Tb.
    unfold open. rewrite build_durable, (wal_for_build calls). cbn [r_dir r_back]. rewrite <- Td, <- Tb, Es.
    eexists; reflexivity.
  Qed.

  (** *** Flushing *)
  Lemma minor_fold calls : forall b : builder,
    b_minor (fold_left call_apply calls b) = said says_minor calls (b_minor b).
  Proof.
    induction calls as [|c cs IH]; intros b; [reflexivity|]. cbn [fold_left]. rewrite IH. destruct c; reflexivity.
  Qed.
  Lemma one_max n : at_least_one n = N.max n 1.
  Proof. unfold at_least_one. destruct (N.eqb_spec n 0); lia. Qed.
  Lemma minor_options segments durable calls d :
    open leveled home own kept segments durable calls = Opened d ->
    exists m, takes says_minor calls (Some (4, 0)) m
      /\ d_minor d = option_map (fun p => (at_least_one (fst p), snd p)) m.
  Proof.
    intros E. rewrite (open_any _ _ _ _ E). exists (said says_minor calls (Some (4, 0))).
    split; [apply said_takes|]. cbn [d_minor create]. unfold create, minor_of. cbn [d_minor].
    unfold Options.build. rewrite minor_fold. cbn [b_minor builder_new].
    destruct said as [[t l]|]; [cbn; rewrite one_max; reflexivity | reflexivity].
  Qed.

  (** *** Compaction *)
  Lemma comp_keep calls : Forall (fun c => replaces c = false) calls -> forall (b : builder) o,
    b_comp b = Some o ->
    b_comp (fold_left call_apply calls b) = Some (fold_left cset_apply (concat (map chosen calls)) o).
  Proof.
    induction 1 as [|c cs Hc _ IH]; intros b o E; [exact E|].
    cbn [fold_left map concat]. rewrite fold_left_app. apply IH.
    destruct c; try exact E; [discriminate|]. cbn. rewrite E. reflexivity.
  Qed.
  Lemma comp_none calls : Forall (fun c => replaces c = false) calls -> forall b : builder,
    b_comp b = None ->
    b_comp (fold_left call_apply calls b)
    = if existsb about_compaction calls then Some (copts_make leveled (concat (map chosen calls))) else None.
  Proof.
    induction 1 as [|c cs Hc F IH]; intros b E; [exact E|].
    cbn [fold_left map concat existsb]. destruct c; try (apply IH; exact E); [discriminate|].
    cbn [about_compaction orb chosen app]. rewrite (comp_keep cs F _ (cset_apply (copts_default leveled) (TStrategy s))).
    - reflexivity.
    - cbn. rewrite E. reflexivity.
  Qed.
  Lemma comp_build durable calls cs :
    in_force calls cs ->
    b_comp (build durable calls) = if existsb about_compaction calls then Some (copts_make leveled cs) else None.
  Proof.
    intros [(c1 & l & c2 & -> & F & ->)|[F ->]].
    - rewrite existsb_app. cbn [existsb about_compaction]. rewrite orb_true_r.
      unfold Options.build. rewrite fold_left_app. cbn [fold_left].
      rewrite (comp_keep c2 F _ (copts_make leveled l)); [|reflexivity].
      unfold copts_make. rewrite fold_left_app. reflexivity.
    - apply (comp_none calls F). reflexivity.
  Qed.
  Lemma in_force_total (calls : list call) : exists cs, in_force calls cs.
  Proof.
    induction calls as [|c calls IH] using rev_ind.
    - exists []. right. split; [constructor | reflexivity].
    - destruct (replaces c) eqn:Ec.
      + destruct c; try discriminate. exists l. left. exists calls, l, []. rewrite app_nil_r. repeat split. constructor.
      + destruct IH as [cs [(c1 & l & c2 & -> & F & ->)|[F ->]]].
        * eexists. left. exists c1, l, (c2 ++ [c]). rewrite <- app_assoc. repeat split.
          apply Forall_app. split; [exact F | constructor; [exact Ec | constructor]].
        * eexists. right. split; [|reflexivity].
          apply Forall_app. split; [exact F | constructor; [exact Ec | constructor]].
  Qed.

  Ltac field := let s := fresh "s" in let l := fresh "l" in
    intros l; induction l as [|s l IH]; intros o; [reflexivity|]; cbn [fold_left]; rewrite IH; destruct o, s; reflexivity.
  Lemma cs_strategy : forall l (o : copts), c_strategy (fold_left cset_apply l o) = said says_strategy l (c_strategy o).
  Proof. field. Qed.
  Lemma cs_press : forall l (o : copts), c_press (fold_left cset_apply l o) = said says_press l (c_press o).
  Proof. field. Qed.
  Lemma cs_cascade : forall l (o : copts), c_cascade (fold_left cset_apply l o) = said says_cascade l (c_cascade o).
  Proof. field. Qed.
  Lemma cs_backoff : forall l (o : copts), c_backoff (fold_left cset_apply l o) = said says_backoff l (c_backoff o).
  Proof. field. Qed.
  (** The last setting decides, whatever was there before and however it is rounded. *)
  Lemma said_map {A X Z} (says : A -> option X) (f : X -> Z) l : forall d d',
    f d = f d' -> f (said says l d) = f (said says l d').
  Proof.
    induction l as [|a l IH]; intros d d' E; [exact E|]. unfold said. cbn.
    destruct (says a); [reflexivity | apply IH; exact E].
  Qed.
  Lemma cs_jobs : forall l (o : copts), N.max (c_jobs (fold_left cset_apply l o)) 1 = N.max (said says_jobs l (c_jobs o)) 1.
  Proof.
    induction l as [|s l IH]; intros o; [reflexivity|]. cbn [fold_left]. rewrite IH.
    destruct s; try (destruct o; reflexivity).
    change (said says_jobs (TJobs n :: l) (c_jobs o)) with (said says_jobs l n).
    apply (said_map says_jobs (fun n => N.max n 1)). destruct o; cbn. lia.
  Qed.
  Lemma cs_queue : forall l (o : copts), N.max (c_queue (fold_left cset_apply l o)) 1 = N.max (said says_cqueue l (c_queue o)) 1.
  Proof.
    induction l as [|s l IH]; intros o; [reflexivity|]. cbn [fold_left]. rewrite IH.
    destruct s; try (destruct o; reflexivity).
    change (said says_cqueue (TQueue n :: l) (c_queue o)) with (said says_cqueue l n).
    apply (said_map says_cqueue (fun n => N.max n 1)). destruct o; cbn. lia.
  Qed.
  Lemma cs_rows : forall l (o : copts), cap_of (c_rows (fold_left cset_apply l o)) = cap_of (said says_rows l (c_rows o)).
  Proof.
    induction l as [|s l IH]; intros o; [reflexivity|]. cbn [fold_left]. rewrite IH.
    destruct s; try (destruct o; reflexivity).
    change (said says_rows (TRows n :: l) (c_rows o)) with (said says_rows l (Some n)).
    apply (said_map says_rows cap_of). destruct o; cbn. f_equal. lia.
  Qed.
  Lemma cs_bytes : forall l (o : copts), cap_of (c_bytes (fold_left cset_apply l o)) = cap_of (said says_cbytes l (c_bytes o)).
  Proof.
    induction l as [|s l IH]; intros o; [reflexivity|]. cbn [fold_left]. rewrite IH.
    destruct s; try (destruct o; reflexivity).
    change (said says_cbytes (TBytes n :: l) (c_bytes o)) with (said says_cbytes l (Some n)).
    apply (said_map says_cbytes cap_of). destruct o; cbn. f_equal. lia.
  Qed.
  Lemma cs_tick : forall l (o : copts) t,
    (match c_tick o with Some d => if d =? 0 then None else Some d | None => None end) = timer t ->
    effective_tick (fold_left cset_apply l o) = timer (said says_tick l t).
  Proof.
    induction l as [|s l IH]; intros o t E; [exact E|]. cbn [fold_left]. unfold said. cbn [fold_left].
    apply IH. destruct o, s; try exact E. cbn. unfold timer. destruct (N.eqb_spec d 0); cbn; [reflexivity|].
    destruct (N.eqb_spec d 0); [contradiction | reflexivity].
  Qed.
  Lemma cap_one o : cap_of o = option_map at_least_one o.
  Proof. destruct o; [cbn; rewrite one_max|]; reflexivity. Qed.

  Lemma compaction_options segments durable calls d cs :
    open leveled home own kept segments durable calls = Opened d -> in_force calls cs ->
    existsb about_compaction calls = true ->
    exists k, d_worker d = Some k
      /\ takes says_strategy cs leveled (k_strategy k)
      /\ (exists n, takes says_jobs cs 1 n /\ k_jobs k = at_least_one n)
      /\ (exists n, takes says_cqueue cs 1 n /\ k_queue k = N.max (at_least_one n) (k_jobs k))
      /\ (exists r, takes says_rows cs None r /\ k_rows k = option_map at_least_one r)
      /\ (exists r, takes says_cbytes cs None r /\ k_bytes k = option_map at_least_one r)
      /\ (exists t, takes says_tick cs 0 t /\ k_tick k = timer t)
      /\ takes says_cascade cs (1, ms 500) (k_cascade k)
      /\ takes says_press cs (Some bp_default) (d_press d)
      /\ takes says_backoff cs backoff_default (d_backoff d).
  Proof.
    intros E F H. rewrite (open_any _ _ _ _ E). unfold create. cbn [d_worker d_press d_backoff].
    rewrite (comp_build durable calls cs F), H. exists (worker_of (copts_make leveled cs)).
    split; [reflexivity|]. unfold worker_of, effective_queue_capacity, effective_concurrency.
    cbn [k_strategy k_jobs k_queue k_rows k_bytes k_tick k_cascade]. unfold copts_make.
    rewrite cs_strategy, cs_jobs, cs_rows, cs_bytes, cs_cascade, cs_press, cs_backoff.
    rewrite (cs_tick cs (copts_default leveled) 0 eq_refl).
    unfold copts_default; cbn [c_strategy c_jobs c_rows c_bytes c_cascade c_press c_backoff].
    split; [apply said_takes|].
    split; [exists (said says_jobs cs 1); split; [apply said_takes | symmetry; apply one_max]|].
    split.
    { exists (said says_cqueue cs 1). split; [apply said_takes|]. rewrite one_max.
      pose proof (cs_queue cs (copts_default leveled)) as Q. unfold copts_default in Q; cbn [c_queue] in Q. rewrite <- Q. lia. }
    split; [exists (said says_rows cs None); split; [apply said_takes | apply cap_one]|].
    split; [exists (said says_cbytes cs None); split; [apply said_takes | apply cap_one]|].
    split; [exists (said says_tick cs 0); split; [apply said_takes | reflexivity]|].
    repeat split; apply said_takes.
  Qed.
  Lemma compaction_none segments durable calls d :
    open leveled home own kept segments durable calls = Opened d ->
    existsb about_compaction calls = false ->
    d_worker d = None /\ d_press d = None /\ d_backoff d = backoff_default.
  Proof.
    intros E H. rewrite (open_any _ _ _ _ E). destruct (in_force_total calls) as [cs F].
    unfold create. cbn [d_worker d_press d_backoff]. rewrite (comp_build durable calls cs F), H. repeat split.
  Qed.

  (** *** Sizes of files *)
  Lemma grow_range level : forall size, mib 128 <= size -> mib 128 <= grow level size <= mib 512.
  Proof.
    induction level as [|l IH]; intros size H; cbn [grow].
    - unfold mib in *. lia.
    - destruct (N.leb_spec (mib 512) (N.min (size * 10) (2 ^ 64 - 1))) as [G|G].
      + unfold mib. lia.
      + apply IH. unfold mib in *. change (2 ^ 64 - 1) with 18446744073709551615 in *. lia.
  Qed.
  Lemma grow_mono level : forall size, mib 128 <= size -> grow level size <= grow (Datatypes.S level) size.
  Proof.
    induction level as [|l IH]; intros size H.
    - cbn [grow]. destruct (N.leb_spec (mib 512) (N.min (size * 10) (2 ^ 64 - 1))) as [G|G];
        unfold mib in *; change (2 ^ 64 - 1) with 18446744073709551615 in *; lia.
    - cbn [grow]. destruct (N.leb_spec (mib 512) (N.min (size * 10) (2 ^ 64 - 1))) as [G|G]; [lia|].
      apply IH. unfold mib in *. change (2 ^ 64 - 1) with 18446744073709551615 in *. lia.
  Qed.
  Lemma default_mono a b : (a <= b)%nat -> default_output_bytes a <= default_output_bytes b.
  Proof.
    induction 1 as [|b _ IH]; [lia|]. etransitivity; [exact IH|]. apply grow_mono. lia.
  Qed.
  Lemma caps (k : working Y) level :
    fst (output_caps k level) = k_rows k
    /\ exists n, snd (output_caps k level) = Some n
         /\ (k_bytes k = Some n \/ k_bytes k = None /\ mib 128 <= n <= mib 512).
  Proof.
    split; [reflexivity|]. unfold output_caps. cbn. destruct (k_bytes k) as [n|].
    - exists n. split; [reflexivity | left; reflexivity].
    - eexists. split; [reflexivity|]. right. split; [reflexivity|]. apply grow_range. lia.
  Qed.
  Lemma caps_mono (k : working Y) a b m n :
    (a <= b)%nat -> snd (output_caps k a) = Some m -> snd (output_caps k b) = Some n -> m <= n.
  Proof.
    intros H. unfold output_caps. cbn. destruct (k_bytes k); intros [= <-] [= <-]; [lia|].
    apply default_mono. exact H.
  Qed.
End Facts.

(** *** Witnesses *)
Definition demo_calls : list (call N N N N) :=
  [WSync Always; WConfig [SBytes 1000; SAge (Some 7); SSync (IntervalBytes 10)]; CStrategy 5;
   COptions [TJobs 0; TQueue 2; TJobs 3; TTick 9; TRows 0]; MSet 0 2; WConfig [SQueue 8; SAge None]; WBytes 2000;
   CStrategy 6; WKeep (Some 4)].
Lemma reopen_refuted {D B S Y} (leveled : Y) (home : D) (own : B) (kept : option S) m :
  m = AbsoluteConsistency \/ m = SkipCorrupted ->
  let calls := [WConfig [SMode m]] : list (call D B S Y) in
  (exists d, open leveled home own kept (fun _ _ => false) true calls = Opened d)
  /\ open leveled home own kept (fun _ _ => true) true calls = Unimplemented.
Proof. intros [-> | ->]; (split; [eexists; reflexivity | reflexivity]). Qed.
Lemma strategy_lost {D B S Y} (leveled other : Y) (home : D) (own : B) (kept : option S) segments n :
  exists d k, open leveled home own kept segments true [CStrategy other; COptions [TQueue n]] = Opened d
    /\ d_worker d = Some k /\ k_strategy k = leveled.
Proof.
  unfold open. cbn. destruct segments; eexists _, _; (split; [reflexivity|]; split; reflexivity).
Qed.
