(** The bytes and time policies. *)
From Coq Require Import List Arith NArith Bool Lia.
From Verif Require Import Model.WalSync Spec.SyncSpec Proof.SyncFacts Proof.SyncInv Proof.SyncProps.
Import ListNotations.
Local Open Scope N_scope.

(** *** Lost bytes *)
Lemma lost_app a b fs : lost_bytes (a ++ b) fs = lost_bytes a fs + lost_bytes b fs.
Proof. induction a as [|x a IH]; cbn [app lost_bytes fold_right]; auto. fold (lost_bytes (a ++ b) fs) (lost_bytes a fs). rewrite IH. destruct (existsb _ _); lia. Qed.
Lemma lost_mono a fs fs' : incl fs fs' -> lost_bytes a fs' <= lost_bytes a fs.
Proof.
  intros H. induction a as [|x a IH]; cbn [lost_bytes fold_right]; [lia|]. fold (lost_bytes a fs') (lost_bytes a fs).
  destruct (existsb _ fs) eqn:E.
  - assert (E' : existsb (fun y => N.eqb (fst y) (fst (fst x))) fs' = true) by (apply existsb_exists in E as (y & Y1 & Y2); apply existsb_exists; eauto). now rewrite E'.
  - destruct (existsb _ fs'); lia.
Qed.
Lemma lost_found i n a fs : In (i, n) fs -> lost_bytes [(i, n, a)] fs = 0.
Proof.
  intros H. cbn. assert (E : existsb (fun y => N.eqb (fst y) i) fs = true) by (apply existsb_exists; exists (i, n); split; auto; apply N.eqb_refl). now rewrite E.
Qed.
Lemma lost_one i n a fs : lost_bytes [(i, n, a)] fs <= n. Proof. cbn. destruct (existsb _ _); lia. Qed.

Definition bytes_ok (c : N) (acked : list (N * N * N)) (w : swriter) : Prop :=
  lost_bytes acked (durable (y_files w)) <= y_since w + c /\ lost_bytes acked (written (y_files w)) <= c.
Lemma bytes_grow c acked w w' : grows (y_files w) (y_files w') -> y_since w' = y_since w -> bytes_ok c acked w -> bytes_ok c acked w'.
Proof.
  intros (G1 & _ & G3) E [A B]. split.
  - rewrite E. pose proof (lost_mono acked _ _ G1). lia.
  - pose proof (lost_mono acked _ _ G3). lia.
Qed.
Lemma bytes_synced cf c acked w w' : grows (y_files w) (y_files w') -> files_ok cf w' -> synced (y_policy cf) = true -> full (y_cur w') -> bytes_ok c acked w -> bytes_ok c acked w'.
Proof.
  intros (G1 & _ & G3) H S F [A B]. pose proof (lost_mono acked _ _ G3). pose proof (lost_mono acked _ _ (all_durable cf w' H S F)). split; lia.
Qed.

Lemma enqueue_bytes cf n c acked id size t a w : prompt cf -> y_policy cf = IntervalBytes n -> files_ok cf w -> os_full (y_cur w) -> bytes_ok c acked w ->
  bytes_ok c (acked ++ [(id, size, a)]) (fst (handle_enqueue cf (id, size) t w)) /\ y_since (fst (handle_enqueue cf (id, size) t w)) < N.max 1 n.
Proof.
  intros HC HP H HF HB. assert (S : synced (y_policy cf) = true) by now rewrite HP.
  destruct (put_ok cf (id, size) w H) as (A1 & A2 & A3 & A4).
  assert (B1 : bytes_ok c (acked ++ [(id, size, a)]) (put_frame cf (id, size) w)).
  { destruct HB as [HB1 HB2]. split; rewrite lost_app.
    - pose proof (lost_mono acked _ _ A2). pose proof (lost_one id size a (durable (y_files (put_frame cf (id, size) w)))). cbn [put_frame y_since snd]. lia.
    - rewrite (lost_found id size a _ (put_has cf (id, size) w)). pose proof (lost_mono acked _ _ A4). lia. }
  pose proof (enqueue_clear cf (id, size) t w HC HF) as FC.
  rewrite enqueue_unfold in *. cbv zeta in *. cbn [fst] in *.
  set (w1 := put_frame cf (id, size) w) in *. destruct (aged_ok cf (y_bytes w =? 0) t w1 A1) as (C1 & C2). destruct (aged_same cf (y_bytes w =? 0) t w1) as (_ & _ & C3 & _).
  set (w2 := aged cf (y_bytes w =? 0) t w1) in *.
  assert (B2 : bytes_ok c (acked ++ [(id, size, a)]) w2) by (apply (bytes_grow c _ w1); auto; rewrite C2; apply grows_refl).
  destruct (flush_ok cf false t w2 C1) as (D1 & D2).
  assert (D3 : y_since (flush_if_needed cf false t w2) = y_since w2) by (unfold flush_if_needed; destruct (_ || _); auto).
  set (w3 := flush_if_needed cf false t w2) in *.
  assert (B3 : bytes_ok c (acked ++ [(id, size, a)]) w3) by (apply (bytes_grow c _ w2); auto).
  assert (B4 : bytes_ok c (acked ++ [(id, size, a)]) (fst (maybe_rotate_segment cf t w3))).
  { unfold maybe_rotate_segment. destruct (_ || _); auto. cbn [fst]. destruct (rotate_ok cf t w3 D1) as (E1 & E2). apply (bytes_synced cf c _ w3); auto. split; reflexivity. }
  destruct (maybe_rotate_ok cf t w3 D1) as (E1 & E2). set (w4 := fst (maybe_rotate_segment cf t w3)) in *.
  destruct (maybe_sync_ok cf w4 E1) as (F1 & F2). unfold maybe_sync in *. rewrite HP in FC, F1, F2 |- *.
  destruct (N.leb_spec n (y_since w4)) as [L|L]; cbn [fst] in *.
  - split; [|cbn; lia]. apply (bytes_synced cf c _ w4); auto. unfold os_full, full in *. cbn in *. auto.
  - split; auto. lia.
Qed.
Lemma batch_bytes cf n c a cmds : prompt cf -> y_policy cf = IntervalBytes n -> forall id dir w acked, files_ok cf w -> os_full (y_cur w) -> bytes_ok c acked w -> y_since w < N.max 1 n ->
  bytes_ok c (acked ++ numbered id cmds a) (fst (handle_batch cf id cmds dir w)) /\ y_since (fst (handle_batch cf id cmds dir w)) < N.max 1 n.
Proof.
  intros HC HP. induction cmds as [|[size t] r IH]; intros id dir w acked H HF HB HL; cbn [handle_batch numbered].
  - rewrite app_nil_r. auto.
  - destruct (enqueue_bytes cf n c acked id size t a w HC HP H HF HB) as (A & B). pose proof (enqueue_clear cf (id, size) t w HC HF) as C.
    pose proof (proj1 (enqueue_ok cf (id, size) t w H)) as D. destruct (handle_enqueue cf (id, size) t w) as [w1 d1]. cbn [fst] in *.
    replace (acked ++ (id, size, a) :: numbered (id + 1) r a) with ((acked ++ [(id, size, a)]) ++ numbered (id + 1) r a) by (rewrite <- app_assoc; reflexivity).
    apply IH; auto.
Qed.

Definition bytes_inv (cf : sconf) (n c : N) (z : ssys) : Prop :=
  files_ok cf (z_w z) /\ os_full (y_cur (z_w z)) /\ bytes_ok (N.max 1 n * c) (z_acked z) (z_w z) /\ y_since (z_w z) < N.max 1 n.
Lemma directive_since dir t w : y_since (apply_directive dir t w) = y_since w. Proof. destruct dir; reflexivity. Qed.
Lemma bytes_step cf n c z e : prompt cf -> y_policy cf = IntervalBytes n -> bytes_inv cf n c z -> event_fits cf z e -> torn e = false ->
  bytes_inv cf n (if crash e then c + 1 else c) (sstep cf z e).
Proof.
  intros HC HP (H & HF & HB & HL) HE HTN. assert (S : synced (y_policy cf) = true) by now rewrite HP.
  split; [now apply step_ok|]. split; [now apply step_clear|].
  destruct e as [cmds t|t|t|t|power cmds more kept tl t]; cbn [sstep z_w z_acked crash].
  - destruct (batch_bytes cf n _ t cmds HC HP (z_next z) DNone (z_w z) (z_acked z) H HF HB HL) as (A & B). destruct (handle_batch cf (z_next z) cmds DNone (z_w z)) as [w' dir]. cbn [fst z_w z_acked] in *.
    rewrite directive_since. split; auto. apply (bytes_grow _ _ w'); auto; [rewrite directive_files; apply grows_refl|apply directive_since].
  - unfold rotation_request. destruct (_ =? _); [split; auto|]. rewrite directive_since. cbn [rotate_segment]. destruct (rotate_ok cf t _ H) as (A & B).
    assert (E : y_since (rotate_segment cf t (z_w z)) = 0) by (unfold rotate_segment; rewrite HP; reflexivity). split; [|rewrite E; lia].
    apply (bytes_grow _ _ (rotate_segment cf t (z_w z))); [rewrite directive_files; apply grows_refl|apply directive_since|]. apply (bytes_synced cf _ _ (z_w z)); auto. split; reflexivity.
  - rewrite tick_unfold. change (y_since (recompute_timer ?w)) with (y_since w).
    assert (T1 : bytes_ok (N.max 1 n * c) (z_acked z) (tick1 cf t (z_w z)) /\ y_since (tick1 cf t (z_w z)) < N.max 1 n /\ os_full (y_cur (tick1 cf t (z_w z)))).
    { unfold tick1. destruct (y_rot_at (z_w z)); [|auto]. destruct (_ <=? t); [|auto]. cbv zeta. destruct (0 <? y_bytes (z_w z)); [|auto].
      destruct (rotate_ok cf t _ H) as (A & B).
      assert (E : y_since (rotate_segment cf t (z_w z)) = 0) by (unfold rotate_segment; rewrite HP; reflexivity).
      split; [|split; [cbn [y_since]; rewrite E; lia|reflexivity]].
      apply (bytes_grow _ _ (rotate_segment cf t (z_w z))); [apply grows_refl|reflexivity|]. apply (bytes_synced cf _ _ (z_w z)); auto. split; reflexivity. }
    destruct T1 as (T1 & T2 & T3). destruct (tick1_ok cf t _ H) as (T4 & _). set (w1 := tick1 cf t (z_w z)) in *.
    assert (T5 : bytes_ok (N.max 1 n * c) (z_acked z) (tick2 t w1) /\ y_since (tick2 t w1) < N.max 1 n).
    { destruct (tick2_ok cf t w1 T4) as (Q1 & Q2). unfold tick2 in *. destruct (y_sync_at w1); [|auto]. destruct (_ <=? t); [|auto]. cbv zeta in *. destruct (0 <? y_since _); [|auto].
      split; [|cbn; lia]. apply (bytes_synced cf _ _ w1); auto. unfold os_full, full in *. cbn in *. auto. }
    exact T5.
  - destruct (shutdown_ok cf t _ H) as (A & B & _ & C & _). destruct (reopen_ok cf _ t A) as (D & E & F & G & _). rewrite G. split; [|lia].
    apply (bytes_synced cf _ _ (z_w z)); auto; [now rewrite E|]. rewrite F. auto.
  - destruct (stopped_ok cf z cmds more H) as (A & B & _). destruct HE as (_ & _ & HE). assert (TC : tl = Clean) by (destruct tl; [reflexivity|discriminate]). destruct (crash_repair_ok cf power _ kept tl t A HE) as (_ & _ & C & _ & D & E & _). specialize (C TC). specialize (D TC). rewrite E. split; [|lia].
    destruct HB as [HB1 HB2]. set (w' := open_log _ _ _) in *.
    pose proof (lost_mono (z_acked z) _ _ (incl_tran B C)). pose proof (lost_mono (z_acked z) _ _ (incl_tran B D)). unfold bytes_ok. rewrite E. nia.
Qed.
Lemma bytes_run cf n : prompt cf -> y_policy cf = IntervalBytes n -> forall es c z, bytes_inv cf n c z -> events_fit cf z es -> Forall (fun e => torn e = false) es -> bytes_inv cf n (c + N.of_nat (crashes es)) (srun cf es z).
Proof.
  intros HC HP. induction es as [|e r IH]; intros c z HI HF HTN; [cbn [crashes filter length srun N.of_nat]; now rewrite N.add_0_r|]. cbn [srun]. destruct HF as [HE HF]. inversion HTN as [|? ? HT1 HT2]; subst.
  pose proof (bytes_step cf n c z e HC HP HI HE HT1) as A. specialize (IH _ _ A HF HT2). unfold crashes in *. cbn [filter]. destruct (crash e); auto.
  replace (c + N.of_nat (length (e :: filter crash r))) with (c + 1 + N.of_nat (length (filter crash r))) by (cbn [length]; lia). exact IH.
Qed.
Theorem bytes_bound cf n t0 es : prompt cf -> y_policy cf = IntervalBytes n -> events_fit cf (sstart cf t0) es -> Forall (fun e => torn e = false) es ->
  let z := srun cf es (sstart cf t0) in
  forall power kept, survives power (y_files (z_w z)) kept -> lost_bytes (z_acked z) (read_back (y_files (z_w z)) kept) < N.max 1 n * (1 + N.of_nat (crashes es)).
Proof.
  intros HC HP HF HTN z power kept HK. assert (A : bytes_inv cf n (0 + N.of_nat (crashes es)) z).
  { apply bytes_run; auto. split; [apply start_ok|]. split; [reflexivity|]. split; [|cbn; lia]. split; cbn; lia. }
  destruct A as (A & _ & (B & _) & C). assert (HK' : survives true (y_files (z_w z)) kept) by (destruct power; auto; apply survives_weaker; auto; now apply (all_fine cf)).
  assert (S : synced (y_policy cf) = true) by now rewrite HP. pose proof (lost_mono (z_acked z) _ _ (found_durable cf _ kept A S HK')). nia.
Qed.

(** *** Time *)
Definition due (d : N) (w : swriter) (acked : list (N * N * N)) : Prop :=
  forall i n a, In (i, n, a) acked -> In (i, n) (durable (y_files w)) \/ exists x, y_sync_at w = Some x /\ x <= a + d.
Definition time_inv (cf : sconf) (d : N) (z : ssys) : Prop :=
  files_ok cf (z_w z) /\ os_full (y_cur (z_w z)) /\ in_files written z /\
  (incl (written (y_files (z_w z))) (durable (y_files (z_w z))) \/ 0 < y_since (z_w z)) /\
  due d (z_w z) (z_acked z) /\ y_timer (z_w z) = earliest (y_sync_at (z_w z)) (y_rot_at (z_w z)).

Lemma enqueue_time cf d x t w : prompt cf -> y_policy cf = IntervalTime d -> files_ok cf w -> os_full (y_cur w) -> 0 < snd x ->
  let r := handle_enqueue cf x t w in y_sync_at (fst r) = y_sync_at w /\
  ((snd r = DCancel /\ incl (written (y_files (fst r))) (durable (y_files (fst r)))) \/ (snd r = DSchedule d /\ 0 < y_since (fst r))).
Proof.
  intros HC HP H HF HX. cbv zeta. assert (S : synced (y_policy cf) = true) by now rewrite HP.
  pose proof (proj1 (enqueue_ok cf x t w H)) as EO. rewrite enqueue_unfold in *. cbv zeta in *. cbn [fst snd] in *.
  set (w1 := put_frame cf x w) in *. destruct (aged_same cf (y_bytes w =? 0) t w1) as (_ & _ & C3 & C4 & _). set (w2 := aged cf (y_bytes w =? 0) t w1) in *.
  assert (D3 : y_since (flush_if_needed cf false t w2) = y_since w + snd x) by (transitivity (y_since w2); [unfold flush_if_needed; destruct (_ || _); auto|rewrite C3; reflexivity]).
  assert (D4 : y_sync_at (flush_if_needed cf false t w2) = y_sync_at w) by (transitivity (y_sync_at w2); [unfold flush_if_needed; destruct (_ || _); auto|rewrite C4; reflexivity]).
  set (w3 := flush_if_needed cf false t w2) in *. unfold maybe_sync in *. rewrite HP in *. unfold maybe_rotate_segment in *. destruct ((y_max_bytes cf =? 0) || (y_bytes w3 <? y_max_bytes cf) || (y_bytes w3 =? 0)); cbn [fst snd] in *.
  - assert (L : 0 <? y_since w3 = true) by (apply N.ltb_lt; lia). rewrite L. cbn [fst snd]. split; auto. right. split; auto. lia.
  - assert (L : y_since (rotate_segment cf t w3) = 0) by (unfold rotate_segment; rewrite HP; reflexivity). rewrite L in *. cbn [N.ltb N.compare fst snd] in *. split.
    + unfold rotate_segment. rewrite HP. cbn [sync_now y_sync_at]. unfold flush_if_needed. cbn [orb y_sync_at]. exact D4.
    + left. split; auto. apply (all_durable cf); auto; [now rewrite HP|split; reflexivity].
Qed.
Lemma batch_time cf d cmds : prompt cf -> y_policy cf = IntervalTime d -> forall id dir w, files_ok cf w -> os_full (y_cur w) -> Forall (fun c => 0 < fst c) cmds -> cmds <> [] ->
  let r := handle_batch cf id cmds dir w in y_sync_at (fst r) = y_sync_at w /\
  ((snd r = DCancel /\ incl (written (y_files (fst r))) (durable (y_files (fst r)))) \/ (snd r = DSchedule d /\ 0 < y_since (fst r))).
Proof.
  intros HC HP. cbv zeta. induction cmds as [|[size t] r IH]; intros id dir w H HF HS HN; [congruence|]. cbn [handle_batch].
  inversion HS as [|? ? S1 S2]; subst. cbn in S1. pose proof (enqueue_time cf d (id, size) t w HC HP H HF S1) as A. pose proof (enqueue_clear cf (id, size) t w HC HF) as C.
  pose proof (proj1 (enqueue_ok cf (id, size) t w H)) as D. cbv zeta in A. destruct (handle_enqueue cf (id, size) t w) as [w1 d1]. cbn [fst snd] in *.
  destruct r as [|c r]; [exact A|]. destruct A as (A & _). destruct (IH (id + 1) d1 w1 D C S2) as (B1 & B2); [discriminate|]. split; [congruence|exact B2].
Qed.
Lemma numbered_time i n a id cmds t : In (i, n, a) (numbered id cmds t) -> a = t.
Proof. revert id. induction cmds as [|[s u] r IH]; intros id; cbn; [tauto|]. intros [E|H]; [congruence|eauto]. Qed.
Lemma due_all d w z : in_files written z -> y_files (z_w z) = y_files w -> incl (written (y_files w)) (durable (y_files w)) -> due d w (z_acked z).
Proof. intros A E B i n a Ha. left. apply B. rewrite <- E. eauto. Qed.

Lemma time_step cf d z e : prompt cf -> y_policy cf = IntervalTime d -> time_inv cf d z -> event_fits cf z e -> crash e = false -> time_inv cf d (sstep cf z e).
Proof.
  intros HC HP (H & HF & HW & HL & HD & HT) HE HN. assert (S : synced (y_policy cf) = true) by now rewrite HP.
  split; [now apply step_ok|]. split; [now apply step_clear|]. pose proof (step_written cf z e H HN HW) as HW'. split; auto.
  assert (FULL : forall z', z' = sstep cf z e -> incl (written (y_files (z_w z'))) (durable (y_files (z_w z'))) -> due d (z_w z') (z_acked z')).
  { intros z' -> HI. apply (due_all d (z_w (sstep cf z e)) (sstep cf z e)); auto. }
  destruct e as [cmds t|t|t|t|power cmds more kept tl t]; [| | | |discriminate].
  - specialize (FULL _ eq_refl). destruct cmds as [|c cmds]; [cbn [sstep handle_batch numbered] in *; rewrite app_nil_r in *; cbn [z_w z_acked]; auto|].
    assert (NE : c :: cmds <> []) by discriminate. destruct (batch_time cf d (c :: cmds) HC HP (z_next z) DNone (z_w z) H HF HE NE) as (A & B).
    destruct (batch_ok cf (c :: cmds) (z_next z) DNone (z_w z) H) as (_ & (G & _)).
    cbn [sstep] in *. destruct (handle_batch cf (z_next z) (c :: cmds) DNone (z_w z)) as [w' dir]. cbn [fst snd z_w z_acked] in *.
    rewrite directive_since. rewrite directive_files in FULL |- *. destruct B as [[-> B]|[-> B]].
    + split; auto.
    + split; auto. split; [|reflexivity]. intros i n a Ha. rewrite directive_files. cbn [apply_directive recompute_timer with_sync_at y_sync_at]. apply in_app_or in Ha as [Ha|Ha].
      * destruct (HD i n a Ha) as [Hd|(x & X1 & X2)]; [left; auto|]. right. rewrite A, X1. eexists. split; [reflexivity|]. lia.
      * apply numbered_time in Ha. subst a. right. destruct (y_sync_at w'); eexists; (split; [reflexivity|]); lia.
  - specialize (FULL _ eq_refl). cbn [sstep z_w z_acked] in *. unfold rotation_request in *. destruct (y_bytes (z_w z) =? 0); [auto|].
    assert (A : incl (written (y_files (apply_directive DCancel t (rotate_segment cf t (z_w z))))) (durable (y_files (apply_directive DCancel t (rotate_segment cf t (z_w z)))))).
    { rewrite directive_files. destruct (rotate_ok cf t _ H) as (A & _). apply (all_durable cf); auto. split; reflexivity. }
    auto.
  - specialize (FULL _ eq_refl). cbn [sstep z_w z_acked] in *. rewrite tick_unfold in *. split; [|split; [|reflexivity]].
    + change (incl (written (y_files (tick2 t (tick1 cf t (z_w z))))) (durable (y_files (tick2 t (tick1 cf t (z_w z))))) \/ 0 < y_since (tick2 t (tick1 cf t (z_w z)))).
      assert (T1 : (incl (written (y_files (tick1 cf t (z_w z)))) (durable (y_files (tick1 cf t (z_w z)))) \/ 0 < y_since (tick1 cf t (z_w z))) /\ os_full (y_cur (tick1 cf t (z_w z)))).
      { destruct (rotate_ok cf t _ H) as (A & _). unfold tick1. destruct (y_rot_at (z_w z)); [|auto]. destruct (_ <=? t); [|auto]. cbv zeta. destruct (0 <? y_bytes (z_w z)); [|auto]. split; [|reflexivity].
        left. apply (all_durable cf (rotate_segment cf t (z_w z))); auto. split; reflexivity. }
      destruct T1 as (T1 & T2). destruct (tick1_ok cf t _ H) as (T3 & _). set (w1 := tick1 cf t (z_w z)) in *. destruct (tick2_ok cf t w1 T3) as (T4 & _).
      unfold tick2 in *. destruct (y_sync_at w1); [|auto]. destruct (_ <=? t); [|auto]. cbv zeta in *. destruct (0 <? y_since _); [|auto].
      left. apply (all_durable cf); auto. unfold os_full, full in *. cbn in *. auto.
    + intros i n a Ha. change (In (i, n) (durable (y_files (tick2 t (tick1 cf t (z_w z))))) \/ exists x, y_sync_at (tick2 t (tick1 cf t (z_w z))) = Some x /\ x <= a + d).
      assert (T1 : (incl (written (y_files (tick1 cf t (z_w z)))) (durable (y_files (tick1 cf t (z_w z)))) \/ 0 < y_since (tick1 cf t (z_w z))) /\ os_full (y_cur (tick1 cf t (z_w z)))).
      { destruct (rotate_ok cf t _ H) as (A & _). unfold tick1. destruct (y_rot_at (z_w z)); [|auto]. destruct (_ <=? t); [|auto]. cbv zeta. destruct (0 <? y_bytes (z_w z)); [|auto]. split; [|reflexivity].
        left. apply (all_durable cf (rotate_segment cf t (z_w z))); auto. split; reflexivity. }
      destruct T1 as (T1 & T2). destruct (tick1_ok cf t _ H) as (T3 & (G1 & _ & G3)).
      assert (SA : y_sync_at (tick1 cf t (z_w z)) = y_sync_at (z_w z)).
      { unfold tick1, rotate_segment, flush_if_needed. rewrite HP. destruct (y_rot_at (z_w z)); [|auto]. destruct (_ <=? t); [|auto]. cbv zeta. destruct (0 <? y_bytes (z_w z)); reflexivity. }
      specialize (HW i n a Ha). specialize (HD i n a Ha). set (w1 := tick1 cf t (z_w z)) in *. destruct (tick2_ok cf t w1 T3) as (T4 & (G4 & _ & G6)).
      destruct HD as [HD|(x & X1 & X2)]; [left; auto|]. rewrite X1 in SA. unfold tick2 in *. rewrite SA in *. destruct (x <=? t); [|right; exists x; auto]. cbv zeta in *. left.
      destruct (N.ltb_spec 0 (y_since (with_sync_at w1 None))) as [L|L].
      * apply (all_durable cf); auto. unfold os_full, full in *. cbn in *. auto.
      * cbn in L. destruct T1 as [T1|T1]; [|lia]. apply T1. auto.
  - specialize (FULL _ eq_refl). cbn [sstep z_w z_acked] in *. destruct (shutdown_ok cf t _ H) as (A & B & _ & C & _). destruct (reopen_ok cf _ t A) as (D & E & F & G & _).
    assert (X : incl (written (y_files (open_log cf (y_files (shutdown cf t (z_w z))) t))) (durable (y_files (open_log cf (y_files (shutdown cf t (z_w z))) t)))).
    { apply (all_durable cf); auto. rewrite F. auto. }
    split; auto. split; auto. apply open_timer.
Qed.
Theorem time_safe cf d t0 es : prompt cf -> y_policy cf = IntervalTime d -> events_fit cf (sstart cf t0) es -> Forall (fun e => crash e = false) es ->
  let z := srun cf es (sstart cf t0) in
  forall late now, on_time late z now -> forall i n a, In (i, n, a) (z_acked z) -> a + d + late < now -> forall power, safe power z i.
Proof.
  intros HC HP HF HN z late now HO i n a Ha HL power.
  assert (A : time_inv cf d z).
  { apply (run_inv cf (time_inv cf d) (fun e => crash e = false)); auto.
    - intros z' e HI HE HN'. now apply time_step.
    - split; [apply start_ok|]. split; [reflexivity|]. split; [intros ? ? ? []|]. split; [left; intros ? []|]. split; [intros ? ? ? []|]. apply open_timer. }
  destruct A as (A & _ & _ & _ & B & C). intros kept HK. assert (S : synced (y_policy cf) = true) by now rewrite HP.
  apply (in_map fst (read_back _ _) (i, n)). apply (found_durable cf); auto; [destruct power; auto; apply survives_weaker; auto; now apply (all_fine cf)|].
  destruct (B i n a Ha) as [Hd|(x & X1 & X2)]; auto. exfalso. unfold on_time in HO. rewrite C, X1 in HO. cbn in HO. destruct (y_rot_at (z_w z)); lia.
Qed.

Theorem tick_clears cf t w : match y_timer (timer_elapsed cf t w) with Some x => t < x | None => True end.
Proof.
  rewrite tick_unfold. cbn [recompute_timer y_timer].
  assert (R : match y_rot_at (tick1 cf t w) with Some x => t < x | None => True end).
  { unfold tick1. destruct (y_rot_at w) as [x|] eqn:E; [|now rewrite E]. destruct (N.leb_spec x t); [exact I|now rewrite E]. }
  set (w1 := tick1 cf t w) in *.
  assert (R' : y_rot_at (tick2 t w1) = y_rot_at w1) by (unfold tick2; destruct (y_sync_at w1); auto; destruct (_ <=? t); auto; cbv zeta; destruct (0 <? _); auto).
  assert (Q : match y_sync_at (tick2 t w1) with Some x => t < x | None => True end).
  { unfold tick2. destruct (y_sync_at w1) as [x|] eqn:E; [|now rewrite E]. destruct (N.leb_spec x t); [|now rewrite E]. cbv zeta. destruct (0 <? _); exact I. }
  rewrite R'. destruct (y_sync_at (tick2 t w1)), (y_rot_at w1); cbn; auto; lia.
Qed.
