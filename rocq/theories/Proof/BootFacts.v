(** Opening the log for writing: proofs. *)
From Coq Require Import List NArith PeanoNat Bool Lia.
From Verif Require Import Model.Columns Model.Frame Model.WalScan Model.WalWriter Model.WalBoot Spec.WalSpec Spec.BootSpec
     Proof.FrameFacts Proof.LogStockFacts Proof.WalDemo.
Import ListNotations.
Local Open Scope N_scope.

Lemma log_nil l : log_bytes l = [] <-> l = [].
Proof.
  split; [|now intros ->]. destruct l as [|f l]; [reflexivity|]. intros E. apply (f_equal (@length N)) in E.
  unfold log_bytes in E. cbn [map concat] in E. rewrite app_length, wbytes_length in E. cbn in E. lia.
Qed.
Lemma load_ok s l : Forall frame_ok l -> l <> [] -> exists b, bounds_of s l = Some b /\ load_bounds s (log_bytes l) = Ok b.
Proof.
  intros H NE. unfold load_bounds. rewrite (bounds_all l H). destruct l as [|f l]; [congruence|]. cbn [bounds_of]. eauto.
Qed.
Lemma rehydrate_ok st segs : honest segs st -> Forall (fun x => Forall frame_ok (snd x)) segs ->
  rehydrate (match st with Some w => st_sealed w | None => [] end) (dir_of segs) = Ok (all_bounds segs).
Proof.
  intros HH HS. set (sealed := match st with Some w => st_sealed w | None => [] end).
  assert (HB : forall r l, In r sealed -> In (r_seq r, l) segs -> l <> [] -> bounds_of (r_seq r) l = Some r).
  { intros r l Hr. unfold sealed in Hr. destruct st as [w|]; [|destruct Hr]. now apply (HH w r l). }
  clearbody sealed. clear HH. induction HS as [|[s l] segs H _ IH]; [reflexivity|].
  specialize (IH ltac:(intros r m A B C; apply HB; [exact A|right; exact B|exact C])).
  cbn [dir_of map rehydrate fst snd]. fold (dir_of segs). cbn [snd] in H.
  destruct (log_bytes l) as [|b0 bs] eqn:E.
  - apply log_nil in E. subst l. exact IH.
  - assert (NE : l <> []) by (intros ->; discriminate).
    destruct (load_ok s l H NE) as (b & B1 & B2). rewrite <- E.
    assert (L : match sealed_lookup sealed s with Some b => Ok b | None => load_bounds s (log_bytes l) end = Ok b).
    { unfold sealed_lookup. destruct (find _ (rev sealed)) as [r|] eqn:F; [|exact B2]. apply find_some in F as [F1 F2].
      apply in_rev in F1. apply N.eqb_eq in F2. rewrite <- F2 in B1.
      rewrite (HB r l F1 ltac:(rewrite F2; left; reflexivity) NE) in B1. injection B1 as ->. reflexivity. }
    rewrite L, IH. unfold all_bounds. cbn [flat_map fst snd]. rewrite B1. reflexivity.
Qed.
Lemma last_bounds s l : Forall frame_ok l ->
  (match log_bytes l with [] => Ok None | _ => match load_bounds s (log_bytes l) with Ok b => Ok (Some b) | Err e => Err e end end)
  = Ok (bounds_of s l).
Proof.
  intros H. destruct (log_bytes l) as [|b0 bs] eqn:E.
  - apply log_nil in E. now subst l.
  - assert (NE : l <> []) by (intros ->; discriminate). rewrite <- E. destruct (load_ok s l H NE) as (b & B1 & B2). now rewrite B2, B1.
Qed.
Lemma sat1_le a b : a <= b -> sat1 a <= sat1 b.
Proof. unfold sat1. lia. Qed.

Ltac tail_rw T :=
  match goal with |- context [tail_metadata ?d] => let T' := fresh in assert (T' : tail_metadata d = _) by exact T; rewrite T'; clear T' end.
Theorem boot_ok first st segs s last k n :
  Forall (fun x => Forall frame_ok (snd x)) segs -> Forall frame_ok last -> Forall long_enough last ->
  (k <= length (log_bytes last))%nat -> whole_frames last k n -> honest segs st ->
  exists b, boot first st (dir_of segs ++ [(s, firstn k (log_bytes last))]) = Ok b /\
    bt_files b = dir_of segs ++ [(s, log_bytes (firstn n last))] /\
    bt_closed b = all_bounds segs /\ bt_active b = bounds_of s (firstn n last) /\
    bt_seg b = s /\ bt_bytes b = length (log_bytes (firstn n last)) /\
    (forall f, In f (match rev (firstn n last) with f :: _ => [f] | [] => [] end) -> sat1 (wf_seq f) <= bt_frame b) /\
    (forall w x, st = Some w -> st_frame w = Some x -> sat1 x <= bt_frame b) /\
    sat1 s <= bt_next b /\ (forall w x, st = Some w -> st_seg w = Some x -> sat1 x <= bt_next b) /\
    match st with
    | Some _ => exists w', bt_state b = Some w' /\ st_sealed w' = all_bounds segs /\ st_active w' = bounds_of s (firstn n last)
    | None => bt_state b = None
    end.
Proof.
  intros HS HL HT HK HW HH. unfold boot.
  pose proof (tail_repair (dir_of segs) s last k n HL HT HK HW) as T. tail_rw T. clear T.
  cbv zeta. cbn [tm_last_frame tm_active tm_bytes].
  rewrite removelast_last, last_last, (rehydrate_ok st segs HH HS).
  assert (HF : Forall frame_ok (firstn n last)).
  { rewrite <- (firstn_skipn n last) in HL. apply Forall_app in HL. apply HL. }
  pose proof (last_bounds s (firstn n last) HF) as LB. rewrite LB. eexists. split; [reflexivity|]. cbn [bt_files bt_closed bt_active bt_seg bt_bytes bt_frame bt_next bt_state].
  do 5 (split; [reflexivity|]). split; [|split; [|split; [|split]]].
  - intros f Hf. destruct (rev (firstn n last)) as [|g r]; [destruct Hf|]. destruct Hf as [->|[]].
    destruct st as [w|]; [destruct (st_frame w)|]; lia.
  - intros w x -> E. rewrite E. lia.
  - destruct st as [w|]; [destruct (st_seg w)|]; lia.
  - intros w x -> E. rewrite E. lia.
  - destruct st as [w|]; [|reflexivity]. eexists. split; [reflexivity|]. split; reflexivity.
Qed.
(** What it writes into the state file is right again. *)
Lemma bounds_seq s l b : bounds_of s l = Some b -> r_seq b = s.
Proof. destruct l; [discriminate|]. cbn. intros H. now injection H as <-. Qed.
Lemma all_honest segs w : NoDup (map fst segs) -> st_sealed w = all_bounds segs -> honest segs (Some w).
Proof.
  intros ND E w' r l W Hr Hl NE. injection W as <-. rewrite E in Hr. unfold all_bounds in Hr.
  apply in_flat_map in Hr as ([q m] & Hm & Hr). cbn [fst snd] in Hr.
  destruct (bounds_of q m) as [b|] eqn:B; [|destruct Hr]. destruct Hr as [->|[]].
  pose proof (bounds_seq _ _ _ B) as Q. rewrite Q in *.
  assert (M : m = l).
  { clear - ND Hm Hl. induction segs as [|[x y] segs IH]; [destruct Hm|]. cbn in ND. inversion ND as [|? ? N1 N2]; subst.
    destruct Hm as [Hm|Hm], Hl as [Hl|Hl].
    - injection Hm as -> ->. now injection Hl as ->.
    - injection Hm as -> ->. elim N1. apply (in_map fst) in Hl. exact Hl.
    - injection Hl as -> ->. elim N1. apply (in_map fst) in Hm. exact Hm.
    - now apply IH. }
  now subst m.
Qed.

(** *** A closed segment that lost its end *)
Lemma torn_frames l k n : Forall frame_ok l -> (k <= length (log_bytes l))%nat -> whole_frames l k n ->
  k <> length (log_bytes (firstn n l)) -> segment_frames (firstn k (log_bytes l)) = (map read_back (firstn n l), Torn).
Proof.
  intros HL HK HW NE. rewrite (c15_frames l k n HL HK HW). destruct (Nat.eqb_spec k (length (log_bytes (firstn n l)))); [contradiction|reflexivity].
Qed.
Lemma torn_some l k n : Forall frame_ok l -> (k <= length (log_bytes l))%nat -> whole_frames l k n ->
  k <> length (log_bytes (firstn n l)) -> exists b bs, firstn k (log_bytes l) = b :: bs.
Proof.
  intros HL HK (_ & W & _) NE. destruct (firstn k (log_bytes l)) as [|b bs] eqn:E; [|eauto].
  apply (f_equal (@length N)) in E. rewrite firstn_length_le in E by exact HK. cbn in E. lia.
Qed.
Lemma rehydrate_app sealed a b : rehydrate sealed (a ++ b) =
  match rehydrate sealed a with
  | Err e => Err e
  | Ok x => match rehydrate sealed b with Err e => Err e | Ok y => Ok (x ++ y) end
  end.
Proof.
  induction a as [|[q bs] a IH]; [cbn; now destruct (rehydrate sealed b)|]. cbn [app rehydrate]. destruct bs as [|c bs]; [exact IH|].
  destruct (match sealed_lookup sealed q with Some b => Ok b | None => load_bounds q (c :: bs) end); [|reflexivity].
  rewrite IH. destruct (rehydrate sealed a); [|reflexivity]. destruct (rehydrate sealed b); reflexivity.
Qed.
Lemma tail_last d s last : Forall frame_ok last -> Forall long_enough last ->
  exists tm, tail_metadata (d ++ [(s, log_bytes last)]) = Ok (Some tm, d ++ [(s, log_bytes last)]).
Proof.
  intros HL HT. pose proof (tail_repair d s last (length (log_bytes last)) (length last) HL HT ltac:(lia)) as T.
  rewrite !firstn_all in T. eexists. apply T. split; [lia|]. rewrite firstn_all. split; [lia|]. now left.
Qed.
Theorem torn_closed_fails first st a q l k n b s last :
  Forall (fun x => Forall frame_ok (snd x)) a -> honest a st ->
  Forall frame_ok l -> (k <= length (log_bytes l))%nat -> whole_frames l k n -> k <> length (log_bytes (firstn n l)) ->
  (forall w r, st = Some w -> In r (st_sealed w) -> r_seq r <> q) ->
  Forall frame_ok last -> Forall long_enough last ->
  boot first st (torn_inside a q l k (b ++ [(s, log_bytes last)])) = Err TruncHeader.
Proof.
  intros HA HH HL HK HW NE HQ HL2 HT2. unfold boot, torn_inside.
  change ((q, firstn k (log_bytes l)) :: b ++ [(s, log_bytes last)]) with (((q, firstn k (log_bytes l)) :: b) ++ [(s, log_bytes last)]).
  rewrite app_assoc. destruct (tail_last (dir_of a ++ (q, firstn k (log_bytes l)) :: b) s last HL2 HT2) as (tm & E). tail_rw E.
  cbv zeta. rewrite removelast_last, rehydrate_app, (rehydrate_ok st a HH HA). cbn [rehydrate].
  destruct (torn_some l k n HL HK HW NE) as (c & bs & EB). rewrite EB.
  assert (L : sealed_lookup (match st with Some w => st_sealed w | None => [] end) q = None).
  { unfold sealed_lookup. destruct (find _ _) as [r|] eqn:F; [|reflexivity]. apply find_some in F as [F1 F2].
    apply in_rev in F1. apply N.eqb_eq in F2. destruct st as [w|]; [|destruct F1]. elim (HQ w r eq_refl F1 F2). }
  rewrite L. unfold load_bounds, frame_bounds. rewrite <- EB, (torn_frames l k n HL HK HW NE). reflexivity.
Qed.
Section Stuck.
  Variable array : Type.
  Variable array_len : array -> nat.
  Variable ipc_write : batch array -> bytes.
  Variable ipc_read : bytes -> option (list (batch array)).
  Notation carries := (carries array array_len ipc_write ipc_read).
  Theorem torn_closed_stuck floor a q l k n later evs :
    Forall (fun x => Forall frame_ok (snd x)) a -> Forall frame_ok l ->
    (k <= length (log_bytes l))%nat -> whole_frames l k n -> k <> length (log_bytes (firstn n l)) ->
    (match floor with Some f => r_seq f <= q | None => True end) ->
    Forall2 carries (kept_frames floor (a ++ [(q, firstn n l)])) evs ->
    scan_segments array array_len ipc_read floor (torn_inside a q l k later) = Ok evs.
  Proof.
    intros HA HL HK HW NE HQ. unfold torn_inside. revert evs. induction HA as [|[p m] a Hp HA IH]; intros evs HE.
    - cbn [dir_of map app scan_segments]. rewrite app_nil_l in HE. rewrite kept_one in HE.
      assert (B : (match floor with Some f => q <? r_seq f | None => false end) = false).
      { destruct floor as [f|]; [|reflexivity]. now apply N.ltb_ge. }
      rewrite B, (torn_frames l k n HL HK HW NE).
      rewrite (events_seg array array_len ipc_write ipc_read floor q _ evs B HE). reflexivity.
    - cbn [dir_of map app scan_segments fst snd]. fold (dir_of a).
      cbn [app] in HE. rewrite kept_cons in HE. apply Forall2_split in HE as (x & y & -> & H1 & H2).
      specialize (IH y H2).
      destruct (match floor with Some f => p <? r_seq f | None => false end) eqn:B.
      + destruct floor as [f|]; [|discriminate]. unfold kept_seg in H1. rewrite B in H1. inversion H1. exact IH.
      + cbn in Hp. rewrite (log_all m Hp).
        rewrite (events_seg array array_len ipc_write ipc_read floor p m x B H1), IH. reflexivity.
  Qed.
End Stuck.
Theorem torn_closed_opens first w a q l k n s last r :
  Forall (fun x => Forall frame_ok (snd x)) a -> honest a (Some w) ->
  Forall frame_ok l -> (k <= length (log_bytes l))%nat -> whole_frames l k n -> k <> length (log_bytes (firstn n l)) ->
  In r (st_sealed w) -> r_seq r = q -> Forall frame_ok last -> Forall long_enough last ->
  exists b, boot first (Some w) (torn_inside a q l k [(s, log_bytes last)]) = Ok b /\
    bt_files b = torn_inside a q l k [(s, log_bytes last)].
Proof.
  intros HA HH HL HK HW NE HR HQ HL2 HT2. unfold boot, torn_inside.
  change ((q, firstn k (log_bytes l)) :: [(s, log_bytes last)]) with ([(q, firstn k (log_bytes l))] ++ [(s, log_bytes last)]).
  rewrite app_assoc. destruct (tail_last (dir_of a ++ [(q, firstn k (log_bytes l))]) s last HL2 HT2) as (tm & E). tail_rw E.
  cbv zeta. rewrite removelast_last, last_last, rehydrate_app.
  pose proof (rehydrate_ok (Some w) a HH HA) as RA. cbn [st_sealed] in RA. rewrite RA. cbn [rehydrate].
  destruct (torn_some l k n HL HK HW NE) as (c & bs & EB). rewrite EB.
  assert (L : exists x, sealed_lookup (st_sealed w) q = Some x).
  { unfold sealed_lookup. destruct (find _ _) as [x|] eqn:F; [eauto|]. pose proof (find_none _ _ F r) as G.
    rewrite <- in_rev in G. specialize (G HR). cbv beta in G. rewrite HQ, N.eqb_refl in G. discriminate. }
  destruct L as [x L]. rewrite L.
  pose proof (last_bounds s last HL2) as LB.
  destruct (log_bytes last) as [|b0 b1] eqn:EL; [eexists; split; reflexivity|].
  destruct (load_bounds s (b0 :: b1)); [|discriminate]. eexists; split; reflexivity.
Qed.

(** *** Examples *)
Definition boot_state : wal_state := mkWS (Some 2) (Some 5) [mkRef 1 1 9; mkRef 2 1 7] None.
Lemma demo_long : Forall long_enough demo_frames.
Proof. unfold demo_frames. repeat (constructor; [vm_compute; repeat constructor|]). constructor. Qed.
Lemma demo_cut : whole_frames demo_frames 180 4 /\ 180%nat <> length (log_bytes (firstn 4 demo_frames)).
Proof.
  split; [|vm_compute; discriminate].
  split; [vm_compute; repeat constructor|]. split; [vm_compute; repeat constructor|]. right. vm_compute. repeat constructor.
Qed.
Lemma boot_honest : honest [(2, demo_frames)] (Some boot_state).
Proof.
  intros w r l W Hr Hl _. injection W as <-. destruct Hr as [<-|[<-|[]]]; destruct Hl as [Hl|[]]; [discriminate|].
  injection Hl as <-. reflexivity.
Qed.
Lemma boot_demo :
  Forall frame_ok demo_frames /\ Forall long_enough demo_frames /\ whole_frames demo_frames 180 4 /\
  honest [(2, demo_frames)] (Some boot_state) /\
  exists b, boot 0 (Some boot_state) (dir_of [(2, demo_frames)] ++ [(3, firstn 180 (log_bytes demo_frames))]) = Ok b /\
    bt_closed b = [mkRef 2 1 7] /\ bt_active b = Some (mkRef 3 1 4) /\ bt_frame b = 6 /\ bt_next b = 4.
Proof.
  split; [exact demo_frames_ok|]. split; [exact demo_long|]. split; [apply demo_cut|]. split; [exact boot_honest|].
  eexists. split; [vm_compute; reflexivity|]. vm_compute. repeat split.
Qed.
Lemma torn_demo :
  whole_frames demo_frames 180 4 /\ 180%nat <> length (log_bytes (firstn 4 demo_frames)) /\
  boot 0 None (torn_inside [(1, demo_frames)] 2 demo_frames 180 ([] ++ [(3, log_bytes demo_frames)])) = Err TruncHeader /\
  Forall2 (carries unit demo_len demo_write demo_read) (kept_frames (Some (mkRef 2 1 7)) ([(1, demo_frames)] ++ [(2, firstn 4 demo_frames)]))
    (firstn 4 demo_events) /\
  scan_segments unit demo_len demo_read (Some (mkRef 2 1 7)) (torn_inside [(1, demo_frames)] 2 demo_frames 180 [(3, log_bytes demo_frames)])
    = Ok (firstn 4 demo_events).
Proof.
  destruct demo_cut as [C1 C2]. split; [exact C1|]. split; [exact C2|]. split; [|split].
  - apply (torn_closed_fails 0 None [(1, demo_frames)] 2 demo_frames 180 4 [] 3 demo_frames).
    + constructor; [exact demo_frames_ok|constructor].
    + intros w r l W. discriminate.
    + exact demo_frames_ok.
    + vm_compute. repeat constructor.
    + exact C1.
    + exact C2.
    + intros w r W. discriminate.
    + exact demo_frames_ok.
    + exact demo_long.
  - pose proof demo_carries as H. unfold demo_events in *.
    change (kept_frames (Some (mkRef 2 1 7)) ([(1, demo_frames)] ++ [(2, firstn 4 demo_frames)])) with (firstn 4 demo_frames).
    inversion H as [|? ? ? ? A0 H1]; subst. inversion H1 as [|? ? ? ? A1 H2]; subst. inversion H2 as [|? ? ? ? A2 H3]; subst.
    inversion H3 as [|? ? ? ? A3 H4]; subst.
    apply Forall2_cons; [exact A0|]. apply Forall2_cons; [exact A1|]. apply Forall2_cons; [exact A2|]. apply Forall2_cons; [exact A3|]. apply Forall2_nil.
  - vm_compute. reflexivity.
Qed.

(** An empty directory. *)
Lemma boot_empty : forall first st, exists b, boot first st [] = Ok b /\
  bt_files b = [(first, [])] /\ bt_closed b = [] /\ bt_active b = None /\ bt_seg b = first /\ bt_bytes b = 0%nat /\ 1 <= bt_frame b /\
  (forall w x, st = Some w -> st_frame w = Some x -> sat1 x <= bt_frame b) /\
  sat1 first <= bt_next b /\ (forall w x, st = Some w -> st_seg w = Some x -> sat1 x <= bt_next b) /\
  match st with Some _ => exists w', bt_state b = Some w' /\ st_sealed w' = [] /\ st_active w' = None | None => bt_state b = None end.
Proof.
  intros first st. eexists. split; [reflexivity|]. cbn [bt_files bt_closed bt_active bt_seg bt_bytes bt_frame bt_next bt_state].
  repeat split; auto.
  - destruct st as [w|]; [destruct (st_frame w)|]; lia.
  - intros w x -> ->. lia.
  - destruct st as [w|]; [destruct (st_seg w)|]; lia.
  - intros w x -> ->. lia.
  - destruct st as [w|]; [|reflexivity]. eexists. split; [reflexivity|]. split; reflexivity.
Qed.
