(** C56, second part: the floor never passes the frames of a write that is not in an SST. *)
From Coq Require Import List Arith NArith Bool Lia Sorting.Sorted.
From Verif Require Import Model.Sched Model.LogRace Spec.RaceSpec Proof.RaceInv.
Import ListNotations.
Local Open Scope N_scope.

Definition above (s : lstate) (ws : list nat) (p : option N) : Prop :=
  match p with
  | None => True
  | Some q => q <= ls_active s /\
      forall g f, In g (ls_log s) -> In f (snd g) -> ~ In (lf_w f) (ls_sst s) -> ~ In (lf_w f) ws -> q <= fst g
  end.
(** Every write but [j] that is in the log and in no SST was covered by the live floor [p]. *)
Definition prev_ok (s : lstate) (j : nat) (p : option N) : Prop :=
  forall i t n, th s i = Some t -> i <> j -> ~ In i (ls_sst s) -> In n (lt_nos t) -> exists v, p = Some v /\ v <= n.
Definition before_floor (t : lthread) : bool :=
  match lt_kind t, lt_pc t with
  | WkCommit, (LAppend | LRecord | LInsert | LFloor | LCollect _) => true
  | _, _ => false
  end.

Record InvD (s : lstate) : Prop := mkD {
  d_present : forall i t n, th s i = Some t -> ~ In i (ls_sst s) -> In n (lt_nos t) ->
              exists g, In g (ls_log s) /\ In (mkLF n i) (snd g);
  d_floor : above s [] (ls_floor s);
  d_thread : forall i t, th s i = Some t ->
             match lt_pc t with LPublish f | LPrune f => above s [] (Some f) | _ => True end;
  d_commit : forall j t, th s j = Some t -> before_floor t = true -> prev_ok s j (lt_prev t);
  d_flush : match ls_flush s with
            | LFLive ws n c v => v = option_map fst (ls_mrange s)
            | LFReady ws n f => above s ws f
            | LFPrune n p => above s [] (Some p)
            | _ => True
            end
}.

(** *** The enumeration of the log *)
Lemma last_ge l : StronglySorted N.lt l -> forall n, In n l -> n <= last l 0.
Proof.
  induction l as [|a l IH]; intros S n H; [destruct H|]. inversion S as [|? ? S1 S2]; subst.
  destruct l as [|b l]; cbn [last].
  - destruct H as [->|[]]. lia.
  - destruct H as [->|H]; [|now apply IH]. rewrite Forall_forall in S2.
    specialize (IH S1 b (or_introl eq_refl)). specialize (S2 b (or_introl eq_refl)). cbn [last] in IH. lia.
Qed.
Lemma head_le (p : lseg -> bool) l g0 r g : StronglySorted N.lt (map fst l) -> filter p l = g0 :: r -> In g l -> p g = true ->
  fst g0 <= fst g.
Proof.
  intros S E H P. assert (S' := sorted_filter p l S). rewrite E in S'. cbn in S'. inversion S' as [|? ? S1 S2]; subst.
  assert (In g (g0 :: r)) as [->|H1] by (rewrite <- E; apply filter_In; auto); [lia|].
  rewrite Forall_forall in S2. specialize (S2 (fst g) (in_map _ _ _ H1)). lia.
Qed.
Lemma collect_above s c v f : InvA s -> collect c (Some v) (ls_log s) = Some f ->
  forall g x, In g (ls_log s) -> In x (snd g) -> v <= lf_no x -> f <= fst g.
Proof.
  intros HA H g x Hg Hx L. unfold collect in H. destruct (filter _ _) as [|g0 r] eqn:E; [discriminate|]. injection H as <-.
  apply (head_le _ _ _ _ _ (a_sorted _ HA) E Hg). unfold required. destruct (snd g) eqn:EG; [destruct Hx|]. rewrite <- EG in *.
  apply orb_true_iff. left. apply N.leb_le. unfold last_no.
  assert (lf_no x <= last (map lf_no (snd g)) 0); [|lia]. apply last_ge; [apply (a_inner _ HA g Hg)|now apply in_map].
Qed.
Lemma collect_active s c v f : InvA s -> collect c v (ls_log s) = Some f -> f <= ls_active s.
Proof.
  intros HA H. unfold collect in H. destruct (filter _ _) as [|g0 r] eqn:E; [discriminate|]. injection H as <-.
  apply (a_active _ HA). assert (In g0 (filter (required c v) (ls_log s))) as Q by (rewrite E; now left). apply filter_In in Q. tauto.
Qed.

(** *** The live floor *)
Lemma omin_l a b x : a = Some x -> exists y, omin a b = Some y /\ y <= x.
Proof. intros ->. destruct b; cbn; eexists; split; eauto; lia. Qed.
Lemma omin_r a b x : b = Some x -> exists y, omin a b = Some y /\ y <= x.
Proof. intros ->. destruct a; cbn; eexists; split; eauto; lia. Qed.
Lemma live_fold l m x : m = Some x -> exists y,
  fold_left (fun m (g : list nat * option (N * N)) => omin m (option_map fst (snd g))) l m = Some y /\ y <= x.
Proof.
  revert m x. induction l as [|g l IH]; intros m x H; cbn; [exists x; split; auto; lia|].
  destruct (omin_l m (option_map fst (snd g)) x H) as (y & Y1 & Y2). destruct (IH _ _ Y1) as (z & Z1 & Z2). exists z. split; auto. lia.
Qed.
Lemma live_fold_in l m g x : In g l -> option_map fst (snd g) = Some x -> exists y,
  fold_left (fun m (g : list nat * option (N * N)) => omin m (option_map fst (snd g))) l m = Some y /\ y <= x.
Proof.
  revert m. induction l as [|h l IH]; intros m H E; [destruct H|]. cbn. destruct H as [->|H]; [|now apply IH].
  destruct (omin_r m _ x E) as (y & Y1 & Y2). destruct (live_fold l _ _ Y1) as (z & Z1 & Z2). exists z. split; auto. lia.
Qed.

(** With nobody sealing and no write open, a write in the log is in an SST, in a sealed
    segment or in the memtable. *)
Lemma quiet_loc s i t n : InvC s -> th s i = Some t -> In n (lt_nos t) -> wf t -> open_write t = false ->
  (forall j u, th s j = Some u -> sealing u i -> False) ->
  In i (ls_sst s) \/ (exists e, In e (ls_imm s) /\ In i (fst e)) \/ In i (ls_mem s).
Proof.
  intros HC HT HN (W1 & W2 & W3) HO HS. assert (IN : inserted t = true).
  { unfold open_write in HO. unfold inserted. destruct (lt_pc t); auto.
    - destruct W3 as [W3 _]. rewrite W3 in HN. destruct HN.
    - destruct (lt_nos t); [destruct HN|discriminate]. }
  destruct (c_loc _ HC i t HT IN) as [L|[L|[(j & u & L1 & L2)|L]]]; auto. destruct (HS j u L1 L2).
Qed.
Lemma not_sealing u i : critical_write u = false -> sealing u i -> False.
Proof. unfold critical_write, sealing. destruct (lt_pc u); auto; discriminate. Qed.

(** *** What keeps [above] *)
Lemma above_mono s s' ws ws' p : above s ws p -> ls_active s <= ls_active s' ->
  (forall g, In g (ls_log s') -> In g (ls_log s)) ->
  (forall i, In i (ls_sst s) \/ In i ws -> In i (ls_sst s') \/ In i ws') -> above s' ws' p.
Proof.
  intros H A L W. destruct p as [q|]; cbn in *; auto. destruct H as [H1 H2]. split; [lia|].
  intros g f Hg Hf N1 N2. apply (H2 g f); auto; intros X; destruct (W (lf_w f)); auto.
Qed.
Lemma above_append s b w ws p : above s ws p -> above (append_frame b w s) ws p.
Proof.
  intros H. destruct p as [q|]; cbn in *; auto. destruct H as [H1 H2].
  set (r := if b then ls_active s + 1 else ls_active s). assert (R : q <= r) by (unfold r; destruct b; lia).
  split; auto. intros g f Hg Hf N1 N2. apply to_segment_in in Hg as [Hg|[->|(fs & Hg & ->)]]; cbn; eauto.
Qed.
Lemma above_threads s ts ws p : above (with_threads s ts) ws p <-> above s ws p.
Proof. destruct p; cbn; tauto. Qed.

(** The rest of [InvD] for a step of a write that leaves log, SSTs and flush alone. *)
Lemma plain_D s s' i t t' : InvD s -> th s i = Some t ->
  ls_log s' = ls_log s -> ls_active s' = ls_active s -> ls_sst s' = ls_sst s -> ls_flush s' = ls_flush s ->
  (critical_flush (ls_flush s) = false) ->
  lt_nos t' = lt_nos t ->
  above s [] (ls_floor s') ->
  match lt_pc t' with LPublish f | LPrune f => above s [] (Some f) | _ => True end ->
  (before_floor t' = true -> prev_ok s i (lt_prev t')) ->
  InvD (with_threads s' (set_nth i t' (ls_threads s))).
Proof.
  intros [D1 D2 D3 D4 D5] HT E1 E2 E3 E4 CF EN HF HP HB.
  set (s1 := with_threads s' (set_nth i t' (ls_threads s))).
  assert (AB : forall ws p, above s ws p -> above s1 ws p).
  { intros ws p H. apply (above_mono s s1 ws ws p H); unfold s1; cbn.
    - rewrite E2. lia.
    - rewrite E1. auto.
    - rewrite E3. auto. }
  assert (PO : forall j p, prev_ok s j p -> prev_ok s1 j p).
  { intros j p H k u n. unfold s1. erewrite th_upd by eauto. cbn. rewrite E3.
    destruct (Nat.eqb_spec k i) as [->|E]; [|apply H]. intros Hu. injection Hu as <-. rewrite EN. apply (H i t n HT). }
  constructor.
  - intros j u n. unfold s1. erewrite th_upd by eauto. cbn. rewrite E3, E1.
    destruct (Nat.eqb_spec j i) as [->|E]; [|apply D1]. intros Hu. injection Hu as <-. rewrite EN. apply (D1 i t n HT).
  - apply AB, HF.
  - intros j u. unfold s1. erewrite th_upd by eauto. destruct (Nat.eqb_spec j i) as [->|E]; intros Hu.
    + injection Hu as <-. destruct (lt_pc t'); auto; now apply AB.
    + specialize (D3 j u Hu). destruct (lt_pc u); auto; now apply AB.
  - intros j u. unfold s1. erewrite th_upd by eauto. destruct (Nat.eqb_spec j i) as [->|E]; intros Hu B; apply PO.
    + injection Hu as <-. auto.
    + eauto.
  - unfold s1 at 1. cbn [with_threads ls_flush]. rewrite E4. destruct (ls_flush s); auto; try discriminate; now apply AB.
Qed.

Lemma append_D s b i t : InvA s -> InvD s -> th s i = Some t -> lt_pc t = LAppend ->
  (forall j u, th s j = Some u -> j <> i -> before_floor u = false) -> critical_flush (ls_flush s) = false ->
  InvD (with_threads (append_frame b i s)
          (set_nth i (mkLT (lt_kind t) (lt_total t) (lt_nos t ++ [ls_next s]) (lt_prev t) LAppend) (ls_threads s))).
Proof.
  intros HA [D1 D2 D3 D4 D5] HT HP HB CF.
  set (t' := mkLT _ _ _ _ _). set (s1 := with_threads _ _).
  assert (AB : forall ws p, above s ws p -> above s1 ws p).
  { intros ws p H. apply above_threads. now apply above_append. }
  constructor.
  - intros j u n. unfold s1. erewrite th_upd by eauto. cbn. set (q := if b then _ else _).
    assert (OLD : forall k m, (exists g, In g (ls_log s) /\ In (mkLF m k) (snd g)) ->
        exists g, In g (to_segment q (mkLF (ls_next s) i) (ls_log s)) /\ In (mkLF m k) (snd g)).
    { intros k m (g & G1 & G2). destruct (to_segment_old q (mkLF (ls_next s) i) _ _ _ G1 G2) as (g' & A1 & A2 & A3). eauto. }
    destruct (Nat.eqb_spec j i) as [->|E].
    + intros Hu. injection Hu as <-. cbn. intros NS Hn. apply in_app_iff in Hn as [Hn|[<-|[]]].
      * apply OLD. eapply D1; eauto.
      * destruct (to_segment_new q (mkLF (ls_next s) i) (ls_log s)) as (g & G1 & G2 & G3). eauto.
    + intros Hu NS Hn. apply OLD. eapply D1; eauto.
  - apply AB, D2.
  - intros j u. unfold s1. erewrite th_upd by eauto. destruct (Nat.eqb_spec j i) as [->|E]; intros Hu.
    + injection Hu as <-. exact I.
    + specialize (D3 j u Hu). destruct (lt_pc u); auto; now apply AB.
  - intros j u. unfold s1 at 1. erewrite th_upd by eauto. destruct (Nat.eqb_spec j i) as [->|E]; intros Hu B.
    + injection Hu as <-. assert (B' : before_floor t = true) by (unfold before_floor in *; cbn in B; rewrite HP; destruct (lt_kind t); auto).
      intros k w n. unfold s1. erewrite th_upd by eauto. cbn. destruct (Nat.eqb_spec k i) as [->|Ek]; [congruence|].
      apply (D4 i t HT B').
    + exfalso. rewrite (HB j u Hu E) in B. discriminate.
  - unfold s1 at 1. cbn [with_threads append_frame ls_flush]. destruct (ls_flush s); auto; try discriminate; now apply AB.
Qed.

Lemma before_critical t : before_floor t = true -> critical_write t = true.
Proof. unfold before_floor, critical_write. destruct (lt_kind t), (lt_pc t); auto. Qed.

Lemma prune_D s p : above s [] (Some p) -> InvD s -> InvD (with_log s (prune_log p (ls_log s))).
Proof.
  intros AP [D1 D2 D3 D4 D5].
  assert (AB : forall ws q, above s ws q -> above (with_log s (prune_log p (ls_log s))) ws q).
  { intros ws q H. apply (above_mono s _ ws ws q H); cbn; auto; [lia|]. intros g Hg. apply in_prune in Hg. tauto. }
  constructor; cbn [with_log ls_flush ls_mrange].
  - intros i t n Ht NS Hn. destruct (D1 i t n Ht NS Hn) as (g & G1 & G2). exists g. split; auto. apply in_prune. split; auto.
    destruct AP as [_ AP]. apply (AP g (mkLF n i)); auto.
  - apply AB, D2.
  - intros i t Ht. specialize (D3 i t Ht). destruct (lt_pc t); auto.
  - exact D4.
  - destruct (ls_flush s); auto.
Qed.

Lemma write_D b i t s s' t' : InvA s -> InvX s -> InvC s -> InvD s -> apart s (VStep i b) -> room s (VStep i b) ->
  th s i = Some t -> write_step b i t s = (s', t') -> InvD (with_threads s' (set_nth i t' (ls_threads s))).
Proof.
  intros HA HX HC HD HP HR HT E.
  destruct (apart_step _ _ _ HP) as (P1 & P2 & P3).
  pose proof (a_wf _ HA _ _ HT) as W. pose proof (d_floor _ HD) as DF.
  unfold write_step in E. destruct (lt_pc t) eqn:P.
  - (* LStart *)
    injection E as <- <-. apply plain_D with (t := t); auto; try exact I. cbn. intros _ j u n Hu NE NS Hn.
    assert (OU : open_write u = false) by (apply (P2 j u Hu NE); unfold th in HT; cbn; rewrite HT, P; reflexivity).
    destruct (quiet_loc s j u n HC Hu Hn (a_wf _ HA _ _ Hu) OU) as [L|[(e & L1 & L2)|L]]; [|tauto| |].
    + intros k v Hv SV. destruct (Nat.eq_dec k i) as [->|NK]; [|apply (not_sealing v j); eauto].
      rewrite HT in Hv. injection Hv as <-. unfold sealing in SV. now rewrite P in SV.
    + destruct (c_imm _ HC e j L1 L2) as (w & U1 & U2 & (f & l & R1 & R2)). rewrite Hu in U1. injection U1 as <-.
      unfold live_all. destruct (live_fold_in (ls_imm s) (option_map fst (ls_mrange s)) e f L1) as (y & Y1 & Y2); [now rewrite R1|].
      exists y. split; auto. specialize (R2 n Hn). lia.
    + destruct (c_cov _ HC j u Hu (or_introl L)) as (f & l & R1 & R2).
      unfold live_all. destruct (live_fold (ls_imm s) (option_map fst (ls_mrange s)) f) as (y & Y1 & Y2); [now rewrite R1|].
      exists y. split; auto. specialize (R2 n Hn). lia.
  - destruct (Nat.ltb _ _); injection E as <- <-.
    + apply append_D; auto. intros j u Hu NE. specialize (P1 j u Hu NE). destruct (before_floor u) eqn:B; auto.
      apply before_critical in B. congruence.
    + apply plain_D with (t := t); auto; try exact I. intros B. apply (d_commit _ HD i t HT).
      unfold before_floor in *. cbn in B. rewrite P. destruct (lt_kind t); auto.
  - injection E as <- <-. apply plain_D with (t := t); auto; try exact I. intros B. apply (d_commit _ HD i t HT).
    unfold before_floor in *. cbn in B. rewrite P. destruct (lt_kind t); auto.
  - rewrite (room_step s i b t HR HT P) in E. injection E as <- <-. apply plain_D with (t := t); auto.
    + cbn. destruct (lt_kind t); exact I.
    + intros B. apply (d_commit _ HD i t HT).
      unfold before_floor in *. cbn in B. rewrite P. destruct (lt_kind t); auto.
  - injection E as <- <-. apply plain_D with (t := t); auto; try exact I.
    intros B. unfold before_floor in B. cbn in B. destruct (lt_kind t); discriminate.
  - pose proof (c_seal _ HC i t HT) as D. rewrite P in D. destruct D as [-> _]. injection E as <- <-.
    apply plain_D with (t := t); auto; try exact I.
    intros B. unfold before_floor in B. cbn in B. destruct (lt_kind t); discriminate.
  - destruct W as (_ & _ & W3). rewrite P in W3. destruct W3 as [_ WK].
    destruct b; [destruct (ls_mem s)|]; injection E as <- <-; apply plain_D with (t := t); auto; try exact I;
      intros B; unfold before_floor in B; cbn in B; rewrite WK in B; discriminate.
  - injection E as <- <-. apply plain_D with (t := t); auto; try exact I. intros B. apply (d_commit _ HD i t HT).
    unfold before_floor in *. cbn in B. rewrite P. destruct (lt_kind t); auto.
  - (* LCollect *)
    destruct W as (_ & _ & W3). rewrite P in W3. destruct W3 as [W3 WK].
    assert (PO : prev_ok s i (lt_prev t)) by (apply (d_commit _ HD i t HT); unfold before_floor; now rewrite WK, P).
    destruct (collect _ _ _) as [f|] eqn:EC; injection E as <- <-; apply plain_D with (t := t); auto; try exact I;
      try (intros B; unfold before_floor in B; cbn in B; rewrite WK in B; discriminate).
    cbn. split; [eapply collect_active; eauto|].
    intros g x Hg Hx NS _. destruct (a_back _ HA g x Hg Hx) as (u & U1 & U2).
    assert (LV : exists v, omin (lt_prev t) (option_map fst (span (lt_nos t))) = Some v /\ v <= lf_no x).
    { destruct (Nat.eq_dec (lf_w x) i) as [Ew|Ew].
      - rewrite Ew, HT in U1. injection U1 as <-.
        destruct (lt_nos t) as [|a l] eqn:EN; [destruct U2|].
        destruct (omin_r (lt_prev t) (option_map fst (span (a :: l))) (fold_left N.min l a) eq_refl) as (y & Y1 & Y2).
        exists y. split; auto. pose proof (fold_min_le l a _ U2). lia.
      - destruct (PO _ u (lf_no x) U1 Ew NS U2) as (v & V1 & V2).
        destruct (omin_l (lt_prev t) (option_map fst (span (lt_nos t))) v V1) as (y & Y1 & Y2). exists y. split; auto. lia. }
    destruct LV as (v & V1 & V2). rewrite V1 in EC. eapply collect_above; eauto.
  - pose proof (d_thread _ HD i t HT) as D. rewrite P in D. injection E as <- <-. apply plain_D with (t := t); auto; try exact I.
    intros B. unfold before_floor in B. cbn in B. destruct (lt_kind t); discriminate.
  - injection E as <- <-. apply plain_D with (t := t); auto; cbn.
    + destruct (ls_floor s); auto.
    + intros B. unfold before_floor in B. cbn in B. destruct (lt_kind t), (ls_floor s); discriminate.
  - pose proof (d_thread _ HD i t HT) as D. rewrite P in D. injection E as <- <-.
    pose proof (prune_D s p D HD) as HD'. apply (plain_D (with_log s (prune_log p (ls_log s))) _ i t); auto; try exact I.
    + apply (d_floor _ HD').
    + intros B. unfold before_floor in B. cbn in B. destruct (lt_kind t); discriminate.
  - injection E as <- <-. apply plain_D with (t := t); auto.
    + rewrite P. exact I.
    + apply (d_commit _ HD i t HT).
Qed.

Lemma flush_D s : InvA s -> InvX s -> InvC s -> InvD s -> apart s VFlush -> InvD (flush_wal_step s).
Proof.
  intros HA HX HC HD HP. pose proof (apart_flush _ HP) as P1.
  assert (PLAIN : forall f, match f with LFLive _ _ _ v => v = option_map fst (ls_mrange s) | LFReady ws _ p => above s ws p
                            | LFPrune _ p => above s [] (Some p) | _ => True end -> InvD (with_flush s f)).
  { intros f H. destruct HD as [D1 D2 D3 D4 D5]. constructor; auto. }
  unfold flush_wal_step. destruct (ls_flush s) eqn:EF.
  - destruct (ls_imm s); auto.
  - now apply PLAIN.
  - now apply PLAIN.
  - apply PLAIN. pose proof (d_flush _ HD) as DV. rewrite EF in DV.
    destruct (collect cutoff live (ls_log s)) as [q|] eqn:EC; cbn; auto. split; [eapply collect_active; eauto|].
    intros g x Hg Hx NS NW. destruct (a_back _ HA g x Hg Hx) as (u & U1 & U2).
    assert (OU : open_write u = false) by (apply (x_flush _ HX) with (i := lf_w x); auto; rewrite EF; reflexivity).
    pose proof (c_flush _ HC) as CFL. rewrite EF in CFL. destruct CFL as [CW _].
    destruct (quiet_loc s (lf_w x) u (lf_no x) HC U1 U2 (a_wf _ HA _ _ U1) OU) as [L|[(e & L1 & L2)|L]].
    + intros k v Hv SV. apply (not_sealing v (lf_w x)); auto. apply (P1 k v Hv).
    + tauto.
    + exfalso. apply NW. rewrite CW. apply in_concat. exists (fst e). split; auto. now apply in_map.
    + destruct (c_cov _ HC _ u U1 (or_introl L)) as (f & l & R1 & R2). rewrite R1 in DV. cbn in DV. subst live.
      eapply collect_above; eauto.
  - pose proof (d_flush _ HD) as DV. rewrite EF in DV. destruct HD as [D1 D2 D3 D4 D5].
    assert (AB : forall q, above s [] q -> above (with_flush (with_floor (with_sst s (ls_sst s ++ ws)) f) (LFPruneRead n)) [] q).
    { intros q H. apply (above_mono s _ [] [] q H); cbn; auto; [lia|]. intros i [Hi|[]]. left. apply in_app_iff; auto. }
    constructor; cbn [with_flush with_floor with_sst ls_flush ls_floor ls_sst ls_log ls_mrange]; auto.
    + intros i t m Ht NS Hm. apply (D1 i t m Ht); auto. intros X. apply NS. apply in_app_iff; auto.
    + apply (above_mono s _ ws [] f DV); cbn; auto; [lia|]. intros i [Hi|Hi]; left; apply in_app_iff; auto.
    + intros i t Ht. specialize (D3 i t Ht). destruct (lt_pc t); auto.
    + intros j t Ht B k u m Hu NE NS Hm. apply (D4 j t Ht B k u m Hu NE); auto. intros X. apply NS. cbn. apply in_app_iff; auto.
  - apply PLAIN. pose proof (d_floor _ HD) as DF. destruct (ls_floor s); auto.
  - pose proof (d_flush _ HD) as DV. rewrite EF in DV. pose proof (prune_D s p DV HD) as [D1 D2 D3 D4 D5]. constructor; auto. exact I.
  - destruct HD as [D1 D2 D3 D4 D5]. constructor; auto. exact I.
Qed.

Lemma spawn_D s x : lt_nos x = [] -> before_floor x = false -> match lt_pc x with LPublish _ | LPrune _ => False | _ => True end ->
  InvD s -> InvD (with_threads s (ls_threads s ++ [x])).
Proof.
  intros NN NB NP [D1 D2 D3 D4 D5]. constructor; auto.
  - intros i t n Ht. apply th_app in Ht as [Ht|[-> _]]; [apply (D1 i t n Ht)|]. rewrite NN. intros _ [].
  - intros i t Ht. apply th_app in Ht as [Ht|[-> _]]; [apply (D3 i t Ht)|]. destruct (lt_pc x); tauto.
  - intros j t Ht B. apply th_app in Ht as [Ht|[-> _]]; [|congruence]. intros k u n Hu. apply th_app in Hu as [Hu|[-> _]].
    + apply (D4 j t Ht B k u n Hu).
    + rewrite NN. intros _ _ [].
Qed.

Lemma step_D s e : InvA s -> InvX s -> InvC s -> InvD s -> apart s e -> room s e -> InvD (levent_step s e).
Proof.
  intros HA HX HC HD HP HR. destruct e as [n|n|i b|]; cbn [levent_step].
  - apply spawn_D; auto.
  - apply spawn_D; auto.
  - destruct (nth_error (ls_threads s) i) as [t|] eqn:HT; [|exact HD].
    destruct (write_step b i t s) as [s' t'] eqn:E. eapply write_D; eauto.
  - now apply flush_D.
Qed.
Lemma start_D : InvD ls_start.
Proof. constructor; cbn; auto; intros; rewrite th_start in *; discriminate. Qed.

Lemma run_inv es : forall s, InvA s -> InvX s -> InvC s -> InvD s -> all_apart s es ->
  InvA (lrun s es) /\ InvD (lrun s es).
Proof.
  induction es as [|e es IH]; intros s HA HX HC HD H; cbn; auto. destruct H as (H1 & H2 & H3).
  apply IH; auto using step_A, step_X, step_C, step_D.
Qed.

Lemma apart_survives es i : all_apart ls_start es -> acked (lrun ls_start es) i -> survives (lrun ls_start es) i.
Proof.
  intros H (t & T1 & T2).
  destruct (run_inv es ls_start start_A start_X start_C start_D H) as [HA HD].
  set (s := lrun ls_start es) in *.
  destruct (in_dec Nat.eq_dec i (ls_sst s)) as [IN|NIN]; [now left|]. right. exists t. split; auto.
  pose proof (a_wf _ HA i t T1) as (W1 & W2 & W3). rewrite T2 in W3. split; auto.
  intros n Hn. destruct (d_present _ HD i t n T1 NIN Hn) as (g & G1 & G2).
  unfold replayed. apply in_concat. exists (snd g). split; auto. apply in_map. apply filter_In. split; auto.
  pose proof (d_floor _ HD) as DF. destruct (ls_floor s) as [q|]; auto. apply N.leb_le. destruct DF as [_ DF].
  apply (DF g (mkLF n i)); auto.
Qed.
