(** Proofs about seal policies, backpressure and backoff. *)
From Coq Require Import List NArith Bool Lia Arith Sorted.
From Verif Require Import Base.Order Model.OMap Model.KeyTs Model.MemTable Model.Immutable Model.Db Model.Policy Model.Backpressure Spec.LimitSpec
     Spec.Mvcc Spec.History Model.Run Spec.Valid Proof.OMapFacts Proof.MemFacts Proof.ViewFacts Proof.DbFacts Proof.Refine Proof.Demo.
Import ListNotations.
Local Open Scope N_scope.

(** *** Policies *)
Lemma policy_rect' (P : policy -> Prop) : P NeverSeal -> (forall l, P (BytesThreshold l)) -> (forall l, P (OpenRowsThreshold l)) ->
  (forall l, P (BatchesThreshold l)) -> (forall l, P (TimeElapsed l)) -> (forall ps, Forall P ps -> P (AnyOf ps)) -> forall p, P p.
Proof.
  intros H1 H2 H3 H4 H5 H6. fix IH 1. intros [|l|l|l|l|ps].
  - exact H1.
  - apply H2.
  - apply H3.
  - apply H4.
  - apply H5.
  - apply H6. induction ps as [|q r IHr]; constructor; [apply IH|exact IHr].
Qed.

Lemma evaluate_any ps s : seals (evaluate (AnyOf ps) s) = existsb (fun p => seals (evaluate p s)) ps.
Proof.
  induction ps as [|p ps IH]; auto. cbn [existsb]. rewrite <- IH. cbn [evaluate].
  destruct (evaluate p s); reflexivity.
Qed.
Lemma evaluate_reached p s : seals (evaluate p s) = true <-> reached s p.
Proof.
  induction p as [|l|l|l|l|ps IH] using policy_rect'.
  - split; [discriminate|intros H; inversion H].
  - cbn. destruct (N.leb_spec l (ms_key_bytes s + ms_entries s * ms_overhead s)); cbn; split; auto.
    + intros _. now constructor.
    + discriminate.
    + intros H1. inversion H1. lia.
  - cbn. destruct (ms_open_rows s) as [n|] eqn:E.
    + destruct (N.leb_spec l n); cbn; split; auto; try discriminate.
      * intros _. now apply (re_rows s l n).
      * intros H1. inversion H1. subst. rewrite E in *. match goal with H : Some _ = Some _ |- _ => inversion H end. lia.
    + split; [discriminate|]. intros H1. inversion H1. congruence.
  - cbn. destruct (ms_batches s) as [n|] eqn:E.
    + destruct (N.leb_spec l n); cbn; split; auto; try discriminate.
      * intros _. now apply (re_batches s l n).
      * intros H1. inversion H1. subst. rewrite E in *. match goal with H : Some _ = Some _ |- _ => inversion H end. lia.
    + split; [discriminate|]. intros H1. inversion H1. congruence.
  - cbn. destruct (ms_since_seal s) as [n|] eqn:E.
    + destruct (N.leb_spec l n); cbn; split; auto; try discriminate.
      * intros _. now apply (re_time s l n).
      * intros H1. inversion H1. subst. rewrite E in *. match goal with H : Some _ = Some _ |- _ => inversion H end. lia.
    + split; [discriminate|]. intros H1. inversion H1. congruence.
  - rewrite evaluate_any, existsb_exists. rewrite Forall_forall in IH. split.
    + intros (p & H1 & H2). apply (re_any s ps p); auto. now apply IH.
    + intros H. inversion H as [| | | |ps' p H1 H2]; subst. exists p. split; auto. now apply IH.
Qed.


Section PolicySeal.
  Context {K : Type} {KO : KeyOrd K} {R : Type}.
  Variable key_of : R -> option K.
  Variable row_bytes : R -> nat.
  Variable del_bytes : K -> nat.
  Variable key_bytes : K -> N.

  Lemma policy_seal_spec p since d M Is : rep key_of d M Is ->
    exists d', policy_seal key_of key_bytes p since d = (d', true) /\
      (~ reached (build_stats key_bytes (d_mem d) since) p -> d' = d) /\
      (reached (build_stats key_bytes (d_mem d) since) p -> m_index (d_mem d) <> [] ->
         m_index (d_mem d') = [] /\ exists g, d_imm d' = d_imm d ++ [g]).
  Proof.
    intros HR. unfold policy_seal, maybe_seal.
    pose proof (evaluate_reached p (build_stats key_bytes (d_mem d) since)) as E.
    destruct (seals (evaluate p (build_stats key_bytes (d_mem d) since))).
    - assert (RE : reached (build_stats key_bytes (d_mem d) since) p) by (now apply E).
      pose proof HR as [HM HI HG HS HD HN HC]. unfold seal_now. rewrite (seal_repr key_of _ _ HM).
      destruct M as [|a M].
      + exists d. split; auto. split; [tauto|]. intros _ F. exfalso. apply F. destruct HM as [_ HF]. inversion HF. reflexivity.
      + eexists. split; [reflexivity|]. split; [tauto|]. intros _ _. split; [reflexivity|]. eexists. reflexivity.
    - exists d. split; auto. split; auto. intros F. apply E in F. discriminate.
  Qed.

  Lemma c46_ingest capacity ops p since rows span d1 :
    (1 <= capacity)%nat -> N.of_nat (length ops) + 1 < 2 ^ 64 ->
    ops_ok key_of row_bytes del_bytes (start capacity) ops ->
    let d := st_db (run key_of row_bytes del_bytes (start capacity) ops) in
    Forall (fun r => key_of r <> None) rows ->
    put_rows key_of rows (d_clock d) (observe_range span (tick d)) = (d1, true) ->
    exists d', ingest_policy key_of key_bytes p since rows span d = (d', true) /\
      (~ reached (build_stats key_bytes (d_mem d1) since) p -> d' = d1) /\
      (reached (build_stats key_bytes (d_mem d1) since) p -> m_index (d_mem d1) <> [] ->
         m_index (d_mem d') = [] /\ exists g, d_imm d' = d_imm d1 ++ [g]).
  Proof.
    intros HC HL HO d HK E1.
    pose proof (inv_run key_of row_bytes del_bytes ops (start capacity) (inv_start key_of capacity HC)) as HI.
    specialize (HI ltac:(simpl; lia) HO).
    destruct (iv_rep _ _ (proj1 HI)) as (M & Is & HR & HCo).
    unfold ingest_policy. rewrite E1. cbn [seq2].
    destruct (put_rows_spec key_of (observe_range span (tick d)) M Is (d_clock d) rows) as [(d2 & M1 & Is1 & E2 & R1 & _)|[E2 _]].
    - now apply rep_tick.
    - exact HK.
    - intros w m Hw Hm. exact (mem_fresh key_of _ M Is (proj1 HI) HCo _ w m Hw Hm).
    - rewrite E1 in E2. inversion E2; subst d2. apply (policy_seal_spec p since d1 M1 Is1 R1).
    - rewrite E1 in E2. discriminate.
  Qed.

  (** *** What the statistics count *)
  Lemma distinct_spec (idx : list ((K * N) * mloc)) : forall prev,
    osorted idx -> (forall p, prev = Some p -> Forall (fun e : (K * N) * mloc => kcmp p (fst (fst e)) <> Gt) idx) ->
    StronglySorted (fun a b : K => kcmp a b = Lt) (distinct_keys prev idx) /\
    (forall p, prev = Some p -> Forall (fun k => kcmp p k = Lt) (distinct_keys prev idx)) /\
    (forall k, In k (distinct_keys prev idx) -> In k (map (fun e : (K * N) * mloc => fst (fst e)) idx)) /\
    (forall k, In k (map (fun e : (K * N) * mloc => fst (fst e)) idx) ->
       (exists p, prev = Some p /\ kcmp p k = Eq) \/ exists k', In k' (distinct_keys prev idx) /\ kcmp k' k = Eq).
  Proof.
    induction idx as [|e idx IH]; intros prev HS HP.
    - cbn. split; [constructor|]. split; [constructor|]. split; [tauto|]. intros k [].
    - set (k := fst (fst e)).
      assert (HF : Forall (fun x : (K * N) * mloc => kcmp k (fst (fst x)) <> Gt) idx).
      { inversion HS as [|a l H1 H2]; subst. eapply Forall_impl; [|exact H2]. intros x Hx. cbn in Hx.
        apply kts_lt_cases in Hx. unfold k. destruct Hx as [Hx|[Hx _]]; rewrite Hx; discriminate. }
      inversion HS as [|a l H1 H2]; subst.
      destruct (IH (Some k) H1) as (A & B & C & D).
      { intros p [= <-]. exact HF. }
      specialize (B k eq_refl).
      assert (TAIL : forall p, prev = Some p -> kcmp p k = Eq ->
        distinct_keys prev (e :: idx) = distinct_keys (Some k) idx).
      { intros p -> E. cbn. fold k. unfold keqb. now rewrite E. }
      assert (HEAD : (forall p, prev = Some p -> kcmp p k = Lt) ->
        distinct_keys prev (e :: idx) = k :: distinct_keys (Some k) idx).
      { intros HL. cbn. fold k. destruct prev as [p|]; auto. unfold keqb. now rewrite (HL p eq_refl). }
      assert (CASE : (exists p, prev = Some p /\ kcmp p k = Eq) \/ (forall p, prev = Some p -> kcmp p k = Lt)).
      { destruct prev as [p|]; [|right; discriminate]. specialize (HP p eq_refl). inversion HP as [|x y Hx Hy]; subst.
        fold k in Hx. destruct (kcmp p k) eqn:E; [left; eauto|right; intros q [= <-]; auto|congruence]. }
      destruct CASE as [(p & -> & E)|HL].
      + rewrite (TAIL p eq_refl E). split; auto. split; [|split].
        * intros q [= <-]. eapply Forall_impl; [|exact B]. intros x Hx. cbn in Hx. korder.
        * intros x Hx. right. auto.
        * intros x [<-|Hx].
          -- left. exists p. auto.
          -- destruct (D x Hx) as [(q & [= <-] & Eq)|H]; auto. left. exists p. split; auto. korder.
      + rewrite (HEAD HL). split; [constructor; auto|]. split; [|split].
        * intros p ->. constructor; [auto|]. specialize (HL p eq_refl). eapply Forall_impl; [|exact B]. intros x Hx. cbn in Hx. korder.
        * intros x [<-|Hx]; [left; reflexivity|right; auto].
        * intros x [<-|Hx]; right.
          -- exists k. split; [left; auto|]. apply kcmp_refl.
          -- destruct (D x Hx) as [(q & [= <-] & Eq)|(k' & I & E)]; [exists k|exists k']; cbn [In]; auto.
  Qed.

  Lemma index_osorted m (A : list (@vers K R)) : mem_repr key_of m A -> osorted (m_index m).
  Proof.
    intros [HS HF]. revert HS. induction HF as [|e v l l' H HF IH]; intros HS; [constructor|].
    inversion HS as [|a b H1 H2]; subst. constructor; [now apply IH|].
    clear IH HS H1. induction HF as [|x y l l' Hx HF IH]; constructor.
    - inversion H2 as [|? ? Q1 Q2]; subst. destruct H as [-> _], Hx as [-> _]. exact Q1.
    - inversion H2; auto.
  Qed.

  Lemma c46_stats capacity ops since :
    (1 <= capacity)%nat -> N.of_nat (length ops) < 2 ^ 64 ->
    ops_ok key_of row_bytes del_bytes (start capacity) ops ->
    let m := d_mem (st_db (run key_of row_bytes del_bytes (start capacity) ops)) in
    exists ks, lists_keys (map (fun e => fst (fst e)) (m_index m)) ks /\
      ms_entries (build_stats key_bytes m since) = N.of_nat (length ks) /\
      ms_key_bytes (build_stats key_bytes m since) = fold_right (fun k a => key_bytes k + a) 0 ks /\
      ms_overhead (build_stats key_bytes m since) = 32 /\
      ms_batches (build_stats key_bytes m since) = Some (N.of_nat (length (m_batches m) + length (m_deletes m))) /\
      ms_since_seal (build_stats key_bytes m since) = since.
  Proof.
    intros HC HL HO m.
    pose proof (inv_run key_of row_bytes del_bytes ops (start capacity) (inv_start key_of capacity HC)) as HI.
    specialize (HI ltac:(simpl; lia) HO). destruct (iv_rep _ _ (proj1 HI)) as (M & Is & HR & _).
    destruct HR as [HM _ _ _ _ _ _].
    exists (distinct_keys None (m_index m)). split; [|repeat split].
    destruct (distinct_spec (m_index m) None) as (A & _ & B & C).
    - eapply index_osorted; eauto.
    - discriminate.
    - split; auto. split; auto. intros k Hk. destruct (C k Hk) as [(p & F & _)|H]; [discriminate|auto].
  Qed.

  (** *** Limits that are never reached *)
  Lemma rows_never l since m : ~ reached (build_stats (R := R) key_bytes m since) (OpenRowsThreshold l).
  Proof. intros H. inversion H. discriminate. Qed.

  Lemma put_no_seal rows ts (d : db K R) : (length (m_batches (d_mem d)) < m_capacity (d_mem d))%nat ->
    d_imm (fst (put_rows key_of rows ts d)) = d_imm d /\
    (length (m_batches (d_mem (fst (put_rows key_of rows ts d)))) <= S (length (m_batches (d_mem d))))%nat /\
    m_capacity (d_mem (fst (put_rows key_of rows ts d))) = m_capacity (d_mem d).
  Proof.
    intros H. unfold put_rows, mem_insert_batch. unfold try_insert_batch.
    destruct (Nat.leb_spec (m_capacity (d_mem d)) (length (m_batches (d_mem d)))); [lia|].
    destruct (project_view key_of rows); cbn; rewrite app_length; cbn; repeat split; lia.
  Qed.

  Definition ingest_all (p : policy) (calls : list (N * list R)) (t : db K R * option N) : db K R * option N :=
    fold_left (fun t c => fst (ingest_at key_of key_bytes p (fst c) (snd c) None t)) calls t.

  Lemma time_never_gen l calls : forall d,
    (length (m_batches (d_mem d)) + length calls <= m_capacity (d_mem d))%nat ->
    let r := ingest_all (TimeElapsed l) calls (d, None) in snd r = None /\ d_imm (fst r) = d_imm d.
  Proof.
    induction calls as [|[now rows] calls IH]; intros d H; [split; reflexivity|].
    cbn [ingest_all fold_left]. fold (ingest_all (TimeElapsed l) calls).
    cbn [length fst snd] in *.
    destruct (put_no_seal rows (d_clock d) (observe_range None (tick d))) as (A & B & C).
    { cbn. lia. }
    cbn [observe_range] in *. change (d_imm (tick d)) with (d_imm d) in A. change (d_mem (tick d)) with (d_mem d) in B, C.
    assert (E : fst (ingest_at key_of key_bytes (TimeElapsed l) now rows None (d, None)) =
                (fst (put_rows key_of rows (d_clock d) (tick d)), None)).
    { unfold ingest_at, note_seal. cbn [observe_range]. destruct (put_rows key_of rows (d_clock d) (tick d)) as [d1 ok].
      cbn [fst] in A. rewrite A, Nat.eqb_refl. destruct ok; [|reflexivity].
      unfold policy_seal. cbn. rewrite A, Nat.eqb_refl. reflexivity. }
    change (fold_left _ calls ?x) with (ingest_all (TimeElapsed l) calls x).
    rewrite E. destruct (IH (fst (put_rows key_of rows (d_clock d) (tick d)))) as [P Q]; [lia|].
    split; auto. etransitivity; [exact Q|exact A].
  Qed.
End PolicySeal.

(** *** Backpressure *)
Definition bp_sane (c : bp_config) : Prop :=
  1 <= bp_slow_files c /\ bp_slow_files c <= bp_stop_files c /\ 1 <= bp_slow_delay c /\ 1 <= bp_stop_delay c /\
  (forall b, bp_slow_bytes c = Some b -> 1 <= b) /\ (forall b, bp_stop_bytes c = Some b -> 1 <= b) /\
  (forall a b, bp_slow_bytes c = Some a -> bp_stop_bytes c = Some b -> a <= b).
Lemma bp_apply_sane c f : bp_sane c -> bp_sane (bp_apply c f).
Proof.
  intros (A & B & C & D & E & F & G). destruct f as [d|d|b|b]; cbn.
  - destruct (N.eqb_spec d 0); [now repeat split|]. repeat split; cbn; auto; lia.
  - destruct (N.eqb_spec d 0); [now repeat split|]. repeat split; cbn; auto; lia.
  - repeat split; cbn; auto.
    + intros x [= <-]. lia.
    + intros x. destruct (bp_stop_bytes c); [|discriminate]. intros [= <-]. lia.
    + intros x y [= <-]. destruct (bp_stop_bytes c); [|discriminate]. intros [= <-]. lia.
  - repeat split; cbn; auto.
    + intros x. destruct (bp_slow_bytes c); intros [= <-]; lia.
    + intros x y E1. rewrite E1. intros [= <-]. lia.
Qed.
Lemma bp_build_sane init calls : bp_sane (bp_build init calls).
Proof.
  unfold bp_build. assert (H : bp_sane (match init with Some (a, b) => bp_new a b | None => bp_default end)).
  { destruct init as [[a b]|]; repeat split; cbn; try discriminate; lia. }
  revert H. generalize (match init with Some (a, b) => bp_new a b | None => bp_default end).
  induction calls as [|f calls IH]; intros c H; [exact H|]. cbn. apply IH. now apply bp_apply_sane.
Qed.
Lemma over_at l t : over l t = true <-> at_limit l t.
Proof.
  unfold over, at_limit. destruct l as [l|], t as [t|]; try (split; [discriminate|intros (? & ? & ? & ? & ?); discriminate]).
  rewrite N.leb_le. split; [eauto 6|]. intros (? & ? & [= <-] & [= <-] & ?). auto.
Qed.
Lemma stop_at c s : (bp_stop_files c <=? l0_files s) || over (bp_stop_bytes c) (l0_bytes s) = true <-> at_stop c s.
Proof. unfold at_stop. now rewrite orb_true_iff, N.leb_le, over_at. Qed.
Lemma slow_at c s : (bp_slow_files c <=? l0_files s) || over (bp_slow_bytes c) (l0_bytes s) = true <-> at_slow c s.
Proof. unfold at_slow. now rewrite orb_true_iff, N.leb_le, over_at. Qed.
Lemma c34_exact c s :
  (at_stop c s -> bp_decide c s = Stall (bp_stop_delay c)) /\
  (~ at_stop c s -> at_slow c s -> bp_decide c s = Slowdown (bp_slow_delay c)) /\
  (~ at_stop c s -> ~ at_slow c s -> bp_decide c s = Proceed).
Proof.
  unfold bp_decide. pose proof (stop_at c s) as A. pose proof (slow_at c s) as B.
  destruct ((bp_stop_files c <=? l0_files s) || over (bp_stop_bytes c) (l0_bytes s));
  destruct ((bp_slow_files c <=? l0_files s) || over (bp_slow_bytes c) (l0_bytes s)); intuition congruence.
Qed.
Lemma c34_monotone c s f b b' :
  l0_bytes s = Some b -> b <= b' -> l0_files s <= f ->
  severity (bp_decide c s) <= severity (bp_decide c (mkL0 f (Some b'))).
Proof.
  intros E1 E2 E3. destruct (c34_exact c s) as (A & B & C). destruct (c34_exact c (mkL0 f (Some b'))) as (A' & B' & C').
  assert (M1 : at_stop c s -> at_stop c (mkL0 f (Some b'))).
  { intros [H|(l & t & H1 & H2 & H3)]; [left; cbn; lia|right; exists l, b'; repeat split; auto; rewrite E1 in H2; inversion H2; lia]. }
  assert (M2 : at_slow c s -> at_slow c (mkL0 f (Some b'))).
  { intros [H|(l & t & H1 & H2 & H3)]; [left; cbn; lia|right; exists l, b'; repeat split; auto; rewrite E1 in H2; inversion H2; lia]. }
  pose proof (stop_at c s) as S. pose proof (slow_at c s) as W.
  destruct ((bp_stop_files c <=? l0_files s) || over (bp_stop_bytes c) (l0_bytes s)).
  { assert (at_stop c s) by now apply S. rewrite A, A'; cbn; auto; lia. }
  assert (N1 : ~ at_stop c s) by (intros F; apply S in F; discriminate).
  destruct ((bp_slow_files c <=? l0_files s) || over (bp_slow_bytes c) (l0_bytes s)).
  { assert (W1 : at_slow c s) by now apply W. rewrite (B N1 W1).
    pose proof (stop_at c (mkL0 f (Some b'))) as S2. destruct ((bp_stop_files c <=? l0_files (mkL0 f (Some b'))) || _).
    - rewrite A' by (now apply S2). cbn; lia.
    - rewrite B'; auto; [cbn; lia|]. intros F; apply S2 in F; discriminate. }
  assert (N2 : ~ at_slow c s) by (intros F; apply W in F; discriminate).
  rewrite (C N1 N2). cbn. lia.
Qed.

(** The statistics of a level. *)
Lemma l0_fold_none l : fold_left (fun acc f => match acc, f with Some a, Some b => Some (N.min (a + b) usize_max) | _, _ => None end)
                  (l : list (option N)) None = None.
Proof. induction l; auto. Qed.
Lemma l0_fold_all sizes : forall a, a <= usize_max ->
  fold_left (fun acc f => match acc, f with Some a, Some b => Some (N.min (a + b) usize_max) | _, _ => None end)
            (map Some sizes) (Some a) = Some (N.min (a + fold_right N.add 0 sizes) usize_max).
Proof.
  induction sizes as [|x sizes IH]; intros a H; cbn [map fold_left fold_right].
  - f_equal. lia.
  - rewrite IH by lia. f_equal. lia.
Qed.
Lemma c34_stats_known sizes : l0_from_manifest (map Some sizes) =
  mkL0 (N.of_nat (length sizes)) (Some (N.min (fold_right N.add 0 sizes) usize_max)).
Proof.
  unfold l0_from_manifest. rewrite map_length, l0_fold_all by (unfold usize_max; lia). now rewrite N.add_0_l.
Qed.
Lemma c34_stats_unknown l : In None l -> l0_from_manifest l = mkL0 (N.of_nat (length l)) None.
Proof.
  intros H. unfold l0_from_manifest. f_equal. apply in_split in H as (a & b & ->). rewrite fold_left_app. cbn.
  destruct (fold_left _ a (Some 0)); apply l0_fold_none.
Qed.
Lemma sum_app a b : fold_right N.add 0 (a ++ b) = fold_right N.add 0 a + fold_right N.add 0 b.
Proof. induction a; cbn; lia. Qed.
Lemma c34_more_files c sizes more :
  severity (bp_decide c (l0_from_manifest (map Some sizes))) <= severity (bp_decide c (l0_from_manifest (map Some (sizes ++ more)))).
Proof.
  rewrite !c34_stats_known. apply (c34_monotone _ _ _ (N.min (fold_right N.add 0 sizes) usize_max)).
  - reflexivity.
  - rewrite sum_app. lia.
  - cbn. rewrite app_length. lia.
Qed.
(** A write is let through only after a check that does not ask it to stall. *)
Lemma bp_stalled_spec c : forall seen ds rest, bp_stalled c seen = Some (ds, rest) ->
  exists before s, seen = before ++ s :: rest /\ Forall (at_stop c) before /\ ~ at_stop c s /\
    ds = repeat (bp_stop_delay c) (length before) ++ (match bp_decide c s with Slowdown d => [d] | _ => [] end).
Proof.
  induction seen as [|s seen IH]; intros ds rest; cbn; [discriminate|].
  destruct (c34_exact c s) as (A & B & C). pose proof (stop_at c s) as S.
  destruct ((bp_stop_files c <=? l0_files s) || over (bp_stop_bytes c) (l0_bytes s)).
  - assert (H : at_stop c s) by now apply S. rewrite (A H).
    destruct (bp_stalled c seen) as [[ds' r']|] eqn:E; [|discriminate]. intros [= <- <-].
    destruct (IH _ _ eq_refl) as (before & x & -> & P & Q & ->). exists (s :: before), x. repeat split; auto.
  - assert (H : ~ at_stop c s) by (intros F; apply S in F; discriminate).
    destruct (bp_decide c s) eqn:E; intros X; inversion X; subst.
    + exists [], s. repeat split; auto. rewrite E. auto.
    + exists [], s. repeat split; auto. rewrite E. auto.
    + unfold bp_decide in E. pose proof (stop_at c s) as S'.
      destruct ((bp_stop_files c <=? l0_files s) || over (bp_stop_bytes c) (l0_bytes s)); [exfalso; apply H; now apply S'|].
      destruct ((bp_slow_files c <=? l0_files s) || over (bp_slow_bytes c) (l0_bytes s)); discriminate.
Qed.
Lemma c34_wait c seen ds rest : bp_wait c seen = Some (ds, rest) ->
  exists before s, seen = before ++ s :: rest /\ Forall (at_stop c) before /\ ~ at_stop c s /\
    ds = repeat (bp_stop_delay c) (length before) ++ (match bp_decide c s with Slowdown d => [d] | _ => [] end).
Proof.
  intros H. apply bp_stalled_spec. destruct seen as [|s r]; [discriminate|]. cbn in *.
  destruct (bp_decide c s) eqn:E; auto. assert (E1 : delay = bp_stop_delay c).
  { unfold bp_decide in E. destruct (_ || _); [congruence|]. destruct (_ || _); discriminate. }
  subst. exact H.
Qed.
Lemma c34_missing_stats : exists init calls level file,
  severity (bp_decide (bp_build init calls) (l0_from_manifest level)) = 2 /\
  severity (bp_decide (bp_build init calls) (l0_from_manifest (level ++ [file]))) = 0.
Proof. exists None, [CStopBytes 100], [Some 60; Some 60], None. split; reflexivity. Qed.

(** *** Backoff *)
Definition backoff_sane (c : backoff) : Prop := 1 <= bo_base c /\ bo_base c <= bo_max c /\ bo_max c <= duration_max.
Lemma iter_double b n : b <= duration_max -> Nat.iter n double_sat b = N.min (b * 2 ^ N.of_nat n) duration_max.
Proof.
  intros H. induction n as [|n IH].
  - change (Nat.iter 0 double_sat b) with b. rewrite N.mul_1_r. lia.
  - change (Nat.iter (S n) double_sat b) with (double_sat (Nat.iter n double_sat b)). rewrite IH, Nat2N.inj_succ, N.pow_succ_r'. unfold double_sat. lia.
Qed.
Lemma c35_delay c n : backoff_sane c -> cas_backoff_delay c (S n) = N.min (bo_base c * 2 ^ N.of_nat n) (bo_max c).
Proof.
  intros (A & B & C). unfold cas_backoff_delay. rewrite iter_double by lia.
  destruct (N.ltb_spec (bo_max c) (N.min (bo_base c * 2 ^ N.of_nat n) duration_max)); lia.
Qed.
Lemma backoff_new_sane base max : base <= duration_max -> max <= duration_max -> backoff_sane (backoff_new base max).
Proof.
  intros A B. unfold backoff_new, backoff_sane, ms. destruct (N.eqb_spec base 0).
  - destruct (N.ltb_spec max (1 * 1000000)); cbn [bo_base bo_max]; unfold duration_max in *; lia.
  - destruct (N.ltb_spec max base); cbn [bo_base bo_max]; lia.
Qed.
Lemma c35_all base max m n : base <= duration_max -> max <= duration_max -> (m <= n)%nat ->
  let c := backoff_new base max in
  cas_backoff_delay c 0 = 0 /\ cas_backoff_delay c n <= bo_max c /\ cas_backoff_delay c m <= cas_backoff_delay c n /\
  ((1 <= n)%nat -> 1 <= cas_backoff_delay c n).
Proof.
  intros A B L c. pose proof (backoff_new_sane base max A B) as S. fold c in S. pose proof S as (S1 & S2 & S3).
  split; [reflexivity|]. destruct n as [|n].
  - replace m with O by lia. repeat split; cbn [cas_backoff_delay]; lia.
  - rewrite (c35_delay c n S). split; [lia|]. assert (1 <= 2 ^ N.of_nat n) by (apply N.lt_pred_le; cbn; assert (2 ^ N.of_nat n <> 0) by (apply N.pow_nonzero; lia); lia).
    split; [|nia]. destruct m as [|m]; [cbn; lia|]. rewrite (c35_delay c m S).
    assert (2 ^ N.of_nat m <= 2 ^ N.of_nat n) by (apply N.pow_le_mono_r; lia). nia.
Qed.

Lemma c35_default m n : (m <= n)%nat ->
  cas_backoff_delay backoff_default 0 = 0 /\ cas_backoff_delay backoff_default n <= bo_max backoff_default /\
  cas_backoff_delay backoff_default m <= cas_backoff_delay backoff_default n.
Proof.
  intros L. assert (E : backoff_default = backoff_new (ms 50) (ms 1000)) by reflexivity. rewrite E.
  destruct (c35_all (ms 50) (ms 1000) m n) as (A & B & C & _); auto; vm_compute; discriminate.
Qed.

Lemma c46_commit :
  exists ops, demo_ok ops /\ d_imm (st_db (demo_run ops)) = [] /\
    Forall (fun o => exists ts ms, o = OCommit ts ms None) ops /\
    reached (build_stats (fun _ => 8) (d_mem (st_db (demo_run ops))) None) (AnyOf [BatchesThreshold 2; BytesThreshold 40]).
Proof.
  exists [OCommit 0 [Put (rw 1 10)] None; OCommit 0 [Put (rw 2 20); Del 1] None; OCommit 1 [Put (rw 3 30)] None].
  split; [|split; [|split]].
  - cbn [demo_ok ops_ok]. repeat split.
  - reflexivity.
  - repeat constructor; eexists _, _; reflexivity.
  - apply evaluate_reached. vm_compute. reflexivity.
Qed.
Lemma c46_demo :
  seals (evaluate default_policy (mkStats 3 24 32 None (Some 64) (Some 5))) = true /\
  reached (mkStats 3 24 32 None (Some 64) (Some 5)) default_policy /\
  (let d := st_db (demo_run [OIngest [rw 1 10; rw 2 20] None false]) in
   let r := ingest_policy row_key (fun _ => 8) (AnyOf [BatchesThreshold 9; BytesThreshold 120]) None [rw 2 21; rw 3 30] None d in
   snd r = true /\ length (d_imm (fst r)) = 1%nat /\ m_index (d_mem (fst r)) = []).
Proof.
  split; [reflexivity|]. split; [apply evaluate_reached; reflexivity|]. vm_compute. repeat split.
Qed.

(** ** Reasons and the default policy *)
Lemma any_reason ps s r : evaluate (AnyOf ps) s = SealIt r -> exists p, In p ps /\ evaluate p s = SealIt r.
Proof.
  induction ps as [|p ps IH]; [discriminate|]. cbn [evaluate]. destruct (evaluate p s) eqn:E.
  - intros H. destruct (IH H) as (q & Hq & Eq'). exists q. simpl. auto.
  - intros H. injection H as <-. exists p. simpl. auto.
Qed.
Lemma explains_any s ps p r : In p ps -> explains s p r -> explains s (AnyOf ps) r.
Proof. intros Hin. destruct r; cbn [explains]; intros (A & B & C); (split; [exact A|]; split; [exact B|]; eapply pa_any; eauto). Qed.
Fixpoint policy_size (p : policy) : nat :=
  match p with AnyOf ps => S (fold_right (fun q n => (policy_size q + n)%nat) O ps) | _ => 1%nat end.
Lemma size_in q ps : In q ps -> (policy_size q <= fold_right (fun q n => (policy_size q + n)%nat) O ps)%nat.
Proof. induction ps as [|x ps IH]; intros []; cbn [fold_right]; [subst; lia|]. specialize (IH H). lia. Qed.
Lemma reason_explains s : forall n p r, (policy_size p <= n)%nat -> evaluate p s = SealIt r -> explains s p r.
Proof.
  induction n as [|n IH]; intros p r Hn H.
  - destruct p; cbn [policy_size] in Hn; lia.
  - destruct p as [|l|l|l|l|ps].
    + discriminate.
    + cbn [evaluate] in H. destruct (N.leb_spec l (ms_key_bytes s + ms_entries s * ms_overhead s)); [|discriminate].
      injection H as <-. cbn [explains]. repeat split; auto. constructor.
    + cbn [evaluate] in H. destruct (ms_open_rows s) eqn:E; [|discriminate]. destruct (N.leb_spec l n0); [|discriminate].
      injection H as <-. cbn [explains]. repeat split; auto. constructor.
    + cbn [evaluate] in H. destruct (ms_batches s) eqn:E; [|discriminate]. destruct (N.leb_spec l n0); [|discriminate].
      injection H as <-. cbn [explains]. repeat split; auto. constructor.
    + cbn [evaluate] in H. destruct (ms_since_seal s) eqn:E; [|discriminate]. destruct (N.leb_spec l n0); [|discriminate].
      injection H as <-. cbn [explains]. repeat split; auto. constructor.
    + apply any_reason in H as (q & Hq & E). apply explains_any with q; [exact Hq|]. apply IH; [|exact E].
      cbn [policy_size] in Hn. pose proof (size_in q ps Hq). lia.
Qed.
Lemma c46_reason p s r : evaluate p s = SealIt r -> explains s p r.
Proof. apply (reason_explains s (policy_size p)). lia. Qed.

Lemma c46_default {K} {KO : KeyOrd K} {R} (key_bytes : K -> N) (m : mem K R) since :
  let s := build_stats key_bytes m since in
  seals (evaluate default_policy s) = true <->
  64 * 1024 * 1024 <= ms_key_bytes s + 32 * ms_entries s \/
  64 <= N.of_nat (length (m_batches m) + length (m_deletes m)) \/
  (exists e, since = Some e /\ 30000 <= e).
Proof.
  cbv zeta. unfold default_policy. rewrite evaluate_any. cbn [existsb evaluate].
  set (s := build_stats key_bytes m since).
  assert (Ho : ms_overhead s = 32) by reflexivity. assert (Hr : ms_open_rows s = None) by reflexivity.
  assert (Hb : ms_batches s = Some (N.of_nat (length (m_batches m) + length (m_deletes m)))) by reflexivity.
  assert (Hs : ms_since_seal s = since) by reflexivity.
  rewrite Ho, Hr, Hb, Hs. rewrite (N.mul_comm (ms_entries s)). clearbody s.
  generalize (N.of_nat (length (m_batches m) + length (m_deletes m))); intros b.
  generalize (ms_key_bytes s + 32 * ms_entries s); intros a. generalize (64 * 1024 * 1024); intros lim.
  destruct (N.leb_spec lim a), (N.leb_spec 64 b); destruct since as [e|];
    try (destruct (N.leb_spec 30000 e)); cbn [seals orb]; split; intros X; auto;
    try discriminate; try (right; right; exists e; split; [reflexivity|assumption]);
    destruct X as [X|[X|(x & E & X)]]; try lia; try discriminate; injection E as ->; lia.
Qed.

(** The documentation of the default policy gives 8 MiB as the limit of bytes. *)
Lemma c46_documented :
  exists (key_bytes : N -> N) ops, demo_ok ops /\
    let d := st_db (demo_run ops) in
    let s := build_stats key_bytes (d_mem d) None in
    8 * 1024 * 1024 < ms_key_bytes s + 32 * ms_entries s /\ seals (evaluate default_policy s) = false /\
    exists d', ingest_policy row_key key_bytes default_policy None [rw 3 30] None d = (d', true) /\ d_imm d' = [].
Proof.
  exists (fun _ => 8388608), [OIngest [rw 1 10; rw 2 20] None false].
  split; [unfold demo_ok; ok_ops|]. cbv zeta. split; [vm_compute; reflexivity|].
  split; [vm_compute; reflexivity|]. eexists. split; vm_compute; reflexivity.
Qed.
