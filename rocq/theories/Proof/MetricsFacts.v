(** The counters of the memtable agree with its index (C46). *)
From Coq Require Import List NArith Bool Lia Arith Sorted.
From Verif Require Import Base.Order Model.OMap Model.KeyTs Model.MemTable Model.Immutable Model.Policy Model.Metrics
     Spec.LimitSpec Proof.OMapFacts Proof.MemFacts Proof.ViewFacts Proof.LimitFacts Proof.HistFacts Proof.Demo.
Import ListNotations.
Local Open Scope N_scope.

Section MetricsFacts.
  Context {K : Type} {KO : KeyOrd K} {R : Type}.
  Variable key_of : R -> option K.
  Variable key_bytes : K -> N.
  Hypothesis HB : forall a b, kcmp a b = Eq -> key_bytes a = key_bytes b.

  Notation idx := (list ((K * N) * mloc)).
  Notation keys_in := (map (fun e : (K * N) * mloc => fst (fst e))).
  Definition sum_bytes (ks : list K) : N := fold_right (fun k a => key_bytes k + a) 0 ks.
  Definition ksorted (ks : list K) : Prop := StronglySorted (fun a b => kcmp a b = Lt) ks.

  (** Two lists of the same keys have the same length and size. *)
  Lemma same_keys : forall ks ks', ksorted ks -> ksorted ks' ->
    (forall k, In k ks -> exists k', In k' ks' /\ kcmp k k' = Eq) ->
    (forall k', In k' ks' -> exists k, In k ks /\ kcmp k k' = Eq) ->
    length ks = length ks' /\ sum_bytes ks = sum_bytes ks'.
  Proof.
    induction ks as [|a ks IH]; intros [|b ks'] S S' H1 H2.
    - auto.
    - destruct (H2 b) as (? & [] & _). left; auto.
    - destruct (H1 a) as (? & [] & _). left; auto.
    - inversion S as [|? ? Sa Fa]; subst. inversion S' as [|? ? Sb Fb]; subst.
      rewrite Forall_forall in Fa, Fb.
      assert (E : kcmp a b = Eq).
      { destruct (H1 a (or_introl eq_refl)) as (x & [<-|Hx] & Ex); auto.
        destruct (H2 b (or_introl eq_refl)) as (y & [<-|Hy] & Ey); auto.
        pose proof (Fb x Hx). pose proof (Fa y Hy). exfalso. korder. }
      destruct (IH ks' Sa Sb) as [L B].
      + intros k Hk. destruct (H1 k (or_intror Hk)) as (x & [<-|Hx] & Ex); eauto.
        pose proof (Fa k Hk). exfalso. korder.
      + intros k Hk. destruct (H2 k (or_intror Hk)) as (x & [<-|Hx] & Ex); eauto.
        pose proof (Fb k Hk). exfalso. korder.
      + simpl. rewrite L, B, (HB a b E). auto.
  Qed.

  Fixpoint kinsert (k : K) (l : list K) : list K :=
    match l with
    | [] => [k]
    | a :: r => match kcmp k a with Gt => a :: kinsert k r | _ => k :: l end
    end.
  Lemma kinsert_In k l x : In x (kinsert k l) <-> x = k \/ In x l.
  Proof. induction l as [|a r IH]; simpl; [intuition|]. destruct (kcmp k a); simpl; rewrite ?IH; intuition. Qed.
  Lemma kinsert_sorted k l : ksorted l -> (forall x, In x l -> kcmp x k <> Eq) -> ksorted (kinsert k l).
  Proof.
    induction l as [|a r IH]; simpl; intros S H; [repeat constructor|]. inversion S as [|? ? S1 F]; subst.
    destruct (kcmp k a) eqn:E.
    - exfalso. apply (H a); auto. korder.
    - constructor; auto. constructor; auto. eapply Forall_impl; [|exact F]. simpl. intros x Hx. korder.
    - constructor; [apply IH; auto|]. apply Forall_forall. intros x Hx. apply kinsert_In in Hx as [->|Hx]; [korder|].
      rewrite Forall_forall in F. auto.
  Qed.
  Lemma kinsert_len k l : length (kinsert k l) = S (length l) /\ sum_bytes (kinsert k l) = key_bytes k + sum_bytes l.
  Proof. induction l as [|a r [IH1 IH2]]; simpl; auto. destruct (kcmp k a); simpl; rewrite ?IH1, ?IH2; auto. split; auto. lia. Qed.

  Definition times_ok (i : idx) : Prop := Forall (fun e : (K * N) * mloc => snd (fst e) <= ts_max) i.

  Lemma has_existing_iff k (i : idx) : times_ok i ->
    (has_existing k i = true <-> exists e, In e i /\ kcmp k (fst (fst e)) = Eq).
  Proof.
    intros HT. unfold has_existing.
    assert (X : forall e, In e (om_range (Included (k, ts_max)) (Included (k, ts_min)) i) <-> In e i /\ kcmp k (fst (fst e)) = Eq).
    { intros e. unfold om_range. rewrite filter_In. destruct e as [[k' t] v]. split; intros [H1 H2]; split; auto.
      - cbn [above below fst] in H2. apply andb_true_iff in H2 as [A B]. unfold kleb in A, B. cbn [kcmp kts_ord] in A, B.
        unfold kts_cmp in A, B. cbn [fst snd] in *. destruct (kcmp k k') eqn:E; auto; [destruct (kcmp k' k) eqn:E'; try discriminate; exfalso; korder|discriminate].
      - cbn [above below fst] in *. unfold times_ok in HT. rewrite Forall_forall in HT. specialize (HT _ H1). cbn [fst snd] in HT.
        apply andb_true_iff. unfold kleb. cbn [kcmp kts_ord]. unfold kts_cmp. cbn [fst snd]. rewrite H2.
        assert (kcmp k' k = Eq) as -> by korder. unfold ts_min. split.
        + destruct (N.compare_spec t ts_max); auto. lia.
        + destruct (N.compare_spec 0 t); auto. lia. }
    destruct (om_range _ _ i) as [|e r] eqn:E.
    - split; [discriminate|]. intros (e & H). apply X in H. destruct H.
    - split; auto. intros _. exists e. apply X. left. auto.
  Qed.

  Lemma distinct_lists (i : idx) : osorted i -> lists_keys (keys_in i) (distinct_keys None i).
  Proof.
    intros HS. destruct (distinct_spec (fun _ => O) key_bytes i None HS) as (A & _ & B & C); [discriminate|].
    split; auto. split; auto. intros k Hk. destruct (C k Hk) as [(p & F & _)|H]; [discriminate|auto].
  Qed.

  Lemma insert_keys k t v (i : idx) x : In x (keys_in (om_insert (k, t) v i)) -> x = k \/ In x (keys_in i).
  Proof.
    intros H. apply in_map_iff in H as (e & <- & He). apply om_insert_In in He as [->|He]; [left; auto|right].
    apply in_map_iff. eauto.
  Qed.
  Lemma insert_keys_back k t v (i : idx) x : In x (keys_in i) -> exists y, In y (keys_in (om_insert (k, t) v i)) /\ kcmp y x = Eq.
  Proof.
    intros H. apply in_map_iff in H as (e & <- & He). destruct (kcmp (k, t) (fst e)) eqn:E.
    - exists k. split.
      + apply in_map_iff. exists ((k, t), v). split; auto. apply om_insert_here.
      + destruct e as [[k' t'] v']. cbn [fst] in *. apply kts_eq in E as [E _]. exact E.
    - exists (fst (fst e)). split; [|apply kcmp_refl]. apply in_map_iff. exists e. split; auto. apply om_insert_keep; auto. congruence.
    - exists (fst (fst e)). split; [|apply kcmp_refl]. apply in_map_iff. exists e. split; auto. apply om_insert_keep; auto. congruence.
  Qed.

  Lemma distinct_insert k t v (i : idx) : osorted i -> times_ok i ->
    length (distinct_keys None (om_insert (k, t) v i)) =
      (if has_existing k i then length (distinct_keys None i) else S (length (distinct_keys None i))) /\
    sum_bytes (distinct_keys None (om_insert (k, t) v i)) =
      (if has_existing k i then sum_bytes (distinct_keys None i) else sum_bytes (distinct_keys None i) + key_bytes k).
  Proof.
    intros HS HT. pose proof (has_existing_iff k i HT) as HE.
    destruct (distinct_lists i HS) as (S0 & A0 & B0).
    destruct (distinct_lists (om_insert (k, t) v i) (om_insert_sorted _ _ _ HS)) as (S1 & A1 & B1).
    assert (HK : In k (keys_in (om_insert (k, t) v i))).
    { apply in_map_iff. exists ((k, t), v). split; auto. apply om_insert_here. }
    destruct (has_existing k i).
    - destruct (proj1 HE eq_refl) as (e & He & Ee).
      apply same_keys; auto.
      + intros x Hx. apply A1 in Hx. apply insert_keys in Hx as [->|Hx].
        * destruct (B0 (fst (fst e))) as (y & Hy & Ey); [apply in_map_iff; eauto|]. exists y. split; auto. korder.
        * destruct (B0 x Hx) as (y & Hy & Ey). exists y. split; auto. korder.
      + intros x Hx. apply A0 in Hx. destruct (insert_keys_back k t v i x Hx) as (y & Hy & Ey).
        destruct (B1 y Hy) as (z & Hz & Ez). exists z. split; auto. korder.
    - destruct (kinsert_len k (distinct_keys None i)) as [L1 L2].
      rewrite N.add_comm, <- L2, <- L1. apply same_keys; auto.
      + apply kinsert_sorted; auto. intros x Hx E. apply A0 in Hx. apply in_map_iff in Hx as (e & <- & He).
        assert (false = true) by (apply HE; exists e; split; auto; korder). discriminate.
      + intros x Hx. apply A1 in Hx. apply insert_keys in Hx as [->|Hx].
        * exists k. split; [apply kinsert_In; auto|apply kcmp_refl].
        * destruct (B0 x Hx) as (y & Hy & Ey). exists y. split; [apply kinsert_In; auto|korder].
      + intros x Hx. apply kinsert_In in Hx as [->|Hx].
        * destruct (B1 k HK) as (y & Hy & Ey). eauto.
        * apply A0 in Hx. destruct (insert_keys_back k t v i x Hx) as (y & Hy & Ey).
          destruct (B1 y Hy) as (z & Hz & Ez). exists z. split; auto. korder.
  Qed.

  (** *** The invariant *)
  Definition agree (i : idx) (c : counters) : Prop :=
    osorted i /\ times_ok i /\
    ct_entries c = N.of_nat (length (distinct_keys None i)) /\
    ct_key_bytes c = sum_bytes (distinct_keys None i) /\
    ct_inserts c = ct_entries c + ct_replaces c.

  Lemma index_counted_ok mk : forall keys tss n i c, agree i c -> Forall (fun t => t <= ts_max) tss -> length keys = length tss ->
    let '(i', c') := index_counted key_bytes mk n keys tss (i, c) in
    i' = index_rows mk n keys tss i /\ agree i' c' /\ ct_inserts c' = ct_inserts c + N.of_nat (length keys).
  Proof.
    induction keys as [|k keys IH]; intros [|t tss] n i c HA HT HL; try discriminate; cbn [index_counted index_rows].
    - split; auto. split; auto. simpl. lia.
    - inversion HT as [|? ? T1 T2]; subst. cbn [fst snd].
      set (c1 := record_write (has_existing k i) (key_bytes k) c).
      assert (A1 : agree (om_insert (k, t) (mk n) i) c1 /\ ct_inserts c1 = ct_inserts c + 1).
      { destruct HA as (S & T & E1 & E2 & E3). destruct (distinct_insert k t (mk n) i S T) as [D1 D2].
        unfold agree, c1, record_write. split.
        - split; [now apply om_insert_sorted|]. split.
          + apply Forall_forall. intros e He. apply om_insert_In in He as [->|He]; auto. unfold times_ok in T. rewrite Forall_forall in T. auto.
          + rewrite D1, D2. destruct (has_existing k i); cbn [ct_entries ct_key_bytes ct_inserts ct_replaces]; repeat split; try lia.
        - destruct (has_existing k i); reflexivity. }
      destruct A1 as [A1 I1]. specialize (IH tss (S n) _ _ A1 T2 ltac:(simpl in HL; lia)).
      destruct (index_counted key_bytes mk (S n) keys tss _) as [i' c']. destruct IH as (H1 & H2 & H3).
      split; auto. split; auto. rewrite H3, I1. simpl length. lia.
  Qed.

  Definition cinv (s : cmem K R) : Prop := agree (m_index (fst s)) (snd s).

  Lemma try_rows_ok rows tss s : cinv s -> Forall (fun t => t <= ts_max) tss -> length tss = length rows ->
    match try_rows key_of key_bytes rows tss s with
    | CIOk s' => try_insert_batch key_of (fst s) rows tss = IOk (fst s') /\ cinv s' /\
                 ct_inserts (snd s') = ct_inserts (snd s) + N.of_nat (length rows)
    | CIKeyErr s' => try_insert_batch key_of (fst s) rows tss = IKeyErr (fst s') /\ cinv s' /\ snd s' = snd s
    | CIExhausted => try_insert_batch key_of (fst s) rows tss = IExhausted
    end.
  Proof.
    destruct s as [m c]. intros HI HT HL. unfold try_rows, try_insert_batch. cbn [fst snd].
    destruct (Nat.leb _ _); auto. destruct (project_view key_of rows) as [keys|] eqn:EP; [|auto].
    apply project_view_Some in EP.
    assert (LK : length keys = length rows) by (apply (f_equal (@length _)) in EP; now rewrite !map_length in EP).
    pose proof (index_counted_ok (Up (length (m_batches m))) keys tss 0 (m_index m) c HI HT ltac:(lia)) as H.
    destruct (index_counted _ _ _ _ _ _) as [i' c']. destruct H as (-> & H2 & H3). split; auto. split; auto.
    cbn [snd]. rewrite H3, LK. reflexivity.
  Qed.
  Lemma try_dels_ok ks tss s : cinv s -> Forall (fun t => t <= ts_max) tss -> length tss = length ks ->
    match try_dels key_bytes ks tss s with
    | CIOk s' => try_insert_delete_batch (fst s) ks tss = IOk (fst s') /\ cinv s' /\
                 ct_inserts (snd s') = ct_inserts (snd s) + N.of_nat (length ks)
    | CIKeyErr s' => try_insert_delete_batch (fst s) ks tss = IKeyErr (fst s') /\ cinv s' /\ snd s' = snd s
    | CIExhausted => try_insert_delete_batch (fst s) ks tss = IExhausted
    end.
  Proof.
    destruct s as [m c]. intros HI HT HL. unfold try_dels, try_insert_delete_batch. cbn [fst snd].
    destruct ks as [|o ks]; [split; auto; split; auto; simpl; lia|].
    destruct (Nat.leb _ _); auto. destruct (project_keys (o :: ks)) as [keys|] eqn:EP; [|auto].
    assert (LK : length keys = length (o :: ks)).
    { clear - EP. revert keys EP. generalize (o :: ks). induction l as [|[x|] l IH]; simpl; intros keys E; try discriminate.
      - injection E as <-. reflexivity.
      - destruct (project_keys l); [|discriminate]. injection E as <-. simpl. now rewrite (IH l0). }
    pose proof (index_counted_ok (Del (length (m_deletes m))) keys tss 0 (m_index m) c HI HT ltac:(lia)) as H.
    destruct (index_counted _ _ _ _ _ _) as [i' c']. destruct H as (-> & H2 & H3). split; auto. split; auto.
    cbn [snd]. rewrite H3, LK. reflexivity.
  Qed.

  Definition fits (t : N) : Prop := t <= ts_max.

  Lemma zero_ok capacity : cinv (cm_new (K := K) (R := R) capacity).
  Proof. repeat split; constructor. Qed.
  Lemma seal_counted_ok s : cinv s ->
    match seal_counted key_of s with
    | None => seal key_of (fst s) = SErr
    | Some (s', seen) => cinv s' /\ ct_inserts (snd s') = fold_left tally seen (ct_inserts (snd s)) /\
        match seal key_of (fst s) with
        | SNone => s' = s /\ seen = []
        | SErr => False
        | SSealed m _ => fst s' = m /\ seen = [MSealed]
        end
    end.
  Proof.
    intros HI. unfold seal_counted. destruct (seal key_of (fst s)) as [| |m sg] eqn:E; auto.
    assert (m_index m = []) as EM.
    { unfold seal in E. destruct (m_index (fst s)); [discriminate|]. destruct (seal_collect _ _); [|discriminate].
      destruct (project_view _ _); [|discriminate]. destruct (build_index _ _ _ _ _); [|discriminate]. injection E as <- _. reflexivity. }
    split; [|split; auto]. unfold cinv. cbn [fst snd]. rewrite EM. repeat split; constructor.
  Qed.

  Lemma insert_counted_ok n (try : cmem K R -> cinsert) (raw : mem K R -> insert_result K R) s :
    (forall s, cinv s -> match try s with
       | CIOk s' => raw (fst s) = IOk (fst s') /\ cinv s' /\ ct_inserts (snd s') = ct_inserts (snd s) + N.of_nat n
       | CIKeyErr s' => raw (fst s) = IKeyErr (fst s') /\ cinv s' /\ snd s' = snd s
       | CIExhausted => raw (fst s) = IExhausted end) ->
    cinv s ->
    let '(s', seen) := insert_counted key_of n try s in
    cinv s' /\ ct_inserts (snd s') = fold_left tally seen (ct_inserts (snd s)) /\
    match (match raw (fst s) with IOk m' => MOk m' None | IKeyErr m' => MKeyErr m' | IExhausted => after_seal key_of (fst s) raw end) with
    | MOk m None => fst s' = m /\ seen = [MWrote n]
    | MOk m (Some _) => fst s' = m /\ seen = [MSealed; MWrote n]
    | MKeyErr m => fst s' = m
    | MFail => True
    end.
  Proof.
    intros HT HI. unfold insert_counted. pose proof (HT s HI) as H. destruct (try s) as [s'|s'|] eqn:E.
    - destruct H as (-> & H2 & H3). auto.
    - destruct H as (-> & H2 & H3). split; auto. split; auto. simpl. now rewrite H3.
    - rewrite H. unfold after_seal. pose proof (seal_counted_ok s HI) as HS.
      destruct (seal_counted key_of s) as [[s0 seen]|]; [|rewrite HS; auto].
      destruct HS as (I0 & N0 & HS). pose proof (HT s0 I0) as H0.
      destruct (seal key_of (fst s)) as [| |m sg]; [destruct HS as [-> ->]|contradiction|destruct HS as [HS ->]].
      + rewrite E. rewrite H. auto.
      + rewrite <- HS. destruct (try s0) as [s'|s'|].
        * destruct H0 as (-> & H2 & H3). split; auto. split; auto. rewrite H3, N0. reflexivity.
        * destruct H0 as (-> & H2 & H3). split; auto. split; auto. rewrite H3, N0. reflexivity.
        * rewrite H0. split; auto.
  Qed.

  Lemma Forall_repeat_fits t n : fits t -> Forall (fun t => t <= ts_max) (repeat t n).
  Proof. intros H. apply Forall_forall. intros x Hx. apply repeat_spec in Hx. now subst. Qed.

  Lemma mcall_step_ok c s : cinv s -> call_fits c ->
    let '(s', seen) := mcall_step key_of key_bytes s c in
    cinv s' /\ ct_inserts (snd s') = fold_left tally seen (ct_inserts (snd s)) /\
    match c with
    | MRows rows t =>
        match mem_insert_batch key_of (fst s) rows t with
        | MOk m None => fst s' = m /\ seen = [MWrote (length rows)]
        | MOk m (Some _) => fst s' = m /\ seen = [MSealed; MWrote (length rows)]
        | MKeyErr m => fst s' = m
        | MFail => True
        end
    | MDels ks t =>
        match mem_insert_deletes key_of (fst s) ks t with
        | MOk m None => fst s' = m /\ seen = [MWrote (length ks)]
        | MOk m (Some _) => fst s' = m /\ seen = [MSealed; MWrote (length ks)]
        | MKeyErr m => fst s' = m
        | MFail => True
        end
    | MSealNow =>
        match seal key_of (fst s) with
        | SNone => s' = s /\ seen = []
        | SSealed m _ => fst s' = m /\ seen = [MSealed]
        | SErr => True
        end
    end.
  Proof.
    intros HI HF. destruct c as [rows t|ks t|]; cbn [mcall_step call_fits] in *.
    - apply (insert_counted_ok (length rows) (try_rows key_of key_bytes rows (repeat t (length rows)))
               (fun m => try_insert_batch key_of m rows (repeat t (length rows)))); auto.
      intros s0 I0. apply try_rows_ok; auto; [now apply Forall_repeat_fits|apply repeat_length].
    - apply (insert_counted_ok (length ks) (try_dels key_bytes ks (repeat t (length ks)))
               (fun m => try_insert_delete_batch m ks (repeat t (length ks)))); auto.
      intros s0 I0. apply try_dels_ok; auto; [now apply Forall_repeat_fits|apply repeat_length].
    - pose proof (seal_counted_ok s HI) as HS. destruct (seal_counted key_of s) as [[s' seen]|].
      + destruct HS as (H1 & H2 & H3). split; auto. split; auto. destruct (seal key_of (fst s)); auto.
      + rewrite HS. auto.
  Qed.

  Lemma mcall_run_ok cs : forall s, cinv s -> Forall call_fits cs ->
    let '(s', t) := mcall_run key_of key_bytes s cs in
    cinv s' /\ ct_inserts (snd s') = fold_left tally t (ct_inserts (snd s)).
  Proof.
    induction cs as [|c cs IH]; intros s HI HF; cbn [mcall_run]; auto.
    inversion HF as [|? ? F1 F2]; subst. pose proof (mcall_step_ok c s HI F1) as H.
    destruct (mcall_step key_of key_bytes s c) as [s1 t1]. destruct H as (H1 & H2 & _).
    specialize (IH s1 H1 F2). destruct (mcall_run key_of key_bytes s1 cs) as [s2 t2]. destruct IH as [I1 I2].
    split; auto. rewrite I2, H2, <- fold_left_app. reflexivity.
  Qed.

  Theorem counters_true capacity cs since s t : Forall call_fits cs ->
    mcall_run key_of key_bytes (cm_new capacity) cs = (s, t) ->
    counted_stats s since = build_stats key_bytes (fst s) since /\
    ct_inserts (snd s) = wrote_since t /\ ct_inserts (snd s) = ct_entries (snd s) + ct_replaces (snd s).
  Proof.
    intros HF E. pose proof (mcall_run_ok cs (cm_new capacity) (zero_ok capacity) HF) as H. rewrite E in H.
    destruct H as [(S & T & E1 & E2 & E3) H2]. split; [|auto]. unfold counted_stats, build_stats. now rewrite E1, E2.
  Qed.

  Theorem counters_only capacity cs s t c : Forall call_fits cs -> call_fits c ->
    mcall_run key_of key_bytes (cm_new capacity) cs = (s, t) ->
    let '(s', seen) := mcall_step key_of key_bytes s c in
    match c with
    | MRows rows ts =>
        match mem_insert_batch key_of (fst s) rows ts with
        | MOk m None => fst s' = m /\ seen = [MWrote (length rows)]
        | MOk m (Some _) => fst s' = m /\ seen = [MSealed; MWrote (length rows)]
        | MKeyErr m => fst s' = m
        | MFail => True
        end
    | MDels ks ts =>
        match mem_insert_deletes key_of (fst s) ks ts with
        | MOk m None => fst s' = m /\ seen = [MWrote (length ks)]
        | MOk m (Some _) => fst s' = m /\ seen = [MSealed; MWrote (length ks)]
        | MKeyErr m => fst s' = m
        | MFail => True
        end
    | MSealNow =>
        match seal key_of (fst s) with
        | SNone => s' = s /\ seen = []
        | SSealed m _ => fst s' = m /\ seen = [MSealed]
        | SErr => True
        end
    end.
  Proof.
    intros HF HC E. pose proof (mcall_run_ok cs (cm_new capacity) (zero_ok capacity) HF) as H. rewrite E in H.
    destruct H as [HI _]. pose proof (mcall_step_ok c s HI HC) as H.
    destruct (mcall_step key_of key_bytes s c) as [s' seen]. apply H.
  Qed.
End MetricsFacts.

(** A run with a seal by hand and one for want of room. *)
Definition counted_calls :=
  [MRows [rw 1 10; rw 2 20] 1; MDels [Some 2; Some 7] 2; MRows [rw 1 11] 3; MSealNow; MRows [rw 5 1; rw 5 2] 4;
   MDels [None] 5; MRows [rw 5 3; rw 6 1] 6; MRows [rw 1 1] 7].
Lemma counted_fits : Forall call_fits counted_calls.
Proof. unfold counted_calls. repeat apply Forall_cons; try apply Forall_nil; cbn [call_fits]; try exact I; discriminate. Qed.
Lemma counted_run :
  let '(s, t) := mcall_run row_key (fun _ => 8) (cm_new 2) counted_calls in
  let '(s1, t1) := mcall_run row_key (fun _ => 8) (cm_new 2) (firstn 7 counted_calls) in
  t = [MWrote 2; MWrote 2; MWrote 1; MSealed; MWrote 2; MRefused; MWrote 2; MSealed; MWrote 1] /\
  snd s1 = mkCt 2 4 2 16 /\ snd s = mkCt 1 1 0 8.
Proof. vm_compute. repeat split. Qed.
