(** Transactions, range scans and segment pruning over every run. *)
From Coq Require Import List NArith Bool Arith Lia Sorted.
From Verif Require Import Base.Order Model.OMap Model.KeyTs Model.MemTable Model.Immutable Model.SsTable
     Model.KeyBounds Model.DbScan Model.Compact Model.Planner Model.Db Model.DbCompact Model.Txn
     Spec.Mvcc Spec.History Spec.KeySet Model.Run Spec.Valid
     Proof.OMapFacts Proof.MemFacts Proof.ViewFacts Proof.SstFacts Proof.KeyBoundsFacts Proof.ScanFacts Proof.HistFacts
     Proof.DbFacts Proof.RunFacts Proof.Refine Proof.Reads Proof.TxnFacts.
Import ListNotations.
Local Arguments kcmp : simpl never.

Section TxnProps.
  Context {K : Type} {KO : KeyOrd K} {R : Type}.
  Variable key_of : R -> option K.
  Variable row_bytes : R -> nat.
  Variable del_bytes : K -> nat.
  Notation vers := ((K * N) * option R)%type.
  Notation run := (run key_of row_bytes del_bytes).
  Notation run_hyp := (run_hyp key_of row_bytes del_bytes).
  Notation inv := (inv key_of).

  (** *** Tables respect key equality and store rows under their own key. *)
  Definition keyed (m : table K R) : Prop :=
    (forall k k', kcmp k k' = Eq -> m k = m k') /\
    (forall k t r, m k = Some (t, r) -> exists k', key_of r = Some k' /\ kcmp k' k = Eq).
  Lemma keyed_update k v m : keyed m -> (forall t r, v = Some (t, r) -> exists k', key_of r = Some k' /\ kcmp k' k = Eq) ->
    keyed (update k v m).
  Proof.
    intros [H1 H2] HV. split.
    - intros a b E. unfold update. assert (keqb k a = keqb k b) as ->.
      { unfold keqb. now rewrite (kcmp_eq_r _ _ k E). }
      destruct (keqb k b); auto.
    - intros a t r. unfold update. destruct (keqb k a) eqn:E.
      + intros ->. destruct (HV t r eq_refl) as (k' & E1 & E2). exists k'. split; auto. apply keqb_true in E. korder.
      + apply H2.
  Qed.
  Lemma keyed_mut ts m u : keyed m -> keyed (apply_mut key_of ts m u).
  Proof.
    intros H. destruct u as [r|k]; simpl.
    - destruct (key_of r) as [k|] eqn:E; auto. apply keyed_update; auto. intros t r' [= -> ->]. exists k. split; auto. apply kcmp_refl.
    - apply keyed_update; auto. discriminate.
  Qed.
  Lemma keyed_muts ts ms : forall m, keyed m -> keyed (fold_left (apply_mut key_of ts) ms m).
  Proof. induction ms; simpl; auto. intros m H. apply IHms. now apply keyed_mut. Qed.
  Lemma keyed_final h : keyed (final key_of h).
  Proof.
    unfold final. assert (HE : keyed (@empty_table K R)) by (split; [reflexivity|discriminate]).
    revert HE. generalize (@empty_table K R). induction h as [|c h IH]; simpl; auto. intros m H. apply IH. now apply keyed_muts.
  Qed.

  Lemma listed_find m out k : keyed m -> lists_table key_of m (fun _ => true) out ->
    option_map snd (find (fun e => keqb (fst (fst e)) k) out) = option_map snd (m k).
  Proof.
    intros [H1 H2] [_ HL]. destruct (find _ out) as [[[k' t] r]|] eqn:EF.
    - apply find_some in EF as [HI HE]. simpl in HE. apply keqb_true in HE.
      apply HL in HI as (E & _). rewrite <- (H1 k' k HE), E. reflexivity.
    - destruct (m k) as [[t r]|] eqn:E; auto. exfalso. destruct (H2 _ _ _ E) as (k' & E1 & E2).
      assert (HI : In ((k', t), r) out) by (apply HL; rewrite (H1 k' k E2); auto).
      apply (find_none _ _ EF) in HI. simpl in HI. assert (keqb k' k = true) by now apply keqb_true. congruence.
  Qed.

  (** *** C21 *)
  Lemma txn_scan_run capacity ops ts ms : run_hyp capacity ops ->
    let s := run (start capacity) ops in
    Forall (seg_safe ts) (d_imm (st_db s)) -> (st_horizon s <= ts)%N ->
    exists out,
      scan_txn key_of (@t_rows K R) (@cp_all K R) (Some (stage key_of ms)) (mkSnap ts (d_levels (st_db s))) None (st_db s) = Some out /\
      lists_table key_of (fold_left (apply_mut key_of ts) ms (as_of key_of (st_hist s) ts)) (fun _ => true) out.
  Proof.
    intros HH s HS HZ. destruct (run_inv _ _ _ _ _ HH) as [HI HC].
    destruct (txn_read_spec key_of s (@t_rows K R) (@cp_all K R) None ts ms HI HC (cp_all_sound key_of row_bytes del_bytes) (push_all key_of _ _) HS HZ)
      as (full & out & E1 & E2 & E3).
    subst out. exists full. auto.
  Qed.

  Lemma txn_scan_fresh capacity ops ms : run_hyp capacity ops ->
    let s := run (start capacity) ops in
    let sn := begin_snapshot (st_db s) in
    exists out,
      scan_txn key_of (@t_rows K R) (@cp_all K R) (Some (stage key_of ms)) sn None (st_db s) = Some out /\
      lists_table key_of (fold_left (apply_mut key_of (sn_ts sn)) ms (final key_of (st_hist s))) (fun _ => true) out.
  Proof.
    intros HH s sn. destruct (run_inv _ _ _ _ _ HH) as [HI HC]. fold s in HI, HC.
    destruct (txn_scan_run capacity ops (sn_ts sn) ms HH) as (out & E1 & E2); fold s.
    - apply (seg_safe_latest key_of); auto. simpl. lia.
    - apply (iv_hz key_of _ HI).
    - fold s in E1, E2. exists out. split; auto. rewrite (as_of_all key_of) in E2; auto.
      pose proof (iv_clock _ _ HI) as H. eapply Forall_impl; [|exact H]. intros c Hc. simpl in *. lia.
  Qed.

  (** *** C22 *)
  Lemma txn_get_run capacity ops ts ms k : run_hyp capacity ops ->
    let s := run (start capacity) ops in
    Forall (seg_safe ts) (d_imm (st_db s)) -> (st_horizon s <= ts)%N ->
    (forall t, In t (concat (d_levels (st_db s))) -> ~ sst_holds key_of ts k t) ->
    length (filter (holdsb ts k) (layer_keys (st_db s))) <= 1 ->
    exists out,
      scan_txn key_of (@t_rows K R) (@cp_all K R) (Some (stage key_of ms)) (mkSnap ts (d_levels (st_db s))) None (st_db s) = Some out /\
      txn_get ts (stage key_of ms) k (st_db s) = Some (option_map snd (find (fun e => keqb (fst (fst e)) k) out)).
  Proof.
    intros HH s HS HZ H1 H2. destruct (txn_scan_run capacity ops ts ms HH HS HZ) as (out & E1 & E2). fold s in E1, E2.
    exists out. split; auto. destruct (run_inv _ _ _ _ _ HH) as [HI HC]. fold s in HI, HC.
    rewrite (txn_get_spec key_of s ts ms k HI HZ H1 H2). f_equal. symmetry. apply listed_find; auto.
    apply keyed_muts. unfold as_of. apply keyed_final.
  Qed.
  (** A staged key needs none of this. *)
  Lemma txn_get_staged ts ms k o (d : db K R) : om_get k (stage key_of ms) = Some o -> txn_get ts (stage key_of ms) k d = Some o.
  Proof. intros H. unfold txn_get. now rewrite H. Qed.

  (** *** C23 *)
  Lemma writes_key_same k k' c : kcmp k k' = Eq -> writes_key key_of k c -> writes_key key_of k' c.
  Proof. intros E (m & a & H1 & H2 & H3). exists m, a. split; auto. split; auto. korder. Qed.

  Lemma staged_mut ms k o : In (k, o) (stage key_of ms) ->
    exists u k', In u ms /\ mut_key key_of u = Some k' /\ kcmp k' k = Eq.
  Proof.
    intros H. apply (in_map (at_ts 0%N)) in H. apply (last_accepted key_of) in H.
    destruct H as (ms1 & x & ms2 & E & Hx & _). unfold mut_ver in Hx. destruct (mut_key key_of x) as [kx|] eqn:EX; [|discriminate].
    assert (HX : In x (accepted key_of ms)) by (rewrite E, in_app_iff; simpl; auto).
    unfold accepted in HX. apply filter_In in HX as [HX _]. exists x, kx. split; auto. split; auto.
    inversion Hx; subst. apply kcmp_refl.
  Qed.
  Lemma mut_staged ms u k : In u ms -> mut_key key_of u = Some k ->
    exists k' o, In (k', o) (stage key_of ms) /\ kcmp k' k = Eq.
  Proof.
    intros HU HK. destruct (last_mut_dec key_of 0%N (accepted key_of ms) k) as [(v & H1 & H2)|H].
    - apply (last_accepted key_of) in H1. apply in_map_iff in H1 as ([k' o] & <- & H1). exists k', o. auto.
    - exfalso. apply (H u k); auto; [|apply kcmp_refl]. unfold accepted. apply filter_In. split; auto. now rewrite HK.
  Qed.

  Lemma sst_le s t v : inv s -> In t (concat (d_levels (st_db s))) -> In v (tver key_of t) -> (vts v < d_clock (st_db s))%N.
  Proof.
    intros [(M & Is & HR & HC) I2 I3 I4] HT HV. apply (hv_clock key_of _ _ _ I3). apply (proj1 HC).
    apply store_In. right; right. apply in_flat_map. eauto.
  Qed.

  Lemma conflict_writes capacity ops1 ops2 ms span : run_hyp capacity (ops1 ++ ops2) ->
    Forall no_manifest ops2 ->
    let s1 := run (start capacity) ops1 in
    let s2 := run s1 ops2 in
    let sn := begin_snapshot (st_db s1) in
    (1 <= d_clock (st_db s1))%N ->
    exists h, st_hist s2 = st_hist s1 ++ h /\
      (commit key_of (sn_ts sn) (stage key_of ms) span (st_db s2) = (st_db s2, CConflict) <->
       exists c u k, In c h /\ In u ms /\ mut_key key_of u = Some k /\ writes_key key_of k c) /\
      (has_conflict (st_db s2) (sn_ts sn) (stage key_of ms) = true <->
       exists c u k, In c h /\ In u ms /\ mut_key key_of u = Some k /\ writes_key key_of k c).
  Proof.
    intros HH HM s1 s2 sn HC1.
    assert (E2 : s2 = run (start capacity) (ops1 ++ ops2)) by (unfold s2, s1, Run.run; now rewrite fold_left_app).
    destruct (run_inv _ _ _ _ _ HH) as [I2 B2]. rewrite <- E2 in I2, B2.
    assert (H1 : run_hyp capacity ops1).
    { destruct HH as (A1 & A2 & A3). split; auto. rewrite app_length in A2. split; [lia|]. now apply ops_ok_app in A3. }
    destruct (run_inv _ _ _ _ _ H1) as [I1 B1]. fold s1 in I1, B1.
    destruct (run_levels key_of row_bytes del_bytes ops2 s1 HM) as [L1 L2]. fold s2 in L1, L2.
    assert (HL : (d_clock (st_db s1) + N.of_nat (length ops2) < 2 ^ 64)%N).
    { destruct HH as (A1 & A2 & A3). rewrite app_length, Nat2N.inj_add in A2.
      destruct H1 as (_ & B & C). pose proof (proj2 (inv_run key_of row_bytes del_bytes ops1 (start capacity) (inv_start key_of capacity A1) B C)) as D.
      fold s1 in D. simpl in D. lia. }
    destruct (run_hist key_of row_bytes del_bytes s1 ops2 HL) as (h & HH1 & HH2 & _). fold s2 in HH1.
    exists h. split; auto.
    assert (HX : has_conflict (st_db s2) (sn_ts sn) (stage key_of ms) = true <->
       exists c u k, In c h /\ In u ms /\ mut_key key_of u = Some k /\ writes_key key_of k c).
    { rewrite (conflict_spec key_of s2 (sn_ts sn) ms I2 B2).
      - split.
        + intros (c & k & o & C1 & C2 & C3 & C4).
          assert (Hh : In c h).
          { rewrite HH1 in C1. apply in_app_iff in C1 as [C1|C1]; auto.
            pose proof (iv_clock _ _ I1) as HF. rewrite Forall_forall in HF. specialize (HF c C1). simpl in *. lia. }
          destruct (staged_mut ms k o C3) as (u & k' & U1 & U2 & U3). exists c, u, k'. split; auto. split; auto. split; auto.
          eapply writes_key_same; [|exact C4]. korder.
        + intros (c & u & k & C1 & C2 & C3 & C4). 
          destruct (mut_staged ms u k C2 C3) as (k' & o & K1 & K2). exists c, k', o. split; [rewrite HH1; apply in_app_iff; auto|].
          split.
          { rewrite Forall_forall in HH2. specialize (HH2 c C1). simpl in *. lia. }
          split; auto. eapply writes_key_same; [|exact C4]. korder.
      - intros t k o HT _ v Hv _. rewrite L1 in HT. pose proof (sst_le s1 t v I1 HT Hv). simpl. lia. }
    split; auto. rewrite <- HX. unfold commit. destruct (stage key_of ms) as [|e st] eqn:ES.
    - simpl. split; [intros [=]|discriminate].
    - destruct (has_conflict (st_db s2) (sn_ts sn) (e :: st)); [tauto|].
      split; [|discriminate]. destruct (apply_parts _ _ _ _ _) as [d' ok]. destruct ok; intros [=].
  Qed.

  Theorem conflict_run capacity ops1 ops2 ms span : run_hyp capacity (ops1 ++ ops2) ->
    Forall (@no_flush K R) ops2 ->
    let s1 := run (start capacity) ops1 in
    let s2 := run s1 ops2 in
    let sn := begin_snapshot (st_db s1) in
    (1 <= d_clock (st_db s1))%N ->
    exists h, st_hist s2 = st_hist s1 ++ h /\
      (commit key_of (sn_ts sn) (stage key_of ms) span (st_db s2) = (st_db s2, CConflict) <->
       exists c u k, In c h /\ In u ms /\ mut_key key_of u = Some k /\ writes_key key_of k c) /\
      (snd (commit key_of (sn_ts sn) (stage key_of ms) span (st_db s2)) = COk ->
       forall c u k, In c h -> In u ms -> mut_key key_of u = Some k -> ~ writes_key key_of k c).
  Proof.
    intros HH HN s1 s2 sn HC.
    destruct (run_front key_of row_bytes del_bytes ops2 s1 s1 HN) as [(F1 & F2 & F3 & F4 & F5) F6]; [unfold front; auto|auto|].
    fold s2 in F1, F2, F3, F4, F5, F6.
    destruct (conflict_writes capacity ops1 (filter is_write ops2) ms span) as (h & O1 & _ & O2); auto.
    - destruct HH as (A1 & A2 & A3). split; auto. split.
      + rewrite app_length in *. assert (length (filter is_write ops2) <= length ops2); [|lia].
        clear. induction ops2 as [|o l IH]; simpl; auto. destruct (is_write o); simpl; lia.
      + apply ops_ok_app in A3 as [B1 B2]. apply ops_ok_app. split; auto. eapply (write_ok _ _ _ ops2 s1); eauto. unfold front; auto 6.
    - apply filter_writes.
    - fold s1 in O1, O2. exists h. rewrite F6 in O1. split; auto.
      assert (HX : has_conflict (st_db s2) (sn_ts sn) (stage key_of ms) = true <->
         exists c u k, In c h /\ In u ms /\ mut_key key_of u = Some k /\ writes_key key_of k c).
      { rewrite <- O2. unfold has_conflict. rewrite F1, F2. reflexivity. }
      split.
      + rewrite <- HX. unfold commit. destruct (stage key_of ms) as [|e st] eqn:ES.
        * simpl. split; [intros [=]|discriminate].
        * destruct (has_conflict (st_db s2) (sn_ts sn) (e :: st)); [tauto|].
          split; [|discriminate]. destruct (apply_parts _ _ _ _ _) as [d' ok]. destruct ok; intros [=].
      + intros HOk c u k Hc Hu Hk Hw.
        assert (HT : has_conflict (st_db s2) (sn_ts sn) (stage key_of ms) = true) by (apply HX; exists c, u, k; auto).
        unfold commit in HOk. destruct (stage key_of ms); [discriminate|]. rewrite HT in HOk. discriminate.
  Qed.

  (** *** C38 *)
  Lemma range_scan_layers capacity ops ts lo hi : run_hyp capacity ops ->
    let d := st_db (run (start capacity) ops) in
    (exists full part,
       mem_scan (d_mem d) ts None = Some full /\ mem_scan (d_mem d) ts (Some (lo, hi)) = Some part /\
       ascending vkey full /\ ascending vkey part /\
       forall v, In v part <-> In v full /\ within lo hi (vkey v)) /\
    (forall g, In g (d_imm d) -> exists full part,
       seg_scan g ts None = Some full /\ seg_scan g ts (Some (lo, hi)) = Some part /\
       ascending vkey full /\ ascending vkey part /\
       forall v, In v part <-> In v full /\ within lo hi (vkey v)).
  Proof.
    intros HH d. destruct (run_inv _ _ _ _ _ HH) as [[(M & Is & HR & HC) I2 I3 I4] HB].
    fold d in HR, HC, HB, I3. pose proof HR as [HM HI HG HS HD HN HCap].
    assert (HMax : Forall (fun v => (vts v <= ts_max)%N) (store key_of M Is (d_levels d))).
    { apply Forall_forall. intros v Hv. apply (proj1 HC) in Hv. apply (hv_clock key_of _ _ _ I3) in Hv. unfold ts_max. lia. }
    unfold DbFacts.store in HMax. rewrite !Forall_app in HMax. destruct HMax as (HX1 & HX2 & _).
    assert (HL : forall A : list vers, osorted A -> Forall (fun v => (vts v <= ts_max)%N) A ->
       ascending vkey (visible_scan ts None false A) /\ ascending vkey (visible_scan ts None false (in_bounds (Some (lo, hi)) A)) /\
       forall v, In v (visible_scan ts None false (in_bounds (Some (lo, hi)) A)) <-> In v (visible_scan ts None false A) /\ within lo hi (vkey v)).
    { intros A S1 S2. split; [apply (proj1 (view_is_view ts A S1))|].
      split; [apply (proj1 (view_is_view ts _ (in_bounds_sorted _ _ S1)))|].
      intros v. rewrite range_filter by auto. rewrite filter_In, key_in_within. tauto. }
    split.
    - exists (visible_scan ts None false M), (visible_scan ts None false (in_bounds (Some (lo, hi)) M)).
      rewrite !(mem_scan_repr key_of _ M) by auto. split; auto. split; auto. apply HL; auto. apply (proj1 HM).
    - intros g Hg. rewrite HI in Hg. apply in_map_iff in Hg as (A & <- & HA).
      exists (visible_scan ts None false A), (visible_scan ts None false (in_bounds (Some (lo, hi)) A)). rewrite !(seg_scan_repr key_of). split; auto. split; auto. apply HL.
      + rewrite Forall_forall in HG. apply (HG A HA).
      + apply Forall_forall. intros v Hv. rewrite Forall_forall in HX2. apply HX2. apply in_concat. eauto.
  Qed.

  (** *** C39 *)
  Lemma prune_from_kept ov ts (segs : list (seg K R)) : forall n i g,
    nth_error segs i = Some g -> seg_kept ov ts g = true -> In (n + i) (prune_from n ov ts segs).
  Proof.
    induction segs as [|s r IH]; intros n i g Hn Hk; [destruct i; discriminate|]. destruct i as [|i]; simpl in *.
    - inversion Hn; subst. rewrite Hk, Nat.add_0_r. simpl; auto.
    - specialize (IH (S n) i g Hn Hk). replace (n + S i) with (S n + i) by lia. destruct (seg_kept ov ts s); simpl; auto.
  Qed.
  Lemma pruned_segments capacity ops ts (kb : option (kbounds K)) : run_hyp capacity ops ->
    let d := st_db (run (start capacity) ops) in
    Forall (seg_safe ts) (d_imm d) ->
    forall i g, nth_error (d_imm d) i = Some g -> ~ In i (prune_segments (option_map kb_overlaps kb) ts (d_imm d)) ->
    exists vs, seg_scan g ts None = Some vs /\
      forall v, In v vs -> exists b, kb = Some b /\ kb_in b (vkey v) = false.
  Proof.
    intros HH d HSafe i g Hg Hp. destruct (run_inv _ _ _ _ _ HH) as [[(M & Is & HR & HC) I2 I3 I4] HB].
    fold d in HR, HC, HB, I3. pose proof HR as [HM HI HG HS HD HN HCap].
    assert (HA : exists A, In A Is /\ g = seg_of A).
    { apply nth_error_In in Hg. rewrite HI in Hg. apply in_map_iff in Hg as (A & <- & HA). eauto. }
    destruct HA as (A & HA & ->). rewrite (seg_scan_repr key_of). eexists. split; [reflexivity|]. simpl.
    rewrite Forall_forall in HG. specialize (HG A HA). intros v Hv. apply view_In in Hv; [|apply HG].
    destruct Hv as (V1 & V2 & _). apply (seg_kept_dead key_of kb ts A); auto.
    - apply seg_safe_of. rewrite Forall_forall in HSafe. apply HSafe. eapply nth_error_In; eauto.
    - destruct (seg_kept (option_map kb_overlaps kb) ts (seg_of A)) eqn:E; auto. exfalso. apply Hp.
      apply (prune_from_kept _ _ _ 0 i (seg_of A)); auto.
  Qed.
End TxnProps.
