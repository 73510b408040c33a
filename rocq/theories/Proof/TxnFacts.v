(** Reads of a transaction, write conflicts, and scans of one layer. *)
From Coq Require Import List NArith Bool Sorted Permutation Lia Arith.
From Verif Require Import Base.Order Base.Sub Model.OMap Model.KeyTs Model.MemTable Model.Immutable
     Model.SsTable Model.MergeStream Model.KeyBounds Model.DbScan Model.Version Model.Db Model.Compact
     Model.Planner Model.DbCompact Model.Txn Spec.Mvcc Spec.KeySet Spec.Valid Spec.History Model.Run
     Proof.OMapFacts Proof.MemFacts Proof.ViewFacts Proof.SstFacts Proof.MergeFacts Proof.ScanFacts
     Proof.HistFacts Proof.CompactFacts Proof.CompactLoop Proof.CompactOut Proof.VersionFacts Proof.DbFacts
     Proof.RunFacts Proof.Refine Proof.Reads Proof.Overlay.
Import ListNotations.
Local Arguments kcmp : simpl never.

Section TxnFacts.
  Context {K : Type} {KO : KeyOrd K} {R : Type}.
  Variable key_of : R -> option K.
  Notation vers := (@vers K R).
  Notation tver := (tver key_of).
  Notation store := (store key_of).
  Notation inv := (inv key_of).

  (** *** The scan of a transaction *)
  Lemma stage_ascending ts ms : ascending vkey (map (at_ts ts) (stage key_of ms)).
  Proof.
    pose proof (stage_sorted key_of ms) as H. unfold osorted in H.
    induction H as [|a l H IH HF]; simpl; constructor; auto.
    rewrite Forall_forall in *. intros x Hx. apply in_map_iff in Hx as (y & <- & Hy). apply (HF y Hy).
  Qed.
  Lemma stage_entries ts ms : txn_entries ts (stage key_of ms) = map (at_ts ts) (stage key_of ms).
  Proof. reflexivity. Qed.

  Lemma accepted_table ts ms (m : table K R) :
    fold_left (apply_mut key_of ts) (accepted key_of ms) m = fold_left (apply_mut key_of ts) ms m.
  Proof.
    revert m. induction ms as [|x ms IH]; intros m; simpl; auto. unfold accepted in *. simpl.
    destruct (mut_key key_of x) as [k|] eqn:E; simpl; auto.
    rewrite IH. f_equal. destruct x as [r|k]; simpl in *; [|discriminate]. now rewrite E.
  Qed.

  Lemma staged_table ts ms (m : table K R) k :
    (exists v, In v (map (at_ts ts) (stage key_of ms)) /\ same_key (vkey v) k /\
       fold_left (apply_mut key_of ts) ms m k = match vval v with Some r => Some (ts, r) | None => None end) \/
    ((forall v, In v (map (at_ts ts) (stage key_of ms)) -> ~ same_key (vkey v) k) /\
     fold_left (apply_mut key_of ts) ms m k = m k).
  Proof.
    rewrite <- accepted_table. destruct (last_mut_dec key_of ts (accepted key_of ms) k) as [(v & H1 & H2)|H].
    - left. exists v. split; [now apply last_accepted|]. split; auto. now apply apply_muts_some.
    - right. split; [|now apply apply_muts_none]. intros v Hv Hk. apply last_accepted in Hv.
      destruct Hv as (ms1 & x & ms2 & E & Hx & _). unfold mut_ver in Hx.
      destruct (mut_key key_of x) as [kx|] eqn:EX; [|discriminate]. inversion Hx; subst v.
      apply (H x kx); auto. rewrite E, in_app_iff. simpl; auto.
  Qed.

  Theorem txn_read_spec s prune cp limit ts ms : inv s -> (d_clock (st_db s) < 2 ^ 64)%N ->
    cp_sound key_of cp -> push_ok key_of prune cp ts (d_levels (st_db s)) ->
    Forall (seg_safe ts) (d_imm (st_db s)) -> (st_horizon s <= ts)%N ->
    exists full out,
      scan_txn key_of prune cp (Some (stage key_of ms)) (mkSnap ts (d_levels (st_db s))) limit (st_db s) = Some out /\
      out = match limit with Some n => firstn n full | None => full end /\
      lists_table key_of (fold_left (apply_mut key_of ts) ms (as_of key_of (st_hist s) ts)) (c_full cp) full.
  Proof.
    intros HInv HCl HCP HPush HSafe HZ.
    destruct (stage key_of ms) as [|e0 rest] eqn:ES.
    { destruct (read_spec key_of s prune cp limit ts HInv HCl HCP HPush HSafe HZ) as (full & out & E1 & E2 & E3).
      exists full, out. split; [exact E1|]. split; auto.
      destruct E3 as [A1 A2]. split; auto. intros k t r.
      destruct (staged_table ts ms (as_of key_of (st_hist s) ts) k) as [(v & Hv & _)|[_ H]].
      - rewrite ES in Hv. destruct Hv.
      - rewrite H. apply A2. }
    destruct HInv as [(M & Is & HR & HC) I2 I3 I4]. destruct HPush as [HP1 HP2].
    pose proof HR as [HM HI HG HS HD HN HCap].
    assert (ESt : store M Is (d_levels (st_db s)) = M ++ concat Is ++ concat (map tver (concat (d_levels (st_db s))))).
    { unfold DbFacts.store. now rewrite flat_map_concat_map. }
    destruct HC as [C1 C2]. assert (HKV : keyedv key_of (store M Is (d_levels (st_db s)))).
    { intros kt r H. apply C1 in H. eapply hv_keyed; eauto. }
    set (ov := map (at_ts ts) (stage key_of ms)).
    destruct (overlay_exact key_of prune cp limit (d_mem (st_db s)) M Is (d_levels (st_db s))
                (map tver (concat (d_levels (st_db s)))) ts HM HG (tok_store_ok _ _ HS)) with (ov := ov) as (full & out & E1 & E2 & E3 & E4); auto.
    - rewrite <- ESt. apply Forall_forall. intros v Hv. apply C1 in Hv. apply (hv_clock key_of _ _ _ I3) in Hv. unfold ts_max. lia.
    - apply Forall_forall. intros A HA. apply seg_safe_of. rewrite Forall_forall in HSafe. apply HSafe. rewrite HI.
      now apply in_map.
    - intros t r u k Ht Hr Hu Hk. destruct (HP2 t r u k Ht Hr Hk) as [H|[H|H]]; auto; [lia|]. right.
      intros w r' Hw Hwk _ Hr'. rewrite <- ESt in Hw. destruct w as [kt o]. unfold vval in Hr'. simpl in Hr'. subst o.
      apply (H r' (fst kt)); [now apply HKV in Hw|exact Hwk].
    - rewrite <- ESt. intros v w Hv Hw. apply (hv_consistent key_of _ I2); auto.
    - apply stage_ascending.
    - apply Forall_forall. intros v Hv. apply in_map_iff in Hv as (x & <- & _). reflexivity.
    - intros kt r Hv. apply in_map_iff in Hv as ([k o] & E & Hv). inversion E; subst. apply (stage_keyed _ _ _ _ Hv).
    - exists full, out. split; [|split; auto].
      + unfold scan_txn. cbn [sn_ts sn_levels]. unfold ov in E1. rewrite ES in E1. rewrite HI. exact E1.
      + split; auto. intros k t r. rewrite E4. rewrite <- ESt, (cover_newest _ _ _ ts _ (conj C1 C2) HZ), <- as_of_newest by auto.
        cbn [fst].
        destruct (staged_table ts ms (as_of key_of (st_hist s) ts) k) as [(v & V1 & V2 & V3)|[V1 V2]]; fold ov in V1.
        * rewrite V3. split.
          -- intros [Hf [H|[H _]]]; [|exfalso; apply (H v V1 V2)].
             assert (v = ((k, t), Some r)).
             { pose proof (stage_ascending ts ms) as HA. fold ov in HA. clear -HA V1 H V2.
               induction HA as [|a l HA IH HF]; [destruct V1|]. rewrite Forall_forall in HF.
               destruct V1 as [->|V1], H as [->|H]; auto.
               - specialize (HF _ H). unfold same_key in V2. unfold vkey in *. simpl in *. congruence.
               - specialize (HF _ V1). unfold same_key in V2. unfold vkey in *. simpl in *. rewrite kcmp_opp, V2 in HF. discriminate. }
             subst v. apply in_map_iff in V1 as ([k' o'] & E & Hv). inversion E; subst. simpl.
             split; auto. split; auto. apply (stage_keyed _ _ _ _ Hv).
          -- intros (Hm & Hk & Hf). split; auto. left. apply in_map_iff in V1 as ([k' o'] & <- & Hv).
             unfold vval, vkey, same_key in *. simpl in *. destruct o' as [r'|]; [|discriminate]. inversion Hm; subst.
             assert (k' = k) by (pose proof (stage_keyed _ _ _ _ Hv); congruence). subst k'.
             apply in_map_iff. exists (k, Some r). auto.
        * rewrite V2. split.
          -- intros [Hf [H|[_ [H Hk]]]]; [|tauto]. exfalso. apply (V1 _ H). apply kcmp_refl.
          -- intros (Hm & Hk & Hf). split; auto.
  Qed.

  (** *** Point reads *)
  Lemma om_get_In {V} k (m : list (K * V)) v : om_get k m = Some v -> exists k', In (k', v) m /\ kcmp k' k = Eq.
  Proof.
    induction m as [|[k' v'] m IH]; simpl; [discriminate|]. destruct (keqb k' k) eqn:E.
    - intros [= ->]. exists k'. split; auto. now apply keqb_true.
    - intros H. destruct (IH H) as (k1 & H1 & H2). eauto.
  Qed.
  Lemma om_get_None {V} k (m : list (K * V)) : om_get k m = None <-> forall k' v, In (k', v) m -> kcmp k' k <> Eq.
  Proof.
    induction m as [|[k' v'] m IH]; simpl; [split; auto; intros; contradiction|]. destruct (keqb k' k) eqn:E.
    - split; [discriminate|]. intros H. exfalso. apply keqb_true in E. apply (H k' v'); auto.
    - rewrite IH. apply keqb_false in E. split.
      + intros H k1 v [Eq|Hin]; [inversion Eq; subst; auto|eauto].
      + intros H k1 v Hin. apply (H k1 v). auto.
  Qed.

  Lemma om_get_insert {V} k k' (v : V) m : om_get k (om_insert k' v m) = if keqb k' k then Some v else om_get k m.
  Proof.
    induction m as [|[a b] m IH]; simpl; auto. destruct (kcmp k' a) eqn:E; simpl.
    - destruct (keqb k' k) eqn:E1; auto. replace (keqb a k) with false; auto. symmetry.
      apply keqb_false. apply keqb_false in E1. intros H. apply E1. korder.
    - reflexivity.
    - rewrite IH. destruct (keqb k' k) eqn:E1; auto. apply keqb_true in E1. replace (keqb a k) with false; auto.
      symmetry. apply keqb_false. intros H. assert (kcmp k' a = Eq) by korder. congruence.
  Qed.

  Lemma om_get_app {V} k (a b : list (K * V)) : om_get k (a ++ b) = match om_get k a with Some v => Some v | None => om_get k b end.
  Proof. induction a as [|[x y] a IH]; simpl; auto. destruct (keqb x k); auto. Qed.

  Lemma get_inserts (l : list (K * R)) k : forall m,
    om_get k (fold_left (fun m e => om_insert (fst e) (snd e) m) l m) =
    match om_get k (rev l) with Some v => Some v | None => om_get k m end.
  Proof.
    induction l as [|[a b] l IH]; intros m; simpl; auto. rewrite IH, om_get_insert.
    rewrite om_get_app. simpl. destruct (om_get k (rev l)); auto. destruct (keqb a k); auto.
  Qed.
  Lemma get_or_inserts (l : list (K * R)) k : forall m,
    om_get k (fold_left (fun m e => or_insert (fst e) (snd e) m) l m) =
    match om_get k m with Some v => Some v | None => om_get k l end.
  Proof.
    induction l as [|[a b] l IH]; intros m; simpl; [now destruct (om_get k m)|]. rewrite IH. unfold or_insert.
    destruct (om_get a m) as [v0|] eqn:E.
    - destruct (om_get k m) eqn:E1; auto. replace (keqb a k) with false; auto. symmetry.
      apply keqb_false. intros H. apply om_get_In in E as (a' & A1 & A2).
      rewrite om_get_None in E1. apply (E1 _ _ A1). korder.
    - rewrite om_get_insert. destruct (keqb a k) eqn:E1.
      + replace (om_get k m) with (@None R); auto. symmetry. rewrite om_get_None in E |- *.
        intros k' v Hv H. apply (E _ _ Hv). apply keqb_true in E1. korder.
      + destruct (om_get k m); auto.
  Qed.

  (** A version list and what a scan of it at [ts] yields. *)
  Notation view ts A := (visible_scan ts None false A).

  Lemma view_is_view ts (A : list vers) : osorted A -> is_view A ts (view ts A).
  Proof. intros H. now apply visible_scan_view, osorted_wsorted. Qed.

  Lemma view_In ts (A : list vers) v : osorted A -> (In v (view ts A) <-> newest_visible A ts v).
  Proof.
    intros H. destruct (view_is_view ts A H) as (V1 & V2 & V3). split; [apply V2|].
    intros (N1 & N2 & N3). destruct (V3 v N1 N2) as (w & W1 & W2). destruct (V2 w W1) as (A1 & A2 & A3).
    assert (v = w) as ->; auto. apply (osorted_unique _ _ _ H N1 A1). apply kts_eq. split; [unfold same_key, vkey in *; korder|].
    pose proof (N3 w A1 W2 A2). assert (vts v <= vts w)%N by (apply A3; auto; unfold same_key in *; korder).
    unfold vts in *. lia.
  Qed.

  Definition got ts k (A : list vers) : option R := om_get k (live_pairs (view ts A)).
  Lemma live_pairs_In (l : list vers) k r : In (k, r) (live_pairs l) <-> exists t, In ((k, t), Some r) l.
  Proof.
    unfold live_pairs. rewrite in_flat_map. split.
    - intros ([[k' t] [r'|]] & H1 & H2); simpl in H2; [|destruct H2]. destruct H2 as [[= <- <-]|[]]. eauto.
    - intros (t & H). exists ((k, t), Some r). simpl. auto.
  Qed.

  Lemma holdsb_spec ts k (A : list vers) :
    holdsb ts k (map fst A) = true <-> exists v, In v A /\ same_key (vkey v) k /\ (vts v <= ts)%N.
  Proof.
    unfold holdsb. rewrite existsb_exists. split.
    - intros (kt & H1 & H2). apply in_map_iff in H1 as (v & <- & Hv). apply andb_true_iff in H2 as [H2 H3].
      apply keqb_true in H2. apply N.leb_le in H3. exists v. auto.
    - intros (v & H1 & H2 & H3). exists (fst v). split; [now apply in_map|]. apply andb_true_iff. split; [now apply keqb_true|now apply N.leb_le].
  Qed.

  Lemma got_none ts k A : osorted A -> holdsb ts k (map fst A) = false -> got ts k A = None.
  Proof.
    intros HS H. unfold got. apply om_get_None. intros k' r Hin E. apply live_pairs_In in Hin as (t & Hin).
    apply view_In in Hin as (N1 & N2 & _); auto.
    assert (holdsb ts k (map fst A) = true) by (apply holdsb_spec; exists ((k', t), Some r); auto). congruence.
  Qed.
  Lemma got_some ts k A v : osorted A -> newest_visible A ts v -> same_key (vkey v) k -> got ts k A = vval v.
  Proof.
    intros HS HN Hk. assert (U : forall w, newest_visible A ts w -> same_key (vkey w) k -> w = v).
    { intros w (W1 & W2 & W3) HW. destruct HN as (N1 & N2 & N3). apply (osorted_unique _ _ _ HS W1 N1). apply kts_eq.
      assert (same_key (vkey w) (vkey v)) by (unfold same_key in *; korder). split; auto.
      pose proof (N3 w W1 H W2). assert (vts v <= vts w)%N by (apply W3; auto; unfold same_key in *; korder). unfold vts in *. lia. }
    unfold got. destruct (om_get k (live_pairs (view ts A))) as [r|] eqn:E.
    - apply om_get_In in E as (k' & H1 & H2). apply live_pairs_In in H1 as (t & H1). apply view_In in H1; auto.
      now rewrite <- (U _ H1 H2).
    - rewrite om_get_None in E. destruct v as [[kv t] [r|]]; auto. exfalso. apply (E kv r); auto.
      apply live_pairs_In. exists t. now apply view_In.
  Qed.

  Lemma get_rev ts k (A : list vers) : osorted A -> om_get k (rev (live_pairs (view ts A))) = got ts k A.
  Proof.
    intros HS. destruct (holdsb ts k (map fst A)) eqn:EH.
    - unfold got. destruct (om_get k (rev (live_pairs (view ts A)))) as [r|] eqn:E.
      + apply om_get_In in E as (k' & H1 & H2). apply in_rev, live_pairs_In in H1 as (t & H1). apply view_In in H1; auto.
        symmetry. fold (got ts k A). rewrite (got_some ts k A _ HS H1 H2). reflexivity.
      + symmetry. rewrite om_get_None in E |- *. intros k' r Hr. apply (E k' r). now rewrite <- in_rev.
    - rewrite (got_none ts k A HS EH). rewrite om_get_None. intros k' r Hr E. rewrite <- in_rev in Hr.
      pose proof (got_none ts k A HS EH) as H. unfold got in H. rewrite om_get_None in H. apply (H k' r Hr E).
  Qed.

  Lemma filter_nil {A} (f : A -> bool) l x : filter f l = [] -> In x l -> f x = true -> False.
  Proof. intros E H1 H2. assert (H : In x (filter f l)) by (apply filter_In; auto). rewrite E in H. destruct H. Qed.

  Lemma one_holder ts k (L : list (list vers)) B : Forall osorted L ->
    length (filter (fun A => holdsb ts k (map fst A)) L) <= 1 -> In B L -> holdsb ts k (map fst B) = true ->
    om_get k (concat (map (fun A => live_pairs (view ts A)) L)) = got ts k B.
  Proof.
    induction 1 as [|A L HS HF IH]; intros HC HB HH; [destruct HB|]. simpl. rewrite om_get_app. fold (got ts k A).
    simpl in HC. destruct (holdsb ts k (map fst A)) eqn:EA.
    - simpl in HC. assert (EN : filter (fun A => holdsb ts k (map fst A)) L = []) by (apply length_zero_iff_nil; lia).
      assert (B = A) as ->.
      { destruct HB as [|HB]; auto. exfalso. exact (filter_nil _ _ B EN HB HH). }
      destruct (got ts k A) eqn:EG; auto. apply om_get_None. intros k' r Hr E.
      apply in_concat in Hr as (l & Hl & Hr). apply in_map_iff in Hl as (A' & <- & HA').
      assert (EF : holdsb ts k (map fst A') = false).
      { destruct (holdsb ts k (map fst A')) eqn:E'; auto. exfalso. exact (filter_nil _ _ A' EN HA' E'). }
      rewrite Forall_forall in HF. pose proof (got_none ts k A' (HF A' HA') EF) as G. unfold got in G. rewrite om_get_None in G.
      apply (G k' r Hr E).
    - rewrite (got_none ts k A HS EA). apply IH; auto. destruct HB as [->|]; auto. congruence.
  Qed.
  Lemma no_holder ts k (L : list (list vers)) : Forall osorted L ->
    (forall A, In A L -> holdsb ts k (map fst A) = false) ->
    om_get k (concat (map (fun A => live_pairs (view ts A)) L)) = None.
  Proof.
    induction 1 as [|A L HS HF IH]; intros H; auto. simpl. rewrite om_get_app. fold (got ts k A).
    rewrite got_none by (auto; apply H; left; auto). apply IH. intros; apply H; right; auto.
  Qed.

  Lemma imm_rows_repr (Is : list (list vers)) ts :
    imm_rows (map seg_of Is) ts = Some (concat (map (fun A => live_pairs (view ts A)) Is)).
  Proof. induction Is as [|A Is IH]; simpl; auto. rewrite (seg_scan_repr key_of), IH. reflexivity. Qed.

  Lemma read_rows_repr d M Is ts k : rep key_of d M Is ->
    exists m, read_mutable_rows ts d = Some m /\ om_get k m = om_get k (concat (map (fun A => live_pairs (view ts A)) (M :: Is))).
  Proof.
    intros [HM HI HG _ _ _ _]. unfold read_mutable_rows, mem_rows_at. rewrite (mem_scan_repr _ _ _ _ _ HM), HI, imm_rows_repr.
    eexists. split; [reflexivity|]. rewrite get_or_inserts, get_inserts. simpl. rewrite om_get_app.
    rewrite get_rev by apply HM. unfold got. simpl. destruct (om_get k (live_pairs (view ts M))); auto.
  Qed.

  (** What a table file says about a key at [ts]. *)
  Lemma tver_holds ts k (t : sst K R) v : In v (tver t) -> same_key (vkey v) k -> (vts v <= ts)%N -> sst_holds key_of ts k t.
  Proof.
    intros Hv Hk Ht. unfold DbFacts.tver in Hv. apply in_app_iff in Hv as [Hv|Hv].
    - apply in_flat_map in Hv as ([r u] & H1 & H2). unfold dver in H2. simpl in H2.
      destruct (key_of r) as [k'|] eqn:E; [|destruct H2]. destruct H2 as [<-|[]].
      left. exists r, u, k'. auto.
    - apply in_map_iff in Hv as ([k' u] & <- & H). right. exists k', u. auto.
  Qed.

  Theorem txn_get_spec s ts ms k : inv s -> (st_horizon s <= ts)%N ->
    (forall t, In t (concat (d_levels (st_db s))) -> ~ sst_holds key_of ts k t) ->
    length (filter (holdsb ts k) (layer_keys (st_db s))) <= 1 ->
    txn_get ts (stage key_of ms) k (st_db s)
    = Some (option_map snd (fold_left (apply_mut key_of ts) ms (as_of key_of (st_hist s) ts) k)).
  Proof.
    intros [(M & Is & HR & HC) I2 I3 I4] HZ HNS HOne. unfold txn_get.
    destruct (staged_table ts ms (as_of key_of (st_hist s) ts) k) as [(v & V1 & V2 & V3)|[V1 V2]].
    - rewrite V3. apply in_map_iff in V1 as ([k' o] & <- & Hv). unfold vkey, vval in *. simpl in *.
      assert (E : om_get k (stage key_of ms) = Some o).
      { destruct (om_get k (stage key_of ms)) as [o'|] eqn:E.
        - apply om_get_In in E as (k1 & H1 & H2). assert ((k1, o') = (k', o)) as [= _ ->]; auto.
          apply (osorted_unique _ _ _ (stage_sorted key_of ms) H1 Hv). unfold same_key in V2. simpl. korder.
        - rewrite om_get_None in E. exfalso. apply (E _ _ Hv). exact V2. }
      rewrite E. destruct o; reflexivity.
    - rewrite V2. replace (om_get k (stage key_of ms)) with (@None (option R)).
      2:{ symmetry. apply om_get_None. intros k' o Hin E. apply (V1 ((k', ts), o)); [|exact E].
          apply in_map_iff. exists (k', o). auto. }
      destruct (read_rows_repr (st_db s) M Is ts k HR) as (m & -> & ->). f_equal.
      pose proof HR as [HM HI HG HS HD HN HCap].
      assert (HSort : Forall osorted (M :: Is)).
      { constructor; [apply HM|]. rewrite Forall_forall in *. intros A HA. apply (HG A HA). }
      assert (EL : layer_keys (st_db s) = map (map fst) (M :: Is)).
      { unfold layer_keys. rewrite HI. cbn [map]. f_equal.
        - destruct HM as [_ HF]. clear -HF. induction HF as [|e u l l' [E _] _ IH]; simpl; auto. now rewrite E, IH.
        - rewrite map_map. apply map_ext. intros A. apply seg_idx_keys. }
      rewrite EL in HOne.
      assert (HOne' : length (filter (fun A => holdsb ts k (map fst A)) (M :: Is)) <= 1).
      { replace (length (filter (fun A => holdsb ts k (map fst A)) (M :: Is)))
          with (length (filter (holdsb ts k) (map (map fst) (M :: Is)))); auto.
        generalize (M :: Is). clear. induction l as [|a l IH]; cbn [map filter]; auto.
        destruct (holdsb ts k (map fst a)); cbn [length]; auto. }
      unfold as_of. set (h' := filter (fun c => N.leb (fst c) ts) (st_hist s)).
      assert (HI' : increasing h') by (apply increasing_filter; auto).
      destruct (final_newest key_of h' k HI') as [(v & H1 & H2 & H3 & H4)|[H1 H2]].
      + rewrite H4. apply hv_filter in H1 as [H1 Ht].
        assert (HNV : newest_visible (hv key_of (st_hist s)) ts v).
        { split; auto. split; auto. intros w Hw Hwk Hwt. apply H3; [apply hv_filter; auto|]. unfold same_key in *. korder. }
        apply (cover_newest _ _ _ ts _ HC HZ) in HNV. destruct HNV as (N1 & N2 & N3).
        assert (HB : exists B, In B (M :: Is) /\ In v B).
        { unfold DbFacts.store in N1. rewrite !in_app_iff in N1. destruct N1 as [N1|[N1|N1]].
          - exists M. simpl; auto.
          - apply in_concat in N1 as (B & HB & N1). exists B. simpl; auto.
          - exfalso. apply in_flat_map in N1 as (t & HT & N1). apply (HNS t HT). eapply tver_holds; eauto. }
        destruct HB as (B & HB1 & HB2).
        rewrite (one_holder ts k (M :: Is) B HSort HOne' HB1) by (apply holdsb_spec; exists v; auto).
        rewrite (got_some ts k B v); auto.
        * destruct (vval v); reflexivity.
        * rewrite Forall_forall in HSort. auto.
        * split; auto. split; auto. intros w Hw. apply N3. unfold DbFacts.store. rewrite !in_app_iff.
          destruct HB1 as [<-|HB1]; auto. right; left. apply in_concat. eauto.
      + rewrite H2. apply no_holder; auto. intros A HA. destruct (holdsb ts k (map fst A)) eqn:E; auto.
        apply holdsb_spec in E as (v & E1 & E2 & E3). exfalso. apply (H1 v); auto. apply hv_filter. split; auto.
        apply (proj1 HC). unfold DbFacts.store. rewrite !in_app_iff. destruct HA as [<-|HA]; auto. right; left. apply in_concat. eauto.
  Qed.

  (** *** Conflicts *)
  Lemma key_range_In {A} (idx : list ((K * N) * A)) k e : (snd (fst e) <= ts_max)%N ->
    (In e (om_range (Included (k, ts_max)) (Included (k, ts_min)) idx) <-> In e idx /\ kcmp k (fst (fst e)) = Eq).
  Proof.
    intros HT. rewrite om_range_In. destruct e as [[k' t] a]. simpl in *. unfold kleb.
    change (@kcmp _ kts_ord) with (@kts_cmp K KO). unfold kts_cmp. simpl. rewrite (kcmp_opp k k').
    unfold ts_min. destruct (kcmp k k'); simpl.
    - destruct (N.compare_spec t ts_max); [| |lia]; destruct t; tauto.
    - intuition discriminate.
    - intuition discriminate.
  Qed.

  Lemma index_conflict {A} (idx : list ((K * N) * A)) k ts : osorted idx ->
    Forall (fun e => (snd (fst e) <= ts_max)%N) idx ->
    match om_range (Included (k, ts_max)) (Included (k, ts_min)) idx with
    | e :: _ => N.ltb ts (snd (fst e)) | [] => false end = true <->
    exists e, In e idx /\ kcmp k (fst (fst e)) = Eq /\ (ts < snd (fst e))%N.
  Proof.
    intros HS HT. rewrite Forall_forall in HT.
    pose proof (om_range_sorted (Included (k, ts_max)) (Included (k, ts_min)) idx HS) as HS'.
    destruct (om_range (Included (k, ts_max)) (Included (k, ts_min)) idx) as [|e l] eqn:E.
    - split; [discriminate|]. intros (e & H1 & H2 & _). exfalso.
      assert (In e (om_range (Included (k, ts_max)) (Included (k, ts_min)) idx)) as Hx by (apply key_range_In; auto). rewrite E in Hx. destruct Hx.
    - assert (He : In e idx /\ kcmp k (fst (fst e)) = Eq).
      { assert (In e (e :: l)) as Hin by (left; auto). rewrite <- E in Hin. apply key_range_In in Hin; auto.
        apply om_range_In in Hin as [Hin _]. auto. }
      rewrite N.ltb_lt. split; [intros H; exists e; tauto|]. intros (f & F1 & F2 & F3).
      assert (Hf : In f (e :: l)) by (rewrite <- E; apply key_range_In; auto).
      destruct Hf as [<-|Hf]; auto. inversion HS' as [|? ? _ HF]; subst. rewrite Forall_forall in HF. specialize (HF f Hf).
      apply kts_lt_cases in HF. destruct HF as [HF|[_ HF]]; [|lia]. exfalso. destruct He as [_ He].
      assert (kcmp (fst (fst e)) (fst (fst f)) = Eq) by korder. congruence.
  Qed.

  Lemma keys_conflict {A B} (i : list ((K * N) * A)) (j : list ((K * N) * B)) (P : K * N -> Prop) :
    map fst i = map fst j -> ((exists e, In e i /\ P (fst e)) <-> exists e, In e j /\ P (fst e)).
  Proof.
    intros E. split; intros (e & H1 & H2).
    - apply (in_map fst) in H1. rewrite E in H1. apply in_map_iff in H1 as (f & E1 & H1). exists f. rewrite E1. auto.
    - apply (in_map fst) in H1. rewrite <- E in H1. apply in_map_iff in H1 as (f & E1 & H1). exists f. rewrite E1. auto.
  Qed.
  Lemma keys_sorted {A B} (i : list ((K * N) * A)) (j : list ((K * N) * B)) : map fst i = map fst j -> osorted i -> osorted j.
  Proof.
    revert j. induction i as [|a i IH]; intros [|b j] E H; try discriminate; [constructor|]. simpl in E. injection E as E1 E2.
    inversion H as [|? ? H1 H2]; subst. constructor; [now apply IH|]. rewrite Forall_forall in *. intros x Hx.
    apply (in_map fst) in Hx. rewrite <- E2 in Hx. apply in_map_iff in Hx as (y & E3 & Hy). specialize (H2 y Hy).
    now rewrite <- E1, <- E3.
  Qed.

  Lemma mem_conflict_spec m (M : list vers) k ts : mem_repr key_of m M -> Forall (fun v => (vts v <= ts_max)%N) M ->
    (mem_has_conflict m k ts = true <-> exists v, In v M /\ same_key (vkey v) k /\ (ts < vts v)%N).
  Proof.
    intros [HS HF] HT.
    assert (E : map fst (m_index m) = map fst M).
    { clear -HF. induction HF as [|e u l l' [E _] _ IH]; simpl; auto. now rewrite E, IH. }
    unfold mem_has_conflict. rewrite index_conflict.
    - rewrite (keys_conflict (m_index m) M (fun kt => kcmp k (fst kt) = Eq /\ (ts < snd kt)%N) E).
      split; intros (v & H1 & H2 & H3); exists v; split; auto; split; auto; unfold same_key, vkey in *; korder.
    - eapply keys_sorted; [|exact HS]. auto.
    - apply Forall_forall. intros e He. apply (in_map fst) in He. rewrite E in He. apply in_map_iff in He as (v & <- & Hv).
      rewrite Forall_forall in HT. apply (HT v Hv).
  Qed.
  Lemma seg_conflict_spec (A : list vers) k ts : osorted A -> Forall (fun v => (vts v <= ts_max)%N) A ->
    (seg_has_conflict (seg_of A) k ts = true <-> exists v, In v A /\ same_key (vkey v) k /\ (ts < vts v)%N).
  Proof.
    intros HS HT. unfold seg_has_conflict. rewrite existsb_exists.
    assert (E : map fst (s_index (seg_of A)) = map fst A) by apply seg_idx_keys.
    assert (HT' : forall e, In e (s_index (seg_of A)) -> (snd (fst e) <= ts_max)%N).
    { intros e He. apply (in_map fst) in He. rewrite E in He. apply in_map_iff in He as (v & <- & Hv).
      rewrite Forall_forall in HT. apply (HT v Hv). }
    etransitivity; [|exact (keys_conflict (s_index (seg_of A)) A (fun kt => kcmp (fst kt) k = Eq /\ (ts < snd kt)%N) E)].
    cbv beta.
    split.
    - intros (e & H1 & H2). apply N.ltb_lt in H2. pose proof H1 as H1'. apply om_range_In in H1' as [Hin _].
      apply key_range_In in H1 as [_ H1]; [|now apply HT']. exists e. split; auto. split; auto. korder.
    - intros (e & H1 & H2 & H3). exists e. split; [|now apply N.ltb_lt]. apply key_range_In; auto. split; auto. korder.
  Qed.

  (** A commit of [st_hist] writes key [k]. *)
  Lemma conflict_spec s ts ms : inv s -> (d_clock (st_db s) < 2 ^ 64)%N ->
    (forall t k o, In t (concat (d_levels (st_db s))) -> In (k, o) (stage key_of ms) ->
       forall v, In v (tver t) -> same_key (vkey v) k -> (vts v <= ts)%N) ->
    (has_conflict (st_db s) ts (stage key_of ms) = true <->
     exists c k o, In c (st_hist s) /\ (ts < fst c)%N /\ In (k, o) (stage key_of ms) /\ writes_key key_of k c).
  Proof.
    intros [(M & Is & HR & HC) I2 I3 I4] HCl HNF. pose proof HR as [HM HI HG HS HD HN HCap].
    assert (HMax : Forall (fun v => (vts v <= ts_max)%N) (store M Is (d_levels (st_db s)))).
    { apply Forall_forall. intros v Hv. apply (proj1 HC) in Hv. apply (hv_clock key_of _ _ _ I3) in Hv. unfold ts_max. lia. }
    unfold DbFacts.store in HMax. rewrite !Forall_app in HMax. destruct HMax as (HX1 & HX2 & _).
    assert (HIs : forall A, In A Is -> osorted A /\ Forall (fun v => (vts v <= ts_max)%N) A).
    { intros A HA. rewrite Forall_forall in HG. split; [apply (HG A HA)|]. apply Forall_forall. intros v Hv.
      rewrite Forall_forall in HX2. apply HX2. apply in_concat. eauto. }
    unfold has_conflict. rewrite existsb_exists. split.
    - intros ([k o] & Hin & H). cbn [fst] in H. apply orb_true_iff in H.
      assert (HV : exists v, In v (store M Is (d_levels (st_db s))) /\ same_key (vkey v) k /\ (ts < vts v)%N).
      { destruct H as [H|H].
        - apply (mem_conflict_spec _ M) in H as (v & H1 & H2 & H3); auto. exists v. split; auto. unfold DbFacts.store. apply in_app_iff. auto.
        - apply existsb_exists in H as (g & Hg & H). rewrite HI in Hg. apply in_map_iff in Hg as (A & <- & HA). destruct (HIs A HA) as [HS1 HS2].
          apply seg_conflict_spec in H as (v & H1 & H2 & H3); auto. exists v. split; auto. unfold DbFacts.store. rewrite !in_app_iff. right; left. apply in_concat. eauto. }
      destruct HV as (v & H1 & H2 & H3). apply (proj1 HC) in H1. apply hv_In in H1 as (c & Hc & Hv).
      exists c, k, o. split; auto. split; [now rewrite <- (last_mut_ts _ _ _ _ Hv)|]. split; auto.
      destruct Hv as (ms1 & x & ms2 & E & Hx & _). unfold mut_ver in Hx. destruct (mut_key key_of x) as [kx|] eqn:EX; [|discriminate].
      exists x, kx. split; [rewrite E, in_app_iff; simpl; auto|]. split; auto. inversion Hx; subst v. exact H2.
    - intros (c & k & o & Hc & Ht & Hin & (x & kx & Hx & EX & Ek)). exists (k, o). split; auto. cbn [fst].
      destruct (last_mut_dec key_of (fst c) (snd c) k) as [(v & H1 & H2)|H].
      2:{ exfalso. apply (H x kx); auto. }
      assert (Hv : In v (hv key_of (st_hist s))) by (apply hv_In; eauto).
      assert (HvS : exists w, In w (store M Is (d_levels (st_db s))) /\ same_key (vkey w) k /\ (ts < vts w)%N).
      { destruct (proj2 HC v Hv) as [Hs|(w & W1 & W2 & W3 & _)].
        - exists v. rewrite (last_mut_ts _ _ _ _ H1). auto.
        - exists w. split; auto. split; [unfold same_key in *; korder|]. rewrite (last_mut_ts _ _ _ _ H1) in W3. lia. }
      destruct HvS as (w & W1 & W2 & W3). unfold DbFacts.store in W1. rewrite !in_app_iff in W1. apply orb_true_iff.
      destruct W1 as [W1|[W1|W1]].
      + left. apply (mem_conflict_spec _ M); eauto.
      + right. apply in_concat in W1 as (A & HA & W1). apply existsb_exists. exists (seg_of A). rewrite HI. split; [now apply in_map|].
        destruct (HIs A HA). apply seg_conflict_spec; eauto.
      + exfalso. apply in_flat_map in W1 as (t & HT & W1). specialize (HNF t k o HT Hin w W1 W2). lia.
  Qed.

  (** *** Range scans of one layer *)
  Lemma key_in_within lo hi k : key_in (Some (lo, hi)) k = true <-> within lo hi k.
  Proof.
    unfold key_in, within. rewrite andb_true_iff. destruct lo as [a|a|], hi as [b|b|]; simpl; unfold kleb, kltb;
      repeat match goal with |- context [match ?c with _ => _ end] => destruct c end; intuition (congruence || auto).
  Qed.

  Lemma range_filter lo hi ts (A : list vers) : osorted A -> Forall (fun v => (vts v <= ts_max)%N) A ->
    view ts (in_bounds (Some (lo, hi)) A) = filter (fun v => key_in (Some (lo, hi)) (vkey v)) (view ts A).
  Proof.
    intros HS HT. set (b := Some (lo, hi)).
    assert (HS' : osorted (in_bounds b A)) by now apply in_bounds_sorted.
    destruct (view_is_view ts A HS) as (V1 & _ & _). destruct (view_is_view ts _ HS') as (W1 & _ & _).
    eapply sorted_ext; [| |exact W1|apply StronglySorted_filter, V1|].
    - intros x H. rewrite kcmp_refl in H. discriminate.
    - intros x y H1 H2. rewrite kcmp_opp, H1 in H2. discriminate.
    - intros v. rewrite filter_In, !view_In by auto. split.
      + intros (N1 & N2 & N3). apply in_bounds_In in N1 as [N1 Hk]; auto. split; auto. split; auto. split; auto.
        intros w Hw Hwk Hwt. apply N3; auto. apply in_bounds_In; auto. split; auto.
        unfold b, key_in in *. rewrite andb_true_iff in *. unfold same_key in Hwk. destruct Hk as [Hk1 Hk2]. split.
        * clear Hk2. destruct lo; simpl in *; auto; unfold kleb, kltb in *; rewrite <- (kcmp_eq_r _ _ _ (kcmp_eq_sym _ _ Hwk)) in *; auto.
        * clear Hk1. destruct hi; simpl in *; auto; unfold kleb, kltb in *; rewrite (kcmp_eq_l _ _ _ Hwk); auto.
      + intros [(N1 & N2 & N3) Hk]. split; [apply in_bounds_In; auto|]. split; auto. intros w Hw. apply in_bounds_In in Hw as [Hw _]; auto.
  Qed.
End TxnFacts.
