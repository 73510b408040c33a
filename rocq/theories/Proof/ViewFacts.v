(** The MVCC visibility scan computes the newest visible version of each key. *)
From Coq Require Import List NArith Bool Sorted Permutation Lia Arith.
From Verif Require Import Base.Order Model.OMap Model.KeyTs Model.MemTable Model.Immutable
     Spec.Mvcc Proof.OMapFacts Proof.MemFacts.
Import ListNotations.

Section ViewFacts.
  Context {K : Type} {KO : KeyOrd K} {R : Type}.
  Notation vers := ((K * N) * option R)%type.

  Lemma kts_lt_cases (a b : K * N) :
    kcmp a b = Lt <-> (kcmp (fst a) (fst b) = Lt \/ (kcmp (fst a) (fst b) = Eq /\ (snd b < snd a)%N)).
  Proof.
    simpl. unfold kts_cmp. destruct (kcmp (fst a) (fst b)) eqn:E.
    - rewrite N.compare_lt_iff. intuition congruence.
    - intuition congruence.
    - intuition congruence.
  Qed.

  Definition handled (em : bool) (cur : option K) (k : K) : Prop :=
    em = true /\ exists c, cur = Some c /\ kcmp c k = Eq.

  (** Key ascending, then timestamp descending; equal pairs allowed. *)
  Definition wsorted {V} (l : list ((K * N) * V)) : Prop :=
    StronglySorted (fun a b => kcmp (fst a) (fst b) <> Gt) l.

  Lemma osorted_wsorted {V} (l : list ((K * N) * V)) : osorted l -> wsorted l.
  Proof. apply StronglySorted_impl. intros a b _ _ H. congruence. Qed.

  Lemma kts_le_cases (a b : K * N) :
    kcmp a b <> Gt <-> (kcmp (fst a) (fst b) = Lt \/ (kcmp (fst a) (fst b) = Eq /\ (snd b <= snd a)%N)).
  Proof.
    simpl. unfold kts_cmp. destruct (kcmp (fst a) (fst b)) eqn:E.
    - destruct (N.compare_spec (snd b) (snd a)); intuition (try congruence; lia).
    - intuition congruence.
    - intuition congruence.
  Qed.

  Lemma visible_scan_gen ts (l : list vers) : wsorted l -> forall cur em,
    (forall c v, cur = Some c -> In v l -> kcmp c (vkey v) <> Gt) ->
    ascending vkey (visible_scan ts cur em l) /\
    (forall v, In v (visible_scan ts cur em l) -> newest_visible l ts v /\ ~ handled em cur (vkey v)) /\
    (forall v, In v l -> (vts v <= ts)%N ->
       handled em cur (vkey v) \/ exists w, In w (visible_scan ts cur em l) /\ same_key (vkey w) (vkey v)).
  Proof.
    intros HS. induction HS as [|[[k t] a] l HS IH HF]; intros cur em HC; simpl.
    - split; [constructor|]. split; [intros ? []|intros ? []].
    - rewrite Forall_forall in HF.
      assert (HC' : forall c v, cur = Some c -> In v l -> kcmp c (vkey v) <> Gt).
      { intros c v Hc Hv. apply (HC c v Hc). now right. }
      assert (HK : forall v : vers, In v l -> kcmp k (vkey v) <> Gt).
      { intros v Hv. specialize (HF v Hv). apply kts_le_cases in HF. simpl in HF.
        unfold vkey. destruct HF as [HF|[HF _]]; congruence. }
      set (same := match cur with Some c => keqb c k | None => false end) in *.
      assert (Hsame : same = true <-> exists c, cur = Some c /\ kcmp c k = Eq).
      { unfold same. destruct cur as [c|]; [rewrite keqb_true|]; split.
        - intros H; exists c; auto.
        - intros (c' & Hc & H). congruence.
        - discriminate.
        - intros (c & H & _). discriminate. }
      destruct (same && em) eqn:ESE.
      + apply andb_true_iff in ESE as [E1 E2]. subst em. apply Hsame in E1 as (c & -> & Hck).
        destruct (IH (Some c) true) as (I1 & I2 & I3); [intros; eapply HC'; eauto|].
        split; auto. split.
        * intros v Hv. destruct (I2 v Hv) as [(N1 & N2 & N3) NH]. split; auto.
          split; [now right|]. split; auto. intros w [<-|Hw] Hwk Hwt; auto.
          exfalso. apply NH. split; auto. exists c. split; auto.
          unfold same_key, vkey in *. simpl in *. korder.
        * intros v [<-|Hv] Hvt; [|apply I3; auto]. left. split; auto. exists c. split; auto.
      + set (cur' := if same then cur else Some k) in *.
        assert (Hcur' : exists c', cur' = Some c' /\ kcmp c' k = Eq).
        { unfold cur'. destruct same eqn:ES; [apply Hsame; auto|]. exists k; split; auto. apply kcmp_refl. }
        destruct Hcur' as (c' & Hcur' & Hc'k).
        assert (HCC : forall c v, cur' = Some c -> In v l -> kcmp c (vkey v) <> Gt).
        { intros c v Hc Hv. rewrite Hcur' in Hc. inversion Hc; subst c. specialize (HK v Hv).
          rewrite (kcmp_eq_l _ _ _ Hc'k). exact HK. }
        assert (HNH : forall v : vers, kcmp k (vkey v) = Eq -> ~ handled em cur (vkey v)).
        { intros v Hv (H1 & c & H2 & H3). subst em.
          assert (same = true); [apply Hsame; exists c; split; auto; korder|].
          rewrite H in ESE. discriminate. }
        assert (HNH2 : forall v : vers, In v l -> kcmp k (vkey v) = Lt -> ~ handled em cur (vkey v)).
        { intros v Hv Hlt (H1 & c & H2 & H3).
          pose proof (HC c ((k, t), a) H2 (or_introl eq_refl)) as H4. unfold vkey in H4; simpl in H4.
          destruct (kcmp c k) eqn:E; try congruence; unfold vkey in *; korder. }
        destruct (N.ltb ts t) eqn:ET.
        * apply N.ltb_lt in ET.
          destruct (IH cur' false HCC) as (I1 & I2 & I3).
          split; auto. split.
          -- intros v Hv. destruct (I2 v Hv) as [(N1 & N2 & N3) NH]. split.
             ++ split; [now right|]. split; auto. intros w [<-|Hw] Hwk Hwt; auto.
                unfold vts in Hwt; simpl in Hwt. lia.
             ++ destruct (kcmp k (vkey v)) eqn:E; auto. exfalso. apply (HK v N1 E).
          -- intros v [<-|Hv] Hvt; [unfold vts in Hvt; simpl in Hvt; lia|].
             destruct (I3 v Hv Hvt) as [[H _]|H]; [discriminate|]. now right.
        * apply N.ltb_ge in ET.
          destruct (IH cur' true HCC) as (I1 & I2 & I3).
          assert (HGT : forall v, In v (visible_scan ts cur' true l) -> kcmp k (vkey v) = Lt).
          { intros v Hv. destruct (I2 v Hv) as [(N1 & _) NH].
            specialize (HK v N1). destruct (kcmp k (vkey v)) eqn:E; try congruence.
            exfalso. apply NH. split; auto. exists c'. split; auto. korder. }
          split; [|split].
          -- constructor; auto. rewrite Forall_forall. exact HGT.
          -- intros v [<-|Hv].
             ++ split; [|apply HNH; apply kcmp_refl].
                split; [now left|]. split; [exact ET|].
                intros w [<-|Hw] Hwk Hwt; [lia|].
                specialize (HF w Hw). apply kts_le_cases in HF. simpl in HF.
                unfold same_key, vkey, vts in *. simpl in *. destruct HF as [HF|[_ HF]]; [korder|lia].
             ++ destruct (I2 v Hv) as [(N1 & N2 & N3) NH]. specialize (HGT v Hv). split; [|auto].
                split; [now right|]. split; auto. intros w [<-|Hw] Hwk Hwt; auto.
                unfold same_key, vkey in *; simpl in *. exfalso. korder.
          -- intros v [<-|Hv] Hvt.
             ++ right. exists ((k, t), a). split; [now left|]. apply kcmp_refl.
             ++ destruct (I3 v Hv Hvt) as [(_ & c & H1 & H2)|(w & H1 & H2)].
                ** right. exists ((k, t), a). split; [now left|].
                   unfold same_key, vkey in *; simpl. rewrite Hcur' in H1; inversion H1; subst c. korder.
                ** right. exists w. split; [now right|auto].
  Qed.

  Lemma visible_scan_view ts (l : list vers) :
    wsorted l -> is_view l ts (visible_scan ts None false l).
  Proof.
    intros HS. destruct (visible_scan_gen ts l HS None false) as (H1 & H2 & H3); [discriminate|].
    split; auto. split; [intros v Hv; apply H2; auto|].
    intros v Hv Ht. destruct (H3 v Hv Ht) as [[H _]|H]; auto. discriminate.
  Qed.

  (** One step of a merge that emits the newest version of the smallest key. *)
  Definition hd_cur (cur : option K) (k : K) : bool :=
    match cur with Some c => keqb c k | None => false end.
  Definition merged (V : list vers) (cur : option K) (out : list vers) : Prop :=
    ascending vkey out /\
    (forall v, In v out -> In v V /\ (forall w, In w V -> same_key (vkey w) (vkey v) -> (vts w <= vts v)%N)
                          /\ hd_cur cur (vkey v) = false) /\
    (forall v, In v V -> hd_cur cur (vkey v) = true \/ exists w, In w out /\ same_key (vkey w) (vkey v)).

  Lemma merged_step V V' cur k v rest :
    (forall x, In x V -> In x V' \/ kcmp k (vkey x) = Eq) ->
    (forall x, In x V' -> In x V) ->
    In v V -> vkey v = k ->
    (forall x, In x V -> kcmp k (vkey x) <> Gt) ->
    (forall x, In x V -> kcmp k (vkey x) = Eq -> (vts x <= vts v)%N) ->
    (forall c, cur = Some c -> kcmp c k <> Gt) ->
    merged V' (if hd_cur cur k then cur else Some k) rest ->
    merged V cur (if hd_cur cur k then rest else v :: rest).
  Proof.
    intros HV HV' Hv Hk Hmin Hnew Hcur (M1 & M2 & M3).
    set (cur' := if hd_cur cur k then cur else Some k) in *.
    assert (Hc' : exists c, cur' = Some c /\ kcmp c k = Eq).
    { unfold cur', hd_cur. destruct cur as [c|]; [|exists k; split; auto using kcmp_refl].
      destruct (keqb c k) eqn:E; [exists c; split; auto; now apply keqb_true|exists k; split; auto using kcmp_refl]. }
    destruct Hc' as (c' & Ec' & Hc'k).
    assert (Hlt : forall w, In w rest -> kcmp k (vkey w) = Lt).
    { intros w Hw. destruct (M2 w Hw) as (W1 & W2 & W3). rewrite Ec' in W3. simpl in W3.
      specialize (Hmin w (HV' _ W1)). destruct (kcmp k (vkey w)) eqn:E; try congruence.
      knorm. exfalso. apply W3. korder. }
    assert (Hhd : forall w : vers, kcmp k (vkey w) = Lt -> hd_cur cur (vkey w) = false).
    { intros w Hw. destruct cur as [c|]; simpl; auto. apply keqb_false. intros E.
      specialize (Hcur c eq_refl). destruct (kcmp c k) eqn:F; try congruence; korder. }
    assert (Hrest : forall w, In w rest -> In w V /\
              (forall x, In x V -> same_key (vkey x) (vkey w) -> (vts x <= vts w)%N)
              /\ hd_cur cur (vkey w) = false).
    { intros w Hw. destruct (M2 w Hw) as (W1 & W2 & W3). specialize (Hlt w Hw).
      split; auto. split; auto. intros x Hx Hxw. destruct (HV x Hx) as [H|H]; auto.
      unfold same_key in *. exfalso. korder. }
    assert (Hcompl : forall x, In x V -> kcmp k (vkey x) = Eq \/ exists w, In w rest /\ same_key (vkey w) (vkey x)).
    { intros x Hx. destruct (HV x Hx) as [H|H]; auto. destruct (M3 x H) as [H1|H1]; auto.
      rewrite Ec' in H1. simpl in H1. left. knorm. korder. }
    destruct (hd_cur cur k) eqn:EH.
    - split; auto. split; auto. intros x Hx. destruct (Hcompl x Hx) as [H|H]; auto.
      left. destruct cur as [c|]; [|discriminate]. simpl in *. apply keqb_true in EH. apply keqb_true. korder.
    - split; [|split].
      + constructor; auto. rewrite Forall_forall. intros w Hw. rewrite Hk. auto.
      + intros w [<-|Hw]; auto. split; auto. rewrite Hk. split; auto.
        intros x Hx Hxk. apply Hnew; auto. unfold same_key in Hxk. korder.
      + intros x Hx. destruct (Hcompl x Hx) as [H|(w & H1 & H2)].
        * right. exists v. split; [now left|]. rewrite Hk. exact H.
        * right. exists w. split; [now right|auto].
  Qed.

  Lemma merged_view V out ts :
    Forall (fun v => (vts v <= ts)%N) V -> merged V None out -> is_view V ts out.
  Proof.
    intros HT (M1 & M2 & M3). rewrite Forall_forall in HT. split; auto. split.
    - intros v Hv. destruct (M2 v Hv) as (A & B & _). split; auto.
    - intros v Hv _. destruct (M3 v Hv) as [H|H]; auto. discriminate.
  Qed.

  (** Range bounds on the composite index select exactly the keys in the range. *)
  Lemma kts_lower_above (lo : bound K) k t :
    (t <= ts_max)%N -> above (kts_lower lo) (k, t) = above lo k.
  Proof.
    intros Ht. destruct lo as [a|a|]; simpl; auto.
    - unfold kleb at 1; simpl. unfold kts_cmp; simpl. unfold kleb.
      destruct (kcmp a k); auto. destruct (N.compare_spec t ts_max); auto. lia.
    - unfold kltb at 1; simpl. unfold kts_cmp; simpl. unfold kltb.
      destruct (kcmp a k); auto. destruct (N.compare_spec t ts_min); auto. unfold ts_min in *; lia.
  Qed.
  Lemma kts_upper_below (hi : bound K) k t :
    (t <= ts_max)%N -> below (kts_upper hi) (k, t) = below hi k.
  Proof.
    intros Ht. destruct hi as [a|a|]; cbn [below kts_upper]; auto;
      unfold kleb, kltb; cbn [kcmp kts_ord]; unfold kts_cmp; cbn [fst snd];
      destruct (kcmp k a); auto.
    - destruct (N.compare_spec ts_min t); auto. unfold ts_min in *; lia.
    - destruct (N.compare_spec ts_max t); auto. lia.
  Qed.

  Definition key_in (b : option (bound K * bound K)) (k : K) : bool :=
    match b with Some (lo, hi) => above lo k && below hi k | None => true end.

  Lemma in_bounds_In b (A : list vers) v :
    Forall (fun v => (vts v <= ts_max)%N) A ->
    (In v (in_bounds b A) <-> In v A /\ key_in b (vkey v) = true).
  Proof.
    intros HT. destruct b as [[lo hi]|]; simpl; [|tauto].
    rewrite om_range_In, andb_true_iff. rewrite Forall_forall in HT.
    split; intros (H1 & H2).
    - specialize (HT v H1). destruct v as [[k t] a]; unfold vkey, vts in *; simpl in *.
      rewrite kts_lower_above, kts_upper_below in H2 by auto. tauto.
    - specialize (HT v H1). destruct v as [[k t] a]; unfold vkey, vts in *; simpl in *.
      rewrite kts_lower_above, kts_upper_below by auto. tauto.
  Qed.

  Lemma in_bounds_sorted b (A : list vers) : osorted A -> osorted (in_bounds b A).
  Proof. destruct b as [[lo hi]|]; simpl; auto. apply om_range_sorted. Qed.

  (** Views are preserved by equivalent bags. *)
  Lemma newest_visible_ext (vs ws : list vers) ts v :
    (forall x, In x vs <-> In x ws) -> newest_visible vs ts v -> newest_visible ws ts v.
  Proof.
    intros H (H1 & H2 & H3). split; [apply H; auto|]. split; auto.
    intros w Hw. apply H3, H, Hw.
  Qed.
  Lemma is_view_ext (vs ws : list vers) ts out :
    (forall x, In x vs <-> In x ws) -> is_view vs ts out -> is_view ws ts out.
  Proof.
    intros H (H1 & H2 & H3). split; auto. split.
    - intros v Hv. eapply newest_visible_ext; eauto.
    - intros v Hv. apply H3, H, Hv.
  Qed.
  Lemma read_result_ext (vs ws : list vers) ts (out : list ((K * N) * R)) :
    (forall x, In x vs <-> In x ws) -> read_result vs ts out -> read_result ws ts out.
  Proof.
    intros H (H1 & H2). split; auto. intros kt r. rewrite H2.
    split; apply newest_visible_ext; auto. intros x; symmetry; auto.
  Qed.
End ViewFacts.
