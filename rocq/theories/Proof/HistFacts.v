(** The versions a history of commits produces, and the table they denote. *)
From Coq Require Import List NArith Bool Sorted Permutation Lia Arith.
From Verif Require Import Base.Order Model.OMap Model.KeyTs Model.MemTable
     Spec.Mvcc Spec.History Proof.OMapFacts Proof.MemFacts Proof.ViewFacts Proof.MergeFacts.
Import ListNotations.
Local Arguments kcmp : simpl never.

Section HistFacts.
  Context {K : Type} {KO : KeyOrd K} {R : Type}.
  Variable key_of : R -> option K.
  Notation vers := (@vers K R).

  Definition mut_ver (t : N) (m : mut K R) : option vers :=
    match mut_key key_of m with Some k => Some ((k, t), mut_row m) | None => None end.
  Definition ins_mut (t : N) (A : list vers) (m : mut K R) : list vers :=
    match mut_ver t m with Some v => om_insert (fst v) (snd v) A | None => A end.
  Definition ins_muts (ms : list (mut K R)) (t : N) (A : list vers) : list vers :=
    fold_left (ins_mut t) ms A.
  Definition commit_vers (c : hcommit K R) : list vers := ins_muts (snd c) (fst c) [].
  Definition hv (h : list (hcommit K R)) : list vers := flat_map commit_vers h.

  (** [m] changes the version slot (key, ts) of [v]. *)
  Definition hits (t : N) (m : mut K R) (kt : K * N) : Prop :=
    match mut_key key_of m with Some k => kcmp (k, t) kt = Eq | None => False end.

  (** [v] is the version the last mutation of its key in [ms] makes. *)
  Definition last_mut (t : N) (ms : list (mut K R)) (v : vers) : Prop :=
    exists ms1 m ms2, ms = ms1 ++ m :: ms2 /\ mut_ver t m = Some v /\ Forall (fun x => ~ hits t x (fst v)) ms2.

  Lemma last_mut_cons t m ms v :
    last_mut t (m :: ms) v <-> last_mut t ms v \/ (mut_ver t m = Some v /\ Forall (fun x => ~ hits t x (fst v)) ms).
  Proof.
    split.
    - intros (ms1 & x & ms2 & E & H1 & H2). destruct ms1 as [|y ms1]; inversion E; subst; auto.
      left. exists ms1, x, ms2. auto.
    - intros [(ms1 & x & ms2 & E & H1 & H2)|[H1 H2]].
      + exists (m :: ms1), x, ms2. subst. auto.
      + exists [], m, ms. auto.
  Qed.

  Lemma ins_mut_sorted t A m : osorted A -> osorted (ins_mut t A m).
  Proof. intros H. unfold ins_mut. destruct (mut_ver t m); auto. apply om_insert_sorted, H. Qed.
  Lemma ins_muts_sorted ms t : forall A, osorted A -> osorted (ins_muts ms t A).
  Proof. induction ms; simpl; auto. intros A H. apply IHms, ins_mut_sorted, H. Qed.

  Lemma ins_muts_In ms t : forall A v, osorted A ->
    (In v (ins_muts ms t A) <-> last_mut t ms v \/ (In v A /\ Forall (fun m => ~ hits t m (fst v)) ms)).
  Proof.
    induction ms as [|m ms IH]; intros A v HS.
    - simpl. split; auto. intros [(ms1 & x & ms2 & E & _)|[H _]]; auto. destruct ms1; discriminate.
    - cbn [ins_muts fold_left]. fold (ins_muts ms t (ins_mut t A m)).
      rewrite IH by (apply ins_mut_sorted; auto). rewrite last_mut_cons.
      unfold ins_mut. destruct (mut_ver t m) as [[kt o]|] eqn:E.
      + cbn [fst snd].
        assert (EQ : In v (om_insert kt o A) <-> v = (kt, o) \/ (In v A /\ kcmp kt (fst v) <> Eq))
          by (apply om_insert_iff; auto).
        rewrite EQ.
        assert (EH : hits t m = fun kt' => kcmp kt kt' = Eq).
        { unfold mut_ver in E. unfold hits. destruct (mut_key key_of m); inversion E; subst. reflexivity. }
        split.
        * intros [H|[[->|[H1 H2]] H3]]; auto.
          right. split; auto. constructor; auto. rewrite EH. exact H2.
        * intros [[H|[H1 H2]]|[H1 H2]]; auto.
          -- inversion H1; subst. auto.
          -- inversion H2; subst. rewrite EH in H3. auto.
      + assert (EH : forall kt, ~ hits t m kt).
        { unfold mut_ver in E. unfold hits. destruct (mut_key key_of m); [discriminate|tauto]. }
        split.
        * intros [H|[H1 H2]]; auto.
        * intros [[H|[H1 H2]]|[H1 H2]]; auto; [discriminate|]. right. inversion H2; auto.
  Qed.

  Lemma ins_mut_rows rows t : forall A, ins_muts (map Put rows) t A = ins_rows key_of rows t A.
  Proof.
    induction rows as [|r rs IH]; intros A; simpl; auto. unfold ins_rows in *. simpl. rewrite <- IH.
    unfold ins_mut, mut_ver, ins_row. simpl. destruct (key_of r); reflexivity.
  Qed.
  Lemma ins_mut_dels (ks : list K) t : forall A, ins_muts (map Del ks) t A = ins_dels (map Some ks) t A.
  Proof. induction ks as [|k rs IH]; intros A; simpl; auto. Qed.

  Lemma last_mut_ts t ms v : last_mut t ms v -> vts v = t.
  Proof.
    intros (ms1 & m & ms2 & _ & H & _). unfold mut_ver in H. destruct (mut_key key_of m); inversion H; reflexivity.
  Qed.
  Lemma last_mut_keyed t ms (v : vers) r : last_mut t ms v -> vval v = Some r -> key_of r = Some (vkey v).
  Proof.
    intros (ms1 & m & ms2 & _ & H & _) E. unfold mut_ver in H.
    destruct (mut_key key_of m) eqn:EK; inversion H; subst. unfold vval, vkey in *; simpl in *.
    destruct m; simpl in *; congruence.
  Qed.

  Lemma commit_vers_In c v : In v (commit_vers c) <-> last_mut (fst c) (snd c) v.
  Proof.
    unfold commit_vers. rewrite ins_muts_In by constructor. split; auto. intros [H|[[] _]]; auto.
  Qed.
  Lemma commit_vers_sorted c : osorted (commit_vers c).
  Proof. apply ins_muts_sorted. constructor. Qed.
  Lemma commit_vers_ts c v : In v (commit_vers c) -> vts v = fst c.
  Proof. rewrite commit_vers_In. apply last_mut_ts. Qed.

  Lemma kts_eq (a b : K * N) : kcmp a b = Eq <-> kcmp (fst a) (fst b) = Eq /\ snd a = snd b.
  Proof.
    change (@kcmp _ kts_ord a b) with (kts_cmp a b). unfold kts_cmp.
    destruct (kcmp (fst a) (fst b)) eqn:E; try (split; [discriminate|intros [H _]; discriminate]).
    split.
    - intros H. split; auto. apply N.compare_eq in H. auto.
    - intros [_ ->]. apply N.compare_refl.
  Qed.

  (** *** The table of a history *)
  (** Either some mutation of the list changes [k], and the last one decides, or none does. *)
  Lemma last_mut_dec t ms k :
    (exists v, last_mut t ms v /\ same_key (vkey v) k) \/
    (forall x kx, In x ms -> mut_key key_of x = Some kx -> kcmp kx k <> Eq).
  Proof.
    induction ms as [|y ms [(v & H1 & H2)|H]].
    - right. intros x kx [].
    - left. exists v. rewrite last_mut_cons. auto.
    - destruct (mut_key key_of y) as [ky|] eqn:EY.
      + destruct (kcmp ky k) eqn:EK.
        * left. exists ((ky, t), mut_row y). split; [|exact EK]. apply last_mut_cons. right. split.
          -- unfold mut_ver. now rewrite EY.
          -- apply Forall_forall. intros x Hx. unfold hits. destruct (mut_key key_of x) as [kx|] eqn:EX; auto.
             rewrite kts_eq. simpl. intros [E _]. apply (H x kx Hx EX). korder.
        * right. intros x kx [->|Hx] EX; eauto. congruence.
        * right. intros x kx [->|Hx] EX; eauto. congruence.
      + right. intros x kx [->|Hx] EX; eauto. congruence.
  Qed.

  Lemma apply_muts_none t ms : forall (m : table K R) k,
    (forall x kx, In x ms -> mut_key key_of x = Some kx -> kcmp kx k <> Eq) ->
    fold_left (apply_mut key_of t) ms m k = m k.
  Proof.
    induction ms as [|y ms IH]; intros m k H; simpl; auto.
    rewrite IH by (intros; eapply H; eauto; right; auto).
    unfold apply_mut. destruct y as [r|k']; simpl.
    - destruct (key_of r) as [k'|] eqn:E; auto. unfold update.
      pose proof (H (Put r) k' (or_introl eq_refl) E) as HN. apply keqb_false in HN. now rewrite HN.
    - unfold update. pose proof (H (Del k') k' (or_introl eq_refl) eq_refl) as HN. apply keqb_false in HN. now rewrite HN.
  Qed.

  Lemma apply_muts_some t ms : forall (m : table K R) k v,
    last_mut t ms v -> same_key (vkey v) k ->
    fold_left (apply_mut key_of t) ms m k = match vval v with Some r => Some (t, r) | None => None end.
  Proof.
    intros m k v (ms1 & x & ms2 & -> & H1 & H2) Hk. rewrite fold_left_app. simpl.
    rewrite apply_muts_none.
    - unfold mut_ver in H1. destruct (mut_key key_of x) as [kx|] eqn:EX; inversion H1; subst.
      unfold vkey in Hk; simpl in Hk. unfold vval; simpl. unfold apply_mut. destruct x as [r|k']; simpl in *.
      + rewrite EX. unfold update. apply keqb_true in Hk. now rewrite Hk.
      + inversion EX; subst. unfold update. apply keqb_true in Hk. now rewrite Hk.
    - intros y ky Hy EY E. rewrite Forall_forall in H2. specialize (H2 y Hy). unfold hits in H2. rewrite EY in H2.
      apply H2. apply kts_eq. unfold mut_ver in H1. destruct (mut_key key_of x); inversion H1; subst. simpl.
      unfold same_key, vkey in Hk; simpl in Hk. split; auto. korder.
  Qed.

  Definition increasing (h : list (hcommit K R)) : Prop := StronglySorted (fun a b => (fst a < fst b)%N) h.

  Lemma final_snoc h c : final key_of (h ++ [c]) = apply_commit key_of (final key_of h) c.
  Proof. unfold final. now rewrite fold_left_app. Qed.

  Lemma hv_app h1 h2 : hv (h1 ++ h2) = hv h1 ++ hv h2.
  Proof. apply flat_map_app. Qed.

  Lemma hv_In h v : In v (hv h) <-> exists c, In c h /\ last_mut (fst c) (snd c) v.
  Proof.
    unfold hv. rewrite in_flat_map. split; intros (c & H1 & H2); exists c; split; auto; now apply commit_vers_In.
  Qed.

  Lemma hv_ts h v : In v (hv h) -> exists c, In c h /\ vts v = fst c.
  Proof. rewrite hv_In. intros (c & H1 & H2). exists c. split; auto. now apply last_mut_ts in H2. Qed.

  Lemma hv_keyed h : keyedv key_of (hv h).
  Proof.
    intros kt r H. apply hv_In in H as (c & _ & H). apply (last_mut_keyed _ _ _ r H). reflexivity.
  Qed.

  Lemma increasing_ts_inj h a b : increasing h -> In a h -> In b h -> fst a = fst b -> a = b.
  Proof.
    induction 1 as [|x l H IH HF]; [contradiction|]. rewrite Forall_forall in HF.
    intros [->|Ha] [->|Hb] E; auto.
    - specialize (HF b Hb). lia.
    - specialize (HF a Ha). lia.
  Qed.

  Lemma hv_consistent h : increasing h -> consistent (hv h).
  Proof.
    intros HI v w Hv Hw Hk Ht. apply hv_In in Hv as (c & Hc & Hv). apply hv_In in Hw as (c' & Hc' & Hw).
    assert (c = c').
    { eapply increasing_ts_inj; eauto. rewrite <- (last_mut_ts _ _ _ Hv), <- (last_mut_ts _ _ _ Hw). exact Ht. }
    subst c'. apply commit_vers_In in Hv, Hw.
    assert (v = w) as ->; auto.
    eapply osorted_unique; eauto. apply commit_vers_sorted. apply kts_eq. split; auto.
  Qed.

  (** The final table lists, for each key, its version with the greatest timestamp. *)
  Lemma final_newest h k : increasing h ->
    (exists v, In v (hv h) /\ same_key (vkey v) k /\
       (forall w, In w (hv h) -> same_key (vkey w) k -> (vts w <= vts v)%N) /\
       final key_of h k = match vval v with Some r => Some (vts v, r) | None => None end) \/
    ((forall v, In v (hv h) -> ~ same_key (vkey v) k) /\ final key_of h k = None).
  Proof.
    induction h as [|c h IH] using rev_ind; intros HI.
    - right. split; [intros v []|reflexivity].
    - apply StronglySorted_app in HI as (HI1 & _ & HI2). specialize (IH HI1).
      rewrite final_snoc. unfold apply_commit.
      assert (HLT : forall w, In w (hv h) -> (vts w < fst c)%N).
      { intros w Hw. apply hv_ts in Hw as (c' & Hc' & ->). apply HI2; simpl; auto. }
      destruct (last_mut_dec (fst c) (snd c) k) as [(v & H1 & H2)|H].
      + left. exists v. rewrite hv_app. split.
        * apply in_app_iff. right. apply hv_In. exists c. simpl; auto.
        * split; auto. split.
          -- intros w Hw _. rewrite (last_mut_ts _ _ _ H1). apply in_app_iff in Hw as [Hw|Hw].
             ++ apply HLT in Hw. lia.
             ++ apply hv_ts in Hw as (c' & [<-|[]] & ->). lia.
          -- rewrite (last_mut_ts _ _ _ H1). now apply apply_muts_some.
      + rewrite apply_muts_none by auto.
        assert (HX : forall w, In w (hv [c]) -> ~ same_key (vkey w) k).
        { intros w Hw Hk. apply hv_In in Hw as (c' & [<-|[]] & (ms1 & x & ms2 & E & Hx & _)).
          unfold mut_ver in Hx. destruct (mut_key key_of x) as [kx|] eqn:EX; inversion Hx; subst.
          apply (H x kx); auto. rewrite E, in_app_iff. simpl; auto. }
        rewrite hv_app. destruct IH as [(v & H1 & H2 & H3 & H4)|[H1 H2]].
        * left. exists v. split; [apply in_app_iff; auto|]. split; auto. split; auto.
          intros w Hw Hk. apply in_app_iff in Hw as [Hw|Hw]; auto. exfalso. eapply HX; eauto.
        * right. split; auto. intros w Hw. apply in_app_iff in Hw as [Hw|Hw]; auto.
  Qed.

  Lemma hv_filter h ts v : In v (hv (filter (fun c => N.leb (fst c) ts) h)) <-> In v (hv h) /\ (vts v <= ts)%N.
  Proof.
    rewrite !hv_In. split.
    - intros (c & Hc & Hv). apply filter_In in Hc as [Hc Ht]. apply N.leb_le in Ht. split; eauto.
      rewrite (last_mut_ts _ _ _ Hv). exact Ht.
    - intros [(c & Hc & Hv) Ht]. exists c. split; auto. apply filter_In. split; auto.
      apply N.leb_le. rewrite <- (last_mut_ts _ _ _ Hv). exact Ht.
  Qed.

  Lemma increasing_filter f h : increasing h -> increasing (filter f h).
  Proof. apply StronglySorted_filter. Qed.

  Theorem as_of_newest h ts k t r : increasing h ->
    (as_of key_of h ts k = Some (t, r) /\ key_of r = Some k) <-> newest_visible (hv h) ts ((k, t), Some r).
  Proof.
    intros HI. unfold as_of. set (h' := filter (fun c => N.leb (fst c) ts) h).
    assert (HI' : increasing h') by (apply increasing_filter; auto).
    destruct (final_newest h' k HI') as [(v & H1 & H2 & H3 & H4)|[H1 H2]].
    - rewrite H4. split.
      + intros [E Hk]. destruct v as [[k0 t0] [r0|]]; unfold vval, vts in E; simpl in E; [|discriminate].
        inversion E; subst.
        assert (k0 = k) by (pose proof (hv_keyed _ _ _ H1) as HK; simpl in HK; congruence). subst k0.
        apply hv_filter in H1 as [H1 Ht]. split; auto. split; auto.
        intros w Hw Hwk Hwt. apply H3; [apply hv_filter; auto|exact Hwk].
      + intros (N1 & N2 & N3). unfold vts in N2; simpl in N2.
        assert (N1' : In ((k, t), Some r) (hv h')) by (apply hv_filter; auto).
        assert (ET : vts v = t).
        { apply N.le_antisymm.
          - apply hv_filter in H1 as [H1 Ht]. apply (N3 v H1); auto.
          - apply (H3 _ N1'). apply kcmp_refl. }
        assert (EV : vval v = Some r).
        { rewrite (hv_consistent _ HI' v ((k, t), Some r) H1 N1'); auto. }
        rewrite EV, ET. split; auto. pose proof (hv_keyed _ _ _ N1) as HK. exact HK.
    - rewrite H2. split; [intros [E _]; discriminate|].
      intros (N1 & N2 & _). exfalso. apply (H1 ((k, t), Some r)); [apply hv_filter; auto|apply kcmp_refl].
  Qed.

  (** From the version-level statement of a read to the table-level one. *)
  Theorem read_lists_table h ts p (out : list ((K * N) * R)) : increasing h ->
    ascending (fun e => fst (fst e)) out ->
    (forall kt r, In (kt, r) out <-> newest_visible (hv h) ts (kt, Some r) /\ p r = true) ->
    lists_table key_of (as_of key_of h ts) p out.
  Proof.
    intros HI HA H. split; auto. intros k t r. rewrite H, <- as_of_newest by auto. tauto.
  Qed.
End HistFacts.
