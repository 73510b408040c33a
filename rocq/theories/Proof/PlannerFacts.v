(** The tasks of the compaction planner. *)
From Coq Require Import List NArith Bool Sorted Permutation Lia Arith.
From Verif Require Import Base.Order Base.Sub Model.SsTable Model.Version Model.Planner Spec.Plan Proof.SstFacts Proof.VersionFacts.
Import ListNotations.
Local Arguments kcmp : simpl never.

Section PlannerFacts.
  Context {K : Type} {KO : KeyOrd K} {E : Type}.
  Variable eid : E -> N.
  Variable estats : E -> option (option K * option K * nat).
  Notation select_run := (select_run estats).
  Notation plan_version := (plan_version eid estats).
  Notation over := (over estats).
  Notation l0_over := (l0_over estats).
  Notation level_over := (level_over estats).
  Notation good_task := (good_task eid estats).

  Lemma kle_trans x y z : kcmp x y <> Gt -> kcmp y z <> Gt -> kcmp x z <> Gt.
  Proof.
    intros H1 H2. destruct (kcmp x y) eqn:E1; [| |congruence].
    - now rewrite (kcmp_eq_l _ _ z E1).
    - destruct (kcmp y z) eqn:E2; [| |congruence].
      + rewrite <- (kcmp_eq_r _ _ x E2), E1. discriminate.
      + rewrite (kcmp_lt_trans _ _ _ E1 E2). discriminate.
  Qed.
  Lemma kleb_false x y : kleb x y = false -> kcmp y x = Lt.
  Proof. unfold kleb. destruct (kcmp x y) eqn:E1; try discriminate. intros _. now apply kcmp_gt_lt. Qed.
  Lemma NoDup_front {A} (l r : list A) : NoDup (l ++ r) -> NoDup l.
  Proof.
    induction l as [|a l IH]; simpl; intros H; [constructor|]. inversion H; subst. constructor; auto.
    intros F. apply H2. apply in_or_app; auto.
  Qed.

  Lemma select_prefix take cap : forall l n b, exists r, l = select_run take cap n b l ++ r.
  Proof.
    induction l as [|f l IH]; intros n b; simpl; [now exists []|].
    destruct (Nat.leb take n); [now exists (f :: l)|].
    destruct (match cap with Some c => _ | None => false end); [now exists (f :: l)|].
    destruct (IH (S n) (b + ebytes estats f)) as [r Hr]. exists r. simpl. now rewrite <- Hr.
  Qed.
  Lemma select_length take cap : forall l n b, length (select_run take cap n b l) <= take - n.
  Proof.
    induction l as [|f l IH]; intros n b; simpl; [lia|].
    destruct (Nat.leb_spec take n); [simpl; lia|].
    destruct (match cap with Some c => _ | None => false end); [simpl; lia|].
    simpl. specialize (IH (S n) (b + ebytes estats f)). lia.
  Qed.
  Lemma select_nonempty take cap l b : 1 <= take -> l <> [] -> select_run take cap 0 b l <> [].
  Proof.
    intros H HL. destruct l as [|f l]; [congruence|]. simpl. destruct take; [lia|]. simpl.
    destruct cap; simpl; discriminate.
  Qed.

  Definition sel files take cap := select_compaction_run estats files take cap.
  Lemma sel_In files take cap f : In f (sel files take cap) -> In f files.
  Proof.
    unfold sel, select_compaction_run. intros H.
    destruct (select_prefix take cap (sort_by (ck_le estats) files) 0 0) as [r Hr].
    apply (Permutation_in _ (Permutation_sym (sort_by_perm (ck_le estats) files))). rewrite Hr. apply in_or_app; auto.
  Qed.
  Lemma sel_NoDup files take cap : NoDup (map eid files) -> NoDup (map eid (sel files take cap)).
  Proof.
    unfold sel, select_compaction_run. intros H.
    destruct (select_prefix take cap (sort_by (ck_le estats) files) 0 0) as [r Hr].
    apply (Permutation_NoDup (Permutation_map eid (sort_by_perm (ck_le estats) files))) in H.
    rewrite Hr, map_app in H. apply NoDup_front in H. exact H.
  Qed.
  Lemma sel_length files take cap : length (sel files take cap) <= take.
  Proof. unfold sel, select_compaction_run. rewrite select_length. lia. Qed.
  Lemma select_bytes take c : forall l n b, n <> 0 ->
    select_run take (Some c) n b l = [] \/ b + total_bytes estats (select_run take (Some c) n b l) <= c.
  Proof.
    induction l as [|f l IH]; intros n b Hn; simpl; auto.
    destruct (Nat.leb take n); auto. destruct (Nat.eqb_spec n 0) as [|_]; [congruence|]. simpl.
    destruct (Nat.ltb_spec c (b + ebytes estats f)); auto. right.
    unfold total_bytes. simpl. fold (total_bytes estats (select_run take (Some c) (S n) (b + ebytes estats f) l)).
    destruct (IH (S n) (b + ebytes estats f)) as [->|HI]; [lia|unfold total_bytes; simpl; lia|lia].
  Qed.
  Lemma sel_bytes files take c : files <> [] -> 1 <= take ->
    length (sel files take (Some c)) = 1 \/ total_bytes estats (sel files take (Some c)) <= c.
  Proof.
    intros HN HT. unfold sel, select_compaction_run. destruct (sort_by (ck_le estats) files) as [|f l] eqn:ES.
    { exfalso. apply HN. pose proof (sort_by_perm (ck_le estats) files) as P. rewrite ES in P. now apply Permutation_sym, Permutation_nil in P. }
    simpl. destruct take; [lia|]. simpl.
    destruct (select_bytes (S take) c l 1 (ebytes estats f)) as [->|HI]; [lia|auto|right].
    unfold total_bytes in *. simpl. exact HI.
  Qed.
  Lemma sel_nonempty files take cap : 1 <= take -> files <> [] -> sel files take cap <> [].
  Proof.
    intros H HN. apply select_nonempty; auto. intros F.
    pose proof (sort_by_perm (ck_le estats) files) as P. rewrite F in P. apply Permutation_sym, Permutation_nil in P. auto.
  Qed.

  Lemma snapshot_In : forall (ls : list (list E)) i l b, In (l, b) (snapshot_from i ls) -> i <= l /\ nth (l - i) ls [] = b /\ b <> [].
  Proof.
    induction ls as [|c ls IH]; intros i l b H; simpl in H; [destruct H|].
    assert (HR : In (l, b) (snapshot_from (S i) ls) -> i <= l /\ nth (l - i) (c :: ls) [] = b /\ b <> []).
    { intros H'. apply IH in H' as (H1 & H2 & H3). split; [lia|]. replace (l - i) with (S (l - S i)) by lia. auto. }
    destruct c as [|x c]; auto. destruct H as [H|H]; auto. inversion H; subst. split; [lia|].
    rewrite Nat.sub_diag. split; auto. discriminate.
  Qed.
  Lemma snapshot_has : forall (ls : list (list E)) i l b, nth l ls [] = b -> b <> [] -> In (i + l, b) (snapshot_from i ls).
  Proof.
    induction ls as [|c ls IH]; intros i l b H HN; simpl in *.
    - destruct l; congruence.
    - destruct l as [|l].
      + subst c. destruct b; [congruence|]. left. f_equal. lia.
      + specialize (IH (S i) l b H HN). replace (S i + l) with (i + S l) in IH by lia.
        destruct c; auto. now right.
  Qed.
  Lemma level_of_In (sn : list (nat * list E)) l b : level_of sn l = Some b -> In (l, b) sn.
  Proof.
    unfold level_of. destruct (find _ sn) as [[l' b']|] eqn:F; [|discriminate]. simpl. intros H; inversion H; subst.
    apply find_some in F as [F1 F2]. simpl in F2. apply Nat.eqb_eq in F2. now subst.
  Qed.
  Lemma level_of_nth (ls : list (list E)) l b : level_of (snapshot_from 0 ls) l = Some b <-> nth l ls [] = b /\ b <> [].
  Proof.
    split.
    - intros H. apply level_of_In, snapshot_In in H as (_ & H & HN). rewrite Nat.sub_0_r in H. auto.
    - intros [H HN]. pose proof (snapshot_has ls 0 l b H HN) as HI. simpl in HI.
      unfold level_of. destruct (find _ _) as [[l' b']|] eqn:F.
      + apply find_some in F as [F1 F2]. simpl in F2. apply Nat.eqb_eq in F2. subst l'.
        apply snapshot_In in F1 as (_ & F1 & _). rewrite Nat.sub_0_r in F1. simpl. congruence.
      + exfalso. apply (find_none _ _ F) in HI. simpl in HI. now rewrite Nat.eqb_refl in HI.
  Qed.

  Lemma NoDup_pairs (l : nat) (b : list E) : NoDup (map eid b) -> NoDup (map (fun f => (l, eid f)) b).
  Proof.
    intros H. replace (map (fun f => (l, eid f)) b) with (map (pair l) (map eid b)) by now rewrite map_map.
    apply FinFun.Injective_map_NoDup; auto. intros x y F. now inversion F.
  Qed.
  Lemma NoDup_two (l m : nat) (b c : list E) : l <> m -> NoDup (map eid b) -> NoDup (map eid c) ->
    NoDup (map (fun f => (l, eid f)) b ++ map (fun f => (m, eid f)) c).
  Proof.
    intros HL Hb Hc. induction b as [|x b IH]; simpl; [now apply NoDup_pairs|].
    inversion Hb; subst. constructor; [|apply IH; auto]. intros F. apply in_app_iff in F as [F|F].
    - apply in_map_iff in F as (y & F & Hy). inversion F as [F']. apply H1. rewrite <- F'. now apply in_map.
    - apply in_map_iff in F as (y & F & Hy). inversion F. congruence.
  Qed.

  (** The aggregated range contains the range of every file. *)
  Lemma agg_bounds fs : forall mn mx rn rx, agg estats fs mn mx = Some (rn, rx) ->
    (forall m, mn = Some m -> exists r, rn = Some r /\ kcmp r m <> Gt) /\
    (forall m, mx = Some m -> exists r, rx = Some r /\ kcmp m r <> Gt) /\
    (forall f a z b, In f fs -> estats f = Some (Some a, Some z, b) ->
       (exists r, rn = Some r /\ kcmp r a <> Gt) /\ (exists r, rx = Some r /\ kcmp z r <> Gt)).
  Proof.
    induction fs as [|f fs IH]; intros mn mx rn rx H; simpl in H.
    - inversion H; subst. split; [|split]; [| |intros ? ? ? ? []];
        intros m ->; exists m; split; auto; rewrite kcmp_refl; discriminate.
    - destruct (estats f) as [[[a z] b]|] eqn:EF; [|discriminate].
      apply IH in H as (H1 & H2 & H3). split; [|split].
      + intros m ->. destruct a as [a|]; [|now apply H1].
        destruct (kleb m a) eqn:L; [now apply H1|]. destruct (H1 a eq_refl) as (r & R1 & R2). exists r. split; auto.
        eapply kle_trans; eauto. apply kleb_false in L. rewrite L. discriminate.
      + intros m ->. destruct z as [z|]; [|now apply H2].
        destruct (kleb z m) eqn:L; [now apply H2|]. destruct (H2 z eq_refl) as (r & R1 & R2). exists r. split; auto.
        apply kleb_false in L. eapply kle_trans; eauto. rewrite L. discriminate.
      + intros g a' z' b' [->|Hg] Eg; [|now apply (H3 g _ _ _ Hg Eg)]. rewrite EF in Eg. inversion Eg; subst a z b'. split.
        * destruct mn as [m|]; [|apply H1; auto]. destruct (kleb m a') eqn:L; [|apply H1; auto].
          destruct (H1 m eq_refl) as (r & R1 & R2). exists r. split; auto. eapply kle_trans; eauto. now apply kleb_true.
        * destruct mx as [m|]; [|apply H2; auto]. destruct (kleb z' m) eqn:L; [|apply H2; auto].
          destruct (H2 m eq_refl) as (r & R1 & R2). exists r. split; auto. eapply kle_trans; eauto. now apply kleb_true.
  Qed.
  Lemma agg_total fs : (forall f, In f fs -> exists a z b, estats f = Some (Some a, Some z, b)) ->
    forall mn mx, exists rn rx, agg estats fs mn mx = Some (rn, rx).
  Proof.
    induction fs as [|f fs IH]; intros H mn mx; simpl; [eauto|].
    destruct (H f (or_introl eq_refl)) as (a & z & b & ->). apply IH. intros g Hg. apply H. simpl; auto.
  Qed.

  Lemma range_covers fs lo hi f a z b : aggregate_key_range estats fs = Some (lo, hi) -> In f fs ->
    estats f = Some (Some a, Some z, b) -> kcmp lo a <> Gt /\ kcmp z hi <> Gt.
  Proof.
    unfold aggregate_key_range. destruct (agg estats fs None None) as [[rn rx]|] eqn:EA; [|discriminate].
    intros H Hf Ef. destruct (agg_bounds fs None None rn rx EA) as (_ & _ & B).
    destruct (B f a z b Hf Ef) as [(l & -> & L1) (h & -> & L2)]. inversion H; subst. auto.
  Qed.

  Lemma plan_l0_good cfg ls tk : plan_l0 eid estats cfg (snapshot_from 0 ls) = Some tk ->
    exists srcs, good_task cfg ls tk srcs [].
  Proof.
    unfold plan_l0. destruct (level_of _ 0) as [files|] eqn:EL; [|discriminate].
    apply level_of_nth in EL as [EL EN].
    destruct (_ && _)%bool eqn:EC; [discriminate|]. intros H; inversion H; subst tk; clear H.
    set (take := Nat.max _ 1). fold (sel files take (pc_task_bytes cfg)).
    exists (sel files take (pc_task_bytes cfg)). constructor; simpl; auto.
    - now rewrite app_nil_r.
    - intros f Hf. rewrite EL. eapply sel_In; eauto.
    - tauto.
    - apply sel_nonempty; auto. unfold take. lia.
    - pose proof (sel_length files take (pc_task_bytes cfg)) as HL. unfold take in HL at 2. change (length (sel files take (pc_task_bytes cfg)) <= Nat.max 1 (pc_l0_max_inputs cfg)). lia.
    - intros c Hc. rewrite Hc. apply sel_bytes; auto. unfold take. lia.
    - intros H _. apply NoDup_pairs, sel_NoDup. now rewrite <- EL.
    - split; [rewrite EL; exact EN|]. unfold l0_over. rewrite EL. apply andb_false_iff in EC as [EC|EC].
      + apply Nat.ltb_ge in EC. auto.
      + apply negb_false_iff in EC. right. destruct (pc_l0_max_bytes cfg) as [c|]; [|discriminate].
        exists c. split; auto. now apply Nat.leb_le.
    - intros lo hi f a z b HR Hf Ef. rewrite app_nil_r in Hf. exact (range_covers _ _ _ _ _ _ _ HR Hf Ef).
  Qed.

  Lemma nonempty_match {A B} (l : list A) (x y : B) : l <> [] -> match l with [] => x | _ :: _ => y end = y.
  Proof. destruct l; congruence. Qed.

  Lemma plan_level_good cfg ls l files tk : 1 <= l -> nth l ls [] = files -> files <> [] ->
    plan_level eid estats cfg (snapshot_from 0 ls) l files = Some tk ->
    tk_source tk = l /\ exists srcs nexts, good_task cfg ls tk srcs nexts.
  Proof.
    intros H1 EL EN. unfold plan_level. destruct (nth_error (pc_thresholds cfg) (l - 1)) as [limit|] eqn:ET; [|discriminate].
    destruct (_ && _)%bool eqn:EC; [discriminate|].
    set (take := Nat.max _ 1). fold (sel files take (pc_task_bytes cfg)).
    set (S0 := sel files take (pc_task_bytes cfg)).
    set (ov := match level_of _ (l + 1) with Some next => _ | None => [] end).
    intros H. assert (HS : S0 <> []) by (apply sel_nonempty; auto; unfold take; lia).
    rewrite nonempty_match in H by exact HS. inversion H; subst tk; clear H. cbn [tk_source].
    assert (OV : forall f, In f ov -> In f (nth (S l) ls [])).
    { intros f Hf. unfold ov in Hf. destruct (level_of _ (l + 1)) as [next|] eqn:EN2; [|destruct Hf].
      apply level_of_nth in EN2 as [EN2 _]. replace (l + 1) with (S l) in EN2 by lia. rewrite EN2.
      destruct (aggregate_key_range estats S0) as [[lo hi]|]; [|destruct Hf]. apply filter_In in Hf. tauto. }
    split; auto. exists S0, ov. constructor; cbn [tk_source tk_target tk_input tk_range].
    - now replace (l + 1) with (S l) by lia.
    - lia.
    - intros f Hf. rewrite EL. eapply sel_In. exact Hf.
    - exact OV.
    - exact HS.
    - assert (length S0 <= take) by (apply sel_length). unfold take in *. destruct l; lia.
    - intros c Hc. unfold S0. rewrite Hc. apply sel_bytes; auto. unfold take. lia.
    - intros N1 N2. replace (l + 1) with (S l) by lia. apply NoDup_two; [lia| |].
      + apply sel_NoDup. now rewrite <- EL.
      + unfold ov. destruct (level_of _ (l + 1)) as [next|] eqn:EN2; [|constructor].
        apply level_of_nth in EN2 as [EN2 _]. replace (l + 1) with (S l) in EN2 by lia. rewrite EN2 in N2.
        destruct (aggregate_key_range estats S0) as [[lo hi]|]; [|constructor].
        clear - N2. induction next as [|x b IH]; simpl in *; auto. inversion N2; subst. destruct (overlaps_range estats lo hi x); simpl; auto.
        constructor; auto. intros F. apply H1. apply in_map_iff in F as (y & E1 & E2). apply filter_In in E2 as [E2 _].
        rewrite <- E1. now apply in_map.
    - split; [rewrite EL; exact EN|]. destruct l as [|l']; [lia|]. exists limit. split; auto. rewrite EL.
      apply andb_false_iff in EC as [EC|EC].
      + apply Nat.leb_gt in EC. auto.
      + apply negb_false_iff in EC. right. destruct (nth_error (pc_max_bytes cfg) (S l' - 1)) as [[c|]|]; [|discriminate|discriminate].
        exists c. split; auto. now apply Nat.leb_le.
    - lia.
    - intros _ HT f g a z b c d e Hf Hg Ef Eg L1 L2.
      assert (Hne : nth (S l) ls [] <> []) by (intros F; rewrite F in Hg; destruct Hg).
      assert (HL : level_of (snapshot_from 0 ls) (l + 1) = Some (nth (S l) ls [])).
      { apply level_of_nth. replace (l + 1) with (S l) by lia. auto. }
      unfold ov. rewrite HL. unfold aggregate_key_range.
      destruct (agg_total S0 HT None None) as (rn & rx & EA). rewrite EA.
      destruct (agg_bounds S0 None None rn rx EA) as (_ & _ & B3).
      destruct (B3 f a z b Hf Ef) as [(lo & -> & L3) (hi & -> & L4)].
      apply filter_In. split; auto. unfold overlaps_range. rewrite Eg. apply andb_true_intro. split; apply kleb_true; eapply kle_trans; eauto.
    - intros lo hi f a z b HR Hf Ef. destruct ov as [|o ov'].
      + rewrite app_nil_r in Hf. exact (range_covers _ _ _ _ _ _ _ HR Hf Ef).
      + exact (range_covers _ _ _ _ _ _ _ HR Hf Ef).
  Qed.

  Lemma plan_leveled_good cfg ls ml : forall todo, (forall l b, In (l, b) todo -> nth l ls [] = b /\ b <> []) -> 1 <= ml ->
    match plan_leveled eid estats cfg (snapshot_from 0 ls) todo ml with
    | Some tk => ml <= tk_source tk /\ exists srcs nexts, good_task cfg ls tk srcs nexts
    | None => forall l b, In (l, b) todo -> ml <= l -> ~ over cfg ls l
    end.
  Proof.
    induction todo as [|[l b] todo IH]; intros HT HM; simpl.
    - intros l b [].
    - assert (IH' := IH (fun l b H => HT l b (or_intror H)) HM).
      destruct (HT l b (or_introl eq_refl)) as [EL EN].
      destruct (Nat.leb_spec ml l) as [HL|HL].
      + destruct (plan_level eid estats cfg (snapshot_from 0 ls) l b) as [tk|] eqn:EP.
        * destruct (plan_level_good cfg ls l b tk ltac:(lia) EL EN EP) as [<- HG]. auto.
        * destruct (plan_leveled _ _ _ _ _ _); auto. intros l' b' [H|H] Hl; [|now apply (IH' l' b')].
          inversion H; subst l' b'. intros [_ HO]. destruct l as [|l']; [lia|].
          destruct HO as (limit & T1 & T2). unfold plan_level in EP. rewrite T1 in EP. rewrite EL in T2.
          assert (HF : (Nat.leb (length b) limit && negb match nth_error (pc_max_bytes cfg) (S l' - 1) with
                    | Some (Some c) => Nat.leb c (total_bytes estats b) | _ => false end)%bool = false).
          { apply andb_false_iff. destruct T2 as [T2|(c & T2 & T3)]; [left; now apply Nat.leb_gt|right].
            rewrite T2. apply negb_false_iff. now apply Nat.leb_le. }
          rewrite HF in EP. fold (sel b (Nat.max (Nat.min (pc_max_inputs cfg) (length b)) 1) (pc_task_bytes cfg)) in EP.
          assert (HS : sel b (Nat.max (Nat.min (pc_max_inputs cfg) (length b)) 1) (pc_task_bytes cfg) <> []) by (apply sel_nonempty; auto; lia).
          destruct (sel b _ _); [congruence|discriminate].
      + destruct (plan_leveled _ _ _ _ _ _); auto. intros l' b' [H|H] Hl; [|now apply (IH' l' b')].
        inversion H; subst. lia.
  Qed.

  Lemma plan_good cfg ls ml :
    match plan_version cfg ls ml with
    | Some tk => ml <= tk_source tk /\ exists srcs nexts, good_task cfg ls tk srcs nexts
    | None => forall l, ml <= l -> ~ over cfg ls l
    end.
  Proof.
    assert (SN : forall l b, In (l, b) (snapshot_from 0 ls) -> nth l ls [] = b /\ b <> []).
    { intros l b H. apply snapshot_In in H as (_ & H & HN). rewrite Nat.sub_0_r in H. auto. }
    assert (OV : forall l, over cfg ls l -> exists b, In (l, b) (snapshot_from 0 ls)).
    { intros l [HN _]. exists (nth l ls []). apply (snapshot_has ls 0); auto. }
    assert (LV : forall m, 1 <= m -> match plan_leveled_from eid estats cfg (snapshot_from 0 ls) m with
       | Some tk => m <= tk_source tk /\ exists srcs nexts, good_task cfg ls tk srcs nexts
       | None => forall l, m <= l -> ~ over cfg ls l end).
    { intros m Hm. unfold plan_leveled_from. replace (Nat.max m 1) with m by lia.
      pose proof (plan_leveled_good cfg ls m _ SN Hm) as X. destruct (plan_leveled _ _ _ _ _ _); auto.
      intros l Hl HO. destruct (OV l HO) as [b Hb]. eapply X; eauto. }
    unfold Planner.plan_version. destruct (snapshot_from 0 ls) as [|p sn] eqn:ES.
    { intros l _ HO. destruct (OV l HO) as [b []]. }
    rewrite <- ES in *. unfold plan_with_min_level. destruct (Nat.eqb_spec ml 0) as [->|NE]; [|apply LV; lia].
    unfold plan. destruct (plan_l0 eid estats cfg (snapshot_from 0 ls)) as [tk|] eqn:E0.
    - split; [lia|]. apply plan_l0_good in E0 as [srcs HG]. eauto.
    - specialize (LV 1 (le_n 1)). destruct (plan_leveled_from eid estats cfg (snapshot_from 0 ls) 1).
      + destruct LV as [L1 L2]. split; [lia|auto].
      + intros l _ HO. destruct l as [|l]; [|apply (LV (S l)); auto; lia].
        destruct HO as [HN HO]. unfold plan_l0 in E0.
        rewrite (proj2 (level_of_nth ls 0 (nth 0 ls [])) (conj eq_refl HN)) in E0.
        assert (HF : (Nat.ltb (length (nth 0 ls [])) (pc_l0_trigger cfg) && negb match pc_l0_max_bytes cfg with
                  | Some c => Nat.leb c (total_bytes estats (nth 0 ls [])) | None => false end)%bool = false).
        { apply andb_false_iff. destruct HO as [HO|(c & -> & HO)]; [left; now apply Nat.ltb_ge|right].
          apply negb_false_iff. now apply Nat.leb_le. }
        rewrite HF in E0. discriminate.
  Qed.
End PlannerFacts.
