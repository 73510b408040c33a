(** The version listing describes the live tables of each version. *)
From Coq Require Import List NArith Bool Sorted Permutation Lia Arith.
From Verif Require Import Base.Order Model.SsTable Model.Version Model.Sessions Model.Manifest Model.Listing Spec.ManifestSpec
     Spec.LiveSet Spec.ListingSpec Proof.SstFacts Proof.VersionFacts Proof.LiveFacts Proof.SessionFacts Proof.ManifestFacts.
Import ListNotations.
Local Open Scope N_scope.

Lemma sat_sum l : forall a, a <= max64 -> fold_left add_bytes l a = N.min max64 (a + sum l).
Proof.
  induction l as [|b l IH]; intros a H; cbn [fold_left sum fold_right]; [rewrite N.add_0_r; lia|].
  rewrite IH by (unfold add_bytes; lia). change (fold_right N.add 0 l) with (sum l). unfold add_bytes. lia.
Qed.
Lemma sum_app a b : sum (a ++ b) = sum a + sum b.
Proof. induction a as [|x a IH]; cbn [app sum fold_right]; [reflexivity|]. change (x + sum (a ++ b) = x + sum a + sum b). lia. Qed.
Lemma sum_cons x l : sum (x :: l) = x + sum l.
Proof. reflexivity. Qed.
Lemma sum_perm a b : Permutation a b -> sum a = sum b.
Proof. unfold sum. induction 1; cbn [fold_right]; lia. Qed.

Section ListingFacts.
  Context {E : Type}.
  Variable eid : E -> N.
  Variable ebytes : E -> option N.
  Notation shows := (shows eid).
  Notation describes := (describes eid ebytes).
  Notation sizes := (sizes ebytes).

  (** The tables of the levels, with their level. *)
  Fixpoint tagged (n : nat) (ls : list (list E)) : list (nat * E) :=
    match ls with [] => [] | b :: r => map (pair n) b ++ tagged (S n) r end.
  Fixpoint used (n : nat) (ls : list (list E)) : list nat :=
    match ls with [] => [] | b :: r => match b with [] => used (S n) r | _ => n :: used (S n) r end end.

  Lemma tagged_In ls : forall n l e, In (l, e) (tagged n ls) <-> exists k, l = (n + k)%nat /\ In e (nth k ls []).
  Proof.
    induction ls as [|b r IH]; intros n l e; cbn [tagged].
    - split; [intros []|]. intros (k & _ & H). destruct k; destruct H.
    - rewrite in_app_iff, in_map_iff, IH. split.
      + intros [(x & H & I)|(k & -> & I)].
        * inversion H; subst. exists 0%nat. split; [lia|exact I].
        * exists (S k). split; [lia|exact I].
      + intros ([|k] & -> & I).
        * left. exists e. split; [f_equal; lia|exact I].
        * right. exists k. split; [lia|exact I].
  Qed.
  Lemma used_In ls : forall n l, In l (used n ls) <-> exists k e, l = (n + k)%nat /\ In e (nth k ls []).
  Proof.
    induction ls as [|b r IH]; intros n l; cbn [used].
    - split; [intros []|]. intros (k & e & _ & H). destruct k; destruct H.
    - assert (G : In l (used (S n) r) <-> exists k e, l = (n + S k)%nat /\ In e (nth k r [])).
      { rewrite IH. split; intros (k & e & H & I); exists k, e; split; auto; lia. }
      destruct b as [|x b].
      + rewrite G. split.
        * intros (k & e & H & I). exists (S k), e. auto.
        * intros ([|k] & e & H & I); [destruct I|]. exists k, e. auto.
      + cbn [In]. rewrite G. split.
        * intros [<-|(k & e & H & I)]; [exists 0%nat, x; split; [lia|cbn; auto]|exists (S k), e; auto].
        * intros ([|k] & e & H & I); [left; lia|right]. exists k, e. auto.
  Qed.
  Lemma NoDup_app_disjoint {A} (a b : list A) : NoDup a -> NoDup b -> (forall x, In x a -> In x b -> False) -> NoDup (a ++ b).
  Proof.
    induction a as [|x a IH]; intros HA HB D; cbn; auto. inversion HA; subst. constructor.
    - rewrite in_app_iff. intros [H|H]; [auto|]. apply (D x); cbn; auto.
    - apply IH; auto. intros y Hy. apply D. cbn; auto.
  Qed.
  Lemma tagged_NoDup ls : forall n, (forall k, NoDup (map eid (nth k ls []))) -> NoDup (tagged n ls).
  Proof.
    induction ls as [|b r IH]; intros n H; cbn [tagged]; [constructor|]. apply NoDup_app_disjoint.
    - apply FinFun.Injective_map_NoDup; [intros x y F; congruence|]. exact (NoDup_map_inv eid _ (H 0%nat)).
    - apply IH. intros k. exact (H (S k)).
    - intros [l e] H1 H2. apply in_map_iff in H1 as (x & H1 & _). inversion H1; subst. apply tagged_In in H2 as (k & F & _). lia.
  Qed.
  Lemma used_NoDup ls : forall n, NoDup (used n ls).
  Proof.
    induction ls as [|b r IH]; intros n; cbn [used]; [constructor|]. destruct b; auto. constructor; auto.
    intros F. apply used_In in F as (k & e' & F & _). lia.
  Qed.
  Lemma tagged_length ls : forall n a, fold_left (fun m (level : list E) => (m + length level)%nat) ls a = (a + length (tagged n ls))%nat.
  Proof.
    induction ls as [|b r IH]; intros n a; cbn [tagged fold_left]; [cbn; lia|]. rewrite (IH (S n)), app_length, map_length. lia.
  Qed.
  Lemma used_length ls : forall n, length (filter (fun level : list E => negb (match level with [] => true | _ => false end)) ls) = length (used n ls).
  Proof. induction ls as [|b r IH]; intros n; cbn [used filter]; auto. destruct b; cbn; rewrite (IH (S n)); reflexivity. Qed.
  Lemma tagged_size ls : forall n, sum (flat_map (with_bytes ebytes) (concat ls)) = sizes (tagged n ls).
  Proof.
    induction ls as [|b r IH]; intros n; cbn [tagged concat]; [reflexivity|].
    rewrite flat_map_app, sum_app, (IH (S n)). unfold ListingSpec.sizes. rewrite map_app, sum_app. f_equal.
    rewrite map_map. clear. induction b as [|e b IH]; cbn [flat_map map snd]; [reflexivity|].
    rewrite sum_app, IH, sum_cons. unfold with_bytes, size. cbn [snd]. destruct (ebytes e) as [x|]; [rewrite sum_cons|]; cbn [sum fold_right]; lia.
  Qed.

  Lemma report_describes v s : shows (v_levels v) s -> describes s (report_of ebytes v).
  Proof.
    intros (A & B & C). exists (tagged 0 (v_levels v)), (used 0 (v_levels v)).
    split; [now apply tagged_NoDup|]. split.
    { intros l e. rewrite tagged_In, <- A. cbn. split; [intros (k & -> & H)|]; eauto. }
    split; [apply used_NoDup|]. split.
    { intros l. rewrite used_In. cbn. split.
      - intros (k & e & -> & H). exists e. now apply A.
      - intros (e & H). exists l, e. split; auto. now apply A. }
    unfold report_of. cbn [rp_ssts rp_bytes rp_levels]. split; [|split].
    - exact (tagged_length (v_levels v) 0 0).
    - rewrite sat_sum by (unfold max64; lia). rewrite (tagged_size _ 0), N.add_0_l. reflexivity.
    - apply used_length.
  Qed.

  (** *** Versions and accepted publishes *)
  Notation mstep := (mstep vkey_eqb (vexec eid)).
  Notation mrun := (mrun vkey_eqb (vexec eid)).
  Notation accepted := (accepted eid).
  Notation live_after := (live_after eid).
  Lemma accepted_snoc t es e : forall s, accepted t s (es ++ [e]) = accepted t s es ++
    match snd (mstep (mrun s es) e) with
    | Some (RPublish t' eds _, Returned (MOk (Some ts))) => if N.eqb t' t then [(ts, eds)] else []
    | _ => []
    end.
  Proof.
    induction es as [|x es IH]; intros s; cbn [app ListingSpec.accepted Sessions.mrun]; [now rewrite app_nil_r|].
    rewrite IH. now rewrite <- app_assoc.
  Qed.

  Lemma latest_newest es t b : N.of_nat (length es) < top -> let s := mrun mstart es in latest s t b ->
    match b with
    | None => forall ts v, ~ loads s t ts v
    | Some u => loads s t (v_ts u) u /\ forall ts v, loads s t ts v -> ts <= v_ts u
    end.
  Proof.
    intros HB s (h & HL & HT). destruct (here eid es HB) as [HI _]. fold s in HI.
    assert (EH : get_head t (m_kv s) = MOk (Some h)).
    { unfold snapshot_latest in HL. destruct (get_head t (m_kv s)) as [[h0|]|]; try discriminate.
      destruct (h_txn h0); [destruct (get_ver _ _ _)|]; inversion HL; subst; reflexivity. }
    unfold get_head in EH. destruct (kget vkey_eqb (KHead t) (m_kv s)) as [[h1| |]|] eqn:EG; inversion EH; subst h1.
    destruct (latest_some s _ t h HI EG) as (b' & L1 & L2 & L3). rewrite HL in L1. inversion L1; subst b'.
    destruct b as [u|]; cbn in HT.
    - split; [now apply (loads_iff s _ _ _ _ HI)|]. intros ts v HV. apply (loads_iff s _ _ _ _ HI) in HV.
      destruct (vi_ver _ _ HI _ _ _ HV) as (u' & h' & last & _ & _ & _ & E3 & E4 & E5). rewrite EG in E3. inversion E3; subst h'. rewrite HT in E4. inversion E4; subst. exact E5.
    - intros ts v HV. apply (loads_iff s _ _ _ _ HI) in HV.
      destruct (vi_ver _ _ HI _ _ _ HV) as (u' & h' & last & _ & _ & _ & E3 & E4 & E5). rewrite EG in E3. inversion E3; subst h'. congruence.
  Qed.

  Definition tracks (s : mstore vkey (vval E) (vreq E) (mres (option N))) (t : N) (a : list (N * list (edit E))) (vs : list (vstate E)) : Prop :=
    length vs = length a /\ StronglySorted (fun u v => v_ts u < v_ts v) vs /\
    (forall ts v, loads s t ts v <-> In v vs /\ v_ts v = ts) /\
    forall k v, nth_error vs k = Some v -> exists eds, nth_error a k = Some (v_ts v, eds) /\ shows (v_levels v) (live_after a (S k)).

  Lemma SS_snoc (vs : list (vstate E)) v : StronglySorted (fun u v => v_ts u < v_ts v) vs -> (forall u, In u vs -> v_ts u < v_ts v) ->
    StronglySorted (fun u v => v_ts u < v_ts v) (vs ++ [v]).
  Proof.
    induction vs as [|u vs IH]; intros H G; cbn; [repeat constructor|]. inversion H; subst. constructor.
    - apply IH; auto. intros x Hx. apply G. cbn; auto.
    - apply Forall_app. split; auto. repeat constructor. apply G. cbn; auto.
  Qed.
  Lemma SS_last (vs : list (vstate E)) u : StronglySorted (fun u v => v_ts u < v_ts v) (vs ++ [u]) -> forall v, In v (vs ++ [u]) -> v_ts v <= v_ts u.
  Proof.
    induction vs as [|x vs IH]; cbn; intros H v.
    - intros [<-|[]]. lia.
    - inversion H; subst. intros [<-|I]; [|now apply IH]. rewrite Forall_forall in H3. specialize (H3 u). cbn in H3. assert (v_ts x < v_ts u) by (apply H3, in_or_app; cbn; auto). lia.
  Qed.

  Lemma tracks_run t es : N.of_nat (length es) < top -> exists vs, tracks (mrun mstart es) t (accepted t mstart es) vs.
  Proof.
    induction es as [|e es IH] using rev_ind; intros HB.
    - exists []. split; [reflexivity|]. split; [constructor|]. split.
      + intros ts v. split; [|intros [[] _]]. intros (h & H). discriminate.
      + intros k v H. destruct k; discriminate.
    - rewrite app_length, Nat2N.inj_add in HB. cbn [length] in HB. assert (HB' : N.of_nat (length es) < top) by lia.
      destruct (IH HB') as (vs & T1 & T2 & T3 & T4). clear IH. rewrite accepted_snoc, (mrun_app vkey_eqb (vexec eid)). cbn [Sessions.mrun].
      set (s := mrun mstart es) in *. set (a := accepted t mstart es) in *.
      destruct (snd (mstep s e)) as [[q r]|] eqn:ER; [|idtac].
      + assert (CASE : (exists eds x ts, published (snd (mstep s e)) t eds x ts) \/
          match q, r with RPublish t' eds _, Returned (MOk (Some ts)) => if N.eqb t' t then [(ts, eds)] else [] | _, _ => [] end = [] /\
          forall eds x ts, ~ published (snd (mstep s e)) t eds x ts).
        { destruct q as [t' eds x|t' sv]; [|right; split; [reflexivity|intros ? ? ? F; unfold published in F; rewrite ER in F; discriminate]].
          destruct r as [[[ts|]|er]|]; try (right; split; [reflexivity|intros ? ? ? F; unfold published in F; rewrite ER in F; discriminate]).
          destruct (N.eqb_spec t' t) as [->|NE]; [left; exists eds, x, ts; exact ER|right; split; [reflexivity|]].
          intros ? ? ? F. unfold published in F. rewrite ER in F. inversion F. congruence. }
        destruct CASE as [(eds & x & ts & HP)|[-> HN]].
        * pose proof HP as HP'. unfold published in HP'. rewrite ER in HP'. inversion HP'; subst q r. rewrite N.eqb_refl.
          destruct (c25_publish eid es HB' e t eds x ts HP) as (P1 & base & v & P2 & P3 & P4 & P5). fold s in P1, P2, P3, P4, P5.
          pose proof (latest_newest es t base HB' P2) as LN. fold s in LN.
          assert (SB : shows (v_levels (match base with Some u => u | None => vstate_empty end)) (live_after a (length a))).
          { destruct vs as [|v1 vs0] using rev_ind.
            - destruct a; [|discriminate T1]. destruct base as [u|]; [destruct LN as [LN _]; apply T3 in LN as [[] _]|].
              split; [|split]; cbn; try discriminate; intros l; [intros e0; split; [destruct l; intros []|discriminate]|destruct l; constructor].
            - clear IHvs0. assert (LV : loads s t (v_ts v1) v1) by (apply T3; split; auto; apply in_or_app; cbn; auto).
              destruct base as [u|]; [|destruct (LN _ _ LV)]. destruct LN as [L1 L2]. apply T3 in L1 as [L1 _].
              assert (u = v1) as ->.
              { pose proof (SS_last _ _ T2 u L1) as LE. specialize (L2 _ _ LV). clear - T2 L1 LE L2. assert (EQ : v_ts u = v_ts v1) by lia.
                induction vs0 as [|y vs0 IH]; cbn in *; [destruct L1 as [<-|[]]; auto|]. inversion T2; subst. destruct L1 as [<-|L1]; [|auto].
                rewrite Forall_forall in H2. specialize (H2 v1). assert (v_ts y < v_ts v1) by (apply H2, in_or_app; cbn; auto). lia. }
              rewrite app_length in T1. cbn in T1. destruct (T4 (length vs0) v1) as (eds1 & E1 & E2).
              { rewrite nth_error_app2, Nat.sub_diag; auto. }
              replace (length a) with (S (length vs0)) by lia. exact E2. }
          pose proof (apply_edits_shows eid _ _ eds SB) as SA. rewrite P3 in SA.
          assert (LA : live_after (a ++ [(ts, eds)]) (S (length a)) = live_edits eid (live_after a (length a)) eds).
          { unfold ListingSpec.live_after. replace (S (length a)) with (length (a ++ [(ts, eds)])) by (rewrite app_length; cbn; lia).
            rewrite !firstn_all, map_app, concat_app. cbn. rewrite app_nil_r. unfold live_edits. apply fold_left_app. }
          exists (vs ++ [set_ts ts v]). split; [rewrite !app_length; cbn; lia|]. split.
          { apply SS_snoc; auto. intros u Hu. cbn. apply (P1 (v_ts u) u). apply T3. auto. }
          split.
          { intros ts' u. rewrite in_app_iff. cbn [In]. split.
            - intros L. destruct (N.eq_dec ts' ts) as [->|NE].
              + destruct (here eid (es ++ [e])) as [HI _]; [rewrite app_length, Nat2N.inj_add; cbn [length]; lia|].
                rewrite (mrun_app vkey_eqb (vexec eid)) in HI. cbn [Sessions.mrun] in HI. fold s in HI.
                apply (loads_iff _ _ _ _ _ HI) in L. apply (loads_iff _ _ _ _ _ HI) in P4. rewrite P4 in L. inversion L; subst. cbn. auto.
              + destruct (c25_only_publish eid es HB' e t ts' u L) as [L1|(eds' & x' & L1)].
                * apply T3 in L1 as [L1 L2]. auto.
                * unfold published in L1. fold s in L1. rewrite ER in L1. inversion L1. congruence.
            - intros [[I|[<-|[]]] ET].
              + apply (c25_immutable eid es HB' e). fold s. apply T3. auto.
              + cbn in ET. subst ts'. exact P4. }
          intros k u HK. destruct (lt_eq_lt_dec k (length vs)) as [[LT|EQ]|GT].
          { rewrite nth_error_app1 in HK by lia. destruct (T4 _ _ HK) as (eds' & E1 & E2). exists eds'. split; [rewrite nth_error_app1; auto; lia|].
            unfold ListingSpec.live_after in *. rewrite firstn_app. replace (S k - length a)%nat with 0%nat by lia. cbn [firstn]. now rewrite app_nil_r. }
          { subst k. rewrite nth_error_app2, Nat.sub_diag in HK by lia. cbn in HK. inversion HK; subst u. exists eds. split.
            - rewrite T1, nth_error_app2, Nat.sub_diag by lia. reflexivity.
            - rewrite T1, LA. exact SA. }
          { rewrite nth_error_app2 in HK by lia. destruct (k - length vs)%nat as [|m] eqn:EM; [lia|]. destruct m; discriminate. }
        * rewrite app_nil_r. exists vs. split; auto. split; auto. split; auto. intros ts v. rewrite <- T3. split.
          { intros L. destruct (c25_only_publish eid es HB' e t ts v L) as [L1|(eds' & x' & L1)]; [exact L1|]. destruct (HN _ _ _ L1). }
          { intros L. apply (c25_immutable eid es HB' e). exact L. }
      + rewrite app_nil_r. exists vs. split; auto. split; auto. split; auto. intros ts v. rewrite <- T3. split.
        { intros L. destruct (c25_only_publish eid es HB' e t ts v L) as [L1|(eds' & x' & L1)]; [exact L1|]. unfold published in L1. fold s in L1. congruence. }
        { intros L. apply (c25_immutable eid es HB' e). exact L. }
  Qed.

  Lemma sorted_unique (a : list (vstate E)) : forall b, StronglySorted (fun u v => v_ts u < v_ts v) a -> StronglySorted (fun u v => v_ts u < v_ts v) b ->
    (forall v, In v a <-> In v b) -> a = b.
  Proof.
    induction a as [|x a IH]; intros [|y b] SA SB H; auto.
    - destruct (proj2 (H y)); cbn; auto.
    - destruct (proj1 (H x)); cbn; auto.
    - inversion SA; subst. inversion SB; subst. rewrite Forall_forall in *.
      assert (x = y) as ->.
      { destruct (proj1 (H x)) as [|I]; [cbn; auto|auto|]. destruct (proj2 (H y)) as [|J]; [cbn; auto|auto|].
        specialize (H5 _ I). specialize (H3 _ J). lia. }
      f_equal. apply IH; auto. intros v. split; intros I.
      + destruct (proj1 (H v)) as [<-|J]; [cbn; auto| |exact J]. specialize (H3 _ I). lia.
      + destruct (proj2 (H v)) as [<-|J]; [cbn; auto| |exact J]. specialize (H5 _ I). lia.
  Qed.
  Lemma SS_rev (l : list (vstate E)) : StronglySorted (fun u v => v_ts v < v_ts u) l -> StronglySorted (fun u v => v_ts u < v_ts v) (rev l).
  Proof.
    induction 1 as [|x l SL IH HF]; cbn; [constructor|]. apply SS_snoc; auto. intros u Hu. apply in_rev in Hu. rewrite Forall_forall in HF. auto.
  Qed.

  Lemma c83_listing es t : N.of_nat (length es) < 2 ^ 64 - 1 ->
    let kv := m_kv (mrun mstart es) in let a := accepted t mstart es in
    exists l, db_list_versions ebytes t 0 kv = MOk l /\ map rp_ts l = rev (map fst a) /\
      (forall k r, nth_error (rev l) k = Some r -> describes (live_after a (S k)) r) /\
      forall n, (0 < n)%nat -> db_list_versions ebytes t n kv = MOk (firstn n l).
  Proof.
    intros HB kv a. destruct (c25_listing eid es t HB) as (l & L1 & L2 & L3 & L4 & L5). destruct (tracks_run t es HB) as (vs & T1 & T2 & T3 & T4).
    assert (EV : vs = rev l).
    { apply sorted_unique; auto; [now apply SS_rev|]. intros v. rewrite <- in_rev, L3, T3. tauto. }
    subst vs. exists (map (report_of ebytes) l). unfold db_list_versions. fold kv in L1, L5. rewrite L1. split; auto. split; [|split].
    - rewrite map_map. cbn. rewrite <- (rev_involutive (map _ l)), <- map_rev. f_equal. fold a in T1, T4. clear - T1 T4.
      apply (nth_ext _ _ 0 0); [rewrite !map_length; exact T1|]. rewrite map_length. intros k Hk.
      destruct (nth_error (rev l) k) as [v|] eqn:EN; [|apply nth_error_None in EN; lia]. destruct (T4 _ _ EN) as (eds & E1 & _).
      rewrite (nth_error_nth (map _ (rev l)) k 0 (map_nth_error _ _ _ EN)). now rewrite (nth_error_nth (map fst a) k 0 (map_nth_error fst _ _ E1)).
    - intros k r HK. rewrite <- map_rev in HK. destruct (nth_error (rev l) k) as [v|] eqn:EN.
      + rewrite (map_nth_error _ _ _ EN) in HK. inversion HK; subst. destruct (T4 _ _ EN) as (eds & _ & E2). now apply report_describes.
      + apply nth_error_None in EN. assert (F : nth_error (map (report_of ebytes) (rev l)) k = None) by (apply nth_error_None; rewrite map_length; exact EN). congruence.
    - intros n Hn. rewrite (L5 n Hn). now rewrite firstn_map.
  Qed.

  (** *** From one line to the next *)
  Lemma sizes_perm a b : Permutation a b -> sizes a = sizes b.
  Proof. intros H. apply sum_perm, Permutation_map, H. Qed.
  Lemma sizes_app a b : sizes (a ++ b) = sizes a + sizes b.
  Proof. unfold ListingSpec.sizes. now rewrite map_app, sum_app. Qed.

  Lemma describes_moves s s' gone new r r' : moves eid s s' gone new -> describes s r -> describes s' r' ->
    (rp_ssts r' + length gone = rp_ssts r + length new)%nat /\
    (rp_bytes r + sizes new < 2 ^ 64 - 1 -> rp_bytes r' + sizes gone = rp_bytes r + sizes new).
  Proof.
    intros (M1 & M2 & M3 & M4 & M5) (tb & lv & A1 & A2 & _ & _ & A3 & A4 & _) (tb' & lv' & B1 & B2 & _ & _ & B3 & B4 & _).
    assert (P : Permutation (tb' ++ gone) (tb ++ new)).
    { apply NoDup_Permutation.
      - apply NoDup_app_disjoint; auto. intros [l e] I J. apply B2, M5 in I. specialize (M3 _ _ J). destruct I as [I|[_ I]]; [exact (M4 _ _ I M3)|exact (I J)].
      - apply NoDup_app_disjoint; auto. intros [l e] I J. apply A2 in I. exact (M4 _ _ J I).
      - intros [l e]. rewrite !in_app_iff, B2, M5, A2. split.
        + intros [[H|[H _]]|H]; auto.
        + intros [H|H]; auto.
          (* membership in [gone] is decided through [tb'] and the finite lists *)
          destruct (in_dec (fun p q : nat * N => ltac:(decide equality; [apply N.eq_dec|apply Nat.eq_dec])) (l, eid e) (map (fun p => (fst p, eid (snd p))) gone)) as [D|D].
          * apply in_map_iff in D as ([l' e'] & D1 & D2). cbn in D1. inversion D1; subst l'. pose proof (M3 _ _ D2) as G. rewrite H2, H in G. inversion G; subst. auto.
          * left. right. split; auto. intros F. apply D. apply in_map_iff. exists (l, e). auto. }
    split.
    - rewrite A3, B3. apply Permutation_length in P. rewrite !app_length in P. exact P.
    - apply sizes_perm in P. rewrite !sizes_app in P. rewrite A4, B4. change (2 ^ 64 - 1) with 18446744073709551615. lia.
  Qed.
  Lemma c83_change es t : N.of_nat (length es) < 2 ^ 64 - 1 ->
    let a := accepted t mstart es in
    forall l k r r' gone new, db_list_versions ebytes t 0 (m_kv (mrun mstart es)) = MOk l ->
      nth_error (rev l) k = Some r -> nth_error (rev l) (S k) = Some r' ->
      moves eid (live_after a (S k)) (live_after a (S (S k))) gone new ->
      (rp_ssts r' + length gone = rp_ssts r + length new)%nat /\
      (rp_bytes r + sizes new < 2 ^ 64 - 1 -> rp_bytes r' + sizes gone = rp_bytes r + sizes new).
  Proof.
    intros HB a l k r r' gone new HL H1 H2 HM. destruct (c83_listing es t HB) as (l0 & L1 & _ & L3 & _). rewrite HL in L1. inversion L1; subst l0.
    exact (describes_moves _ _ _ _ _ _ HM (L3 _ _ H1) (L3 _ _ H2)).
  Qed.
End ListingFacts.
