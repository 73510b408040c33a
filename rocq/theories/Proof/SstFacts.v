(** A flush writes exactly the versions of the flushed segments, in order, and an
    SSTable scan returns the newest visible version of each key. *)
From Coq Require Import List NArith Bool Sorted Permutation Lia Arith.
From Verif Require Import Base.Order Model.OMap Model.KeyTs Model.MemTable Model.Immutable
     Model.SsTable Spec.Mvcc Proof.OMapFacts Proof.MemFacts Proof.ViewFacts.
Import ListNotations.

Section SortFacts.
  Context {A : Type}.
  Variable le : A -> A -> bool.
  Variable P : A -> A -> Prop.
  Hypothesis le_P : forall a b, le a b = true -> P a b.
  Hypothesis nle_P : forall a b, le a b = false -> P b a.
  Hypothesis P_trans : forall a b c, P a b -> P b c -> P a c.

  Lemma sort_insert_perm a l : Permutation (a :: l) (sort_insert le a l).
  Proof.
    induction l as [|b r IH]; simpl; auto.
    destruct (le a b); auto. etransitivity; [apply perm_swap|]. now constructor.
  Qed.
  Lemma sort_by_perm l : Permutation l (sort_by le l).
  Proof.
    induction l as [|a r IH]; simpl; auto.
    etransitivity; [|apply sort_insert_perm]. now constructor.
  Qed.
  Lemma sort_insert_sorted a l : StronglySorted P l -> StronglySorted P (sort_insert le a l).
  Proof.
    induction 1 as [|b r H IH HF]; simpl.
    - repeat constructor.
    - rewrite Forall_forall in HF. destruct (le a b) eqn:E.
      + constructor; [constructor; auto; rewrite Forall_forall; auto|].
        constructor; auto. rewrite Forall_forall. intros x Hx. eapply P_trans; eauto.
      + constructor; auto. rewrite Forall_forall. intros x Hx.
        eapply Permutation_in in Hx; [|apply Permutation_sym, sort_insert_perm].
        destruct Hx as [<-|Hx]; auto.
  Qed.
  Lemma sort_by_sorted l : StronglySorted P (sort_by le l).
  Proof. induction l; simpl; [constructor|]. now apply sort_insert_sorted. Qed.
End SortFacts.

Section SstFacts.
  Context {K : Type} {KO : KeyOrd K} {R : Type}.
  Variable key_of : R -> option K.
  Notation vers := ((K * N) * option R)%type.

  Definition drow (e : (K * N) * R) : R * N := (snd e, snd (fst e)).
  Definition dkeyed (D : list ((K * N) * R)) : Prop :=
    Forall (fun e => key_of (snd e) = Some (fst (fst e))) D.

  (** An SSTable whose data file holds [D] and whose sidecar holds [X], both in (key
      ascending, timestamp descending) order. *)
  Definition sst_repr (t : sst K R) (D : list ((K * N) * R)) (X : list (K * N)) : Prop :=
    t_rows t = map drow D /\ dkeyed D /\ t_dels t = X /\
    StronglySorted (fun a b => kcmp (fst a) (fst b) <> Gt) D /\
    StronglySorted (fun a b : K * N => kcmp a b <> Gt) X.

  Definition sst_vers (D : list ((K * N) * R)) (X : list (K * N)) : list vers :=
    map (fun e => (fst e, Some (snd e))) D ++ map (fun x => (x, None)) X.

  (** *** Sorting keys *)
  Lemma sk_le_kts {B} (a b : @sort_key K B) :
    sk_le a b = true -> kcmp (sk_key a, sk_ts a) (sk_key b, sk_ts b) <> Gt.
  Proof.
    unfold sk_le, sk_cmp. simpl. unfold kts_cmp. simpl.
    destruct (kcmp (sk_key a) (sk_key b)); try congruence.
    destruct (N.compare (sk_ts b) (sk_ts a)); congruence.
  Qed.
  Lemma sk_nle_kts {B} (a b : @sort_key K B) :
    sk_le a b = false -> kcmp (sk_key b, sk_ts b) (sk_key a, sk_ts a) <> Gt.
  Proof.
    unfold sk_le, sk_cmp. simpl. unfold kts_cmp. simpl.
    rewrite (kcmp_opp (sk_key a) (sk_key b)).
    destruct (kcmp (sk_key a) (sk_key b)); simpl; try congruence.
    rewrite (N.compare_antisym (sk_ts b) (sk_ts a)).
    destruct (N.compare (sk_ts b) (sk_ts a)); simpl; congruence.
  Qed.
  Lemma kts_le_trans (a b c : K * N) :
    kcmp a b <> Gt -> kcmp b c <> Gt -> kcmp a c <> Gt.
  Proof.
    intros H1 H2 H3.
    destruct (kcmp a b) eqn:E1; try congruence; destruct (kcmp b c) eqn:E2; try congruence.
    - pose proof (kcmp_trans _ _ _ _ E1 E2). congruence.
    - rewrite (kcmp_eq_l _ _ _ E1) in H3. congruence.
    - rewrite <- (kcmp_eq_r _ _ _ E2) in H3. congruence.
    - pose proof (kcmp_trans _ _ _ _ E1 E2). congruence.
  Qed.

  Definition sk_ent {B} (f : @sort_key K B -> (K * N)) := f.
  Lemma sort_by_sk_sorted {B} (l : list (@sort_key K B)) :
    StronglySorted (fun a b => kcmp (sk_key a, sk_ts a) (sk_key b, sk_ts b) <> Gt) (sort_by sk_le l).
  Proof.
    apply sort_by_sorted.
    - apply sk_le_kts.
    - apply sk_nle_kts.
    - intros a b c H1 H2. eapply kts_le_trans; eauto.
  Qed.

  Definition updata (A : list vers) : list ((K * N) * R) :=
    flat_map (fun v => match snd v with Some r => [(fst v, r)] | None => [] end) A.

  Lemma updata_drow A : map drow (updata A) = ups A.
  Proof.
    induction A as [|[kt [r|]] A IH]; simpl; auto. unfold drow at 1; simpl. now rewrite IH.
  Qed.
  Lemma updata_keyed A : keyed key_of A -> dkeyed (updata A).
  Proof.
    induction 1 as [|[kt [r|]] A H HF IH]; simpl; auto; constructor; auto.
  Qed.
  Lemma updata_sorted A : osorted A -> StronglySorted (fun a b => kcmp (fst a) (fst b) <> Gt) (updata A).
  Proof.
    induction 1 as [|[kt v] A H IH HF]; simpl; [constructor|].
    destruct v as [r|]; simpl; auto. constructor; auto.
    rewrite Forall_forall in *. intros x Hx. apply in_flat_map in Hx as ([kt' v'] & H1 & H2).
    specialize (HF _ H1). simpl in *. destruct v'; [|destruct H2]. destruct H2 as [<-|[]]. simpl. congruence.
  Qed.
  Lemma dels_sorted (A : list vers) : osorted A -> StronglySorted (fun a b : K * N => kcmp a b <> Gt) (dels A).
  Proof.
    induction 1 as [|[kt v] A H IH HF]; simpl; [constructor|].
    destruct v as [r|]; simpl; auto. constructor; auto.
    rewrite Forall_forall in *. intros x Hx. apply in_flat_map in Hx as ([kt' v'] & H1 & H2).
    specialize (HF _ H1). simpl in *. destruct v'; [destruct H2|]. destruct H2 as [<-|[]]. simpl. congruence.
  Qed.

  Lemma sst_vers_In A v : In v (sst_vers (updata A) (dels A)) <-> In v A.
  Proof.
    unfold sst_vers. rewrite in_app_iff, !in_map_iff. split.
    - intros [(e & <- & H)|(x & <- & H)].
      + apply in_flat_map in H as ([kt w] & H1 & H2). destruct w; [|destruct H2].
        destruct H2 as [<-|[]]. exact H1.
      + apply in_flat_map in H as ([kt w] & H1 & H2). destruct w; [destruct H2|].
        destruct H2 as [<-|[]]. exact H1.
    - intros H. destruct v as [kt [r|]].
      + left. exists (kt, r). split; auto. apply in_flat_map. exists (kt, Some r). simpl; auto.
      + right. exists kt. split; auto. apply in_flat_map. exists (kt, None). simpl; auto.
  Qed.

  Lemma combine_ups (A : list vers) :
    combine (map fst (ups A)) (map fst (map (fun p : R * N => (snd p, false)) (ups A))) = ups A.
  Proof. induction (ups A) as [|[r t] l IH]; simpl; auto. now rewrite IH. Qed.
  Lemma combine_dels (A : list vers) : combine (map fst (dels A)) (map snd (dels A)) = dels A.
  Proof. induction (dels A) as [|[k t] l IH]; simpl; auto. now rewrite IH. Qed.

  Lemma keys_of_rows_repr off D : dkeyed D -> forall i, exists ks,
    keys_of_rows key_of i off (map drow D) = Some ks /\
    map sk_val ks = map drow D /\
    map (fun s => (sk_key s, sk_ts s, fst (sk_val s))) ks = D /\
    Forall (fun s => sk_val s = (fst (sk_val s), sk_ts s)) ks.
  Proof.
    induction 1 as [|[[k t] r] D H HF IH]; intros i; simpl.
    - exists []. repeat split; constructor.
    - destruct (IH (S i)) as (ks & H1 & H2 & H3 & H4). simpl in H. rewrite H, H1.
      eexists. split; [reflexivity|]. simpl. rewrite H2, H3. repeat split; auto.
  Qed.

  Lemma data_sort_keys_repr (Ds : list (list ((K * N) * R))) (Xs : list (list (K * N))) :
    Forall dkeyed Ds -> length Ds = length Xs -> forall off, exists ks,
    data_sort_keys key_of off (combine (map (map drow) Ds) Xs) = Some ks /\
    map (fun s => (sk_key s, sk_ts s, fst (sk_val s))) ks = concat Ds /\
    Forall (fun s => sk_val s = (fst (sk_val s), sk_ts s)) ks.
  Proof.
    intros HD. revert Xs. induction HD as [|D Ds H HF IH]; intros [|X Xs] HL off; simpl in HL; try lia; simpl.
    - exists []. repeat split; constructor.
    - destruct (keys_of_rows_repr off D H 0) as (k1 & A1 & A2 & A3 & A4).
      destruct (IH Xs ltac:(lia) (off + length (map drow D))) as (k2 & B1 & B2 & B3).
      rewrite A1, B1. eexists. split; [reflexivity|].
      rewrite map_app, A3, B2. split; auto. rewrite Forall_app; auto.
  Qed.

  Lemma keys_of_dels_repr off (X : list (K * N)) : forall i,
    map sk_val (keys_of_dels i off X) = X /\
    Forall (fun s : sort_key (K * N) => sk_val s = (sk_key s, sk_ts s)) (keys_of_dels i off X).
  Proof.
    induction X as [|[k t] X IH]; intros i; simpl; auto.
    destruct (IH (S i)) as [H1 H2]. rewrite H1. auto.
  Qed.
  Lemma delete_sort_keys_repr {B} (Ds : list B) (Xs : list (list (K * N))) (f : B -> list (R * N)) :
    length Ds = length Xs -> forall off,
    map sk_val (delete_sort_keys off (combine (map f Ds) Xs)) = concat Xs /\
    Forall (fun s : sort_key (K * N) => sk_val s = (sk_key s, sk_ts s)) (delete_sort_keys off (combine (map f Ds) Xs)).
  Proof.
    revert Xs. induction Ds as [|D Ds IH]; intros [|X Xs] HL off; simpl in HL; try lia; simpl; auto.
    destruct (keys_of_dels_repr off X 0) as [A1 A2].
    destruct (IH Xs ltac:(lia) (off + length X)) as [B1 B2].
    rewrite map_app, A1, B1, Forall_app. auto.
  Qed.

  (** *** Staging *)
  Definition key_lo (o : option K) (k : K) : Prop := exists a, o = Some a /\ kcmp a k <> Gt.
  Definition key_hi (o : option K) (k : K) : Prop := exists a, o = Some a /\ kcmp k a <> Gt.
  Definition ts_lo (o : option N) (t : N) : Prop := exists a, o = Some a /\ (a <= t)%N.
  Definition ts_hi (o : option N) (t : N) : Prop := exists a, o = Some a /\ (t <= a)%N.
  (** The recorded key and timestamp bounds cover every version. *)
  Definition covers (mnk mxk : option K) (mnt mxt : option N) (vs : list vers) : Prop :=
    forall v, In v vs -> key_lo mnk (vkey v) /\ key_hi mxk (vkey v) /\ ts_lo mnt (vts v) /\ ts_hi mxt (vts v).
  (** They are attained by versions of the table. *)
  Definition attained (mnk mxk : option K) (mnt mxt : option N) (vs : list vers) : Prop :=
    (forall k, mnk = Some k -> exists v, In v vs /\ vkey v = k) /\
    (forall k, mxk = Some k -> exists v, In v vs /\ vkey v = k) /\
    (forall t, mnt = Some t -> exists v, In v vs /\ vts v = t) /\
    (forall t, mxt = Some t -> exists v, In v vs /\ vts v = t).

  Lemma ts_bounds_fold l : forall mn mx,
    let p := fold_left (fun (mm : N * N) t => (if N.ltb t (fst mm) then t else fst mm,
                                      if N.ltb (snd mm) t then t else snd mm)) l (mn, mx) in
    (fst p <= mn)%N /\ (mx <= snd p)%N /\ (forall t, In t l -> (fst p <= t)%N /\ (t <= snd p)%N) /\
    (fst p = mn \/ In (fst p) l) /\ (snd p = mx \/ In (snd p) l).
  Proof.
    induction l as [|t l IH]; intros mn mx; simpl.
    - repeat split; auto; try lia. all: intros; contradiction.
    - specialize (IH (if N.ltb t mn then t else mn) (if N.ltb mx t then t else mx)).
      simpl in IH. destruct IH as (I1 & I2 & I3 & I4 & I5).
      set (p := fold_left _ l _) in *.
      assert (fst p <= mn /\ fst p <= t)%N by (destruct (N.ltb_spec t mn); lia).
      assert (mx <= snd p /\ t <= snd p)%N by (destruct (N.ltb_spec mx t); lia).
      repeat split; try tauto.
      + destruct H1 as [<-|H1]; [tauto|apply I3, H1].
      + destruct H1 as [<-|H1]; [tauto|apply I3, H1].
      + destruct I4 as [I4|I4]; auto. rewrite I4. destruct (N.ltb t mn); auto.
      + destruct I5 as [I5|I5]; auto. rewrite I5. destruct (N.ltb mx t); auto.
  Qed.
  Lemma ts_bounds_spec l :
    match ts_bounds l with
    | None => l = []
    | Some (mn, mx) => In mn l /\ In mx l /\ forall t, In t l -> (mn <= t <= mx)%N
    end.
  Proof.
    destruct l as [|t l]; simpl; auto.
    pose proof (ts_bounds_fold l t t) as H. simpl in H. destruct (fold_left _ l _) as [mn mx].
    simpl in H. destruct H as (H1 & H2 & H3 & H4 & H5).
    assert (forall x, In x (t :: l) -> (mn <= x <= mx)%N).
    { intros x [<-|Hx]; [lia|]. destruct (H3 x Hx). lia. }
    repeat split.
    - simpl. destruct H4; auto.
    - simpl. destruct H5; auto.
    - apply H, H0.
    - apply H, H0.
  Qed.

  Lemma seg_idx_keys i (A : list vers) : map fst (seg_idx i A) = map fst A.
  Proof. revert i. induction A as [|[kt [r|]] A IH]; intros i; simpl; auto; now rewrite IH. Qed.

  Lemma seg_min_key_of (A : list vers) : seg_min_key (seg_of A) = match A with v :: _ => Some (vkey v) | [] => None end.
  Proof.
    unfold seg_min_key. destruct A as [|[kt [r|]] A]; reflexivity.
  Qed.
  Lemma seg_max_key_of (A : list vers) : seg_max_key (seg_of A) = match rev A with v :: _ => Some (vkey v) | [] => None end.
  Proof.
    unfold seg_max_key. pose proof (seg_idx_keys 0 A) as H.
    assert (H2 : map fst (rev (s_index (seg_of A))) = map fst (rev A)) by (rewrite !map_rev; simpl; now rewrite H).
    destruct (rev (s_index (seg_of A))) as [|e l], (rev A) as [|v l']; simpl in H2; try discriminate; auto.
    inversion H2 as [[E1 E2]]. unfold vkey. now rewrite E1.
  Qed.
  Lemma seg_ts_of (A : list vers) : ts_bounds (map (fun e => snd (fst e)) (s_index (seg_of A))) = ts_bounds (map vts A).
  Proof.
    f_equal. simpl. pose proof (seg_idx_keys 0 A) as H.
    rewrite <- (map_map fst snd (seg_idx 0 A)), H, map_map. reflexivity.
  Qed.

  Lemma update_bounds_covers st A :
    osorted A -> A <> [] ->
    let st' := fst (stage_immutable (st, []) (seg_of A)) in
    (forall vs, covers (st_min_key st) (st_max_key st) (st_min_ts st) (st_max_ts st) vs ->
       covers (st_min_key st') (st_max_key st') (st_min_ts st') (st_max_ts st') (vs ++ A)) /\
    (forall vs, attained (st_min_key st) (st_max_key st) (st_min_ts st) (st_max_ts st) vs ->
       attained (st_min_key st') (st_max_key st') (st_min_ts st') (st_max_ts st') (vs ++ A)) /\
    st_segments st' = S (st_segments st) /\
    snd (stage_immutable (st, []) (seg_of A)) = [(ups A, dels A)].
  Proof.
    intros HS HN.
    assert (HNE : match s_rows (seg_of A), s_del_keys (seg_of A) with [], [] => False | _, _ => True end).
    { destruct A as [|[kt [r|]] A]; simpl; auto. destruct (map fst (ups A)); auto. }
    unfold stage_immutable.
    destruct (s_rows (seg_of A)) as [|r0 rs] eqn:ER, (s_del_keys (seg_of A)) as [|d0 ds] eqn:ED; try tauto.
    all: rewrite <- ER, <- ED; clear HNE ER ED.
    all: rewrite seg_min_key_of, seg_max_key_of, seg_ts_of; cbn [fst snd s_rows s_mvcc s_del_keys s_del_ts seg_of];
         rewrite combine_ups, combine_dels.
    all: pose proof (ts_bounds_spec (map vts A)) as HTB;
         destruct (ts_bounds (map vts A)) as [[mn mx]|] eqn:ETB;
         [|destruct A; [congruence|discriminate]].
    all: destruct A as [|v0 A0] eqn:EA; [congruence|]; rewrite <- EA in *.
    all: destruct (rev A) as [|v1 A1] eqn:ERV;
         [apply (f_equal (@rev _)) in ERV; rewrite rev_involutive in ERV; simpl in ERV; congruence|].
    all: assert (HLo : forall v, In v A -> kcmp (vkey v0) (vkey v) <> Gt);
         [ intros v Hv; rewrite EA in Hv, HS; destruct Hv as [<-|Hv];
           [rewrite kcmp_refl; congruence|];
           inversion HS as [|? ? HS1 HS2]; subst; rewrite Forall_forall in HS2;
           specialize (HS2 v Hv); apply kts_lt_cases in HS2; unfold vkey; destruct HS2 as [HS2|[HS2 _]]; congruence |].
    all: assert (HLa : A = rev A1 ++ [v1]) by (rewrite <- (rev_involutive A), ERV; reflexivity).
    all: assert (HHi : forall v, In v A -> kcmp (vkey v) (vkey v1) <> Gt);
         [ intros v Hv; rewrite HLa in Hv; rewrite HLa in HS; apply StronglySorted_app in HS as (_ & _ & HS);
           apply in_app_or in Hv as [Hv|[<-|[]]]; [|rewrite kcmp_refl; congruence];
           specialize (HS v v1 Hv (or_introl eq_refl)); apply kts_lt_cases in HS; unfold vkey;
           destruct HS as [HS|[HS _]]; congruence |].
    all: assert (H0 : In v0 A) by (rewrite EA; now left).
    all: assert (H1 : In v1 A) by (rewrite HLa; apply in_or_app; right; now left).
    all: destruct HTB as (HT1 & HT2 & HT3); apply in_map_iff in HT1 as (vm & HT1 & HT1'); apply in_map_iff in HT2 as (vx & HT2 & HT2').
    all: clear ETB ERV HLa EA HS.
    all: cbn [fst snd st_min_key st_max_key st_min_ts st_max_ts st_segments update_commit_bounds update_key_bounds].
    all: split; [|split; [|split; [reflexivity|reflexivity]]].
    all: intros vs Hvs.
    all: try (intros v Hv; apply in_app_or in Hv as [Hv|Hv];
      [ destruct (Hvs v Hv) as ((a1 & E1 & L1) & (a2 & E2 & L2) & (a3 & E3 & L3) & (a4 & E4 & L4));
        rewrite E1, E2, E3, E4; unfold key_lo, key_hi, ts_lo, ts_hi;
        repeat split;
        [ destruct (kleb a1 (vkey v0)) eqn:E; eexists; split; eauto;
          unfold kleb in E; destruct (kcmp a1 (vkey v0)) eqn:F; try discriminate;
          destruct (kcmp a1 (vkey v)) eqn:G; try congruence; korder
        | destruct (kleb (vkey v1) a2) eqn:E; eexists; split; eauto;
          unfold kleb in E; destruct (kcmp (vkey v1) a2) eqn:F; try discriminate;
          destruct (kcmp (vkey v) a2) eqn:G; try congruence; korder
        | destruct (N.leb_spec a3 mn); eexists; split; eauto; lia
        | destruct (N.leb_spec mx a4); eexists; split; eauto; lia ]
      | specialize (HLo v Hv); specialize (HHi v Hv); specialize (HT3 (vts v) (in_map _ _ _ Hv));
        unfold key_lo, key_hi, ts_lo, ts_hi;
        repeat split;
        [ destruct (st_min_key st) as [a|]; [destruct (kleb a (vkey v0)) eqn:E|]; eexists; split; eauto;
          unfold kleb in E; destruct (kcmp a (vkey v0)) eqn:F; try discriminate;
          destruct (kcmp (vkey v0) (vkey v)) eqn:G; try congruence; korder
        | destruct (st_max_key st) as [a|]; [destruct (kleb (vkey v1) a) eqn:E|]; eexists; split; eauto;
          unfold kleb in E; destruct (kcmp (vkey v1) a) eqn:F; try discriminate;
          destruct (kcmp (vkey v) (vkey v1)) eqn:G; try congruence; korder
        | destruct (st_min_ts st) as [a|]; [destruct (N.leb_spec a mn)|]; eexists; split; eauto; lia
        | destruct (st_max_ts st) as [a|]; [destruct (N.leb_spec mx a)|]; eexists; split; eauto; lia ] ]).
    all: destruct Hvs as (A1' & A2' & A3' & A4'); repeat split;
      [ destruct (st_min_key st) as [a|]; [destruct (kleb a (vkey v0))|]; intros k [= <-];
        try (destruct (A1' _ eq_refl) as (v & Hv & <-); exists v; split; auto; apply in_or_app; auto);
        exists v0; split; auto; apply in_or_app; auto
      | destruct (st_max_key st) as [a|]; [destruct (kleb (vkey v1) a)|]; intros k [= <-];
        try (destruct (A2' _ eq_refl) as (v & Hv & <-); exists v; split; auto; apply in_or_app; auto);
        exists v1; split; auto; apply in_or_app; auto
      | destruct (st_min_ts st) as [a|]; [destruct (N.leb a mn)|]; intros k [= <-];
        try (destruct (A3' _ eq_refl) as (v & Hv & <-); exists v; split; auto; apply in_or_app; auto);
        exists vm; split; auto; apply in_or_app; auto
      | destruct (st_max_ts st) as [a|]; [destruct (N.leb mx a)|]; intros k [= <-];
        try (destruct (A4' _ eq_refl) as (v & Hv & <-); exists v; split; auto; apply in_or_app; auto);
        exists vx; split; auto; apply in_or_app; auto ].
  Qed.

  Lemma stage_app st l (g : seg K R) :
    stage_immutable (st, l) g
    = (fst (stage_immutable (st, []) g), l ++ snd (stage_immutable (st, []) g)).
  Proof.
    unfold stage_immutable. destruct (s_rows g), (s_del_keys g); simpl; auto. now rewrite app_nil_r.
  Qed.

  Definition good (A : list vers) : Prop := osorted A /\ keyed key_of A /\ A <> [].

  Lemma stage_all As : Forall good As -> forall st l vs,
    covers (st_min_key st) (st_max_key st) (st_min_ts st) (st_max_ts st) vs ->
    attained (st_min_key st) (st_max_key st) (st_min_ts st) (st_max_ts st) vs ->
    exists st',
      fold_left stage_immutable (map seg_of As) (st, l) = (st', l ++ map (fun A => (ups A, dels A)) As) /\
      covers (st_min_key st') (st_max_key st') (st_min_ts st') (st_max_ts st') (vs ++ concat As) /\
      attained (st_min_key st') (st_max_key st') (st_min_ts st') (st_max_ts st') (vs ++ concat As) /\
      st_segments st' = st_segments st + length As.
  Proof.
    induction 1 as [|A As (HS & HK & HN) HF IH]; intros st l vs HC HA; simpl.
    - exists st. rewrite !app_nil_r. repeat split; auto; try apply HA. all: try (apply HC; auto).
    - destruct (update_bounds_covers st A HS HN) as (B1 & B2 & B3 & B4).
      rewrite stage_app, B4.
      destruct (IH _ (l ++ [(ups A, dels A)]) (vs ++ A) (B1 _ HC) (B2 _ HA)) as (st' & E1 & E2 & E3 & E4).
      exists st'. rewrite E1, <- !app_assoc in *. simpl. repeat split; auto; try apply E3; try (apply E2; auto).
      rewrite E4, B3. lia.
  Qed.

  Lemma combine_map_both {B C D} (f : B -> C) (g : B -> D) l :
    combine (map f l) (map g l) = map (fun x => (f x, g x)) l.
  Proof. induction l; simpl; auto. now rewrite IHl. Qed.

  Lemma sst_vers_concat As v :
    In v (sst_vers (concat (map updata As)) (concat (map dels As))) <-> In v (concat As).
  Proof.
    replace (concat (map updata As)) with (updata (concat As)).
    - replace (concat (map dels As)) with (dels (concat As)); [apply sst_vers_In|].
      induction As as [|A As IH]; simpl; auto. now rewrite <- IH, dels_app.
    - induction As as [|A As IH]; simpl; auto. rewrite <- IH. apply flat_map_app.
  Qed.

  Lemma sst_vers_perm D X D' X' v :
    Permutation D D' -> Permutation X X' -> (In v (sst_vers D X) <-> In v (sst_vers D' X')).
  Proof.
    intros HD HX. unfold sst_vers. rewrite !in_app_iff.
    split; intros [H|H]; [left|right|left|right];
      (eapply Permutation_in; [|exact H]); apply Permutation_map; auto using Permutation_sym.
  Qed.

  Theorem write_flush_repr id As :
    Forall good As -> As <> [] ->
    exists t D X,
      write_flush key_of id (map seg_of As) = FSst t /\ t_id t = id /\ sst_repr t D X /\
      (forall v, In v (sst_vers D X) <-> In v (concat As)) /\
      covers (t_min_key t) (t_max_key t) (t_min_ts t) (t_max_ts t) (concat As) /\
      attained (t_min_key t) (t_max_key t) (t_min_ts t) (t_max_ts t) (concat As).
  Proof.
    intros HG HN.
    destruct (stage_all As HG stats_new [] []) as (st & E1 & E2 & E3 & E4).
    { intros v []. }
    { repeat split; intros ? [=]. }
    simpl in E1, E2, E3, E4.
    unfold write_flush. rewrite E1.
    destruct (Nat.eqb_spec (st_segments st) 0) as [E|_].
    { destruct As; [congruence|]. simpl in E4. lia. }
    rewrite map_length. destruct (Nat.ltb_spec 1 (length As)) as [HL|HL].
    - unfold normalize. rewrite map_length. destruct (Nat.leb_spec (length As) 1); [lia|].
      assert (EC : map (fun A => (ups A, dels A)) As = combine (map (map drow) (map updata As)) (map dels As)).
      { rewrite map_map, combine_map_both. apply map_ext. intros A. now rewrite updata_drow. }
      rewrite EC.
      assert (HD : Forall dkeyed (map updata As)).
      { rewrite Forall_map. eapply Forall_impl; [|exact HG]. intros A (_ & HK & _). apply updata_keyed, HK. }
      destruct (data_sort_keys_repr (map updata As) (map dels As) HD ltac:(rewrite !map_length; reflexivity) 0)
        as (dk & F1 & F2 & F3).
      destruct (delete_sort_keys_repr (map updata As) (map dels As) (map drow)
                  ltac:(rewrite !map_length; reflexivity) 0) as (G1 & G2).
      rewrite F1. set (xk := delete_sort_keys _ _) in *.
      eexists. exists (map (fun s => (sk_key s, sk_ts s, fst (sk_val s))) (sort_by sk_le dk)).
      exists (map sk_val (sort_by sk_le xk)).
      split; [reflexivity|]. split; [reflexivity|].
      pose proof (sort_by_perm sk_le dk) as PD. pose proof (sort_by_perm sk_le xk) as PX.
      assert (F3' : Forall (fun s => sk_val s = (fst (sk_val s), sk_ts s)) (sort_by sk_le dk))
        by (eapply Permutation_Forall; eauto).
      assert (G2' : Forall (fun s : sort_key (K * N) => sk_val s = (sk_key s, sk_ts s)) (sort_by sk_le xk))
        by (eapply Permutation_Forall; eauto).
      split; [|split; [|split; [exact E2|exact E3]]].
      + unfold sst_repr. cbn [t_rows t_dels map concat fst snd]. rewrite !app_nil_r.
        split; [|split; [|split; [reflexivity|split]]].
        * rewrite map_map. apply map_ext_Forall.
          eapply Forall_impl; [|exact F3']. intros s Hs. unfold drow. simpl. exact Hs.
        * unfold dkeyed. eapply Permutation_Forall; [apply Permutation_map, PD|].
          rewrite F2. apply Forall_concat. exact HD.
        * apply StronglySorted_map. simpl. apply sort_by_sk_sorted.
        * apply StronglySorted_map. eapply StronglySorted_impl; [|apply sort_by_sk_sorted].
          intros a b Ha Hb H1. rewrite Forall_forall in G2'. rewrite (G2' a Ha), (G2' b Hb). exact H1.
      + intros v. rewrite <- sst_vers_concat. apply sst_vers_perm.
        * rewrite <- F2. apply Permutation_map, Permutation_sym, PD.
        * rewrite <- G1. apply Permutation_map, Permutation_sym, PX.
    - destruct As as [|A [|]]; simpl in HL; try lia; [congruence|].
      inversion HG as [|? ? (HS & HK & HNE) _]; subst.
      eexists. exists (updata A), (dels A). simpl in *. rewrite !app_nil_r in *.
      split; [reflexivity|]. split; [reflexivity|]. split.
      + unfold sst_repr. simpl.
        repeat split; [symmetry; apply updata_drow|apply updata_keyed, HK|apply updata_sorted, HS|apply dels_sorted, HS].
      + split; [apply sst_vers_In|]. split; [exact E2|exact E3].
  Qed.

  (** *** Scanning *)
  Lemma sst_merge_merged fuel : forall (D : list ((K * N) * R)) X cur em,
    length D + length X <= fuel ->
    StronglySorted (fun a b => kcmp (fst a) (fst b) <> Gt) D ->
    StronglySorted (fun a b : K * N => kcmp a b <> Gt) X ->
    (forall v c, In v (sst_vers D X) -> cur = Some c -> kcmp c (vkey v) <> Gt) ->
    (cur <> None -> em = true) ->
    exists out, sst_merge fuel cur em D X = Some out /\ merged (sst_vers D X) cur out /\
      (forall kt r, In (kt, Some r) out -> forall x, In x X -> kcmp (fst x) (fst kt) = Eq -> snd x <> snd kt).
  Proof.
    induction fuel as [|fuel IH]; intros D X cur em HL HD HX HC HE.
    - destruct D, X; simpl in HL; try lia. exists []. split; [reflexivity|]. split; [|intros ? ? []].
      split; [constructor|]. split; intros ? [].
    - assert (Hstep : forall k v D' X',
        length D' + length X' <= fuel ->
        StronglySorted (fun a b => kcmp (fst a) (fst b) <> Gt) D' ->
        StronglySorted (fun a b : K * N => kcmp a b <> Gt) X' ->
        (forall x, In x (sst_vers D X) -> In x (sst_vers D' X') \/ kcmp k (vkey x) = Eq) ->
        (forall x, In x (sst_vers D' X') -> In x (sst_vers D X)) ->
        In v (sst_vers D X) -> vkey v = k ->
        (forall x, In x (sst_vers D X) -> kcmp k (vkey x) <> Gt) ->
        (forall x, In x (sst_vers D X) -> kcmp k (vkey x) = Eq -> (vts x <= vts v)%N) ->
        (forall x, In x X -> In x X' \/ kcmp k (fst x) = Eq) ->
        (forall r, snd v = Some r -> forall x, In x X -> kcmp (fst x) k = Eq -> snd x <> vts v) ->
        exists out,
          (let '(cur', e) := process cur em k in
           match sst_merge fuel cur' true D' X' with
           | Some r => Some (if e then v :: r else r)
           | None => None
           end) = Some out /\ merged (sst_vers D X) cur out /\
          (forall kt r, In (kt, Some r) out -> forall x, In x X -> kcmp (fst x) (fst kt) = Eq -> snd x <> snd kt)).
      { intros k v D' X' L1 S1 S2 V1 V2 V3 V4 V5 V6 VX VT.
        assert (EP : process cur em k = (if hd_cur cur k then cur else Some k, negb (hd_cur cur k))).
        { unfold process, hd_cur. destruct cur as [c|]; auto. rewrite (HE ltac:(congruence)).
          destruct (keqb c k); reflexivity. }
        rewrite EP.
        assert (HCk : forall c, cur = Some c -> kcmp c k <> Gt).
        { intros c Hc. rewrite <- V4. apply HC; auto. }
        destruct (IH D' X' (if hd_cur cur k then cur else Some k) true) as (out & O1 & O2 & O3); auto.
        { intros w c Hw Hc. specialize (V5 w (V2 w Hw)).
          destruct (hd_cur cur k) eqn:EH.
          - apply HC; auto.
          - inversion Hc; subst c. exact V5. }
        rewrite O1. eexists. split; [reflexivity|].
        pose proof (merged_step _ _ cur k v out V1 V2 V3 V4 V5 V6 HCk O2) as M.
        assert (Hk' : exists c', (if hd_cur cur k then cur else Some k) = Some c' /\ kcmp c' k = Eq).
        { unfold hd_cur. destruct cur as [c|]; [|exists k; split; auto using kcmp_refl].
          destruct (keqb c k) eqn:E; [exists c; split; auto; now apply keqb_true|exists k; split; auto using kcmp_refl]. }
        destruct Hk' as (c' & Ec' & Hc').
        assert (T' : forall kt r, In (kt, Some r) out -> forall x, In x X -> kcmp (fst x) (fst kt) = Eq -> snd x <> snd kt).
        { intros kt r Hin x Hx Hk. destruct (VX x Hx) as [H|H]; [eapply O3; eauto|].
          destruct O2 as (_ & O2 & _). destruct (O2 _ Hin) as (_ & _ & O2').
          rewrite Ec' in O2'. unfold vkey in O2'; simpl in O2'. knorm. exfalso. apply O2'. korder. }
        destruct (hd_cur cur k); simpl; split; auto.
        intros kt r [->|Hin] x Hx Hk; [|eapply T'; eauto].
        unfold vkey, vts in *. simpl in *. subst k. eapply VT; eauto. }
      simpl.
      destruct D as [|[[k t] r] D'], X as [|[dk dt] X'].
      + exists []. split; [reflexivity|]. split; [|intros ? ? []]. split; [constructor|]. split; intros ? [].
      + inversion HX as [|? ? HX1 HX2]; subst. rewrite Forall_forall in HX2.
        apply (Hstep dk (dk, dt, None) [] X'); simpl in *; auto; try lia.
        * intros x [<-|H]; auto. right. apply kcmp_refl.
        * intros x [<-|H]; [unfold vkey; simpl; rewrite kcmp_refl; congruence|].
          apply in_map_iff in H as (y & <- & Hy). specialize (HX2 y Hy). apply kts_le_cases in HX2.
          unfold vkey; simpl in *. destruct HX2 as [H|[H _]]; congruence.
        * intros x [<-|H] Hk; [lia|]. apply in_map_iff in H as (y & <- & Hy).
          specialize (HX2 y Hy). apply kts_le_cases in HX2. unfold vkey, vts in *; simpl in *.
          destruct HX2 as [H|[_ H]]; [congruence|lia].
        * intros x [<-|H]; auto. right; apply kcmp_refl.
        * intros ? [=].
      + inversion HD as [|? ? HD1 HD2]; subst. rewrite Forall_forall in HD2.
        apply (Hstep k (k, t, Some r) D' []); simpl in *; auto; try lia.
        * intros x [<-|H]; auto. right. apply kcmp_refl.
        * intros x [<-|H]; [unfold vkey; simpl; rewrite kcmp_refl; congruence|].
          rewrite app_nil_r in H. apply in_map_iff in H as (y & <- & Hy). specialize (HD2 y Hy). apply kts_le_cases in HD2.
          unfold vkey; simpl in *. destruct HD2 as [H|[H _]]; congruence.
        * intros x [<-|H] Hk; [lia|]. rewrite app_nil_r in H. apply in_map_iff in H as (y & <- & Hy).
          specialize (HD2 y Hy). apply kts_le_cases in HD2. unfold vkey, vts in *; simpl in *.
          destruct HD2 as [H|[_ H]]; [congruence|lia].
      + inversion HD as [|? ? HD1 HD2]; subst. rewrite Forall_forall in HD2.
        inversion HX as [|? ? HX1 HX2]; subst. rewrite Forall_forall in HX2.
        simpl in HL.
        assert (QD : forall y, In y D' -> kcmp k (fst (fst y)) = Lt \/ (kcmp k (fst (fst y)) = Eq /\ (snd (fst y) <= t)%N)).
        { intros y Hy. specialize (HD2 y Hy). apply kts_le_cases in HD2. exact HD2. }
        assert (QX : forall y, In y X' -> kcmp dk (fst y) = Lt \/ (kcmp dk (fst y) = Eq /\ (snd y <= dt)%N)).
        { intros y Hy. specialize (HX2 y Hy). apply kts_le_cases in HX2. exact HX2. }
        assert (QV : forall x, In x (sst_vers ((k, t, r) :: D') ((dk, dt) :: X')) <->
                    x = (k, t, Some r) \/ x = (dk, dt, None) \/ (exists y, In y D' /\ x = (fst y, Some (snd y)))
                    \/ (exists y, In y X' /\ x = (y, None))).
        { intros x. unfold sst_vers. simpl. rewrite in_app_iff. simpl. rewrite !in_map_iff. split.
          - intros [<-|[(y & <- & Hy)|[<-|(y & <- & Hy)]]]; eauto 8.
          - intros [->|[->|[(y & Hy & ->)|(y & Hy & ->)]]]; eauto 8. }
        destruct (kcmp k dk) eqn:EK.
        * destruct (N.leb_spec t dt) as [HT|HT].
          -- apply (Hstep dk (dk, dt, None) D' X'); auto; try lia.
             ++ intros x Hx. apply QV in Hx as [->|[->|[(y & Hy & ->)|(y & Hy & ->)]]].
                ** right. unfold vkey; simpl. korder.
                ** right. apply kcmp_refl.
                ** left. apply in_or_app. left. apply in_map_iff. eauto.
                ** left. apply in_or_app. right. apply in_map_iff. eauto.
             ++ intros x Hx. apply QV. unfold sst_vers in Hx. rewrite in_app_iff, !in_map_iff in Hx.
                destruct Hx as [(y & <- & Hy)|(y & <- & Hy)]; eauto 8.
             ++ apply QV; auto.
             ++ intros x Hx. apply QV in Hx as [->|[->|[(y & Hy & ->)|(y & Hy & ->)]]]; unfold vkey; simpl.
                ** korder.
                ** rewrite kcmp_refl; congruence.
                ** destruct (QD y Hy) as [H|[H _]]; korder.
                ** destruct (QX y Hy) as [H|[H _]]; congruence.
             ++ intros x Hx Hk. apply QV in Hx as [->|[->|[(y & Hy & ->)|(y & Hy & ->)]]]; unfold vkey, vts in *; simpl in *.
                ** lia.
                ** lia.
                ** destruct (QD y Hy) as [H|[H H']]; [exfalso; korder|lia].
                ** destruct (QX y Hy) as [H|[H H']]; [congruence|lia].
             ++ intros x [<-|H]; auto. right; apply kcmp_refl.
             ++ intros ? [=].
          -- apply (Hstep k (k, t, Some r) D' X'); auto; try lia.
             ++ intros x Hx. apply QV in Hx as [->|[->|[(y & Hy & ->)|(y & Hy & ->)]]].
                ** right. apply kcmp_refl.
                ** right. unfold vkey; simpl. korder.
                ** left. apply in_or_app. left. apply in_map_iff. eauto.
                ** left. apply in_or_app. right. apply in_map_iff. eauto.
             ++ intros x Hx. apply QV. unfold sst_vers in Hx. rewrite in_app_iff, !in_map_iff in Hx.
                destruct Hx as [(y & <- & Hy)|(y & <- & Hy)]; eauto 8.
             ++ apply QV; auto.
             ++ intros x Hx. apply QV in Hx as [->|[->|[(y & Hy & ->)|(y & Hy & ->)]]]; unfold vkey; simpl.
                ** rewrite kcmp_refl; congruence.
                ** korder.
                ** destruct (QD y Hy) as [H|[H _]]; congruence.
                ** destruct (QX y Hy) as [H|[H _]]; korder.
             ++ intros x Hx Hk. apply QV in Hx as [->|[->|[(y & Hy & ->)|(y & Hy & ->)]]]; unfold vkey, vts in *; simpl in *.
                ** lia.
                ** lia.
                ** destruct (QD y Hy) as [H|[H H']]; [congruence|lia].
                ** destruct (QX y Hy) as [H|[H H']]; [exfalso; korder|lia].
             ++ intros x [<-|H]; auto.
             ++ intros r' _ x [<-|H] Hk; unfold vts; simpl; [lia|].
                destruct (QX x H) as [H1|[H1 H2]]; [exfalso; korder|lia].
        * apply (Hstep k (k, t, Some r) D' ((dk, dt) :: X')); auto; simpl; try lia.
          -- intros x Hx. apply QV in Hx as [->|[->|[(y & Hy & ->)|(y & Hy & ->)]]].
             ++ right. apply kcmp_refl.
             ++ left. apply in_or_app. right. now left.
             ++ left. apply in_or_app. left. apply in_map_iff. eauto.
             ++ left. apply in_or_app. right. right. apply in_map_iff. eauto.
          -- intros x Hx. apply QV. unfold sst_vers in Hx. rewrite in_app_iff in Hx. simpl in Hx. rewrite !in_map_iff in Hx.
             destruct Hx as [(y & <- & Hy)|[<-|(y & <- & Hy)]]; eauto 8.
          -- left; reflexivity.
          -- intros x Hx. apply QV in Hx as [->|[->|[(y & Hy & ->)|(y & Hy & ->)]]]; unfold vkey; simpl.
             ++ rewrite kcmp_refl; congruence.
             ++ korder.
             ++ destruct (QD y Hy) as [H|[H _]]; congruence.
             ++ destruct (QX y Hy) as [H|[H _]]; korder.
          -- intros x Hx Hk. apply QV in Hx as [->|[->|[(y & Hy & ->)|(y & Hy & ->)]]]; unfold vkey, vts in *; simpl in *.
             ++ lia.
             ++ congruence.
             ++ destruct (QD y Hy) as [H|[H H']]; [congruence|lia].
             ++ destruct (QX y Hy) as [H|[H H']]; exfalso; korder.
          -- intros r' _ x [<-|H] Hk; simpl in *; [exfalso; korder|].
             destruct (QX x H) as [H1|[H1 H2]]; exfalso; korder.
        * apply (Hstep dk (dk, dt, None) ((k, t, r) :: D') X'); auto; simpl; try lia.
          -- intros x Hx. apply QV in Hx as [->|[->|[(y & Hy & ->)|(y & Hy & ->)]]].
             ++ left. now left.
             ++ right. apply kcmp_refl.
             ++ left. right. apply in_or_app. left. apply in_map_iff. eauto.
             ++ left. right. apply in_or_app. right. apply in_map_iff. eauto.
          -- intros x Hx. apply QV. simpl in Hx. rewrite in_app_iff, !in_map_iff in Hx.
             destruct Hx as [<-|[(y & <- & Hy)|(y & <- & Hy)]]; eauto 8.
          -- right. apply in_or_app. right. now left.
          -- intros x Hx. apply QV in Hx as [->|[->|[(y & Hy & ->)|(y & Hy & ->)]]]; unfold vkey; simpl.
             ++ korder.
             ++ rewrite kcmp_refl; congruence.
             ++ destruct (QD y Hy) as [H|[H _]]; korder.
             ++ destruct (QX y Hy) as [H|[H _]]; congruence.
          -- intros x Hx Hk. apply QV in Hx as [->|[->|[(y & Hy & ->)|(y & Hy & ->)]]]; unfold vkey, vts in *; simpl in *.
             ++ exfalso; korder.
             ++ lia.
             ++ destruct (QD y Hy) as [H|[H H']]; exfalso; korder.
             ++ destruct (QX y Hy) as [H|[H H']]; [congruence|lia].
          -- intros x [<-|H]; auto. right; apply kcmp_refl.
          -- intros ? [=].
  Qed.

  Lemma data_entries_repr ts D :
    dkeyed D -> data_entries key_of ts (map drow D) = Some (filter (fun e => negb (N.ltb ts (snd (fst e)))) D).
  Proof.
    induction 1 as [|[[k t] r] D H HF IH]; simpl; auto.
    simpl in H. rewrite H, IH. destruct (N.ltb ts t); reflexivity.
  Qed.

  Lemma filter_map_comm {B C} (f : B -> C) p l : filter p (map f l) = map f (filter (fun x => p (f x)) l).
  Proof. induction l as [|a l IH]; simpl; auto. destruct (p (f a)); simpl; now rewrite IH. Qed.

  Lemma sst_vers_filter ts D X v :
    In v (sst_vers (filter (fun e => negb (N.ltb ts (snd (fst e)))) D) (delete_entries ts X)) <->
    In v (sst_vers D X) /\ (vts v <= ts)%N.
  Proof.
    unfold sst_vers, delete_entries. rewrite !in_app_iff, !in_map_iff. split.
    - intros [(e & <- & H)|(e & <- & H)]; apply filter_In in H as [H1 H2];
        apply negb_true_iff, N.ltb_ge in H2; unfold vts; simpl; eauto.
    - intros [[(e & <- & H)|(e & <- & H)] Ht]; unfold vts in Ht; simpl in Ht.
      + left. exists e. split; auto. apply filter_In. split; auto. apply negb_true_iff, N.ltb_ge, Ht.
      + right. exists e. split; auto. apply filter_In. split; auto. apply negb_true_iff, N.ltb_ge, Ht.
  Qed.

  Lemma newest_filtered (V V' : list vers) ts out :
    (forall v, In v V' <-> In v V /\ (vts v <= ts)%N) -> is_view V' ts out -> is_view V ts out.
  Proof.
    intros H (H1 & H2 & H3). split; auto. split.
    - intros v Hv. destruct (H2 v Hv) as (A & B & C). apply H in A as [A _]. split; auto. split; auto.
      intros w Hw Hk Ht. apply C; auto. apply H; auto.
    - intros v Hv Ht. apply H3; auto. apply H; auto.
  Qed.

  (** Scanning an SSTable with a row filter: the view of the filtered versions. *)
  Theorem sst_scan_view keep D X ts :
    dkeyed D ->
    StronglySorted (fun a b => kcmp (fst a) (fst b) <> Gt) D ->
    StronglySorted (fun a b : K * N => kcmp a b <> Gt) X ->
    exists out, sst_scan key_of keep (map drow D) X ts = Some out /\ is_view (sst_vers (filter (fun e => keep (snd e)) D) X) ts out /\
      (forall kt r, In (kt, Some r) out -> forall x, In x X -> kcmp (fst x) (fst kt) = Eq -> snd x <> snd kt).
  Proof.
    intros HK SD SX. unfold sst_scan. rewrite filter_map_comm.
    change (filter (fun x => keep (fst (drow x))) D) with (filter (fun e => keep (snd e)) D).
    assert (HK' : dkeyed (filter (fun e => keep (snd e)) D)).
    { unfold dkeyed in *. rewrite Forall_forall in *. intros e He. apply filter_In in He. apply HK, He. }
    rewrite (data_entries_repr ts _ HK').
    set (D' := filter (fun e => keep (snd e)) D) in *.
    destruct (sst_merge_merged (length (filter (fun e => negb (N.ltb ts (snd (fst e)))) D') + length (delete_entries ts X))
                (filter (fun e => negb (N.ltb ts (snd (fst e)))) D') (delete_entries ts X) None false)
      as (out & O1 & O2 & O3); auto.
    - apply StronglySorted_filter, StronglySorted_filter, SD.
    - apply StronglySorted_filter, SX.
    - discriminate.
    - exists out. split; auto. split.
      + eapply newest_filtered; [apply sst_vers_filter|]. apply merged_view; auto.
        rewrite Forall_forall. intros v Hv. apply sst_vers_filter in Hv. apply Hv.
      + intros kt r Hin x Hx Hk Ht. eapply O3; eauto.
        apply filter_In. split; auto. apply negb_true_iff, N.ltb_ge. rewrite Ht.
        destruct O2 as (_ & O2 & _). destruct (O2 _ Hin) as (O2' & _).
        apply sst_vers_filter in O2' as [_ O2']. exact O2'.
  Qed.
End SstFacts.
