(** The merge stream returns the newest visible version of every key. *)
From Coq Require Import List NArith Bool Sorted Permutation Lia Arith.
From Verif Require Import Base.Order Model.OMap Model.KeyTs Model.MergeStream
     Spec.Mvcc Proof.OMapFacts Proof.MemFacts Proof.ViewFacts.
Import ListNotations.

Local Arguments kcmp : simpl never.

Section MergeFacts.
  Context {K : Type} {KO : KeyOrd K} {R : Type}.
  Notation vers := ((K * N) * option R)%type.
  Notation source := (@source K R).

  Definition all (srcs : list source) : list vers := concat (map snd srcs).
  Definition live_row (v : vers) : list ((K * N) * R) :=
    match snd v with Some r => [(fst v, r)] | None => [] end.
  Definition live_rows (l : list vers) : list ((K * N) * R) := flat_map live_row l.

  Lemma heap_cmp_kts i p e j q f :
    @heap_cmp K KO R (i, p, e) (j, q, f) <> Gt -> kcmp (fst e) (fst f) <> Gt.
  Proof.
    destruct e as [[k t] v], f as [[l u] w]. unfold heap_cmp. change (@kcmp _ kts_ord) with (@kts_cmp K KO). unfold kts_cmp. simpl.
    destruct (kcmp k l); try congruence. destruct (N.compare u t); congruence.
  Qed.
  Lemma heap_cmp_gt_kts i p e j q f :
    @heap_cmp K KO R (i, p, e) (j, q, f) = Gt -> kcmp (fst f) (fst e) <> Gt.
  Proof.
    destruct e as [[k t] v], f as [[l u] w]. unfold heap_cmp. change (@kcmp _ kts_ord) with (@kts_cmp K KO). unfold kts_cmp. simpl.
    rewrite (kcmp_opp k l). destruct (kcmp k l); simpl; try congruence.
    rewrite (N.compare_antisym u t). destruct (N.compare u t); simpl; congruence.
  Qed.
  Lemma kle_trans (a b c : K * N) : kcmp a b <> Gt -> kcmp b c <> Gt -> kcmp a c <> Gt.
  Proof.
    intros H1 H2 H3.
    destruct (kcmp a b) eqn:E1; try congruence; destruct (kcmp b c) eqn:E2; try congruence.
    - pose proof (kcmp_trans _ _ _ _ E1 E2). congruence.
    - rewrite (kcmp_eq_l _ _ _ E1) in H3. congruence.
    - rewrite <- (kcmp_eq_r _ _ _ E2) in H3. congruence.
    - pose proof (kcmp_trans _ _ _ _ E1 E2). congruence.
  Qed.

  Lemma heap_min_spec (srcs : list source) : Forall (fun s => wsorted (snd s)) srcs -> forall i,
    match heap_min i srcs with
    | None => all srcs = []
    | Some (j, p, e) =>
        exists n, j = i + n /\ Permutation (all srcs) (e :: all (advance n srcs)) /\
        (forall f, In f (all srcs) -> kcmp (fst e) (fst f) <> Gt) /\
        Forall (fun s => wsorted (snd s)) (advance n srcs)
    end.
  Proof.
    induction 1 as [|[p es] srcs HS HF IH]; intros i; cbn [heap_min]; auto.
    specialize (IH (S i)).
    assert (Hes : match es with [] => True | e :: es' =>
              (forall f, In f es -> kcmp (fst e) (fst f) <> Gt) /\ wsorted es' end).
    { destruct es as [|e es']; auto. simpl in HS. inversion HS as [|? ? H1 H2]; subst.
      rewrite Forall_forall in H2. split; auto. intros f [<-|Hf]; auto.
      rewrite kcmp_refl. congruence. }
    destruct es as [|e es'].
    - destruct (heap_min (S i) srcs) as [[[j q] f]|]; auto.
      destruct IH as (n & -> & P1 & P2 & P3). exists (S n). split; [lia|]. simpl. repeat split; auto.
    - destruct Hes as [He1 He2].
      destruct (heap_min (S i) srcs) as [[[j q] f]|].
      + destruct IH as (n & -> & P1 & P2 & P3).
        destruct (heap_cmp (i, p, e) (S i + n, q, f)) eqn:EC.
        1,2: exists 0; split; [lia|]; simpl; split; [apply Permutation_refl|]; split;
             [ intros g Hg; unfold all in Hg; simpl in Hg; destruct Hg as [<-|Hg];
               [rewrite kcmp_refl; congruence|];
               apply in_app_or in Hg as [Hg|Hg]; [apply He1; now right|];
               eapply kle_trans; [|apply P2, Hg]; eapply heap_cmp_kts; rewrite EC; congruence
             | constructor; auto ].
        exists (S n). split; [lia|]. simpl. split; [|split].
        * unfold all in *; simpl.
          rewrite P1. symmetry. apply (Permutation_middle (e :: es')).
        * intros g Hg. unfold all in Hg; simpl in Hg. destruct Hg as [<-|Hg].
          -- eapply heap_cmp_gt_kts; eauto.
          -- apply in_app_or in Hg as [Hg|Hg]; [|apply P2, Hg].
             eapply kle_trans; [eapply heap_cmp_gt_kts; eauto|]. apply He1. now right.
        * constructor; auto.
      + exists 0. split; [lia|]. simpl. unfold all in *. simpl. rewrite IH, app_nil_r.
        split; [reflexivity|]. split; [|constructor; auto].
        intros g Hg. apply He1. exact Hg.
  Qed.

  Lemma merged_ext (V W : list vers) cur out :
    (forall x, In x V <-> In x W) -> merged V cur out -> merged W cur out.
  Proof.
    intros H (H1 & H2 & H3). split; auto. split.
    - intros v Hv. destruct (H2 v Hv) as (A & B & C). split; [apply H, A|]. split; auto.
      intros w Hw. apply B, H, Hw.
    - intros v Hv. apply H3, H, Hv.
  Qed.

  Lemma merge_run_merged fuel : forall (srcs : list source) buf,
    length (all srcs) <= fuel ->
    Forall (fun s => wsorted (snd s)) srcs ->
    (forall b v, buf = Some b -> In v (all srcs) -> kcmp (vkey b) (vkey v) <> Gt) ->
    exists out,
      merge_run fuel None buf srcs
      = Some (match buf with Some b => live_row b | None => [] end ++ live_rows out) /\
      merged (all srcs) (option_map vkey buf) out.
  Proof.
    induction fuel as [|fuel IH]; intros srcs buf HL HS HB.
    - assert (HN : all srcs = []) by (destruct (all srcs); auto; simpl in HL; lia).
      pose proof (heap_min_spec srcs HS 0) as HM. exists [].
      assert (HM' : heap_min 0 srcs = None).
      { destruct (heap_min 0 srcs) as [[[j p] e]|]; auto. destruct HM as (n & _ & HP & _).
        rewrite HN in HP. apply Permutation_nil in HP. discriminate. }
      simpl. rewrite HM', HN. split.
      + destruct buf as [[kt [r|]]|]; reflexivity.
      + split; [constructor|]. split; intros ? [].
    - pose proof (heap_min_spec srcs HS 0) as HM. simpl.
      destruct (heap_min 0 srcs) as [[[j p] e]|].
      + destruct HM as (n & Hj & HP & Hmin & HS'). simpl in Hj. subst j.
        assert (HL' : length (all (advance n srcs)) <= fuel).
        { apply Permutation_length in HP. simpl in HP. lia. }
        assert (HV1 : forall x, In x (all srcs) -> In x (all (advance n srcs)) \/ kcmp (vkey e) (vkey x) = Eq).
        { intros x Hx. eapply Permutation_in in Hx; [|exact HP]. destruct Hx as [<-|Hx]; auto.
          right; apply kcmp_refl. }
        assert (HV2 : forall x, In x (all (advance n srcs)) -> In x (all srcs)).
        { intros x Hx. eapply Permutation_in; [apply Permutation_sym, HP|]. now right. }
        assert (HV3 : In e (all srcs)).
        { eapply Permutation_in; [apply Permutation_sym, HP|]. now left. }
        assert (HV4 : forall x, In x (all srcs) -> kcmp (vkey e) (vkey x) <> Gt).
        { intros x Hx. specialize (Hmin x Hx). apply kts_le_cases in Hmin. unfold vkey.
          destruct Hmin as [H|[H _]]; congruence. }
        assert (HV5 : forall x, In x (all srcs) -> kcmp (vkey e) (vkey x) = Eq -> (vts x <= vts e)%N).
        { intros x Hx Hk. specialize (Hmin x Hx). apply kts_le_cases in Hmin. unfold vkey, vts in *.
          destruct Hmin as [H|[_ H]]; [congruence|lia]. }
        destruct buf as [[bk bv]|].
        * assert (HC : forall c, Some (fst bk) = Some c -> kcmp c (vkey e) <> Gt).
          { intros c [= <-]. apply (HB (bk, bv) e eq_refl HV3). }
          destruct (keqb (fst bk) (fst (fst e))) eqn:EK.
          -- destruct (IH (advance n srcs) (Some (bk, bv)) HL' HS') as (out & O1 & O2).
             { intros b v [= <-] Hv. apply HB; auto. }
             exists out. split; [exact O1|]. simpl in *.
             pose proof (merged_step (all srcs) (all (advance n srcs)) (Some (fst bk)) (vkey e) e out
                           HV1 HV2 HV3 eq_refl HV4 HV5 HC) as M.
             simpl in M. unfold vkey in M at 1 3. rewrite EK in M. apply M. exact O2.
          -- destruct (IH (advance n srcs) (Some e) HL' HS') as (out & O1 & O2).
             { intros b v [= <-] Hv. apply HV4. auto. }
             exists (e :: out). split.
             ++ destruct bv as [r|]; simpl; rewrite O1; reflexivity.
             ++ simpl in *.
                pose proof (merged_step (all srcs) (all (advance n srcs)) (Some (fst bk)) (vkey e) e out
                              HV1 HV2 HV3 eq_refl HV4 HV5 HC) as M.
                simpl in M. unfold vkey in M at 1 3. rewrite EK in M. apply M. exact O2.
        * destruct (IH (advance n srcs) (Some e) HL' HS') as (out & O1 & O2).
          { intros b v [= <-] Hv. apply HV4. auto. }
          exists (e :: out). split; [exact O1|]. simpl in *.
          apply (merged_step (all srcs) (all (advance n srcs)) None (vkey e) e out
                   HV1 HV2 HV3 eq_refl HV4 HV5 ltac:(discriminate) O2).
      + exists []. rewrite HM. split.
        * destruct buf as [[kt [r|]]|]; reflexivity.
        * split; [constructor|]. split; intros ? [].
  Qed.

  Lemma merge_streams_merged (srcs : list source) :
    Forall (fun s => wsorted (snd s)) srcs ->
    exists out, merge_streams None srcs = Some (live_rows out) /\ merged (all srcs) None out.
  Proof.
    intros HS. destruct (merge_run_merged (length (all srcs)) srcs None (le_n _) HS) as (out & O1 & O2).
    - discriminate.
    - exists out. split; auto.
  Qed.

  (** LIMIT: a limited merge returns a prefix of the unlimited one. *)
  Lemma merge_run_limit fuel : forall (srcs : list source) buf n out,
    merge_run fuel None buf srcs = Some out ->
    merge_run fuel (Some n) buf srcs = Some (firstn n out).
  Proof.
    induction fuel as [|fuel IH]; intros srcs buf n out; simpl.
    - destruct n as [|n].
      + intros _. now rewrite firstn_O.
      + destruct (heap_min 0 srcs) as [[[j p] e]|]; [discriminate|].
        destruct buf as [[kt [r|]]|]; intros [= <-]; simpl; auto. now rewrite firstn_nil.
    - destruct n as [|n].
      + intros _. now rewrite firstn_O.
      + destruct (heap_min 0 srcs) as [[[j p] e]|].
        * destruct buf as [[bk bv]|]; [|apply IH].
          destruct (keqb (fst bk) (fst (fst e))); [apply IH|].
          destruct bv as [r|]; [|apply IH].
          destruct (merge_run fuel None (Some e) (advance j srcs)) as [o|] eqn:E; [|discriminate].
          intros [= <-]. cbn [decrement_limit pred]. rewrite (IH _ _ n _ E). reflexivity.
        * destruct buf as [[kt [r|]]|]; intros [= <-]; simpl; auto. now rewrite firstn_nil.
  Qed.

  (** *** From layer views to the whole read *)
  Lemma views_merge ts (srcs : list source) (vss : list (list vers)) out :
    Forall2 (fun vs s => is_view vs ts (snd s)) vss srcs ->
    merged (all srcs) None out ->
    is_view (concat vss) ts out.
  Proof.
    intros HV (M1 & M2 & M3).
    assert (HI : forall x, In x (all srcs) -> In x (concat vss) /\ (vts x <= ts)%N).
    { clear M1 M2 M3. unfold all. induction HV as [|vs s vss srcs (_ & H2 & _) HF IH]; simpl; [tauto|].
      intros x Hx. rewrite in_app_iff in *. destruct Hx as [Hx|Hx].
      - destruct (H2 x Hx) as (A & B & _). auto.
      - apply IH in Hx. tauto. }
    assert (HC : forall x, In x (concat vss) -> (vts x <= ts)%N ->
                 exists y, In y (all srcs) /\ same_key (vkey y) (vkey x) /\ (vts x <= vts y)%N).
    { clear M1 M2 M3 HI. unfold all. induction HV as [|vs s vss srcs (_ & H2 & H3) HF IH]; simpl; [tauto|].
      intros x Hx Ht. rewrite in_app_iff in Hx. destruct Hx as [Hx|Hx].
      - destruct (H3 x Hx Ht) as (y & Y1 & Y2). exists y. split; [apply in_or_app; auto|]. split; auto.
        destruct (H2 y Y1) as (_ & _ & C). apply C; auto. unfold same_key in *. korder.
      - destruct (IH x Hx Ht) as (y & Y1 & Y2). exists y. split; [apply in_or_app; auto|auto]. }
    split; auto. split.
    - intros v Hv. destruct (M2 v Hv) as (A & B & _). destruct (HI v A) as (I1 & I2).
      split; auto. split; auto. intros w Hw Hk Ht.
      destruct (HC w Hw Ht) as (y & Y1 & Y2 & Y3).
      transitivity (vts y); auto. apply B; auto. unfold same_key in *. korder.
    - intros v Hv Ht. destruct (HC v Hv Ht) as (y & Y1 & Y2 & Y3).
      destruct (M3 y Y1) as [H|(w & W1 & W2)]; [discriminate|].
      exists w. split; auto. unfold same_key in *. korder.
  Qed.

  Lemma live_rows_In l kt r : In (kt, r) (live_rows l) <-> In (kt, Some r) l.
  Proof.
    unfold live_rows. rewrite in_flat_map. split.
    - intros ([kt' [r'|]] & H1 & H2); simpl in H2; [|destruct H2]. destruct H2 as [[= <- <-]|[]]. auto.
    - intros H. exists (kt, Some r). split; auto. now left.
  Qed.

  Lemma live_rows_ascending l :
    ascending vkey l -> ascending (fun e : (K * N) * R => fst (fst e)) (live_rows l).
  Proof.
    induction 1 as [|[kt v] l H IH HF]; simpl; [constructor|].
    destruct v as [r|]; simpl; auto. constructor; auto.
    rewrite Forall_forall in *. intros [kt' r'] Hx. apply live_rows_In in Hx. apply (HF _ Hx).
  Qed.

  Definition keyedv (key_of : R -> option K) (V : list vers) : Prop :=
    forall kt r, In (kt, Some r) V -> key_of r = Some (fst kt).

  Lemma is_view_read key_of (V : list vers) ts out :
    is_view V ts out -> consistent V -> keyedv key_of V -> read_result V ts (live_rows out).
  Proof.
    intros (H1 & H2 & H3) HC HK. split; [apply live_rows_ascending, H1|].
    intros kt r. rewrite live_rows_In. split; [apply H2|].
    intros (A & B & C). destruct (H3 _ A B) as (w & W1 & W2). destruct (H2 w W1) as (A' & B' & C').
    assert (ET : vts w = vts (kt, Some r)).
    { pose proof (C w A' W2 B'). pose proof (C' (kt, Some r) A (kcmp_eq_sym _ _ W2) B). lia. }
    assert (EV : vval w = Some r) by (apply (HC w (kt, Some r)); auto).
    destruct w as [[k t] v]. unfold vval, vts, vkey in *. simpl in *. subst v t.
    pose proof (HK _ _ A). pose proof (HK _ _ A'). simpl in *. destruct kt as [k' t']. simpl in *.
    replace k' with k by congruence. exact W1.
  Qed.

  Lemma is_view_wsorted (V : list vers) ts out : is_view V ts out -> wsorted out.
  Proof.
    intros (H & _). eapply StronglySorted_impl; [|exact H].
    intros a b _ _ Hab. apply kts_le_cases. auto.
  Qed.
End MergeFacts.
