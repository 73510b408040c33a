(** The outputs of a compaction for every way in which the reader cuts its inputs into
    batches: the merge can leave versions out, it never brings them out of order. *)
From Coq Require Import List NArith Bool Sorted Permutation Lia Arith.
From Verif Require Import Base.Order Base.Sub Model.OMap Model.KeyTs Model.MemTable Model.Immutable
     Model.SsTable Model.Compact Spec.Mvcc Spec.KeySet Spec.Valid Spec.Files Model.Version Model.Planner Model.Db Model.DbCompact Model.Run Spec.History
     Proof.OMapFacts Proof.MemFacts Proof.ViewFacts Proof.SstFacts Proof.MergeFacts Proof.ScanFacts
     Proof.CompactFacts Proof.CompactLoop Proof.CompactOut Proof.VersionFacts Proof.LiveFacts
     Proof.DbFacts Proof.RunFacts Proof.Refine Proof.StorageProps.
Import ListNotations.
Local Arguments kcmp : simpl never.

Section CompactAny.
  Context {K : Type} {KO : KeyOrd K} {R : Type}.
  Variable key_of : R -> option K.
  Variable row_bytes : R -> nat.
  Variable del_bytes : K -> nat.
  Notation vers := (@vers K R).
  Notation cursor := (cursor K R).
  Notation hentry := (hentry K).
  Notation vrem := (vrem key_of).
  Notation rem := (rem key_of).
  Notation batch_at := (batch_at key_of).
  Notation Rem := (Rem key_of).
  Notation feed := (feed key_of row_bytes del_bytes).

  Definition ksorted (l : list vers) : Prop := StronglySorted (fun a b => kcmp (vkey a) (vkey b) <> Gt) l.
  Definition suffix (l' l : list vers) : Prop := exists p, l = p ++ l'.
  Lemma suffix_refl l : suffix l l. Proof. now exists []. Qed.
  Lemma suffix_trans a b c : suffix a b -> suffix b c -> suffix a c.
  Proof. intros (p & ->) (q & ->). exists (q ++ p). now rewrite app_assoc. Qed.
  Lemma suffix_In a b x : suffix a b -> In x a -> In x b.
  Proof. intros (p & ->) H. apply in_app_iff. auto. Qed.
  Lemma suffix_sorted a b : suffix a b -> ksorted b -> ksorted a.
  Proof. intros (p & ->) H. apply StronglySorted_app in H. apply H. Qed.

  (** *** Cursors *)
  Definition keeps (kd : kind) (c c' : cursor) : Prop :=
    vrem kd c' = vrem kd c /\ forall w, batch_at kd c (idx kd c) w -> batch_at kd c' (idx kd c') w /\ idx kd c' = idx kd c.
  Lemma keeps_trans kd a b c : keeps kd a b -> keeps kd b c -> keeps kd a c.
  Proof. intros [A1 A2] [B1 B2]. split; [congruence|]. intros w Hw. destruct (A2 w Hw) as [X Y]. destruct (B2 w X). split; [auto|congruence]. Qed.

  Lemma ensure_vrem kd c : vrem kd (ensure_batch c) = vrem kd c.
  Proof.
    unfold ensure_batch. destruct (cu_batch c) as [b|] eqn:E; auto.
    destruct (cu_rest c) as [|b r] eqn:ER; destruct kd; cbn [CompactFacts.vrem]; unfold cdata, cdels, cur_data, cur_dels; rewrite E, ER; cbn [cu_batch cu_rest cu_di cu_xi map concat].
    - now destruct (cu_di c).
    - now destruct (cu_xi c).
    - now destruct (cu_di c).
    - now destruct (cu_xi c).
  Qed.
  Lemma ensure_keeps kd c : keeps kd c (ensure_batch c).
  Proof.
    split; [apply ensure_vrem|]. intros w H. unfold ensure_batch. unfold CompactFacts.batch_at in H. destruct (cu_batch c) as [b|] eqn:E; [|destruct H].
    split; auto. unfold CompactFacts.batch_at. now rewrite E.
  Qed.

  Lemma at_vrem kd c v : batch_at kd c (idx kd c) v -> exists l, vrem kd c = v :: l.
  Proof.
    unfold CompactFacts.batch_at. destruct (cu_batch c) as [b|] eqn:E; [|intros []]. destruct kd; intros (p & H1 & H2); cbn [CompactFacts.vrem idx] in *;
      apply nth_skipn in H1; unfold cdata, cdels, cur_data, cur_dels; rewrite E, H1; cbn [app flat_map map].
    - rewrite H2. cbn [app]. eauto.
    - rewrite H2. eauto.
  Qed.

  Lemma bdels_len (x : option (list (K * N))) (d : list (R * N)) i :
    match x with Some d0 => Nat.leb (length d0) i | None => true end = true -> length (bdels (d, x)) <= i.
  Proof. unfold bdels. cbn [snd]. destruct x; [now intros H; apply Nat.leb_le in H|cbn; lia]. Qed.
  Lemma bdels_len' (x : option (list (K * N))) (d : list (R * N)) i :
    match x with Some d0 => Nat.leb (length d0) i | None => true end = false -> i < length (bdels (d, x)).
  Proof. unfold bdels. cbn [snd]. destruct x; [now intros H; apply Nat.leb_gt in H|discriminate]. Qed.

  Lemma advance_any kd c v : batch_at kd c (idx kd c) v ->
    vrem kd c = v :: vrem kd (advance kd c) /\ keeps (okd kd) c (advance kd c).
  Proof.
    unfold CompactFacts.batch_at at 1. destruct (cu_batch c) as [[d x]|] eqn:E; [|intros []]. intros H.
    destruct kd; destruct H as (p & H1 & H2); cbn [idx okd] in *; apply nth_skipn in H1 as HS; cbn [fst] in *.
    - assert (HL : cu_di c < length d) by (apply nth_error_Some; congruence).
      assert (EV : vrem KData c = v :: flat_map (dver key_of) (skipn (S (cu_di c)) d ++ concat (map fst (cu_rest c)))).
      { cbn [CompactFacts.vrem]. unfold cdata, cur_data. rewrite E. cbn [fst]. rewrite HS. cbn [app flat_map]. now rewrite H2. }
      rewrite EV. unfold advance, keeps. rewrite E. cbn [CompactFacts.vrem]. unfold cdata, cdels, cur_data, cur_dels, CompactFacts.batch_at. rewrite E.
      destruct (Nat.leb (length d) (S (cu_di c))) eqn:E1; cbn [andb].
      + apply Nat.leb_le in E1. destruct (match x with Some d0 => Nat.leb (length d0) (cu_xi c) | None => true end) eqn:E2; cbn [cu_batch cu_rest cu_di cu_xi app idx fst].
        * apply bdels_len with (d := d) in E2. rewrite !skipn_all2 by auto. cbn [app]. split; auto. split; auto.
          intros w (q & Hq & _). exfalso. apply nth_error_None in E2. unfold idx in Hq. congruence.
        * rewrite ?E. cbn [fst]. auto 6.
      + cbn [cu_batch cu_rest cu_di cu_xi]. rewrite ?E. cbn [fst idx]. split; auto.
    - assert (HL : cu_xi c < length (bdels (d, x))) by (apply nth_error_Some; congruence).
      assert (EV : vrem KDelete c = v :: map xver (skipn (S (cu_xi c)) (bdels (d, x)) ++ concat (map bdels (cu_rest c)))).
      { cbn [CompactFacts.vrem]. unfold cdels, cur_dels. rewrite E. rewrite HS. cbn [app map]. now rewrite H2. }
      rewrite EV. unfold advance, keeps. rewrite E. cbn [CompactFacts.vrem]. unfold cdata, cdels, cur_data, cur_dels, CompactFacts.batch_at. rewrite E.
      destruct (Nat.leb (length d) (cu_di c)) eqn:E1; cbn [andb].
      + apply Nat.leb_le in E1. destruct (match x with Some d0 => Nat.leb (length d0) (S (cu_xi c)) | None => true end) eqn:E2; cbn [cu_batch cu_rest cu_di cu_xi app idx fst].
        * apply bdels_len with (d := d) in E2. rewrite !skipn_all2 by auto. cbn [app]. split; auto. split; auto.
          intros w (q & Hq & _). exfalso. apply nth_error_None in E1. congruence.
        * rewrite ?E. cbn [fst]. auto 6.
      + cbn [cu_batch cu_rest cu_di cu_xi]. rewrite ?E. cbn [fst idx]. split; auto.
  Qed.

  (** A heap entry stands for the next version of its kind in its source. *)
  Definition stands (c : cursor) (kd : kind) (i : nat) (e : hentry) (v : vers) : Prop :=
    batch_at kd c (idx kd c) v /\ e = mkHE (vkey v) (vts v) (idx kd c) kd i (idx kd c).

  Lemma enqueue_any kd skip i : forall fuel c heap c' heap', enqueue key_of fuel i kd skip c heap = Some (c', heap') ->
    suffix (vrem kd c') (vrem kd c) /\ keeps (okd kd) c c' /\
    (heap' = heap \/ exists e v, stands c' kd i e v /\ skips skip (vkey v) = false /\ heap' = heap ++ [e]).
  Proof.
    induction fuel as [|fuel IH]; intros c heap c' heap' H; [discriminate|]. cbn [enqueue] in H.
    pose proof (ensure_vrem kd c) as EV. pose proof (ensure_keeps (okd kd) c) as EK. set (c1 := ensure_batch c) in *.
    assert (Stop : Some (c1, heap) = Some (c', heap') -> suffix (vrem kd c') (vrem kd c) /\ keeps (okd kd) c c' /\
       (heap' = heap \/ exists e v, stands c' kd i e v /\ skips skip (vkey v) = false /\ heap' = heap ++ [e])).
    { intros X. injection X as <- <-. rewrite EV. split; [apply suffix_refl|]. auto. }
    assert (Go : forall v, batch_at kd c1 (idx kd c1) v ->
       (if skips skip (vkey v) then enqueue key_of fuel i kd skip (advance kd c1) heap
        else Some (c1, heap ++ [mkHE (vkey v) (vts v) (idx kd c1) kd i (idx kd c1)])) = Some (c', heap') ->
       suffix (vrem kd c') (vrem kd c) /\ keeps (okd kd) c c' /\
       (heap' = heap \/ exists e v, stands c' kd i e v /\ skips skip (vkey v) = false /\ heap' = heap ++ [e])).
    { intros v HB X. destruct (skips skip (vkey v)) eqn:ES.
      - destruct (advance_any kd c1 v HB) as [A1 A2]. destruct (IH _ _ _ _ X) as (I1 & I2 & I3).
        rewrite <- EV, A1. split; [|split; auto].
        + destruct I1 as (q & ->). exists (v :: q). reflexivity.
        + eapply keeps_trans; [exact EK|]. eapply keeps_trans; eauto.
      - injection X as <- <-. rewrite EV. split; [apply suffix_refl|]. split; auto. right. do 2 eexists. split; [split; [exact HB|reflexivity]|]. auto. }
    destruct (cu_batch c1) as [[d x]|] eqn:EB; [|exact (Stop H)]. destruct kd.
    - destruct (nth_error d (cu_di c1)) as [[r t]|] eqn:EN; [|exact (Stop H)].
      destruct (key_of r) as [k|] eqn:EKY; [|discriminate]. apply (Go ((k, t), Some r)); [|exact H].
      unfold CompactFacts.batch_at. rewrite EB. exists (r, t). split; auto. unfold dver. cbn [fst snd]. now rewrite EKY.
    - destruct x as [x|]; [|exact (Stop H)]. destruct (nth_error x (cu_xi c1)) as [[k t]|] eqn:EN; [|exact (Stop H)].
      apply (Go ((k, t), None)); [|exact H]. unfold CompactFacts.batch_at. rewrite EB. exists (k, t). auto.
  Qed.

  (** *** The heap and the cursors *)
  Definition slot_ok (cs : list cursor) (e : hentry) : Prop :=
    exists c v, nth_error cs (h_src e) = Some c /\ stands c (h_kind e) (h_src e) e v.
  Definition sorted_rem (cs : list cursor) : Prop := forall i kd, ksorted (rem cs i kd).
  Definition shrinks (cs cs' : list cursor) : Prop := forall i kd, suffix (rem cs' i kd) (rem cs i kd).

  Lemma slot_rem cs e : slot_ok cs e -> exists v l, rem cs (h_src e) (h_kind e) = v :: l /\ h_key e = vkey v.
  Proof.
    intros (c & v & E & B & EE). destruct (at_vrem _ _ _ B) as (l & H). exists v, l. unfold CompactFacts.rem. rewrite E.
    split; auto. now rewrite EE.
  Qed.
  Lemma okd_ne kd kd' : kd' <> kd -> kd' = okd kd.
  Proof. destruct kd, kd'; simpl; congruence. Qed.
  Lemma not_same (a b : hentry) : same_slot a b = false -> h_src a = h_src b -> h_kind b <> h_kind a.
  Proof. intros H E F. assert (same_slot (K := K) a b = true) by (apply same_slot_iff; auto). congruence. Qed.

  Lemma refill_any k efuel : forall g cs heap cs' heap', refill key_of efuel g k cs heap = Some (cs', heap') ->
    sorted_rem cs -> Forall (slot_ok cs) g -> Forall (slot_ok cs) heap -> Forall (fun e => kcmp k (h_key e) = Eq) g ->
    Forall (fun e => kcmp k (h_key e) = Lt) heap -> slot_unique heap -> ForallOrdPairs (fun a b => same_slot a b = false) g ->
    (forall a b, In a g -> In b heap -> same_slot a b = false) ->
    shrinks cs cs' /\ length cs' = length cs /\ Forall (slot_ok cs') heap' /\ Forall (fun e => kcmp k (h_key e) = Lt) heap' /\ slot_unique heap'.
  Proof.
    induction g as [|x g IH]; intros cs heap cs' heap' H HS HG HH KG KH HU HP HX.
    - injection H as <- <-. split; [intros i kd; apply suffix_refl|]. auto.
    - cbn [refill] in H. inversion HG as [|? ? (c & v & EC & EB & EE) HG']; subst. rewrite EC in H.
      destruct (enqueue key_of efuel (h_src x) (h_kind x) (Some k) (advance (h_kind x) c) heap) as [[c' heap1]|] eqn:EQ; [|discriminate].
      destruct (advance_any _ _ _ EB) as [A1 A2]. destruct (enqueue_any _ _ _ _ _ _ _ _ EQ) as (Q1 & Q2 & Q3).
      pose proof (keeps_trans _ _ _ _ A2 Q2) as QK. clear A2 Q2. inversion KG as [|? ? KX KG']; subst. inversion HP as [|? ? HP1 HP2]; subst.
      assert (HLT : h_src x < length cs) by (apply nth_error_Some; congruence).
      assert (E1 : nth_error (set_nth (h_src x) c' cs) (h_src x) = Some c') by (apply set_nth_same; auto).
      assert (E2 : forall j, j <> h_src x -> nth_error (set_nth (h_src x) c' cs) j = nth_error cs j) by (intros j Hj; apply set_nth_other; auto).
      assert (SH : shrinks cs (set_nth (h_src x) c' cs)).
      { intros i kd. unfold CompactFacts.rem. destruct (Nat.eq_dec i (h_src x)) as [->|Hi]; [|rewrite E2 by auto; apply suffix_refl].
        rewrite E1, EC. destruct (kind_eqb kd (h_kind x)) eqn:EKD.
        - assert (kd = h_kind x) as -> by (destruct kd, (h_kind x); simpl in *; congruence). rewrite A1.
          destruct Q1 as (q & ->). now exists (v :: q).
        - assert (kd <> h_kind x) as Hkd by (intros ->; destruct (h_kind x); discriminate). apply okd_ne in Hkd as ->.
          rewrite (proj1 QK). apply suffix_refl. }
      assert (OK : forall e, slot_ok cs e -> same_slot x e = false -> slot_ok (set_nth (h_src x) c' cs) e).
      { intros e (ce & ve & C1 & C2 & C3) HN. destruct (Nat.eq_dec (h_src e) (h_src x)) as [Hi|Hi].
        - assert (ce = c) by congruence. subst ce. pose proof (not_same _ _ HN (eq_sym Hi)) as NK. apply okd_ne in NK.
          rewrite NK in C2, C3. destruct (proj2 QK ve C2) as [B1 B2]. exists c', ve. split; [now rewrite Hi|].
          split; [now rewrite NK|]. rewrite NK, B2. exact C3.
        - exists ce, ve. split; [now rewrite E2|]. split; auto. }
      assert (SK : forall e, same_slot x e = false -> True) by auto. clear SK.
      assert (HH1 : Forall (slot_ok (set_nth (h_src x) c' cs)) heap1 /\ Forall (fun e => kcmp k (h_key e) = Lt) heap1 /\ slot_unique heap1 /\
                    forall a b, In a g -> In b heap1 -> same_slot a b = false).
      { assert (HHold : Forall (slot_ok (set_nth (h_src x) c' cs)) heap).
        { rewrite Forall_forall in HH |- *. intros e He. apply OK; auto. apply HX; simpl; auto. }
        destruct Q3 as [->|(e & w & (W1 & W2) & W3 & ->)].
        - repeat split; auto. intros a b Ha Hb. apply HX; simpl; auto.
        - assert (SE : h_src e = h_src x /\ h_kind e = h_kind x) by (rewrite W2; auto). destruct SE as [SE1 SE2].
          split; [|split; [|split]].
          + apply Forall_app. split; auto. constructor; [|constructor]. exists c', w. rewrite SE1, SE2. split; auto. split; auto.
          + apply Forall_app. split; auto. constructor; [|constructor]. rewrite W2. cbn [h_key].
            cbn [skips] in W3. apply keqb_false in W3.
            assert (GE : kcmp (vkey v) (vkey w) <> Gt).
            { specialize (HS (h_src x) (h_kind x)). unfold CompactFacts.rem in HS. rewrite EC, A1 in HS. inversion HS as [|? ? _ HF]; subst.
              rewrite Forall_forall in HF. apply HF. eapply suffix_In; [exact Q1|]. destruct (at_vrem _ _ _ W1) as (l & ->). now left. }
            rewrite EE in KX. cbn [h_key] in KX. destruct (kcmp k (vkey w)) eqn:F; [congruence|auto|].
            exfalso. apply GE. korder.
          + intros a b Ha Hb HSm. apply in_app_iff in Ha as [Ha|[<-|[]]], Hb as [Hb|[<-|[]]]; auto.
            * exfalso. apply same_slot_iff in HSm as [S1 S2]. assert (same_slot x a = true) by (apply same_slot_iff; split; congruence).
              rewrite (HX x a) in H0; [discriminate|now left|auto].
            * exfalso. apply same_slot_iff in HSm as [S1 S2]. assert (same_slot x b = true) by (apply same_slot_iff; split; congruence).
              rewrite (HX x b) in H0; [discriminate|now left|auto].
          + intros a b Ha Hb. apply in_app_iff in Hb as [Hb|[<-|[]]]; [apply HX; simpl; auto|].
            destruct (same_slot a e) eqn:F; auto. apply same_slot_iff in F as [F1 F2]. rewrite Forall_forall in HP1.
            specialize (HP1 a Ha). assert (same_slot x a = true) by (apply same_slot_iff; split; congruence). congruence. }
      destruct HH1 as (J1 & J2 & J3 & J4).
      destruct (IH _ _ _ _ H) as (R1 & R2 & R3 & R4 & R5); auto.
      + intros i kd. eapply suffix_sorted; [apply SH|apply HS].
      + rewrite Forall_forall in HG', HP1 |- *. intros e He. apply OK; auto.
      + split; [intros i kd; eapply suffix_trans; [apply R1|apply SH]|]. split; [now rewrite R2, set_nth_length|]. auto.
  Qed.

  Lemma append_any (c : cursor) (w : hentry) v o : stands c (h_kind w) (h_src w) w v ->
    match h_kind w with
    | KData => append_data row_bytes c (h_row w) o
    | KDelete => append_delete del_bytes c (h_row w) o
    end = push row_bytes del_bytes v o.
  Proof.
    intros [HA EE]. assert (ER : h_row w = idx (h_kind w) c) by (now rewrite EE). rewrite ER.
    unfold CompactFacts.batch_at in HA. destruct (h_kind w).
    - unfold append_data. destruct (cu_batch c) as [[d x]|]; [|contradiction].
      destruct HA as ([r t] & H1 & H2). cbn [fst] in H1. rewrite H1. unfold dver in H2. simpl in H2.
      destruct (key_of r); [|discriminate]. injection H2 as <-. reflexivity.
    - unfold append_delete. destruct (cu_batch c) as [[d [x|]]|]; [| |contradiction].
      + destruct HA as (p & H1 & H2). unfold bdels in H1. cbn [snd] in H1. rewrite H1. unfold xver in H2. subst v. reflexivity.
      + destruct HA as (p & H1 & H2). unfold bdels in H1. cbn [snd] in H1. destruct (idx KDelete c); discriminate.
  Qed.

  Lemma shrinks_Rem cs cs' x : shrinks cs cs' -> In x (Rem cs') -> In x (Rem cs).
  Proof. intros H HX. apply Rem_In in HX as (i & kd & HX). apply Rem_In. exists i, kd. eapply suffix_In; eauto. Qed.

  Lemma loop_any cf efuel : forall fuel heap cs,
    sorted_rem cs -> Forall (slot_ok cs) heap -> slot_unique heap ->
    (forall o outs id next, merge_loop key_of row_bytes del_bytes fuel efuel cf heap cs o outs id next = None) \/
    exists ems, ascending vkey ems /\ (forall x, In x ems -> In x (Rem cs)) /\
      (forall x, In x ems -> exists e, In e heap /\ kcmp (h_key e) (vkey x) <> Gt) /\
      forall o outs id next, merge_loop key_of row_bytes del_bytes fuel efuel cf heap cs o outs id next = feed cf ems o outs id next \/
                             merge_loop key_of row_bytes del_bytes fuel efuel cf heap cs o outs id next = None.
  Proof.
    induction fuel as [|fuel IH]; intros heap cs HS HH HU; [now left|].
    cbn [Compact.merge_loop]. pose proof (heap_pop_spec heap HU) as HP.
    destruct (heap_pop heap) as [[w heap1]|].
    - destruct HP as (P1 & P2 & P3 & _ & P5).
      assert (PK : forall e, In e heap1 -> kcmp (h_key w) (h_key e) <> Gt).
      { intros e He. apply P3 in He as [He _]. specialize (P2 e He). unfold wle in P2. destruct P2 as [->|[-> _]]; congruence. }
      pose proof (pop_group_spec (h_key w) (length heap1) heap1 P5 (le_n _) PK) as HG.
      destruct (pop_group (length heap1) (h_key w) heap1) as [g heap2]. destruct HG as (G1 & G2 & G3 & G4 & G5 & G6).
      rewrite Forall_forall in HH. destruct (HH w P1) as (c & v & EC & ST). rewrite EC.
      destruct (refill key_of efuel (w :: g) (h_key w) cs heap2) as [[cs' heap3]|] eqn:ER; [|now left].
      assert (IN1 : forall e, In e heap1 -> slot_ok cs e) by (intros e He; apply HH; now apply P3 in He as [He _]).
      destruct (refill_any _ _ _ _ _ _ _ ER) as (R1 & R2 & R3 & R4 & R5); auto.
      + constructor; [now exists c, v|]. apply Forall_forall. intros e He. apply IN1. apply G1. auto.
      + apply Forall_forall. intros e He. apply IN1. apply G1. auto.
      + constructor; [apply kcmp_refl|]. apply Forall_forall. intros e He. specialize (G2 e He). korder.
      + apply Forall_forall. auto.
      + constructor; auto. apply Forall_forall. intros x Hx. assert (Hx1 : In x heap1) by (apply G1; auto).
        apply P3 in Hx1 as [_ Hx1]. destruct (same_slot w x) eqn:ES; auto. apply same_slot_iff in ES.
        assert (same_slot x w = true) by (apply same_slot_iff; intuition). congruence.
      + intros a b [<-|Ha] Hb; auto. assert (Hx1 : In b heap1) by (apply G1; auto). apply P3 in Hx1 as [_ Hx1].
        destruct (same_slot w b) eqn:ES; auto. apply same_slot_iff in ES. assert (same_slot b w = true) by (apply same_slot_iff; intuition). congruence.
      + assert (EK : h_key w = vkey v) by (destruct ST as [_ ->]; reflexivity).
        assert (HV : In v (Rem cs)).
        { apply Rem_In. exists (h_src w), (h_kind w). unfold CompactFacts.rem. rewrite EC. destruct (at_vrem _ _ _ (proj1 ST)) as (l & ->). now left. }
        destruct (IH heap3 cs') as [IN|(ems & I1 & I2 & I3 & I4)]; auto.
        { intros i kd. eapply suffix_sorted; [apply R1|apply HS]. }
        * right. exists [v]. split; [repeat constructor|]. split; [intros x [<-|[]]; auto|].
          split; [intros x [<-|[]]; exists w; split; auto; rewrite EK, kcmp_refl; discriminate|].
          intros o outs id next. right. destruct (exceeds_caps (mc_rows cf) (mc_bytes cf) _); [|apply IN]. destruct (o_finish key_of id _); auto.
        * assert (HLT : forall x, In x ems -> kcmp (vkey v) (vkey x) = Lt).
          { intros x Hx. destruct (I3 x Hx) as (e & E1 & E2). rewrite Forall_forall in R4. specialize (R4 e E1). rewrite EK in R4. 
            destruct (kcmp (h_key e) (vkey x)) eqn:F; try congruence; korder. }
          right. exists (v :: ems). split; [|split; [|split]].
          -- constructor; auto. apply Forall_forall. auto.
          -- intros x [<-|Hx]; auto. eapply shrinks_Rem; eauto.
          -- intros x [<-|Hx]; exists w; split; auto; rewrite EK; [rewrite kcmp_refl|rewrite HLT by auto]; discriminate.
          -- intros o outs id next. rewrite (append_any c w v o ST). cbn [CompactLoop.feed].
             destruct (exceeds_caps (mc_rows cf) (mc_bytes cf) _); [|apply I4]. destruct (o_finish key_of id _); auto.
    - right. exists []. split; [constructor|]. split; [intros ? []|]. split; [intros ? []|]. intros. left. reflexivity.
  Qed.

  (** *** Starting the merge *)
  Lemma slot_ok_app pre post e : slot_ok pre e -> slot_ok (pre ++ post) e.
  Proof.
    intros (c & v & E & S). exists c, v. split; auto. rewrite nth_error_app1; auto. apply nth_error_Some. congruence.
  Qed.
  Lemma slot_lt cs e : slot_ok cs e -> h_src e < length cs.
  Proof. intros (c & v & E & _). apply nth_error_Some. congruence. Qed.

  Lemma init_any efuel : forall cs pre heap cs' heap', init_cursors key_of efuel (length pre) cs heap = Some (cs', heap') ->
    Forall (slot_ok pre) heap -> slot_unique heap ->
    Forall (slot_ok (pre ++ cs')) heap' /\ slot_unique heap' /\ Forall2 (fun c c' => forall kd, suffix (vrem kd c') (vrem kd c)) cs cs'.
  Proof.
    induction cs as [|c cs IH]; intros pre heap cs' heap' H HH HU; cbn [init_cursors] in H.
    - injection H as <- <-. rewrite app_nil_r. auto.
    - destruct (enqueue key_of efuel (length pre) KData None c heap) as [[c1 h1]|] eqn:E1; [|discriminate].
      destruct (enqueue key_of efuel (length pre) KDelete None c1 h1) as [[c2 h2]|] eqn:E2; [|discriminate].
      destruct (init_cursors key_of efuel (S (length pre)) cs h2) as [[cs2 h3]|] eqn:E3; [|discriminate]. injection H as <- <-.
      destruct (enqueue_any _ _ _ _ _ _ _ _ E1) as (A1 & A2 & A3). destruct (enqueue_any _ _ _ _ _ _ _ _ E2) as (B1 & B2 & B3). cbn [okd] in *.
      assert (EC : nth_error (pre ++ [c2]) (length pre) = Some c2) by (rewrite nth_error_app2, Nat.sub_diag by auto; reflexivity).
      assert (NEW : Forall (slot_ok (pre ++ [c2])) h1 /\ slot_unique h1 /\ forall e, In e h1 -> h_src e < length pre \/ h_kind e = KData).
      { rewrite Forall_forall in HH. destruct A3 as [->|(e & v & (W1 & W2) & _ & ->)].
        - split; [apply Forall_forall; intros; apply slot_ok_app; auto|]. split; auto. intros e He. left. apply slot_lt. auto.
        - destruct (proj2 B2 v W1) as [W3 W4]. cbn [idx] in *. split; [|split].
          + apply Forall_app. split; [apply Forall_forall; intros; apply slot_ok_app; auto|]. constructor; [|constructor].
            exists c2, v. subst e. cbn [h_src h_kind]. split; auto. split; auto. cbn [idx]. now rewrite W4.
          + intros a b Ha Hb HS. apply same_slot_iff in HS as [S1 S2]. apply in_app_iff in Ha as [Ha|[<-|[]]], Hb as [Hb|[<-|[]]]; auto.
            * apply HU; auto. now apply same_slot_iff.
            * exfalso. apply HH, slot_lt in Ha. subst e. cbn [h_src] in S1. lia.
            * exfalso. apply HH, slot_lt in Hb. subst e. cbn [h_src] in S1. lia.
          + intros x Hx. apply in_app_iff in Hx as [Hx|[<-|[]]]; [left; apply slot_lt; auto|right; now subst e]. }
      destruct NEW as (N1 & N2 & N3).
      assert (NEW2 : Forall (slot_ok (pre ++ [c2])) h2 /\ slot_unique h2).
      { destruct B3 as [->|(e & v & (W1 & W2) & _ & ->)]; auto. split.
        - apply Forall_app. split; auto. constructor; [|constructor]. exists c2, v. subst e. cbn [h_src h_kind]. split; auto. split; auto.
        - intros a b Ha Hb HS. apply same_slot_iff in HS as [S1 S2]. apply in_app_iff in Ha as [Ha|[<-|[]]], Hb as [Hb|[<-|[]]]; auto.
          + apply N2; auto. now apply same_slot_iff.
          + exfalso. apply N3 in Ha. subst e. cbn [h_src h_kind] in *. destruct Ha; [lia|congruence].
          + exfalso. apply N3 in Hb. subst e. cbn [h_src h_kind] in *. destruct Hb; [lia|congruence]. }
      destruct NEW2 as [M1 M2]. destruct (IH (pre ++ [c2]) h2 cs2 h3) as (I1 & I2 & I3); auto.
      { rewrite app_length. cbn [length]. now rewrite Nat.add_1_r. }
      rewrite <- app_assoc in I1. split; auto. split; auto. constructor; auto. intros [].
      + rewrite (proj1 B2). exact A1.
      + rewrite <- (proj1 A2). exact B1.
  Qed.

  Definition stream_sorted (s : list (sbatch K R)) : Prop := ksorted (sdata key_of s) /\ ksorted (sdels s).

  Theorem merge_exec_any cf streams next outs next' : Forall stream_sorted streams ->
    merge_exec key_of row_bytes del_bytes cf streams next = Some (outs, next') ->
    exists Bs, Forall2 (out_ok key_of) outs Bs /\ ascending vkey (concat Bs) /\ (forall v, In v (concat Bs) -> In v (svers key_of streams)) /\
      Forall (capped row_bytes del_bytes cf) Bs /\ map t_id outs = ids_from next (length outs) /\ (next + N.of_nat (length outs) <= next')%N.
  Proof.
    intros HS. unfold merge_exec. set (n := S (S (total_rows streams))). clearbody n.
    set (cs := map (fun s => ensure_batch (mkCur s None 0 0)) streams).
    destruct (init_cursors key_of n 0 cs []) as [[cs' heap]|] eqn:EI; [|discriminate]. intros HE.
    assert (HM : merge_loop key_of row_bytes del_bytes n n cf heap cs' o_new [] next (next + 1)%N = Some (outs, next')) by (destruct heap; [discriminate|exact HE]).
    clear HE. destruct (init_any n cs [] [] cs' heap) as (I1 & I2 & I3); auto; [intros a b []|]. cbn [app] in I1.
    assert (HV : forall s kd, vrem kd (ensure_batch (mkCur s None 0 0)) = match kd with KData => sdata key_of s | KDelete => sdels s end).
    { intros s kd. rewrite ensure_vrem. destruct kd; reflexivity. }
    assert (HC : forall i c', nth_error cs' i = Some c' -> exists s, In s streams /\ suffix (vrem KData c') (sdata key_of s) /\ suffix (vrem KDelete c') (sdels s)).
    { clear - I3 HV. unfold cs in I3. revert cs' I3. induction streams as [|s l IH]; intros cs' H i c' EN; inversion H; subst.
      - destruct i; discriminate.
      - destruct i; cbn [nth_error] in EN.
        + injection EN as <-. exists s. split; [now left|]. pose proof (H2 KData) as A. pose proof (H2 KDelete) as B. rewrite HV in A, B. auto.
        + destruct (IH _ H4 _ _ EN) as (s' & A & B). exists s'. split; [now right|auto]. }
    assert (HSo : sorted_rem cs').
    { intros i kd. unfold CompactFacts.rem. destruct (nth_error cs' i) as [c'|] eqn:EN; [|constructor].
      destruct (HC i c' EN) as (s & S1 & S2 & S3). rewrite Forall_forall in HS. destruct (HS s S1). destruct kd; eapply suffix_sorted; eauto. }
    assert (HRm : forall v, In v (Rem cs') -> In v (svers key_of streams)).
    { intros v Hv. apply Rem_In in Hv as (i & kd & Hv). unfold CompactFacts.rem in Hv. destruct (nth_error cs' i) as [c'|] eqn:EN; [|contradiction].
      destruct (HC i c' EN) as (s & S1 & S2 & S3). unfold svers. apply in_flat_map. exists s. split; auto. apply in_app_iff.
      destruct kd; [left; eapply suffix_In; eauto|right; eapply suffix_In; eauto]. }
    destruct (loop_any cf n n heap cs' HSo I1 I2) as [L|(ems & L1 & L2 & _ & L3)]; [rewrite L in HM; discriminate|].
    destruct (L3 o_new [] next (next + 1)%N) as [L4|L4]; rewrite L4 in HM; [|discriminate].
    assert (HNe : ems <> []) by (intros ->; discriminate HM).
    assert (HK : keyed key_of ems).
    { apply Forall_forall. intros [[k u] [r|]] Hv; simpl; auto. apply L2, HRm in Hv. unfold svers in Hv.
      apply in_flat_map in Hv as (s & Hs & Hv1). apply in_app_iff in Hv1 as [Hv1|Hv1].
      - unfold sdata in Hv1. apply in_flat_map in Hv1 as (p & Hp & Hv1). unfold dver in Hv1. destruct (key_of (fst p)) eqn:E; [|contradiction].
        destruct Hv1 as [Hv1|[]]. injection Hv1 as -> _ <-. exact E.
      - unfold sdels in Hv1. apply in_map_iff in Hv1 as (p & Hp & _). discriminate. }
    destruct (feed_spec key_of row_bytes del_bytes cf ems o_new [] next []) as (news & Bs & nx & F1 & F2 & F3 & F4 & F5 & F6); auto.
    - apply orep_new.
    - congruence.
    - intros P w E. destruct P; discriminate.
    - rewrite F1 in HM. cbn [app] in *. injection HM as <- <-. exists Bs. split; auto. rewrite F3. cbn [app]. auto 6.
  Qed.

  (** *** The outputs of a compaction *)
  Lemma out_files cf outs Bs : Forall2 (out_ok key_of) outs Bs -> ascending vkey (concat Bs) -> Forall (capped row_bytes del_bytes cf) Bs ->
    Forall (sorted_file key_of) outs /\ files_ascend key_of outs /\
    (forall c t, mc_rows cf = Some c -> In t outs -> length (t_rows t) <= Nat.max 1 c) /\
    (forall v, some_file key_of outs v <-> In v (concat Bs)).
  Proof.
    intros E2 M1 E4. destruct (SS_concat _ _ M1) as [S1 S2].
    assert (OUT : Forall2 (fun t B => sorted_file key_of t /\ (forall v, file_version key_of t v <-> In v B) /\ t_rows t = ups B) outs Bs).
    { clear - E2 S1. induction E2 as [|t B outs Bs H E2 IH]; [constructor|]. inversion S1; subst. constructor; auto.
      destruct (out_sorted key_of t B H); auto. destruct H as (_ & _ & H & _). auto. }
    split; [|split; [|split]].
    - apply Forall_forall. clear - OUT. induction OUT as [|t B outs Bs (H & _) HF IH]; intros x []; subst; auto.
    - eapply SS_Forall2; [exact OUT| |exact S2]. simpl. intros a a' b b' (_ & Ha & _) (_ & Ha' & _) HQ v w Hv Hw.
      apply HQ; [now apply Ha|now apply Ha'].
    - intros c t Hc. clear - OUT E4 Hc. induction OUT as [|t' B outs Bs (_ & _ & H) HF IH]; intros []; inversion E4; subst; auto.
      rewrite H. destruct (snoc_case B) as [->|(P & v & ->)]; [simpl; lia|].
      destruct P as [|p P].
      { assert (length (ups [v]) <= 1) by (destruct v as [kt [r|]]; simpl; lia). cbn [app] in *. lia. }
      assert (HP : over row_bytes del_bytes cf (p :: P) = false) by (eapply H3; [reflexivity|discriminate]).
      unfold over in HP. rewrite Hc in HP. apply orb_false_iff in HP as [HP _]. apply Nat.leb_gt in HP. unfold rows_of in HP.
      etransitivity; [apply Nat.eq_le_incl; exact (f_equal (@length _) (ups_app (p :: P) [v]))|]. rewrite app_length.
      assert (length (ups [v]) <= 1) by (destruct v as [kt [r|]]; simpl; lia). lia.
    - intros v. unfold Files.some_file. rewrite in_concat. clear - OUT. induction OUT as [|t B outs Bs (_ & H & _) HF IH].
      + split; intros (x & [] & _).
      + split; intros (x & [<-|Hx] & Hv).
        * exists B. split; [simpl; auto|now apply H].
        * destruct (proj1 IH) as (B' & B1 & B2); [eauto|]. exists B'. simpl. auto.
        * exists t. split; [simpl; auto|now apply H].
        * destruct (proj2 IH) as (B' & B1 & B2); [eauto|]. exists B'. simpl. auto.
  Qed.

  Lemma sorted_in_order t : sorted_file key_of t -> in_key_order key_of t.
  Proof.
    intros [A B C _]. split.
    - eapply StronglySorted_impl; [|exact B]. intros p q _ _ H k l Hk Hl. rewrite (H k l Hk Hl). discriminate.
    - eapply StronglySorted_impl; [|exact C]. cbn beta. intros p q _ _ ->. discriminate.
  Qed.
  Lemma dver_ksorted l : StronglySorted (fun p q => forall k l, key_of (fst p) = Some k -> key_of (fst q) = Some l -> kcmp k l <> Gt) l ->
    ksorted (flat_map (dver key_of) l).
  Proof.
    induction 1 as [|p l H IH HF]; [constructor|]. cbn [flat_map]. unfold dver at 1. destruct (key_of (fst p)) as [k|] eqn:E; auto.
    constructor; auto. apply Forall_forall. intros v Hv. apply in_flat_map in Hv as (q & Hq & Hv). unfold dver in Hv.
    destruct (key_of (fst q)) as [k'|] eqn:E'; [|contradiction]. destruct Hv as [<-|[]]. rewrite Forall_forall in HF. apply (HF q Hq); auto.
  Qed.
  Lemma xver_ksorted l : StronglySorted (fun p q : K * N => kcmp (fst p) (fst q) <> Gt) l -> ksorted (map (@xver K R) l).
  Proof. induction 1 as [|p l H IH HF]; [constructor|]. cbn [map]. constructor; auto. now rewrite Forall_map. Qed.

  Lemma stream_any ch t : in_key_order key_of t -> reads_whole ch t ->
    stream_sorted (stream_of ch t) /\ sdata key_of (stream_of ch t) ++ sdels (stream_of ch t) = tver key_of t.
  Proof.
    intros [A B] [C D]. unfold stream_sorted, sdata, sdels, stream_of. rewrite zip_fst, zip_snd, C, D. split; [|reflexivity].
    split; [now apply dver_ksorted|now apply xver_ksorted].
  Qed.

  Theorem compact_any cf ch tk d d' : laid_out key_of d -> (forall t, In t (concat (d_levels d)) -> reads_whole ch t) ->
    compact key_of row_bytes del_bytes cf ch tk d = (d', true) ->
    exists ins outs,
      (forall t, In t ins <-> In t (concat (d_levels d)) /\ In (t_id t) (map snd (tk_input tk))) /\
      (forall l t, In t (nth l (d_levels d') []) <->
         (l = tk_target tk /\ In t outs) \/ (In t (nth l (d_levels d) []) /\ ~ In (l, t_id t) (tk_input tk))) /\
      Forall (sorted_file key_of) outs /\ files_ascend key_of outs /\
      (forall c t, mc_rows cf = Some c -> In t outs -> length (t_rows t) <= Nat.max 1 c) /\
      (forall v, some_file key_of outs v -> some_file key_of ins v) /\
      laid_out key_of d'.
  Proof.
    intros [LN LI LO] HW. unfold compact.
    destruct (resolve_inputs (@t_id K R) (d_levels d) (tk_input tk)) as [ins|] eqn:ER; [|discriminate].
    destruct (resolve_In (@t_id K R) _ _ _ ER) as [R1 R2].
    destruct ins as [|p0 ins0]; [discriminate|]. set (ins := p0 :: ins0) in *.
    destruct (merge_exec key_of row_bytes del_bytes cf (map (fun p => stream_of ch (snd p)) ins) (d_next_id d)) as [[outs next']|] eqn:EM; [|discriminate].
    assert (R3 : forall p, In p ins -> In (snd p) (concat (d_levels d)) /\ In (t_id (snd p)) (map snd (tk_input tk))).
    { intros p Hp. rewrite Forall_forall in R2. destruct (R2 p Hp) as [_ X]. split; [apply In_nth_level; eauto|].
      rewrite <- R1, map_map. apply in_map_iff. exists p. auto. }
    rewrite Forall_forall in LO.
    assert (ST : forall p, In p ins -> stream_sorted (stream_of ch (snd p)) /\
               sdata key_of (stream_of ch (snd p)) ++ sdels (stream_of ch (snd p)) = tver key_of (snd p)).
    { intros p Hp. destruct (R3 p Hp) as [X1 X2]. apply stream_any; auto. }
    assert (SV : svers key_of (map (fun p => stream_of ch (snd p)) ins) = flat_map (fun p => tver key_of (snd p)) ins).
    { unfold svers. clear - ST. induction ins as [|p l IH]; simpl; auto.
      rewrite (proj2 (ST p (or_introl eq_refl))), IH; auto. intros q Hq. apply ST. simpl; auto. }
    destruct (merge_exec_any cf _ _ _ _ ltac:(apply Forall_map, Forall_forall; intros p Hp; apply ST; exact Hp) EM) as (Bs & E2 & E3 & E3' & E4 & E5 & E6).
    rewrite SV in E3'.
    assert (OI : forall t, In t outs -> (d_next_id d <= t_id t < next')%N).
    { intros t Ht. apply (in_map (@t_id K R)) in Ht. rewrite E5 in Ht. apply ids_from_In in Ht. lia. }
    assert (LI' : forall t, In t (concat (d_levels d)) -> (t_id t < d_next_id d)%N) by exact LI.
    destruct (outcome_spec (@t_id K R) (mkVer 0 (d_levels d) [] None None) (tk_input tk) ins outs (tk_target tk))
      as (v' & V1 & V2 & V3).
    { exact LN. } { exact ER. } { rewrite E5. apply ids_from_NoDup. }
    { intros e He F. cbn [v_levels] in F. apply in_map_iff in F as (x & X1 & X2). apply LI' in X2. apply OI in He. lia. }
    cbn [v_levels] in V2. rewrite V1. intros X. injection X as <-. cbn [d_levels].
    destruct (out_files cf outs Bs E2 E3 E4) as (O1 & O2 & O3 & O4).
    exists (map snd ins), outs. split; [|split; [|split; [|split; [|split; [|split]]]]]; auto.
    - intros t. rewrite in_map_iff. split.
      + intros (p & <- & Hp). auto.
      + intros [Ht Hid]. rewrite <- R1, map_map in Hid. apply in_map_iff in Hid as (p & P1 & P2).
        exists p. split; auto. destruct (R3 _ P2) as [P3 _]. cbn [snd] in P1.
        clear - LN Ht P1 P3. induction (concat (d_levels d)) as [|x l IH]; [destruct Ht|].
        simpl in LN. inversion LN as [|? ? N1 N2]; subst. destruct Ht as [->|Ht], P3 as [P3|P3]; auto.
        * exfalso. apply N1. rewrite <- P1. now apply in_map.
        * exfalso. subst x. apply N1. rewrite P1. now apply in_map.
    - rewrite <- R1. apply (outcome_levels (@t_id K R) (mkVer 0 (d_levels d) [] None None) v' ins outs (tk_target tk)); auto.
      + cbn [v_levels]. intros l. apply NoDup_nth_level. exact LN.
      + rewrite E5. apply ids_from_NoDup.
      + cbn [v_levels]. intros e He F. apply OI in He. apply in_map_iff in F as (x & X1 & X2).
        assert (X3 : In x (concat (d_levels d))) by (apply In_nth_level; eauto). apply LI' in X3. lia.
    - intros v Hv. apply O4, E3' in Hv. apply some_tver. rewrite flat_map_map. exact Hv.
    - constructor; cbn [d_levels d_next_id]; auto.
      + intros t Ht. apply V2 in Ht as [Ht|[Ht _]]; [apply OI in Ht; lia|]. apply LI' in Ht.
        assert (X : (d_next_id d <= next')%N) by lia. lia.
      + apply Forall_forall. intros t Ht. apply V2 in Ht as [Ht|[Ht _]]; auto. apply sorted_in_order.
        rewrite Forall_forall in O1. auto.
  Qed.
End CompactAny.

(** In every reachable database the files are laid out as [compact_any] needs. *)
Section Reach.
  Context (K : Type) (KO : KeyOrd K) (R : Type) (key_of : R -> option K).
  Lemma tok_in_order t : tok key_of t -> in_key_order key_of t.
  Proof.
    intros [(D & X & (E1 & HK & E2 & S1 & S2) & _) _]. split.
    - rewrite E1. clear - HK S1. induction S1 as [|a D H IH HF]; [constructor|]. unfold dkeyed in *. inversion HK as [|? ? HA HK']; subst. cbn [map]. constructor; auto.
      rewrite Forall_map, Forall_forall in *. intros b Hb k l Hk Hl. specialize (HF b Hb). specialize (HK' b Hb). unfold drow in *. cbn [fst] in *.
      rewrite HA in Hk. rewrite HK' in Hl. injection Hk as <-. injection Hl as <-. intros F. apply HF. destruct a as [[ka ta] ra], b as [[kb tb] rb]. cbn [fst snd] in *.
      change (kts_cmp (ka, ta) (kb, tb) = Gt). unfold kts_cmp. cbn [fst snd]. now rewrite F.
    - rewrite E2. eapply StronglySorted_impl; [|exact S2]. intros [ka ta] [kb tb] _ _ H F. cbn [fst] in F. apply H.
      change (kts_cmp (ka, ta) (kb, tb) = Gt). unfold kts_cmp. cbn [fst snd]. now rewrite F.
  Qed.
  Lemma reach_laid_out row_bytes del_bytes capacity ops : 1 <= capacity -> (N.of_nat (length ops) < 2 ^ 64)%N ->
    ops_ok key_of row_bytes del_bytes (start capacity) ops ->
    laid_out key_of (st_db (run key_of row_bytes del_bytes (start capacity) ops)).
  Proof.
    intros HC HL HO. destruct (p_inv K KO R key_of row_bytes del_bytes capacity ops HC HL HO) as [HI _].
    destruct (iv_rep _ _ HI) as (M & Is & [_ _ _ HS HD HN _] & _). constructor; auto.
    - apply Forall_forall. exact HD.
    - eapply Forall_impl; [|exact HS]. apply tok_in_order.
  Qed.
End Reach.
