(** The output tables of major compaction, and the theorem about the whole merge. *)
From Coq Require Import List NArith Bool Sorted Permutation Lia Arith.
From Verif Require Import Base.Order Base.Sub Model.OMap Model.KeyTs Model.MemTable Model.Immutable
     Model.SsTable Model.Compact Spec.Mvcc Spec.KeySet Spec.Valid
     Proof.OMapFacts Proof.MemFacts Proof.ViewFacts Proof.SstFacts Proof.MergeFacts Proof.ScanFacts
     Proof.CompactFacts Proof.CompactLoop.
Import ListNotations.
Local Arguments kcmp : simpl never.
Local Arguments CompactFacts.vrem : simpl never.

Section Bounds.
  Context {K : Type} {KO : KeyOrd K} {R : Type}.
  Notation vers := (@vers K R).

  Lemma upd_key (st : stats (K := K)) a z :
    let st' := update_key_bounds st a z in
    (forall k, key_lo (st_min_key st) k -> key_lo (st_min_key st') k) /\
    (forall k, key_hi (st_max_key st) k -> key_hi (st_max_key st') k) /\
    (forall k, kcmp a k <> Gt -> key_lo (st_min_key st') k) /\
    (forall k, kcmp k z <> Gt -> key_hi (st_max_key st') k) /\
    (forall m, st_min_key st' = Some m -> st_min_key st = Some m \/ m = a) /\
    (forall m, st_max_key st' = Some m -> st_max_key st = Some m \/ m = z).
  Proof.
    unfold update_key_bounds, key_lo, key_hi. simpl.
    destruct (st_min_key st) as [e|], (st_max_key st) as [f|];
      unfold kleb; repeat match goal with |- context [match kcmp ?x ?y with _ => _ end] => let E := fresh "E" in destruct (kcmp x y) eqn:E end;
      repeat split; intros; 
      repeat match goal with H : exists _, _ |- _ => destruct H as (? & ? & ?) | H : Some _ = Some _ |- _ => injection H as <- | H : None = Some _ |- _ => discriminate end;
      auto; try (eexists; split; [reflexivity|]; korder2).
  Qed.
  Lemma upd_ts (st : stats (K := K)) a z :
    let st' := update_commit_bounds st a z in
    (forall k, ts_lo (st_min_ts st) k -> ts_lo (st_min_ts st') k) /\
    (forall k, ts_hi (st_max_ts st) k -> ts_hi (st_max_ts st') k) /\
    (forall k, (a <= k)%N -> ts_lo (st_min_ts st') k) /\
    (forall k, (k <= z)%N -> ts_hi (st_max_ts st') k) /\
    (forall m, st_min_ts st' = Some m -> st_min_ts st = Some m \/ m = a) /\
    (forall m, st_max_ts st' = Some m -> st_max_ts st = Some m \/ m = z).
  Proof.
    unfold update_commit_bounds, ts_lo, ts_hi. simpl.
    destruct (st_min_ts st) as [e|], (st_max_ts st) as [f|];
      repeat match goal with |- context [N.leb ?x ?y] => destruct (N.leb_spec x y) end;
      repeat split; intros; 
      repeat match goal with H : exists _, _ |- _ => destruct H as (? & ? & ?) | H : Some _ = Some _ |- _ => injection H as <- | H : None = Some _ |- _ => discriminate end;
      auto; try (eexists; split; [reflexivity|]; lia).
  Qed.
End Bounds.

Section CompactOut.
  Context {K : Type} {KO : KeyOrd K} {R : Type}.
  Variable key_of : R -> option K.
  Variable row_bytes : R -> nat.
  Variable del_bytes : K -> nat.
  Notation vers := (@vers K R).
  Notation push := (push row_bytes del_bytes).
  Notation feed := (feed key_of row_bytes del_bytes).

  Definition st_covers (st : stats (K := K)) (V : list vers) : Prop :=
    covers (st_min_key st) (st_max_key st) (st_min_ts st) (st_max_ts st) V /\
    attained (st_min_key st) (st_max_key st) (st_min_ts st) (st_max_ts st) V.

  Lemma last_map {A B} (f : A -> B) l d : last (map f l) (f d) = f (last l d).
  Proof. induction l as [|a [|b l] IH]; simpl in *; auto. Qed.
  Lemma last_In {A} (x : A) l d : In (last (x :: l) d) (x :: l).
  Proof. revert x. induction l as [|y l IH]; intros x; simpl; auto. right. apply (IH y). Qed.
  Lemma SS_hd_last {A} (P : A -> A -> Prop) x l d : StronglySorted P (x :: l) ->
    forall y, In y (x :: l) -> (y = x \/ P x y) /\ (y = last (x :: l) d \/ P y (last (x :: l) d)).
  Proof.
    revert x. induction l as [|z l IH]; intros x HS y Hy.
    - destruct Hy as [<-|[]]. auto.
    - inversion HS as [|? ? HS' HF]; subst. rewrite Forall_forall in HF.
      destruct Hy as [<-|Hy].
      + split; auto. right. apply HF. apply (last_In z l d).
      + split; [right; apply HF; auto|]. apply (IH z HS' y Hy).
  Qed.

  Lemma ups_In r t (B : list vers) : In (r, t) (ups B) <-> exists k, In ((k, t), Some r) B.
  Proof.
    unfold ups. rewrite in_flat_map. split.
    - intros ([[k u] [r'|]] & H1 & H2); simpl in H2; [|contradiction]. destruct H2 as [[= <- <-]|[]]. eauto.
    - intros (k & H). eexists. split; eauto. simpl. auto.
  Qed.
  Lemma dels_In kt (B : list vers) : In kt (dels B) <-> In (kt, None) B.
  Proof.
    unfold dels. rewrite in_flat_map. split.
    - intros ([kt' [r'|]] & H1 & H2); simpl in H2; [contradiction|]. destruct H2 as [<-|[]]. auto.
    - intros H. eexists. split; eauto. simpl. auto.
  Qed.
  Lemma ups_dels_nil (B : list vers) : ups B = [] -> dels B = [] -> B = [].
  Proof. destruct B as [|[kt [r|]] B]; simpl; auto; discriminate. Qed.

  Lemma ups_sorted (B : list vers) : keyed key_of B -> ascending vkey B ->
    StronglySorted (fun a b : R * N => forall ka kb, key_of (fst a) = Some ka -> key_of (fst b) = Some kb -> kcmp ka kb = Lt) (ups B).
  Proof.
    intros HK HA. induction HA as [|[[k t] v] B HA IH HF]; simpl; [constructor|].
    inversion HK as [|? ? HK1 HK2]; subst. simpl in HK1. specialize (IH HK2).
    destruct v as [r|]; auto. simpl. constructor; auto. apply Forall_forall.
    intros [r' t'] Hx ka kb. simpl. intros H1 H2. apply ups_In in Hx as (k' & Hx). rewrite Forall_forall in HF.
    specialize (HF _ Hx). unfold keyed in HK2. rewrite Forall_forall in HK2. specialize (HK2 _ Hx). simpl in HK2.
    unfold vkey in HF. simpl in HF. congruence.
  Qed.
  Lemma dels_sorted (B : list vers) : ascending vkey B ->
    StronglySorted (fun a b : K * N => kcmp (fst a) (fst b) = Lt) (dels B).
  Proof.
    intros HA. induction HA as [|[[k t] v] B HA IH HF]; simpl; [constructor|].
    destruct v as [r|]; auto. simpl. constructor; auto. apply Forall_forall.
    intros [k' t'] Hx. apply dels_In in Hx. rewrite Forall_forall in HF.
    specialize (HF _ Hx). exact HF.
  Qed.

  Lemma attained_mono (a b : option K) (c d : option N) (V W : list vers) :
    (forall v, In v V -> In v W) -> attained a b c d V -> attained a b c d W.
  Proof.
    intros H (A1 & A2 & A3 & A4). split; [|split; [|split]]; intros x Hx.
    - destruct (A1 x Hx) as (v & ? & ?); eauto.
    - destruct (A2 x Hx) as (v & ? & ?); eauto.
    - destruct (A3 x Hx) as (v & ? & ?); eauto.
    - destruct (A4 x Hx) as (v & ? & ?); eauto.
  Qed.

  Lemma stage_one st V B : st_covers st V -> B <> [] -> ascending vkey B -> keyed key_of B ->
    exists st', stage_stream_batch key_of st (ups B, dels B) = Some st' /\ st_covers st' (V ++ B) /\
                st_segments st' = S (st_segments st).
  Proof.
    intros [HC HT] HB HA HK.
    (* key bounds of the data part *)
    assert (H1 : exists st1,
      match ups B with
      | [] => Some st
      | (r0, _) :: _ =>
          match key_of r0, key_of (fst (last (ups B) (r0, 0%N))) with
          | Some a, Some z => Some (update_key_bounds st a z)
          | _, _ => None
          end
      end = Some st1 /\
      (forall k, key_lo (st_min_key st) k -> key_lo (st_min_key st1) k) /\
      (forall k, key_hi (st_max_key st) k -> key_hi (st_max_key st1) k) /\
      (forall k t r, In ((k, t), Some r) B -> key_lo (st_min_key st1) k /\ key_hi (st_max_key st1) k) /\
      (forall m, st_min_key st1 = Some m -> st_min_key st = Some m \/ exists v, In v B /\ vkey v = m) /\
      (forall m, st_max_key st1 = Some m -> st_max_key st = Some m \/ exists v, In v B /\ vkey v = m) /\
      st_min_ts st1 = st_min_ts st /\ st_max_ts st1 = st_max_ts st /\ st_segments st1 = st_segments st).
    { assert (HKin : forall r t, In (r, t) (ups B) -> exists k, key_of r = Some k /\ In ((k, t), Some r) B).
      { intros r t Hr. apply ups_In in Hr as (k & Hr). exists k. split; auto.
        unfold keyed in HK. rewrite Forall_forall in HK. apply (HK _ Hr). }
      destruct (ups B) as [|[r0 t0] l] eqn:EU.
      - exists st. repeat split; auto.
        + intros. exfalso. assert (HX : In (r, t) (ups B)) by (apply ups_In; eauto). rewrite EU in HX. contradiction.
        + intros. exfalso. assert (HX : In (r, t) (ups B)) by (apply ups_In; eauto). rewrite EU in HX. contradiction.
      - destruct (HKin r0 t0 (or_introl eq_refl)) as (a & Ea & Ia). rewrite Ea.
        pose proof (last_In (r0, t0) l (r0, 0%N)) as Hl. destruct (last ((r0, t0) :: l) (r0, 0%N)) as [rz tz] eqn:EL.
        destruct (HKin rz tz Hl) as (z & Ez & Iz). cbn [fst]. rewrite Ez.
        destruct (upd_key st a z) as (U1 & U2 & U3 & U4 & U5 & U6).
        exists (update_key_bounds st a z). split; auto. split; auto. split; auto. split; [|split; [|split]].
        + intros k t r HI. assert (HX : In (r, t) ((r0, t0) :: l)) by (rewrite <- EU; apply ups_In; eauto).
          pose proof (ups_sorted B HK HA) as HS. rewrite EU in HS.
          destruct (SS_hd_last _ _ _ (r0, 0%N) HS _ HX) as [S1 S2]. rewrite EL in S2.
          unfold keyed in HK. rewrite Forall_forall in HK. pose proof (HK _ HI) as HKr. cbn [snd fst] in HKr.
          split; [apply U3|apply U4].
          * destruct S1 as [S1|S1]; [injection S1 as -> ->; assert (a = k) as -> by congruence; rewrite kcmp_refl; congruence|].
            rewrite (S1 a k); auto; congruence.
          * destruct S2 as [S2|S2]; [injection S2 as -> ->; assert (z = k) as -> by congruence; rewrite kcmp_refl; congruence|].
            rewrite (S2 k z); auto; congruence.
        + intros m Hm. destruct (U5 m Hm) as [-> | ->]; auto. right. eexists. split; [exact Ia|reflexivity].
        + intros m Hm. destruct (U6 m Hm) as [-> | ->]; auto. right. eexists. split; [exact Iz|reflexivity].
        + auto. }
    destruct H1 as (st1 & E1 & L1 & L2 & L3 & L4 & L5 & L6 & L7 & L8).
    assert (H2 : exists st2,
      match dels B with
      | [] => st1
      | (k0, t0) :: _ => update_key_bounds st1 k0 (fst (last (dels B) (k0, t0)))
      end = st2 /\
      (forall k, key_lo (st_min_key st1) k -> key_lo (st_min_key st2) k) /\
      (forall k, key_hi (st_max_key st1) k -> key_hi (st_max_key st2) k) /\
      (forall k t, In ((k, t), None) B -> key_lo (st_min_key st2) k /\ key_hi (st_max_key st2) k) /\
      (forall m, st_min_key st2 = Some m -> st_min_key st1 = Some m \/ exists v, In v B /\ vkey v = m) /\
      (forall m, st_max_key st2 = Some m -> st_max_key st1 = Some m \/ exists v, In v B /\ vkey v = m) /\
      st_min_ts st2 = st_min_ts st1 /\ st_max_ts st2 = st_max_ts st1 /\ st_segments st2 = st_segments st1).
    { eexists. split; [reflexivity|]. destruct (dels B) as [|[k0 t0] l] eqn:ED.
      - repeat split; auto.
        + intros. exfalso. assert (HX : In (k, t) (dels B)) by (apply dels_In; eauto). rewrite ED in HX. contradiction.
        + intros. exfalso. assert (HX : In (k, t) (dels B)) by (apply dels_In; eauto). rewrite ED in HX. contradiction.
      - pose proof (last_In (k0, t0) l (k0, t0)) as Hl. destruct (last ((k0, t0) :: l) (k0, t0)) as [kz tz] eqn:EL. cbn [fst].
        destruct (upd_key st1 k0 kz) as (U1 & U2 & U3 & U4 & U5 & U6).
        split; auto. split; auto. split; [|split; [|split]].
        + intros k t HI. assert (HX : In (k, t) ((k0, t0) :: l)) by (rewrite <- ED; apply dels_In; eauto).
          pose proof (dels_sorted B HA) as HS. rewrite ED in HS.
          destruct (SS_hd_last _ _ _ (k0, t0) HS _ HX) as [S1 S2]. rewrite EL in S2. cbn [fst] in S1, S2.
          split; [apply U3|apply U4].
          * destruct S1 as [S1|S1]; [injection S1 as -> ->; rewrite kcmp_refl; congruence|]. rewrite S1. congruence.
          * destruct S2 as [S2|S2]; [injection S2 as -> ->; rewrite kcmp_refl; congruence|]. rewrite S2. congruence.
        + intros m Hm. destruct (U5 m Hm) as [-> | ->]; auto. right.
          assert (HI : In ((k0, t0), None) B) by (apply dels_In; rewrite ED; left; auto). eexists. split; [exact HI|reflexivity].
        + intros m Hm. destruct (U6 m Hm) as [-> | ->]; auto. right.
          assert (HI : In ((kz, tz), None) B) by (apply dels_In; rewrite ED; auto). eexists. split; [exact HI|reflexivity].
        + auto. }
    destruct H2 as (st2 & E2 & M1 & M2 & M3 & M4 & M5 & M6 & M7 & M8).
    assert (HTS : forall t, In t (map snd (ups B) ++ map snd (dels B)) <-> exists v, In v B /\ vts v = t).
    { intros t. rewrite in_app_iff, !in_map_iff. split.
      - intros [([r u] & <- & HX)|([k u] & <- & HX)].
        + apply ups_In in HX as (k & HX). eexists; split; [exact HX|reflexivity].
        + apply dels_In in HX. eexists; split; [exact HX|reflexivity].
      - intros ([[k u] [r|]] & HX & <-); [left|right].
        + exists (r, u). split; auto. apply ups_In. eauto.
        + exists (k, u). split; auto. apply dels_In. auto. }
    pose proof (ts_bounds_spec (map snd (ups B) ++ map snd (dels B))) as HTB.
    destruct (ts_bounds (map snd (ups B) ++ map snd (dels B))) as [[mn mx]|] eqn:ET.
    2:{ exfalso. apply app_eq_nil in HTB as [HT1 HT2]. apply map_eq_nil in HT1, HT2. apply HB. now apply ups_dels_nil. }
    destruct HTB as (T1 & T2 & T3). apply HTS in T1, T2.
    destruct (upd_ts st2 mn mx) as (W1 & W2 & W3 & W4 & W5 & W6).
    set (st3 := update_commit_bounds st2 mn mx) in *.
    exists (mkStats (st_min_key st3) (st_max_key st3) (st_min_ts st3) (st_max_ts st3) (S (st_segments st3))).
    split; [|split].
    - unfold stage_stream_batch. rewrite E1, E2, ET. fold st3.
      destruct (ups B) eqn:EU; [destruct (dels B) eqn:ED|]; try reflexivity.
      exfalso. apply HB. now apply ups_dels_nil.
    - split; cbn [st_min_key st_max_key st_min_ts st_max_ts].
      + intros v Hv. apply in_app_iff in Hv as [Hv|Hv].
        * destruct (HC v Hv) as (C1 & C2 & C3 & C4). split; [|split; [|split]].
          -- apply M1, L1, C1. -- apply M2, L2, C2.
          -- apply W1. rewrite M6, L6. auto. -- apply W2. rewrite M7, L7. auto.
        * assert (HTv : (mn <= vts v <= mx)%N) by (apply T3, HTS; eauto).
          assert (HKv : key_lo (st_min_key st2) (vkey v) /\ key_hi (st_max_key st2) (vkey v)).
          { destruct v as [[k t] [r|]]; [destruct (L3 _ _ _ Hv); auto|apply (M3 _ _ Hv)]. }
          destruct HKv. split; [|split; [|split]]; auto; [apply W3|apply W4]; lia.
      + destruct HT as (A1 & A2 & A3 & A4).
        assert (HV : forall (P : vers -> Prop), (exists v, In v V /\ P v) -> exists v, In v (V ++ B) /\ P v).
        { intros P (v & Hv & HP). exists v. rewrite in_app_iff. auto. }
        assert (HV' : forall (P : vers -> Prop), (exists v, In v B /\ P v) -> exists v, In v (V ++ B) /\ P v).
        { intros P (v & Hv & HP). exists v. rewrite in_app_iff. auto. }
        split; [|split; [|split]].
        * intros m Hm. destruct (M4 m Hm) as [Hm'|Hm']; auto. destruct (L4 m Hm') as [Hm2|Hm2]; auto.
        * intros m Hm. destruct (M5 m Hm) as [Hm'|Hm']; auto. destruct (L5 m Hm') as [Hm2|Hm2]; auto.
        * intros m Hm. destruct (W5 m Hm) as [Hm'| ->]; auto. rewrite M6, L6 in Hm'. auto.
        * intros m Hm. destruct (W6 m Hm) as [Hm'| ->]; auto. rewrite M7, L7 in Hm'. auto.
    - simpl. rewrite M8, L8. reflexivity.
  Qed.

  Definition bb (B : list vers) := (ups B, dels B).
  Lemma stage_all Bs : forall st V, st_covers st V ->
    Forall (fun B => B <> [] /\ ascending vkey B /\ keyed key_of B) Bs ->
    exists st', stage_batches key_of st (map bb Bs) = Some st' /\ st_covers st' (V ++ concat Bs) /\
                st_segments st' = st_segments st + length Bs.
  Proof.
    induction Bs as [|B Bs IH]; intros st V HC HF.
    - exists st. simpl. rewrite app_nil_r, Nat.add_0_r. auto.
    - inversion HF as [|? ? (HB1 & HB2 & HB3) HF']; subst.
      destruct (stage_one st V B HC HB1 HB2 HB3) as (st1 & S1 & S2 & S3).
      destruct (IH st1 (V ++ B) S2 HF') as (st' & I1 & I2 & I3).
      exists st'. cbn [map stage_batches]. change (bb B) with (ups B, dels B). rewrite S1. split; auto.
      simpl. rewrite app_assoc. split; auto. rewrite I3, S3. lia.
  Qed.

  (** *** Writer state *)
  Definition rows_of (B : list vers) : nat := length (ups B).
  Definition bytes_of (B : list vers) : nat :=
    list_sum (map (fun v : vers => match snd v with Some r => row_bytes r | None => del_bytes (vkey v) end) B).
  Definition orep (o : ostate K R) (B : list vers) : Prop :=
    exists Bs P, o_batches o = map bb Bs /\ Forall (fun B => B <> []) Bs /\ o_data o = ups P /\ o_dels o = dels P /\
      concat Bs ++ P = B /\ o_rows o = rows_of B /\ o_tombs o = length (dels B) /\ o_bytes o = bytes_of B.

  Lemma orep_new : orep o_new [].
  Proof. exists [], []. repeat split; constructor. Qed.

  Lemma ups_app (A B : list vers) : ups (A ++ B) = ups A ++ ups B.
  Proof. apply flat_map_app. Qed.
  Lemma dels_app (A B : list vers) : dels (A ++ B) = dels A ++ dels B.
  Proof. apply flat_map_app. Qed.
  Lemma bytes_app A B : bytes_of (A ++ B) = bytes_of A + bytes_of B.
  Proof. unfold bytes_of. rewrite map_app, list_sum_app. reflexivity. Qed.

  Lemma orep_push o B v : orep o B -> orep (push v o) (B ++ [v]).
  Proof.
    intros (Bs & P & H1 & H2 & H3 & H4 & H5 & H6 & H7 & H8). exists Bs, (P ++ [v]).
    unfold CompactLoop.push, rows_of in *. rewrite (app_assoc (concat Bs)), H5.
    rewrite !ups_app, !dels_app, bytes_app, !app_length.
    destruct v as [[k t] [r|]]; simpl; rewrite ?app_nil_r, H3, H4, H6, H7, H8; unfold bytes_of; simpl;
      repeat split; auto; lia.
  Qed.
  Lemma orep_flush o B : orep o B -> orep (flush_chunk o) B /\ (o_data (flush_chunk o) = [] /\ o_dels (flush_chunk o) = []).
  Proof.
    intros (Bs & P & H1 & H2 & H3 & H4 & H5 & H6 & H7 & H8). unfold flush_chunk. rewrite H3, H4.
    destruct P as [|v P].
    - simpl. split; [|auto]. exists Bs, []. repeat split; auto.
    - assert (HN : ~ (ups (v :: P) = [] /\ dels (v :: P) = [])) by (intros [HN1 HN2]; apply ups_dels_nil in HN1; auto; discriminate).
      set (P0 := v :: P) in *.
      assert (HG : orep (mkOut (o_batches o ++ [bb P0]) [] [] (o_rows o) (o_tombs o) (o_bytes o)) B).
      { exists (Bs ++ [P0]), []. simpl. rewrite map_app, H1. simpl.
        rewrite concat_app. simpl. rewrite !app_nil_r. repeat split; auto.
        apply Forall_app. split; auto. constructor; auto. discriminate. }
      destruct (ups P0) as [|u us] eqn:EU; [destruct (dels P0) as [|x xs] eqn:ED|].
      + exfalso. apply HN. auto.
      + unfold bb in HG. rewrite EU, ED in HG. auto.
      + unfold bb in HG. rewrite EU in HG. auto.
  Qed.
  Lemma orep_maybe o B n : orep o B -> orep (maybe_flush_chunk n o) B.
  Proof. intros H. unfold maybe_flush_chunk. destruct (Nat.leb n _); auto. now apply orep_flush. Qed.
  Lemma orep_pending o B : orep o B -> has_pending o = true <-> B <> [].
  Proof.
    intros (Bs & P & H1 & H2 & H3 & H4 & H5 & H6 & H7 & H8). unfold has_pending.
    destruct Bs as [|B1 Bs].
    - simpl in H1, H5. rewrite <- H5 in *. clear H5. rewrite H1, H3, H4, H6, H7. unfold rows_of.
      destruct P as [|[kt [r|]] P]; simpl; [split; [discriminate|intros H; exfalso; auto]| |destruct (ups P)]; split; auto; discriminate.
    - rewrite H1. simpl. split; auto. intros _ HX. inversion H2; subst. simpl in HX.
      apply app_eq_nil in HX as [HX _]. apply app_eq_nil in HX as [HX _]. contradiction.
  Qed.

  Lemma concat_ups Bs : concat (map fst (map bb Bs)) = ups (concat Bs).
  Proof. induction Bs as [|b l IH]; simpl; auto. rewrite IH. symmetry. apply ups_app. Qed.
  Lemma concat_dels Bs : concat (map snd (map bb Bs)) = dels (concat Bs).
  Proof. induction Bs as [|b l IH]; simpl; auto. rewrite IH. symmetry. apply dels_app. Qed.

  Lemma finish_spec id o B : orep o B -> B <> [] -> ascending vkey B -> keyed key_of B ->
    exists t, o_finish key_of id o = Some t /\ t_id t = id /\ sst_ok key_of t B /\
      attained (t_min_key t) (t_max_key t) (t_min_ts t) (t_max_ts t) B /\ t_rows t = ups B /\ t_dels t = dels B.
  Proof.
    intros HO HB HA HK. destruct (orep_flush o B HO) as [(Bs & P & H1 & H2 & H3 & H4 & H5 & _) [E1 E2]].
    rewrite E1 in H3. rewrite E2 in H4. assert (P = []) as -> by (apply ups_dels_nil; auto).
    rewrite app_nil_r in H5.
    assert (HS0 : st_covers (@stats_new K) ([] : list vers)).
    { split; [intros ? []|]. repeat split; intros ? [=]. }
    destruct (stage_all Bs stats_new [] HS0) as (st & S1 & [S2 S2'] & S3).
    { apply Forall_forall. intros B1 HB1. rewrite Forall_forall in H2. split; auto.
      apply in_split in HB1 as (l1 & l2 & ->). rewrite concat_app in H5. simpl in H5. subst B. split.
      - unfold ascending in *. apply StronglySorted_app in HA as (_ & HA & _). apply StronglySorted_app in HA as (HA & _). exact HA.
      - unfold keyed in *. rewrite !Forall_app in HK. apply HK. }
    assert (S2b : covers (st_min_key st) (st_max_key st) (st_min_ts st) (st_max_ts st) B) by (rewrite <- H5; exact S2).
    assert (S2c : attained (st_min_key st) (st_max_key st) (st_min_ts st) (st_max_ts st) B) by (rewrite <- H5; exact S2').
    unfold o_finish. rewrite H1, S1, S3. simpl.
    destruct Bs as [|B1 Bs]; [simpl in H5; congruence|]. cbn [length Nat.eqb].
    assert (EU : concat (map fst (map bb (B1 :: Bs))) = ups B).
    { rewrite <- H5. apply concat_ups. }
    assert (EX : concat (map snd (map bb (B1 :: Bs))) = dels B).
    { rewrite <- H5. apply concat_dels. }
    eexists. split; [reflexivity|]. simpl t_id. simpl t_rows. simpl t_dels. split; auto. 
    split; [|split; [exact S2c|split; auto]].
    exists (updata B), (dels B). split; [|split; [|exact S2b]].
    - split; [rewrite updata_drow; exact EU|]. split; [apply updata_keyed; auto|]. split; [exact EX|]. split.
      + clear - HA. induction HA as [|[kt [r|]] B HA IH HF]; simpl; [constructor| |auto].
        constructor; auto. apply Forall_forall. intros [kt' r'] Hx. unfold updata in Hx. apply in_flat_map in Hx as ([kt2 [r2|]] & Hx1 & Hx2); simpl in Hx2; [|contradiction].
        destruct Hx2 as [[= <- <-]|[]]. rewrite Forall_forall in HF. specialize (HF _ Hx1). apply kts_le_cases. left. exact HF.
      + eapply StronglySorted_impl; [|apply dels_sorted; exact HA]. intros a b _ _ Hab. apply kts_le_cases. left. exact Hab.
    - intros [kt [r|]]; unfold sst_vers; rewrite in_app_iff, !in_map_iff.
      + split.
        * intros Hv. left. exists (kt, r). split; auto. unfold updata. apply in_flat_map. eexists; split; [exact Hv|]. simpl; auto.
        * intros [([kt' r'] & [= <- <-] & Hv)|(? & [=] & _)]. unfold updata in Hv. apply in_flat_map in Hv as ([kt2 [r2|]] & Hx1 & Hx2); simpl in Hx2; [|contradiction].
          destruct Hx2 as [[= <- <-]|[]]. auto.
      + split.
        * intros Hv. right. exists kt. split; auto. apply dels_In. auto.
        * intros [(? & [=] & _)|(kt' & [= <-] & Hv)]. apply dels_In. auto.
  Qed.

  (** *** The outputs of the loop *)
  Fixpoint ids_from (id : N) (n : nat) : list N := match n with O => [] | S m => id :: ids_from (id + 1) m end.
  Definition over (cf : mconf) (B : list vers) : bool :=
    match mc_rows cf with Some c => Nat.leb c (rows_of B) | None => false end
    || match mc_bytes cf with Some c => Nat.leb c (bytes_of B) | None => false end.
  (** A limit is passed by at most the last version of a table. *)
  Definition capped (cf : mconf) (B : list vers) : Prop :=
    forall P v, B = P ++ [v] -> P <> [] -> over cf P = false.
  Definition out_ok (t : sst K R) (B : list vers) : Prop :=
    sst_ok key_of t B /\ attained (t_min_key t) (t_max_key t) (t_min_ts t) (t_max_ts t) B /\
    t_rows t = ups B /\ t_dels t = dels B /\ B <> [].

  Lemma feed_spec cf : forall ems o outs id B0,
    orep o B0 -> ascending vkey (B0 ++ ems) -> keyed key_of (B0 ++ ems) ->
    (B0 <> [] -> over cf B0 = false) -> capped cf B0 -> (outs = [] -> B0 ++ ems <> []) ->
    exists news Bs next', feed cf ems o outs id (id + 1) = Some (outs ++ news, next') /\
      Forall2 out_ok news Bs /\ concat Bs = B0 ++ ems /\ Forall (capped cf) Bs /\
      map t_id news = ids_from id (length news) /\
      (id + N.of_nat (length news) <= next')%N.
  Proof.
    induction ems as [|v ems IH]; intros o outs id B0 HO HA HK HOv HC HN.
    - rewrite app_nil_r in *. cbn [CompactLoop.feed]. pose proof (orep_pending o B0 HO) as HP.
      destruct (has_pending o) eqn:EP.
      + assert (HB : B0 <> []) by (apply HP; auto).
        destruct (finish_spec id o B0 HO HB HA HK) as (t & F1 & F2 & F3 & F4 & F5 & F6). rewrite F1.
        exists [t], [B0], (id + 1)%N. split; auto. split; [constructor; [exact (conj F3 (conj F4 (conj F5 (conj F6 HB))))|constructor]|].
        split; [simpl; now rewrite app_nil_r|]. split; [constructor; auto|]. split; [simpl; now rewrite F2|]. simpl. lia.
      + assert (HB : B0 = []) by (destruct B0; auto; exfalso; assert (false = true) by (apply HP; discriminate); discriminate).
        subst B0. destruct outs as [|t0 outs]; [exfalso; apply HN; auto|].
        exists [], [], (id + 1)%N. rewrite app_nil_r. repeat split; auto. simpl. lia.
    - cbn [CompactLoop.feed]. set (o2 := maybe_flush_chunk (Nat.max 1 (mc_chunk cf)) (push v o)).
      assert (HO2 : orep o2 (B0 ++ [v])) by (apply orep_maybe, orep_push, HO).
      assert (HE : exceeds_caps (mc_rows cf) (mc_bytes cf) o2 = over cf (B0 ++ [v])).
      { destruct HO2 as (Bs & P & _ & _ & _ & _ & _ & H6 & _ & H8). unfold exceeds_caps, over. rewrite H6, H8. reflexivity. }
      assert (HC2 : capped cf (B0 ++ [v])).
      { intros P w E HP. apply app_inj_tail in E as [<- <-]. auto. }
      rewrite HE. destruct (over cf (B0 ++ [v])) eqn:EO.
      + assert (HB : B0 ++ [v] <> []) by (destruct B0; discriminate).
        replace (B0 ++ v :: ems) with ((B0 ++ [v]) ++ ems) in HA, HK by (rewrite <- app_assoc; reflexivity).
        pose proof HA as HA'. unfold ascending in HA'. apply StronglySorted_app in HA' as (HA1 & HA2 & _).
        pose proof HK as HK'. unfold keyed in HK'. apply Forall_app in HK' as [HK1 HK2].
        destruct (finish_spec id o2 (B0 ++ [v]) HO2 HB HA1 HK1) as (t & F1 & F2 & F3 & F4 & F5 & F6). rewrite F1.
        destruct (IH o_new (outs ++ [t]) (id + 1)%N []) as (news & Bs & next' & I1 & I2 & I3 & I4 & I5 & I6); auto.
        * apply orep_new.
        * congruence.
        * intros P w E. destruct P; discriminate.
        * intros E. destruct outs; discriminate.
        * exists (t :: news), ((B0 ++ [v]) :: Bs), next'. rewrite I1. rewrite <- app_assoc. split; auto.
          split; [constructor; [exact (conj F3 (conj F4 (conj F5 (conj F6 HB))))|exact I2]|].
          split; [simpl; rewrite I3, <- app_assoc; reflexivity|]. split; [constructor; auto|].
          split; [simpl; rewrite F2, I5; reflexivity|]. cbn [length]. rewrite Nat2N.inj_succ. lia.
      + destruct (IH o2 outs id (B0 ++ [v])) as (news & Bs & next' & I1 & I2 & I3 & I4 & I5 & I6); auto.
        * now rewrite <- app_assoc.
        * now rewrite <- app_assoc.
        * intros _ E. destruct B0; discriminate.
        * exists news, Bs, next'. rewrite <- app_assoc in I3. auto 10.
  Qed.
End CompactOut.

(** *** Starting the merge *)
Section CompactExec.
  Context {K : Type} {KO : KeyOrd K} {R : Type}.
  Variable key_of : R -> option K.
  Variable row_bytes : R -> nat.
  Variable del_bytes : K -> nat.
  Notation vers := (@vers K R).
  Notation cursor := (cursor K R).
  Notation hentry := (hentry K).
  Notation vrem := (vrem key_of).
  Notation ent := (ent key_of).
  Notation rem := (rem key_of).
  Notation entry := (entry key_of).
  Notation cs_ok := (cs_ok key_of).

  Lemma dropw_none (l : list vers) : dropw None l = l.
  Proof. destruct l; reflexivity. Qed.

  Fixpoint ents (i : nat) (cs : list cursor) : list hentry :=
    match cs with [] => [] | c :: r => (ent i KData c ++ ent i KDelete c) ++ ents (S i) r end.

  Lemma ents_In cs : forall i e, In e (ents i cs) <-> exists j kd c, nth_error cs j = Some c /\ In e (ent (i + j) kd c).
  Proof.
    induction cs as [|c cs IH]; intros i e; simpl.
    - split; [contradiction|]. intros (j & kd & c & H & _). destruct j; discriminate.
    - rewrite in_app_iff, in_app_iff, IH. split.
      + intros [[H|H]|(j & kd & c' & H1 & H2)].
        * exists 0, KData, c. rewrite Nat.add_0_r. auto.
        * exists 0, KDelete, c. rewrite Nat.add_0_r. auto.
        * exists (S j), kd, c'. rewrite <- Nat.add_succ_comm. auto.
      + intros ([|j] & kd & c' & H1 & H2).
        * simpl in H1. injection H1 as <-. rewrite Nat.add_0_r in H2. destruct kd; auto.
        * right. exists j, kd, c'. rewrite Nat.add_succ_comm. auto.
  Qed.

  Lemma init_spec efuel : forall cs i heap,
    Forall (fun c => wf key_of c /\ forall kd, length (vrem kd c) < efuel) cs ->
    exists cs', init_cursors key_of efuel i cs heap = Some (cs', heap ++ ents i cs') /\
      Forall2 (fun c c' => forall kd, vrem kd c' = vrem kd c) cs cs' /\ cs_ok efuel cs'.
  Proof.
    induction cs as [|c cs IH]; intros i heap HF.
    - exists []. simpl. rewrite app_nil_r. repeat split; constructor.
    - inversion HF as [|? ? [HW HL] HF']; subst. cbn [init_cursors].
      destruct (enqueue_spec key_of KData None i efuel c heap HW (HL KData)) as (c1 & E1 & W1 & R1 & V1 & X1 & _).
      rewrite E1. rewrite dropw_none in V1. cbn [okd] in X1.
      destruct (enqueue_spec key_of KDelete None i efuel c1 (heap ++ ent i KData c1) W1) as (c2 & E2 & W2 & R2 & V2 & X2 & O2).
      { rewrite X1. apply HL. }
      rewrite E2. rewrite dropw_none in V2. cbn [okd] in X2, O2.
      destruct (IH (S i) ((heap ++ ent i KData c1) ++ ent i KDelete c2) HF') as (cs' & I1 & I2 & I3).
      rewrite I1. exists (c2 :: cs'). split; [|split].
      + assert (EE : ent i KData c2 = ent i KData c1).
        { unfold CompactFacts.ent. rewrite X2. destruct (vrem KData c1) as [|v l] eqn:EV; auto.
          destruct O2 as [O2|[O2|O2]]; [discriminate| |now rewrite O2].
          pose proof (head_at key_of _ _ _ _ W1 R1 EV) as HA. unfold batch_at in HA. rewrite O2 in HA. contradiction. }
        simpl. rewrite EE, !app_assoc. reflexivity.
      + constructor; auto. intros []; congruence.
      + constructor; auto. split; auto. split; auto. intros kd. 
        assert (EV : vrem kd c2 = vrem kd c) by (destruct kd; congruence). rewrite EV. specialize (HL kd). lia.
  Qed.

  (** Contents of one input stream. *)
  Definition sdata (s : list (sbatch K R)) : list vers := flat_map (dver key_of) (concat (map fst s)).
  Definition sdels (s : list (sbatch K R)) : list vers := map xver (concat (map bdels s)).
  Record stream_ok (s : list (sbatch K R)) : Prop := {
    so_clean : clean_stream s;
    so_nonempty : Forall nonempty_batch s;
    so_keyed : Forall (keyed_row key_of) (concat (map fst s));
    so_data : wsorted (sdata s);
    so_dels : wsorted (sdels s)
  }.
  Definition svers (streams : list (list (sbatch K R))) : list vers := flat_map (fun s => sdata s ++ sdels s) streams.

  Lemma stream_len s : length (concat (map (@fst (list (R * N)) (option (list (K * N)))) s)) + length (concat (map bdels s)) <= list_sum (map (fun b => S (batch_rows b)) s).
  Proof.
    induction s as [|[d x] s IH]; simpl; auto. rewrite !app_length. unfold batch_rows in *. unfold bdels at 1. simpl in *. destruct x; simpl; lia.
  Qed.
  Lemma sdata_len s : length (sdata s) <= length (concat (map fst s)).
  Proof.
    unfold sdata. induction (concat (map fst s)) as [|p l IH]; simpl; auto. rewrite app_length. unfold dver at 1.
    destruct (key_of (fst p)); simpl; lia.
  Qed.

  Theorem merge_exec_spec cf streams next :
    Forall stream_ok streams -> svers streams <> [] ->
    exists outs Bs next', merge_exec key_of row_bytes del_bytes cf streams next = Some (outs, next') /\
      Forall2 (out_ok key_of) outs Bs /\ merged (svers streams) None (concat Bs) /\
      Forall (capped row_bytes del_bytes cf) Bs /\
      map t_id outs = ids_from next (length outs) /\ (next + N.of_nat (length outs) <= next')%N.
  Proof.
    intros HS HN. unfold merge_exec. set (n := S (S (total_rows streams))).
    set (cs := map (fun s => ensure_batch (mkCur s None 0 0)) streams).
    assert (HE : forall s, stream_ok s -> let c := ensure_batch (mkCur s None 0 0) in
               wf key_of c /\ vrem KData c = sdata s /\ vrem KDelete c = sdels s).
    { intros s [S1 S2 S3 S4 S5]. cbv zeta.
      assert (W : wf key_of (mkCur s None 0 0)).
      { constructor; simpl; auto. unfold live; simpl; auto. }
      destruct (ensure_spec key_of _ W) as (E1 & _ & E3 & E4). split; auto.
      unfold CompactFacts.vrem. rewrite E3, E4. auto. }
    assert (HLs : forall s, In s streams -> length (sdata s) + length (sdels s) <= total_rows streams).
    { intros s Hs. assert (list_sum (map (fun b => S (batch_rows b)) s) <= total_rows streams).
      { clear - Hs. induction streams as [|x l IH]; [contradiction|]. unfold total_rows in *. simpl. destruct Hs as [->|Hs]; [lia|]. specialize (IH Hs). lia. }
      pose proof (stream_len s). pose proof (sdata_len s). unfold sdels. rewrite map_length. lia. }
    rewrite Forall_forall in HS.
    destruct (init_spec n cs 0 []) as (cs' & I1 & I2 & I3).
    { apply Forall_forall. intros c Hc. apply in_map_iff in Hc as (s & <- & Hs).
      destruct (HE s (HS s Hs)) as (W & E1 & E2). split; auto. specialize (HLs s Hs).
      intros []; [rewrite E1|rewrite E2]; unfold n; lia. }
    rewrite I1. cbn [app].
    assert (HR : Rem key_of cs' = svers streams).
    { unfold Rem, svers, cs in *. clear - I2 HE HS. revert cs' I2. induction streams as [|s l IH]; intros cs' H; inversion H; subst; simpl; auto.
      destruct (HE s (HS s (or_introl eq_refl))) as (_ & E1 & E2). rewrite !H2, E1, E2. f_equal. apply IH; auto. intros; apply HS; right; auto. }
    assert (HSo : sorted_cs key_of cs').
    { intros i kd. unfold CompactFacts.rem. destruct (nth_error cs' i) as [c'|] eqn:EN; [|constructor].
      assert (exists s, In s streams /\ forall k, vrem k c' = vrem k (ensure_batch (mkCur s None 0 0))) as (s & Hs & Ec).
      { clear - I2 EN. unfold cs in I2. revert cs' i I2 EN. induction streams as [|s l IH]; intros cs' i H EN; inversion H; subst.
        - destruct i; discriminate.
        - destruct i; simpl in EN.
          + injection EN as <-. exists s. split; [left; auto|auto].
          + destruct (IH _ _ H4 EN) as (s' & A & B). exists s'. split; [right; auto|auto]. }
      rewrite Ec. destruct (HE s (HS s Hs)) as (_ & E1 & E2). destruct (HS s Hs). destruct kd; [rewrite E1|rewrite E2]; auto. }
    assert (HHp : heap_ok key_of cs' (ents 0 cs')).
    { intros e. rewrite ents_In. unfold CompactFacts.entry. split.
      - intros (j & kd & c & H1 & H2). exists j, kd. rewrite H1. exact H2.
      - intros (j & kd & H). destruct (nth_error cs' j) as [c|] eqn:E; [|contradiction]. exists j, kd, c. auto. }
    assert (HLR : length (Rem key_of cs') < n).
    { rewrite HR. unfold svers, n, total_rows. clear. induction streams as [|s l IH]; simpl; [lia|]. rewrite !app_length.
      pose proof (stream_len s). pose proof (sdata_len s). unfold sdels at 1. rewrite map_length. lia. }
    destruct (loop_feed key_of row_bytes del_bytes cf n n (ents 0 cs') cs' HLR I3 HSo HHp) as (ems & L1 & L2).
    rewrite HR in L1.
    assert (HNe : ems <> []).
    { intros ->. destruct (svers streams) as [|v l] eqn:E; [congruence|]. destruct L1 as (_ & _ & L1).
      destruct (L1 v (or_introl eq_refl)) as [H|(w & [] & _)]; discriminate. }
    assert (HH0 : ents 0 cs' <> []).
    { intros E. destruct (svers streams) as [|v l] eqn:ES; [congruence|]. 
      assert (Hv : In v (Rem key_of cs')) by (rewrite HR; left; auto).
      apply Rem_In in Hv as (i & kd & Hv). destruct (rem cs' i kd) as [|y r] eqn:E2; [contradiction|].
      destruct (rem_head key_of _ _ _ _ _ E2) as (e & He & _). assert (In e (ents 0 cs')) by (apply HHp; eauto). rewrite E in H. contradiction. }
    assert (HK : keyed key_of ems).
    { apply Forall_forall. intros [[k t] [r|]] Hv; simpl; auto. destruct L1 as (_ & L1 & _). destruct (L1 _ Hv) as (Hv1 & _).
      unfold svers in Hv1. apply in_flat_map in Hv1 as (s & Hs & Hv1). apply in_app_iff in Hv1 as [Hv1|Hv1].
      - unfold sdata in Hv1. apply in_flat_map in Hv1 as (p & Hp & Hv1). unfold dver in Hv1. destruct (key_of (fst p)) eqn:E; [|contradiction].
        destruct Hv1 as [Hv1|[]]. injection Hv1 as -> _ <-. exact E.
      - unfold sdels in Hv1. apply in_map_iff in Hv1 as (p & Hp & _). discriminate. }
    destruct (feed_spec key_of row_bytes del_bytes cf ems o_new [] next []) as (news & Bs & next' & F1 & F2 & F3 & F4 & F5 & F6); auto.
    + apply orep_new.
    + apply L1.
    + congruence.
    + intros P w E. destruct P; discriminate.
    + exists news, Bs, next'. split.
      * destruct (ents 0 cs') eqn:E; [congruence|]. rewrite L2. exact F1.
      * split; auto. split; [|auto]. rewrite F3. exact L1.
  Qed.
End CompactExec.
