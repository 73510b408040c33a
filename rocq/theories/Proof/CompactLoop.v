(** The merge loop of major compaction: which versions it emits and what its output
    tables hold. *)
From Coq Require Import List NArith Bool Sorted Permutation Lia Arith.
From Verif Require Import Base.Order Base.Sub Model.OMap Model.KeyTs Model.MemTable Model.Immutable
     Model.SsTable Model.Compact Spec.Mvcc Spec.KeySet Spec.Valid
     Proof.OMapFacts Proof.MemFacts Proof.ViewFacts Proof.SstFacts Proof.MergeFacts Proof.ScanFacts
     Proof.CompactFacts.
Import ListNotations.
Local Arguments kcmp : simpl never.
Local Arguments CompactFacts.vrem : simpl never.

Section CompactLoop.
  Context {K : Type} {KO : KeyOrd K} {R : Type}.
  Variable key_of : R -> option K.
  Variable row_bytes : R -> nat.
  Variable del_bytes : K -> nat.
  Notation vers := (@vers K R).
  Notation cursor := (cursor K R).
  Notation hentry := (hentry K).
  Notation vrem := (vrem key_of).
  Notation ent := (ent key_of).
  Notation rem := (rem key_of).
  Notation entry := (entry key_of).
  Notation cs_ok := (cs_ok key_of).
  Notation merge_loop := (merge_loop key_of row_bytes del_bytes).

  Definition Rem (cs : list cursor) : list vers := flat_map (fun c => vrem KData c ++ vrem KDelete c) cs.

  Lemma Rem_In cs v : In v (Rem cs) <-> exists i kd, In v (rem cs i kd).
  Proof.
    unfold Rem. rewrite in_flat_map. split.
    - intros (c & Hc & Hv). apply In_nth_error in Hc as [i Hi]. exists i.
      apply in_app_iff in Hv as [Hv|Hv]; [exists KData|exists KDelete]; unfold rem; now rewrite Hi.
    - intros (i & kd & Hv). unfold rem in Hv. destruct (nth_error cs i) as [c|] eqn:E; [|contradiction].
      exists c. split; [eapply nth_error_In; eauto|]. apply in_app_iff. destruct kd; auto.
  Qed.

  Lemma Rem_le cs : forall cs', length cs' = length cs ->
    (forall i kd, length (rem cs' i kd) <= length (rem cs i kd)) -> length (Rem cs') <= length (Rem cs).
  Proof.
    induction cs as [|c cs IH]; intros [|c' cs'] HL H; try discriminate; simpl; auto.
    specialize (IH cs' ltac:(simpl in HL; lia) (fun i => H (S i))).
    pose proof (H 0 KData) as HD. pose proof (H 0 KDelete) as HX. unfold rem in HD, HX.
    cbn [nth_error] in HD, HX. rewrite !app_length. unfold Rem in *. lia.
  Qed.
  Lemma Rem_lt cs : forall cs' i0 kd0, length cs' = length cs ->
    (forall i kd, length (rem cs' i kd) <= length (rem cs i kd)) ->
    length (rem cs' i0 kd0) < length (rem cs i0 kd0) -> length (Rem cs') < length (Rem cs).
  Proof.
    induction cs as [|c cs IH]; intros [|c' cs'] i0 kd0 HL H HS; try discriminate; simpl.
    - unfold rem in HS. destruct i0; simpl in HS; lia.
    - pose proof (H 0 KData) as HD. pose proof (H 0 KDelete) as HX. unfold rem in HD, HX.
      cbn [nth_error] in HD, HX. rewrite !app_length. destruct i0 as [|i0].
      + pose proof (Rem_le cs cs' ltac:(simpl in HL; lia) (fun i => H (S i))) as HR. unfold Rem in *.
        unfold rem in HS. cbn [nth_error] in HS. destruct kd0; lia.
      + specialize (IH cs' i0 kd0 ltac:(simpl in HL; lia) (fun i => H (S i)) HS). unfold Rem in *. lia.
  Qed.

  Definition sorted_cs (cs : list cursor) : Prop := forall i kd, wsorted (rem cs i kd).
  Definition heap_ok (cs : list cursor) (heap : list hentry) : Prop :=
    forall e, In e heap <-> exists i kd, In e (entry cs i kd).

  Lemma heap_ok_unique cs heap : heap_ok cs heap -> slot_unique heap.
  Proof.
    intros H e e' He He' HS. apply H in He as (i & kd & He). apply H in He' as (j & kd' & He').
    destruct (entry_slot _ _ _ _ _ He) as [<- <-]. destruct (entry_slot _ _ _ _ _ He') as [<- <-].
    apply same_slot_iff in HS as [HS1 HS2]. rewrite HS1, HS2 in He. eapply entry_unique; eauto.
  Qed.

  Lemma entry_head cs i kd e : In e (entry cs i kd) ->
    exists c v l, nth_error cs i = Some c /\ vrem kd c = v :: l /\ rem cs i kd = v :: l /\
                  e = mkHE (vkey v) (vts v) (idx kd c) kd i (idx kd c).
  Proof.
    unfold entry, ent, rem. destruct (nth_error cs i) as [c|]; [|contradiction].
    destruct (vrem kd c) as [|v l] eqn:E; [contradiction|]. intros [<-|[]]. exists c, v, l. auto.
  Qed.
  Lemma rem_head cs i kd v l : rem cs i kd = v :: l ->
    exists e, In e (entry cs i kd) /\ h_key e = vkey v /\ h_ts e = vts v.
  Proof.
    unfold entry, ent, rem. destruct (nth_error cs i) as [c|]; [|discriminate]. intros ->. eexists. split; [left; reflexivity|]. auto.
  Qed.

  Lemma dropw_suffix (skip : option K) (l : list vers) : exists p, l = p ++ dropw skip l /\ Forall (fun v => skips skip (vkey v) = true) p.
  Proof.
    induction l as [|v l (p & IH1 & IH2)]; simpl.
    - exists []. auto.
    - destruct (skips skip (vkey v)) eqn:E.
      + exists (v :: p). split; [simpl; congruence|constructor; auto].
      + exists []. auto.
  Qed.
  Lemma dropw_hd (skip : option K) (l : list vers) v r : dropw skip l = v :: r -> skips skip (vkey v) = false.
  Proof. induction l as [|x l IH]; simpl; [discriminate|]. destruct (skips skip (vkey x)) eqn:E; auto. intros [= -> ->]. auto. Qed.
  Lemma wsorted_app_r (p l : list vers) : wsorted (p ++ l) -> wsorted l.
  Proof. induction p; simpl; auto. intros H. inversion H; auto. Qed.
  Lemma wsorted_hd (v : vers) l x : wsorted (v :: l) -> In x (v :: l) ->
    kcmp (vkey v) (vkey x) <> Gt /\ (kcmp (vkey v) (vkey x) = Eq -> (vts x <= vts v)%N).
  Proof.
    intros HS Hx. inversion HS as [|? ? _ HF]; subst. destruct Hx as [<-|Hx].
    - rewrite kcmp_refl. split; [congruence|lia].
    - rewrite Forall_forall in HF. specialize (HF x Hx).
      apply kts_le_cases in HF. unfold vkey, vts. destruct HF as [H|[H1 H2]].
      + rewrite H. split; congruence.
      + rewrite H1. split; [congruence|auto].
  Qed.

  (** *** Emitting *)
  Definition push (v : vers) (o : ostate K R) : ostate K R :=
    match snd v with
    | Some r => mkOut (o_batches o) (o_data o ++ [(r, vts v)]) (o_dels o) (S (o_rows o)) (o_tombs o)
                      (o_bytes o + row_bytes r)
    | None => mkOut (o_batches o) (o_data o) (o_dels o ++ [fst v]) (o_rows o) (S (o_tombs o))
                    (o_bytes o + del_bytes (vkey v))
    end.
  Fixpoint feed (cf : mconf) (ems : list vers) (o : ostate K R) (outs : list (sst K R)) (id next : N)
    : option (list (sst K R) * N) :=
    match ems with
    | [] => if has_pending o then
              match o_finish key_of id o with
              | Some t => Some (outs ++ [t], next)
              | None => None
              end
            else match outs with [] => None | _ => Some (outs, next) end
    | v :: r =>
        let o2 := maybe_flush_chunk (Nat.max 1 (mc_chunk cf)) (push v o) in
        if exceeds_caps (mc_rows cf) (mc_bytes cf) o2 then
          match o_finish key_of id o2 with
          | None => None
          | Some t => feed cf r o_new (outs ++ [t]) next (next + 1)
          end
        else feed cf r o2 outs id next
    end.

  Lemma append_push (cs : list cursor) (w : hentry) c v l o : nth_error cs (h_src w) = Some c -> wf key_of c -> ready c ->
    vrem (h_kind w) c = v :: l -> h_row w = idx (h_kind w) c ->
    match h_kind w with
    | KData => append_data row_bytes c (h_row w) o
    | KDelete => append_delete del_bytes c (h_row w) o
    end = push v o.
  Proof.
    intros EC HW HR EV ER. pose proof (head_at key_of _ _ _ _ HW HR EV) as HA. rewrite ER.
    unfold batch_at in HA. destruct (h_kind w).
    - unfold append_data. destruct (cu_batch c) as [[d x]|]; [|contradiction].
      destruct HA as ([r t] & H1 & H2). cbn [fst] in H1. rewrite H1. unfold dver in H2. simpl in H2.
      destruct (key_of r); [|discriminate]. injection H2 as <-. reflexivity.
    - unfold append_delete. destruct (cu_batch c) as [[d [x|]]|]; [| |contradiction].
      + destruct HA as (p & H1 & H2). unfold bdels in H1. cbn [snd] in H1. rewrite H1. unfold xver in H2. subst v. reflexivity.
      + destruct HA as (p & H1 & H2). unfold bdels in H1. cbn [snd] in H1. destruct (idx KDelete c); discriminate.
  Qed.

  Lemma loop_feed cf efuel : forall fuel heap cs,
    length (Rem cs) < fuel -> cs_ok efuel cs -> sorted_cs cs -> heap_ok cs heap ->
    exists ems, merged (Rem cs) None ems /\
      forall o outs id next, merge_loop fuel efuel cf heap cs o outs id next = feed cf ems o outs id next.
  Proof.
    induction fuel as [|fuel IH]; intros heap cs HF HC HS HH; [lia|].
    pose proof (heap_ok_unique _ _ HH) as HU.
    cbn [Compact.merge_loop]. pose proof (heap_pop_spec heap HU) as HP.
    destruct (heap_pop heap) as [[w heap1]|].
    - destruct HP as (P1 & P2 & P3 & _ & P5).
      assert (PK : forall e, In e heap1 -> kcmp (h_key w) (h_key e) <> Gt).
      { intros e He. apply P3 in He as [He _]. specialize (P2 e He). unfold wle in P2.
        destruct P2 as [->|[-> _]]; congruence. }
      pose proof (pop_group_spec (h_key w) (length heap1) heap1 P5 (le_n _) PK) as HG.
      destruct (pop_group (length heap1) (h_key w) heap1) as [g heap2].
      destruct HG as (G1 & G2 & G3 & G4 & G5 & G6).
      destruct (proj1 (HH w) P1) as (i0 & kd0 & Hw0).
      destruct (entry_slot _ _ _ _ _ Hw0) as [Ei Ekd]. subst i0 kd0.
      destruct (entry_head _ _ _ _ Hw0) as (c & v & l & EC & EV & ER & EW).
      assert (Ek : h_key w = vkey v) by (now rewrite EW).
      assert (Ets : h_ts w = vts v) by (now rewrite EW).
      assert (Erow : h_row w = idx (h_kind w) c) by (now rewrite EW).
      assert (HCc : wf key_of c /\ ready c).
      { unfold CompactFacts.cs_ok in HC. rewrite Forall_forall in HC. destruct (HC c (nth_error_In _ _ EC)) as (? & ? & _). auto. }
      assert (HGin : forall x, In x (w :: g) -> In x heap).
      { intros x [<-|Hx]; auto. apply P3. apply G1. auto. }
      assert (HGk : forall x, In x (w :: g) -> kcmp (h_key x) (h_key w) = Eq).
      { intros x [<-|Hx]; auto. apply kcmp_refl. }
      destruct (refill_spec key_of (h_key w) efuel (w :: g) cs heap2) as (cs' & heap3 & F1 & F2 & F3 & F4 & F5); auto.
      { intros e. split.
        - intros He. assert (He1 : In e heap1) by (apply G1; auto). apply P3 in He1 as [He1 He2].
          apply HH in He1 as (i & kd & He1). exists i, kd. split; auto.
          destruct (entry_slot _ _ _ _ _ He1) as [<- <-]. intros x [<-|Hx] [Hx1 Hx2].
          + assert (same_slot e w = true) by (apply same_slot_iff; auto). congruence.
          + specialize (G5 x e Hx He). assert (same_slot x e = true) by (apply same_slot_iff; auto). congruence.
        - intros (i & kd & He & Hn). destruct (entry_slot _ _ _ _ _ He) as [E1 E2].
          assert (Heh : In e heap) by (apply HH; eauto).
          assert (He1 : In e heap1).
          { apply P3. split; auto. destruct (same_slot e w) eqn:ES; auto. apply same_slot_iff in ES as [ES1 ES2].
            exfalso. apply (Hn w (or_introl eq_refl)). split; congruence. }
          apply G1 in He1 as [He1|He1]; auto. exfalso. apply (Hn e (or_intror He1)). auto. }
      { intros x Hx. apply HGin in Hx. apply HH in Hx as (i & kd & Hx). destruct (entry_slot _ _ _ _ _ Hx) as [<- <-]. auto. }
      { constructor; auto. apply Forall_forall. intros x Hx. assert (Hx1 : In x heap1) by (apply G1; auto).
        apply P3 in Hx1 as [_ Hx1]. destruct (same_slot w x) eqn:ES; auto. apply same_slot_iff in ES.
        assert (same_slot x w = true) by (apply same_slot_iff; intuition). congruence. }
      (* facts about what remains *)
      assert (Hmin : forall x, In x (Rem cs) -> kcmp (vkey v) (vkey x) <> Gt /\ (kcmp (vkey v) (vkey x) = Eq -> (vts x <= vts v)%N)).
      { intros x Hx. apply Rem_In in Hx as (i & kd & Hx). destruct (rem cs i kd) as [|y r] eqn:E; [contradiction|].
        destruct (rem_head _ _ _ _ _ E) as (e & He & E1 & E2).
        pose proof (wsorted_hd y r x ltac:(rewrite <- E; apply HS) Hx) as [H1 H2].
        specialize (P2 e ltac:(apply HH; eauto)). unfold wle in P2. rewrite Ek, Ets, E1, E2 in P2.
        destruct P2 as [P2|[P2 P2']].
        - assert (HL : kcmp (vkey v) (vkey x) = Lt) by (destruct (kcmp (vkey y) (vkey x)) eqn:F; try congruence; korder).
          split; congruence.
        - destruct (kcmp (vkey y) (vkey x)) eqn:F; try congruence.
          + assert (HL : kcmp (vkey v) (vkey x) = Eq) by korder. split; [congruence|]. intros _. specialize (H2 eq_refl). lia.
          + assert (HL : kcmp (vkey v) (vkey x) = Lt) by korder. split; congruence. }
      assert (Hgrp : forall i kd x, In x (w :: g) -> h_src x = i -> h_kind x = kd ->
                exists y r, rem cs i kd = y :: r /\ kcmp (vkey v) (vkey y) = Eq).
      { intros i kd x Hx <- <-. pose proof (HGin x Hx) as Hxh. apply HH in Hxh as (i & kd & Hxh).
        destruct (entry_slot _ _ _ _ _ Hxh) as [<- <-].
        destruct (entry_head _ _ _ _ Hxh) as (c1 & y & r & _ & _ & E1 & E2). exists y, r. split; auto.
        specialize (HGk x Hx). rewrite Ek, E2 in HGk. simpl in HGk. korder. }
      assert (HA : forall x, In x (Rem cs) -> In x (Rem cs') \/ kcmp (vkey v) (vkey x) = Eq).
      { intros x Hx. apply Rem_In in Hx as (i & kd & Hx). destruct (F5 i kd) as [(y & Y1 & Y2 & Y3 & Y4)|(_ & Y2 & _)].
        - destruct (Hgrp i kd y Y1 Y2 Y3) as (z & r & Z1 & Z2). rewrite Z1 in Hx, Y4. simpl in Y4.
          destruct Hx as [<-|Hx]; auto. destruct (dropw_suffix (Some (h_key w)) r) as (p & D1 & D2).
          rewrite D1 in Hx. apply in_app_iff in Hx as [Hx|Hx].
          + right. rewrite Forall_forall in D2. specialize (D2 x Hx). simpl in D2. apply keqb_true in D2. rewrite <- Ek. auto.
          + left. apply Rem_In. exists i, kd. rewrite Y4. auto.
        - left. apply Rem_In. exists i, kd. now rewrite Y2. }
      assert (HB : forall x, In x (Rem cs') -> In x (Rem cs)).
      { intros x Hx. apply Rem_In in Hx as (i & kd & Hx). apply Rem_In. exists i, kd.
        destruct (F5 i kd) as [(y & Y1 & Y2 & Y3 & Y4)|(_ & Y2 & _)]; [|congruence].
        destruct (Hgrp i kd y Y1 Y2 Y3) as (z & r & Z1 & Z2). rewrite Z1 in Y4 |- *. simpl in Y4.
        destruct (dropw_suffix (Some (h_key w)) r) as (p & D1 & D2). right. rewrite D1. apply in_app_iff. right. congruence. }
      assert (HS' : sorted_cs cs').
      { intros i kd. destruct (F5 i kd) as [(y & Y1 & Y2 & Y3 & Y4)|(_ & Y2 & _)]; [|rewrite Y2; apply HS].
        rewrite Y4. specialize (HS i kd). destruct (rem cs i kd) as [|z r]; [constructor|]. simpl.
        destruct (dropw_suffix (Some (h_key w)) r) as (p & D1 & D2). inversion HS; subst. rewrite D1 in H1. eapply wsorted_app_r; eauto. }
      assert (HD : forall x, In x (Rem cs') -> kcmp (vkey v) (vkey x) = Lt).
      { intros x Hx. pose proof (proj1 (Hmin x (HB x Hx))) as HM. apply Rem_In in Hx as (i & kd & Hx).
        destruct (rem cs' i kd) as [|y r] eqn:E; [contradiction|].
        assert (HY : kcmp (vkey v) (vkey y) = Lt).
        { destruct (F5 i kd) as [(z & Y1 & Y2 & Y3 & Y4)|(Y1 & Y2 & _)].
          - rewrite E in Y4. symmetry in Y4. apply dropw_hd in Y4. simpl in Y4. apply keqb_false in Y4. rewrite Ek in Y4.
            assert (HY : In y (Rem cs)) by (apply HB, Rem_In; exists i, kd; rewrite E; left; auto).
            pose proof (proj1 (Hmin y HY)). destruct (kcmp (vkey v) (vkey y)); congruence.
          - rewrite E in Y2. symmetry in Y2. destruct (rem_head _ _ _ _ _ Y2) as (e & He & E1 & E2).
            assert (Heh : In e heap) by (apply HH; eauto). destruct (entry_slot _ _ _ _ _ He) as [S1 S2].
            assert (He1 : In e heap1).
            { apply P3. split; auto. destruct (same_slot e w) eqn:ES; auto. apply same_slot_iff in ES as [ES1 ES2].
              exfalso. apply (Y1 w (or_introl eq_refl)). split; congruence. }
            apply G1 in He1 as [He1|He1]; [exfalso; apply (Y1 e (or_intror He1)); auto|].
            specialize (G3 e He1). rewrite Ek, E1 in G3. exact G3. }
        pose proof (wsorted_hd y r x ltac:(rewrite <- E; apply HS') Hx) as [H1 _].
        destruct (kcmp (vkey y) (vkey x)) eqn:F; try congruence; korder. }
      assert (HLen : length (Rem cs') < length (Rem cs)).
      { apply (Rem_lt cs cs' (h_src w) (h_kind w)); auto.
        - intros i kd. destruct (F5 i kd) as [(y & Y1 & Y2 & Y3 & Y4)|(_ & Y2 & _)]; [|now rewrite Y2].
          rewrite Y4. destruct (rem cs i kd) as [|z r]; simpl; auto.
          pose proof (dropw_length (Some (h_key w)) r). lia.
        - destruct (F5 (h_src w) (h_kind w)) as [(y & Y1 & Y2 & Y3 & Y4)|(Y1 & _)].
          + rewrite Y4, ER. simpl. pose proof (dropw_length (Some (h_key w)) l). lia.
          + exfalso. apply (Y1 w (or_introl eq_refl)). auto. }
      destruct (IH heap3 cs' ltac:(lia) F2 HS' F4) as (ems & I1 & I2).
      exists (v :: ems). split.
      + apply (merged_step (Rem cs) (Rem cs') None (vkey v) v ems); auto.
        * apply Rem_In. exists (h_src w), (h_kind w). rewrite ER. left; auto.
        * intros x Hx. apply Hmin; auto.
        * intros x Hx. apply Hmin; auto.
        * intros ? [=].
        * simpl. destruct I1 as (M1 & M2 & M3). split; auto. split.
          -- intros x Hx. destruct (M2 x Hx) as (X1 & X2 & _). split; auto. split; auto. simpl. apply keqb_false. rewrite (HD x X1). congruence.
          -- intros x Hx. destruct (M3 x Hx) as [X|X]; [discriminate|auto].
      + intros o outs id next. rewrite EC. rewrite (append_push cs w c v l o EC (proj1 HCc) (proj2 HCc) EV Erow). rewrite F1.
        cbn [feed]. destruct (exceeds_caps (mc_rows cf) (mc_bytes cf) _); [|apply I2].
        destruct (o_finish key_of id _); auto.
    - subst heap. exists []. split; [|reflexivity]. split; [constructor|]. split; [intros ? []|].
      intros x Hx. exfalso. apply Rem_In in Hx as (i & kd & Hx). destruct (rem cs i kd) as [|y r] eqn:E; [contradiction|].
      destruct (rem_head _ _ _ _ _ E) as (e & He & _). apply (proj2 (HH e)). eauto.
  Qed.
End CompactLoop.
