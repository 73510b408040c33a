(** Concurrent transactions: key locks and conflict checks. *)
From Coq Require Import List NArith Bool Arith Lia Sorted Permutation.
From Verif Require Import Base.Order Base.Sub Model.OMap Model.KeyTs Model.MemTable Model.Immutable
     Model.SsTable Model.KeyBounds Model.DbScan Model.Version Model.Db Spec.Mvcc Spec.KeySet Spec.Valid
     Spec.History Model.Run Model.Sched Spec.ConcSpec
     Proof.OMapFacts Proof.MemFacts Proof.ViewFacts Proof.SstFacts Proof.HistFacts Proof.VersionFacts
     Proof.MergeFacts Proof.ScanFacts Proof.DbFacts Proof.RunFacts Proof.Refine Proof.Reads Proof.TxnFacts
     Proof.SchedLive Proof.SchedInv Proof.SchedReads.
Import ListNotations.
Local Arguments kcmp : simpl never.

Section SchedTxn.
  Context {K : Type} {KO : KeyOrd K} {R : Type}.
  Variable key_of : R -> option K.
  Notation vers := (@vers K R).
  Notation store := (store key_of).
  Notation rep := (rep key_of).
  Notation cstep := (cstep key_of).
  Notation crun := (crun key_of).
  Notation call_step := (call_step key_of).
  Notation last_mut := (last_mut key_of).
  Notation muts_of := (muts_of key_of).
  Notation cinv := (cinv key_of).
  Notation cinv_at := (cinv_at key_of).
  Notation applied := (applied key_of).
  Notation keys_of := (keys_of key_of).
  Notation held := (held key_of).
  Notation sched_hyp := (sched_hyp key_of).

  (** *** Mutual exclusion *)
  Definition mutex (c : conc K R) : Prop :=
    forall i j t u k k', i <> j -> nth_error (c_threads c) i = Some t -> nth_error (c_threads c) j = Some u ->
      In k (held t) -> In k' (held u) -> kcmp k k' <> Eq.

  (** What a step of a call does to the keys it holds. *)
  Lemma held_step d rest t d' p k : call_step d rest t = Some (d', p) -> In k (held (mkTh (t_call t) p)) ->
    In k (held t) \/ forall u k', In u rest -> In k' (held u) -> kcmp k k' <> Eq.
  Proof.
    unfold Sched.call_step. unfold Sched.held at 1 2. cbn [t_pc t_call].
    destruct (t_pc t) as [got|n| |ts n|ts n sg|ts|ts sg|o]; intros H.
    - destruct (nth_error (keys_of (t_call t)) got) as [k0|] eqn:EK.
      + destruct (existsb (Sched.holds key_of k0) rest) eqn:EH; [discriminate|]. injection H as <- <-.
        rewrite (firstn_S_nth _ _ _ EK), in_app_iff. intros [Hk|[<-|[]]]; auto. right.
        intros u k' Hu Hk' E. assert (X : existsb (Sched.holds key_of k0) rest = true); [|congruence].
        apply existsb_exists. exists u. split; auto. unfold Sched.holds. apply existsb_exists. exists k'. split; auto.
        now apply keqb_true.
      + injection H as <- <-. apply nth_error_None in EK. rewrite firstn_all2 by auto. auto.
    - destruct (nth_error _ n); [destruct (key_conflict _ _ _)|]; injection H as <- <-; auto; intros [].
    - destruct (parts_of _ _); injection H as <- <-; auto; intros [].
    - destruct (nth_error _ n); [destruct (put_part _ _ _ _) as [m [sg|]|m|]|]; injection H as <- <-; auto; intros [].
    - injection H as <- <-. auto.
    - destruct (dec_of _); [destruct (seal _ _)|]; injection H as <- <-; auto; intros [].
    - injection H as <- <-. intros [].
    - discriminate.
  Qed.
  Lemma mutex_step c e : mutex c -> mutex (cstep c e).
  Proof.
    intros HM.
    assert (SP : forall w p, held (mkTh w p) = [] -> mutex (spawn c w p)).
    { intros w p HE i j t u k k' N Hi Hj Hk Hk'. cbn [spawn c_threads] in *.
      apply nth_snoc in Hi as [Hi|[_ ->]]; [|rewrite HE in Hk; destruct Hk].
      apply nth_snoc in Hj as [Hj|[_ ->]]; [|rewrite HE in Hk'; destruct Hk']. eapply (HM i j); eauto. }
    destruct e as [rows dec|rows dec|ms|i0| |i0|]; cbn [Sched.cstep].
    - apply SP. reflexivity.
    - apply SP. reflexivity.
    - apply SP. reflexivity.
    - destruct (nth_error (c_threads c) i0) as [t0|] eqn:H0; auto.
      destruct (call_step (c_db c) (others i0 (c_threads c)) t0) as [[d p]|] eqn:ES; auto.
      intros i j t u k k' N Hi Hj Hk Hk'. cbn [c_threads] in *.
      assert (X : forall j u k k', j <> i0 -> nth_error (c_threads c) j = Some u -> In k (held (mkTh (t_call t0) p)) ->
                  In k' (held u) -> kcmp k k' <> Eq).
      { intros j1 u1 k1 k1' N1 Hj1 Hk1 Hk1'. destruct (held_step _ _ _ _ _ _ ES Hk1) as [H|H].
        - eapply (HM i0 j1); eauto.
        - apply (H u1 k1'); auto. apply In_others. eauto. }
      destruct (Nat.eq_dec i i0) as [->|N1].
      + rewrite (nth_set_same _ _ _ _ H0) in Hi. injection Hi as <-. rewrite nth_set_other in Hj by auto. eapply X; eauto.
      + rewrite nth_set_other in Hi by auto. destruct (Nat.eq_dec j i0) as [->|N2].
        * rewrite (nth_set_same _ _ _ _ H0) in Hj. injection Hj as <-. intros E. apply (X i t k' k N1 Hi Hk' Hk). korder.
        * rewrite nth_set_other in Hj by auto. eapply (HM i j); eauto.
    - intros i j t u k k' N Hi Hj. rewrite flush_threads in Hi, Hj. eapply (HM i j); eauto.
    - destruct (nth_error (c_threads c) i0) as [t0|] eqn:H0; auto. destruct (awaits (t_pc t0)); auto.
      intros i j t u k k' N Hi Hj Hk Hk'. cbn [c_threads] in *.
      destruct (Nat.eq_dec i i0) as [->|N1];
        [rewrite (nth_set_same _ _ _ _ H0) in Hi; injection Hi as <-; destruct Hk|rewrite nth_set_other in Hi by auto].
      destruct (Nat.eq_dec j i0) as [->|N2];
        [rewrite (nth_set_same _ _ _ _ H0) in Hj; injection Hj as <-; destruct Hk'|rewrite nth_set_other in Hj by auto].
      eapply (HM i j); eauto.
    - exact HM.
  Qed.

  (** *** Calls that have passed the conflict check of a key *)
  Definition passed (t : thread K R) (k : K) : Prop :=
    match t_pc t with
    | PLock _ => False
    | PCheck n => In k (firstn n (keys_of (t_call t)))
    | PDone (Acked _) => In k (keys_of (t_call t))
    | PDone _ => False
    | _ => In k (keys_of (t_call t))
    end.
  Definition after (t u : thread K R) : Prop := exists ts, acked_at t ts /\ (ts <= snap_of (t_call u))%N.
  Definition ordered (c : conc K R) : Prop :=
    forall i j t u k k', i <> j -> nth_error (c_threads c) i = Some t -> nth_error (c_threads c) j = Some u ->
      passed t k -> passed u k' -> kcmp k k' = Eq -> after t u \/ after u t.

  Lemma firstn_In {A} n (l : list A) x : In x (firstn n l) -> In x l.
  Proof. intros H. rewrite <- (firstn_skipn n l). apply in_app_iff. auto. Qed.
  Lemma passed_held t k : passed t k -> In k (held t) \/ exists ts, acked_at t ts /\ In k (keys_of (t_call t)).
  Proof.
    unfold passed, Sched.held, acked_at. destruct (t_pc t) as [got|n| |ts n|ts n sg|ts|ts sg|[ts| | | |]]; try tauto; eauto.
    intros H. left. eapply firstn_In; eauto.
  Qed.
  (** A step adds at most the key whose check found no conflict. *)
  Lemma passed_step d rest t d' p k : call_step d rest t = Some (d', p) -> passed (mkTh (t_call t) p) k ->
    passed t k \/ (checking t /\ In k (held t) /\ key_conflict d (snap_of (t_call t)) k = false).
  Proof.
    unfold Sched.call_step, passed, checking, Sched.held. cbn [t_pc t_call].
    destruct (t_pc t) as [got|n| |ts n|ts n sg|ts|ts sg|o]; intros H.
    - destruct (nth_error _ got); [destruct (existsb _ _); [discriminate|]|]; injection H as <- <-; simpl; tauto.
    - destruct (nth_error (keys_of (t_call t)) n) as [k0|] eqn:EK.
      + destruct (key_conflict d (snap_of (t_call t)) k0) eqn:EC; injection H as <- <-; [tauto|].
        rewrite (firstn_S_nth _ _ _ EK), in_app_iff. intros [Hk|[<-|[]]]; auto. right. split; auto. split; auto.
        eapply nth_error_In; eauto.
      + injection H as <- <-. apply nth_error_None in EK. rewrite firstn_all2 by auto. auto.
    - destruct (parts_of _ _); injection H as <- <-; tauto.
    - destruct (nth_error _ n); [destruct (put_part _ _ _ _) as [m [sg|]|m|]|]; injection H as <- <-; tauto.
    - injection H as <- <-. auto.
    - destruct (dec_of _); [destruct (seal _ _)|]; injection H as <- <-; tauto.
    - injection H as <- <-. auto.
    - discriminate.
  Qed.

  Lemma acked_step d rest t d' p : call_step d rest t = Some (d', p) -> forall ts, ~ acked_at t ts.
  Proof. intros H ts E. unfold acked_at in E. unfold Sched.call_step in H. rewrite E in H. discriminate. Qed.

  (** The check of key [k] finds the versions of every acknowledged call. *)
  Lemma check_sees c M Is Hs t k ts ms snap : cinv_at c M Is Hs -> (d_clock (c_db c) < 2 ^ 64)%N ->
    d_levels (c_db c) = [] -> Forall (fun u => ~ sealing u) (c_threads c) ->
    In t (c_threads c) -> acked_at t ts -> t_call t = CTxn snap ms -> In k (keys_of (t_call t)) ->
    forall k' s, kcmp k k' = Eq -> key_conflict (c_db c) s k' = false -> (ts <= s)%N.
  Proof.
    intros HI HC HL HN Ht Ha Hw Hk k' s E HF.
    rewrite Hw in Hk. cbn [Sched.keys_of] in Hk. apply in_map_iff in Hk as ([k0 o] & Ek & Hk). simpl in Ek. subst k0.
    assert (HL1 : last_mut ts (accepted key_of ms) ((k, ts), o)).
    { apply last_accepted. apply in_map_iff. exists (k, o). auto. }
    assert (ST : stamp t = Some ts) by (unfold stamp; now rewrite Ha).
    assert (HW : wrote key_of ((k, ts), o) t).
    { exists ts. split; auto. pose proof (ci_calls _ _ _ _ _ HI) as HK. rewrite Forall_forall in HK.
      apply (entry_mut key_of t ts); auto. rewrite Ha, Hw. exact HL1. }
    assert (HS : In ((k, ts), o) (store M Is (d_levels (c_db c))) \/ (exists H, In H Hs /\ heldv ((k, ts), o) H)).
    { apply (ci_store _ _ _ _ _ HI). eauto. }
    destruct HS as [HS|HS]; [|exfalso; eapply no_hand; eauto].
    apply store_In in HS. rewrite HL in HS. cbn [concat flat_map] in HS.
    assert (HB : Forall (fun v : vers => (vts v <= ts_max)%N) (M ++ concat Is)).
    { apply Forall_forall. intros v Hv.
      assert (X : exists u, In u (c_threads c) /\ wrote key_of v u).
      { apply (ci_store _ _ _ _ _ HI). left. apply store_In. apply in_app_iff in Hv. tauto. }
      destruct X as (u & Hu & tu & Eu & Lu). apply last_mut_ts in Lu.
      pose proof (ci_clock _ _ _ _ _ HI u tu Hu Eu). unfold ts_max. lia. }
    apply Forall_app in HB as [HB1 HB2].
    destruct (N.le_gt_cases ts s) as [L|L]; auto. exfalso. unfold key_conflict in HF. apply orb_false_iff in HF as [HF1 HF2].
    pose proof (ci_rep _ _ _ _ _ HI) as [HM HIm HG _ _ _ _].
    destruct HS as [HS|[HS|[]]].
    - assert (X : mem_has_conflict (d_mem (c_db c)) k' s = true); [|congruence].
      apply (mem_conflict_spec key_of _ M); auto. exists ((k, ts), o). split; auto.
    - assert (X : existsb (fun g => seg_has_conflict g k' s) (d_imm (c_db c)) = true); [|congruence].
      apply in_concat in HS as (A & HA & HS). apply existsb_exists. exists (seg_of A). split; [rewrite HIm; now apply in_map|].
      rewrite Forall_forall in HG. destruct (HG A HA) as [HA1 _]. apply seg_conflict_spec; auto.
      + apply Forall_forall. intros v Hv. rewrite Forall_forall in HB2. apply HB2. apply in_concat. eauto.
      + exists ((k, ts), o). split; auto.
  Qed.

  Lemma passed_txn t k : passed t k -> exists snap ms, t_call t = CTxn snap ms.
  Proof.
    unfold passed. destruct (t_call t) as [rows dec|rows dec|snap ms]; eauto; simpl;
      destruct (t_pc t) as [got|n| |ts n|ts n sg|ts|ts sg|[ts| | | |]]; try (intros []);
      destruct n; intros [].
  Qed.

  Lemma ordered_step c e : cinv c -> (d_clock (c_db c) < 2 ^ 64)%N -> d_levels (c_db c) = [] -> mutex c -> ordered c ->
    (forall i t, e = EStep i -> nth_error (c_threads c) i = Some t -> checking t -> Forall (fun u => ~ sealing u) (c_threads c)) ->
    ordered (cstep c e).
  Proof.
    intros (M & Is & Hs & HI) HC HL HM HO HChk.
    assert (SP : forall w p, (forall k, ~ passed (mkTh w p) k) -> ordered (spawn c w p)).
    { intros w p HE i j t u k k' N Hi Hj Hk Hk'. cbn [spawn c_threads] in *.
      apply nth_snoc in Hi as [Hi|[_ ->]]; [|exfalso; eapply HE; eauto].
      apply nth_snoc in Hj as [Hj|[_ ->]]; [|exfalso; eapply HE; eauto]. eapply (HO i j); eauto. }
    destruct e as [rows dec|rows dec|ms|i0| |i0|]; cbn [Sched.cstep].
    - apply SP. intros k F. exact F.
    - apply SP. intros k F. exact F.
    - apply SP. intros k F. exact F.
    - destruct (nth_error (c_threads c) i0) as [t0|] eqn:H0; auto.
      destruct (call_step (c_db c) (others i0 (c_threads c)) t0) as [[d p]|] eqn:ES; auto.
      assert (X : forall j u k k', j <> i0 -> nth_error (c_threads c) j = Some u ->
                  passed (mkTh (t_call t0) p) k -> passed u k' -> kcmp k k' = Eq -> after u (mkTh (t_call t0) p)).
      { intros j u k k' N Hj Hp Hp' E. destruct (passed_step _ _ _ _ _ _ ES Hp) as [H|(H1 & H2 & H3)].
        - destruct (HO i0 j t0 u k k') as [(ts & Ha & _)|(ts & Ha & L)]; auto.
          + exfalso. eapply acked_step; eauto.
          + exists ts. auto.
        - destruct (passed_held _ _ Hp') as [Hh|(ts & Ha & Hk)].
          + exfalso. eapply (HM i0 j t0 u k k'); eauto.
          + exists ts. split; auto. cbn [t_call]. destruct (passed_txn _ _ Hp') as (snap & ms & Hw).
            eapply (check_sees c M Is Hs u k' ts ms snap HI HC HL); eauto.
            * eapply nth_error_In; eauto.
            * korder. }
      intros i j t u k k' N Hi Hj Hk Hk' E. cbn [c_threads] in *.
      destruct (Nat.eq_dec i i0) as [->|N1].
      + rewrite (nth_set_same _ _ _ _ H0) in Hi. injection Hi as <-. rewrite nth_set_other in Hj by auto. right. eapply X; eauto.
      + rewrite nth_set_other in Hi by auto. destruct (Nat.eq_dec j i0) as [->|N2].
        * rewrite (nth_set_same _ _ _ _ H0) in Hj. injection Hj as <-. left. eapply (X i t k' k); eauto. korder.
        * rewrite nth_set_other in Hj by auto. eapply (HO i j); eauto.
    - intros i j t u k k' N Hi Hj. rewrite flush_threads in Hi, Hj. eapply (HO i j); eauto.
    - destruct (nth_error (c_threads c) i0) as [t0|] eqn:H0; auto. destruct (awaits (t_pc t0)); auto.
      intros i j t u k k' N Hi Hj Hk Hk'. cbn [c_threads] in *.
      destruct (Nat.eq_dec i i0) as [->|N1];
        [rewrite (nth_set_same _ _ _ _ H0) in Hi; injection Hi as <-; destruct Hk|rewrite nth_set_other in Hi by auto].
      destruct (Nat.eq_dec j i0) as [->|N2];
        [rewrite (nth_set_same _ _ _ _ H0) in Hj; injection Hj as <-; destruct Hk'|rewrite nth_set_other in Hj by auto].
      eapply (HO i j); eauto.
    - exact HO.
  Qed.

  Lemma ordered_run capacity es : sched_hyp capacity es -> Forall (@not_flush K R) es ->
    calm_checks key_of (cstart capacity) es ->
    mutex (crun (cstart capacity) es) /\ ordered (crun (cstart capacity) es).
  Proof.
    induction es as [|e es IH] using rev_ind; intros HH HF HCk.
    - split; intros [|i] j t u k k' N Hi; discriminate.
    - pose proof (sched_prefix _ _ _ _ HH) as HH'. apply Forall_app in HF as [HF HF1].
      destruct IH as [I1 I2]; auto.
      { intros es1 i t es2 E. apply (HCk es1 i t (es2 ++ [e])). rewrite E, <- app_assoc. reflexivity. }
      destruct (sched_inv _ _ _ HH') as [J1 J2].
      rewrite crun_app. change (crun (crun (cstart capacity) es) [e]) with (cstep (crun (cstart capacity) es) e).
      split; [now apply mutex_step|]. apply ordered_step; auto.
      + rewrite levels_run by auto. reflexivity.
      + intros i t -> Hi Hc. apply (HCk es i t []); auto.
  Qed.

  (** *** Where a transaction began *)
  Lemma threads_call c e i t : nth_error (c_threads (cstep c e)) i = Some t ->
    (exists t0, nth_error (c_threads c) i = Some t0 /\ t_call t0 = t_call t) \/
    (i = length (c_threads c) /\
     ((exists rows dec, t_call t = CIngest rows dec) \/ (exists rows dec, t_call t = CTomb rows dec) \/
      exists ms, e = EBegin ms /\ t_call t = CTxn (d_clock (c_db c) - 1) ms)).
  Proof.
    destruct e as [rows dec|rows dec|ms|j| |j|]; cbn [Sched.cstep spawn c_threads]; intros Hi.
    - apply nth_snoc in Hi as [Hi|[-> ->]]; eauto. right. split; auto. left. simpl. eauto.
    - apply nth_snoc in Hi as [Hi|[-> ->]]; eauto. right. split; auto. right; left. simpl. eauto.
    - apply nth_snoc in Hi as [Hi|[-> ->]]; eauto. right. split; auto. right; right. simpl. eauto.
    - destruct (nth_error (c_threads c) j) as [u|] eqn:Hj; eauto.
      destruct (call_step (c_db c) (others j (c_threads c)) u) as [[d p]|] eqn:ES; eauto. cbn [c_threads] in Hi.
      destruct (Nat.eq_dec j i) as [->|N].
      + rewrite (nth_set_same _ _ _ _ Hj) in Hi. injection Hi as <-. left. exists u. auto.
      + rewrite nth_set_other in Hi by auto. eauto.
    - rewrite flush_threads in Hi. eauto.
    - destruct (nth_error (c_threads c) j) as [u|] eqn:Hj; eauto. destruct (awaits (t_pc u)); eauto. cbn [c_threads] in Hi.
      destruct (Nat.eq_dec j i) as [->|N].
      + rewrite (nth_set_same _ _ _ _ Hj) in Hi. injection Hi as <-. left. exists u. auto.
      + rewrite nth_set_other in Hi by auto. eauto.
    - eauto.
  Qed.
  Lemma began capacity es i t snap ms : nth_error (c_threads (crun (cstart capacity) es)) i = Some t -> t_call t = CTxn snap ms ->
    exists es1 es2, es = es1 ++ EBegin ms :: es2 /\ length (c_threads (crun (cstart capacity) es1)) = i /\
      snap = (d_clock (c_db (crun (cstart capacity) es1)) - 1)%N.
  Proof.
    revert i t. induction es as [|e es IH] using rev_ind; intros i t Hi Hc; [destruct i; discriminate|].
    rewrite crun_app in Hi. change (crun (crun (cstart capacity) es) [e]) with (cstep (crun (cstart capacity) es) e) in Hi.
    destruct (threads_call _ _ _ _ Hi) as [(t0 & H0 & E0)|(-> & [(r & d & E)|[(r & d & E)|(ms' & -> & E)]])].
    - destruct (IH i t0 H0) as (es1 & es2 & -> & E2 & E3); [congruence|].
      exists es1, (es2 ++ [e]). rewrite <- app_assoc. auto.
    - congruence.
    - congruence.
    - rewrite E in Hc. injection Hc as <- <-. exists es, []. auto.
  Qed.

  Lemma writes_keys k (t : thread K R) : txn_writes key_of k t ->
    exists snap ms k', t_call t = CTxn snap ms /\ In k' (keys_of (t_call t)) /\ kcmp k' k = Eq.
  Proof.
    intros (snap & ms & m & k' & Hc & Hm & Ek & E). exists snap, ms.
    destruct (last_mut_dec key_of 0%N (accepted key_of ms) k) as [(v & Hv & Hs)|F].
    - apply last_accepted in Hv. apply in_map_iff in Hv as ([k1 o] & <- & H1). exists k1. split; auto. rewrite Hc. simpl. split.
      + apply in_map_iff. exists (k1, o). auto.
      + exact Hs.
    - exfalso. apply (F m k' Hm Ek E).
  Qed.

  Theorem no_lost_update capacity es i j t u ti tj k : sched_hyp capacity es -> Forall (@not_flush K R) es ->
    calm_checks key_of (cstart capacity) es -> calm_begins key_of (cstart capacity) es ->
    let c := crun (cstart capacity) es in
    i <> j -> nth_error (c_threads c) i = Some t -> nth_error (c_threads c) j = Some u ->
    acked_at t ti -> acked_at u tj -> txn_writes key_of k t -> txn_writes key_of k u ->
    began_after key_of (cstart capacity) es i j \/ began_after key_of (cstart capacity) es j i.
  Proof.
    intros HH HF HCk HB c N Hi Hj Hti Htj Hwt Hwu. destruct (ordered_run capacity es HH HF HCk) as [_ HO].
    destruct (writes_keys _ _ Hwt) as (st & mt & kt & Ct & Kt & Et). destruct (writes_keys _ _ Hwu) as (su & mu & ku & Cu & Ku & Eu).
    assert (X : forall i j t u ts su mu, nth_error (c_threads c) i = Some t -> nth_error (c_threads c) j = Some u ->
                acked_at t ts -> t_call u = CTxn su mu -> (ts <= su)%N -> began_after key_of (cstart capacity) es i j).
    { intros a b x y ts s m Ha Hb Hx Cy L. destruct (began capacity es b y s m Hb Cy) as (es1 & es2 & E1 & E2 & E3).
      destruct (HB es1 m es2 E1) as [B1 B2]. pose proof HH as HH0. rewrite E1 in HH0.
      destruct (sched_inv _ _ _ (sched_prefix _ _ _ _ HH0)) as [(M & Is & Hs & HI) _].
      pose proof (sched_room _ _ _ _ HH0) as HRoom. set (c1 := crun (cstart capacity) es1) in *.
      assert (HPos : (0 < d_clock (c_db c1))%N).
      { destruct (acked key_of c1) as [|[ts1 ms1] l] eqn:E; [congruence|].
        assert (Y : In (ts1, ms1) (acked key_of c1)) by (rewrite E; simpl; auto). apply In_acked in Y as (t1 & Ht1 & Ha1 & _).
        assert (ts1 < d_clock (c_db c1))%N by (apply (ci_clock _ _ _ _ _ HI t1); auto; unfold stamp; now rewrite Ha1). lia. }
      assert (Ha' : nth_error (c_threads (crun c1 (EBegin m :: es2))) a = Some x).
      { unfold c1. rewrite <- crun_app, <- E1. exact Ha. }
      destruct (stamp_run key_of (EBegin m :: es2) c1 a x ts HRoom Ha') as [(x0 & H0 & S0)|G].
      - unfold stamp. now rewrite Hx.
      - assert (A0 : acked_at x0 ts).
        { apply stamped_acked; auto. rewrite Forall_forall in B1. apply B1. eapply nth_error_In; eauto. }
        exists es1, m, es2, x0, ts. auto.
      - lia. }
    destruct (HO i j t u kt ku) as [(ts & A & L)|(ts & A & L)]; auto.
    - unfold passed. rewrite Hti. exact Kt.
    - unfold passed. rewrite Htj. exact Ku.
    - korder.
    - left. rewrite Cu in L. eapply X; eauto.
    - right. rewrite Ct in L. eapply X; eauto.
  Qed.
End SchedTxn.
