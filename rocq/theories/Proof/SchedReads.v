(** Concurrent calls: what scans return. *)
From Coq Require Import List NArith Bool Arith Lia Sorted Permutation.
From Verif Require Import Base.Order Base.Sub Model.OMap Model.KeyTs Model.MemTable Model.Immutable
     Model.SsTable Model.KeyBounds Model.DbScan Model.Version Model.Db Spec.Mvcc Spec.KeySet Spec.Valid
     Spec.History Model.Run Model.Sched Spec.ConcSpec
     Proof.OMapFacts Proof.MemFacts Proof.ViewFacts Proof.SstFacts Proof.HistFacts Proof.VersionFacts
     Proof.MergeFacts Proof.ScanFacts Proof.DbFacts Proof.RunFacts Proof.Refine Proof.Reads
     Proof.SchedLive Proof.SchedInv.
Import ListNotations.
Local Arguments kcmp : simpl never.

Section SchedReads.
  Context {K : Type} {KO : KeyOrd K} {R : Type}.
  Variable key_of : R -> option K.
  Notation vers := (@vers K R).
  Notation store := (store key_of).
  Notation rep := (rep key_of).
  Notation cstep := (cstep key_of).
  Notation crun := (crun key_of).
  Notation sched_hyp := (sched_hyp key_of).
  Notation call_step := (call_step key_of).
  Notation last_mut := (last_mut key_of).
  Notation muts_of := (muts_of key_of).
  Notation cinv := (cinv key_of).
  Notation cinv_at := (cinv_at key_of).
  Notation applied := (applied key_of).
  Notation nobody_failed := (@nobody_failed K R).

  (** Everything written so far: a returned call with all it asked for, a call in flight
      with what it has inserted. *)
  Definition entry (t : thread K R) : list (hcommit K R) :=
    match stamp t with
    | Some ts => [(ts, match t_pc t with PDone _ => muts_of (t_call t) | _ => applied t end)]
    | None => []
    end.
  Definition hist (c : conc K R) : list (hcommit K R) := flat_map entry (c_threads c).

  Lemma In_hist c ts ms : In (ts, ms) (hist c) <->
    exists t, In t (c_threads c) /\ stamp t = Some ts /\ ms = match t_pc t with PDone _ => muts_of (t_call t) | _ => applied t end.
  Proof.
    unfold hist, entry. rewrite in_flat_map. split.
    - intros (t & Ht & H). destruct (stamp t) as [u|] eqn:E; [|destruct H]. destruct H as [H|[]]. injection H as -> <-.
      exists t. auto.
    - intros (t & Ht & E & ->). exists t. split; auto. rewrite E. simpl. auto.
  Qed.

  Lemma entry_mut t ts v : call_ok key_of (t_call t) -> stamp t = Some ts ->
    (last_mut ts (match t_pc t with PDone _ => muts_of (t_call t) | _ => applied t end) v <-> last_mut ts (applied t) v).
  Proof.
    intros HK HS. destruct (t_pc t) as [got|n| |u n|u n sg|u|u sg|o] eqn:E; try tauto.
    rewrite <- (parts_muts key_of _ ts v HK). unfold SchedInv.applied, SchedInv.napp. rewrite E, firstn_all. tauto.
  Qed.

  Lemma hist_nodup_gen (l : list (thread K R)) :
    (forall i j t u ts, nth_error l i = Some t -> nth_error l j = Some u -> stamp t = Some ts -> stamp u = Some ts -> i = j) ->
    NoDup (map fst (flat_map entry l)).
  Proof.
    induction l as [|t l IH]; intros H; simpl; [constructor|]. rewrite map_app.
    assert (IH' : NoDup (map fst (flat_map entry l))).
    { apply IH. intros i j a b ts Hi Hj Ea Eb. assert (S i = S j) by (apply (H (S i) (S j) a b ts); auto). lia. }
    unfold entry at 1. destruct (stamp t) as [ts|] eqn:E; simpl; auto. constructor; auto.
    intros F. apply in_map_iff in F as ([u ms] & F1 & F2). simpl in F1. subst u.
    apply in_flat_map in F2 as (w & Hw & F2). unfold entry in F2. destruct (stamp w) as [u|] eqn:EW; [|destruct F2].
    destruct F2 as [F2|[]]. injection F2 as -> _. apply In_nth_error in Hw as [j Hj].
    specialize (H 0 (S j) t w ts eq_refl Hj E EW). discriminate.
  Qed.
  Lemma hist_nodup c M Is Hs : cinv_at c M Is Hs -> NoDup (map fst (hist c)).
  Proof. intros HI. apply hist_nodup_gen. apply (ci_ts _ _ _ _ _ HI). Qed.

  Lemma sort_exists (l : list (hcommit K R)) : NoDup (map fst l) -> exists h, Permutation h l /\ increasing h.
  Proof.
    induction l as [|a l IH]; intros H; [exists []; split; constructor|]. simpl in H. inversion H as [|? ? N1 N2]; subst.
    destruct (IH N2) as (h & HP & HI).
    assert (X : forall h, increasing h -> ~ In (fst a) (map fst h) -> exists h', Permutation h' (a :: h) /\ increasing h').
    { clear. induction h as [|b h IH]; intros HI HN.
      - exists [a]. split; auto. repeat constructor.
      - inversion HI as [|? ? HI' HF]; subst. destruct (N.lt_ge_cases (fst a) (fst b)) as [L|L].
        + exists (a :: b :: h). split; auto. constructor; auto. constructor; auto.
          eapply Forall_impl; [|exact HF]. simpl. intros x Hx. lia.
        + assert (fst b < fst a)%N by (simpl in HN; apply N.le_neq; split; auto).
          destruct (IH HI') as (h' & P' & I'); [simpl in HN; tauto|].
          exists (b :: h'). split.
          * rewrite P'. apply perm_swap.
          * constructor; auto. apply Forall_forall. intros x Hx. eapply Permutation_in in Hx; [|exact P'].
            destruct Hx as [<-|Hx]; auto. rewrite Forall_forall in HF. auto. }
    destruct (X h HI) as (h' & P' & I').
    { intros F. apply N1. eapply Permutation_in; [apply Permutation_map, HP|exact F]. }
    exists h'. split; auto. rewrite P'. now constructor.
  Qed.

  Lemma no_hand c M Is Hs : cinv_at c M Is Hs -> Forall (fun t => ~ sealing t) (c_threads c) ->
    forall v, ~ exists H, In H Hs /\ heldv v H.
  Proof.
    intros HI HN v (H & HH & Hv). pose proof (ci_hand _ _ _ _ _ HI) as H2. clear HI.
    induction H2 as [|t H0 l Hs [E _] H2 IH]; [destruct HH|]. inversion HN as [|? ? N1 N2]; subst.
    destruct HH as [->|HH]; auto. unfold hand in E. unfold sealing in N1.
    destruct (t_pc t); try (exfalso; apply N1; exact I); destruct H; try discriminate; destruct Hv.
  Qed.

  Lemma hist_inv c : cinv c -> Forall (fun t => ~ sealing t) (c_threads c) ->
    exists h, Permutation h (hist c) /\ increasing h /\ inv key_of (mkSt (c_db c) h 0).
  Proof.
    intros (M & Is & Hs & HI) HN. destruct (sort_exists (hist c) (hist_nodup _ _ _ _ HI)) as (h & HP & HInc).
    exists h. split; auto. split; auto.
    assert (HV : forall v, In v (hv key_of h) <-> exists t, In t (c_threads c) /\ wrote key_of v t).
    { intros v. rewrite hv_In. pose proof (ci_calls _ _ _ _ _ HI) as HK. rewrite Forall_forall in HK. split.
      - intros ([ts ms] & Hc & Hv). eapply Permutation_in in Hc; [|exact HP]. apply In_hist in Hc as (t & Ht & E & ->).
        exists t. split; auto. exists ts. split; auto. simpl in Hv. apply entry_mut in Hv; auto.
      - intros (t & Ht & ts & E & L). exists (ts, match t_pc t with PDone _ => muts_of (t_call t) | _ => applied t end).
        split; [|simpl; apply entry_mut; auto]. eapply Permutation_in; [apply Permutation_sym, HP|]. apply In_hist. eauto. }
    assert (EQ : forall v, In v (store M Is (d_levels (c_db c))) <-> In v (hv key_of h)).
    { intros v. rewrite HV, <- (ci_store _ _ _ _ _ HI v). pose proof (no_hand _ _ _ _ HI HN v). tauto. }
    constructor; cbn [st_db st_hist st_horizon].
    - exists M, Is. split; [apply (ci_rep _ _ _ _ _ HI)|]. split; [intros v; apply EQ|]. intros v Hv. left. now apply EQ.
    - exact HInc.
    - apply Forall_forall. intros [ts ms] Hc. eapply Permutation_in in Hc; [|exact HP]. apply In_hist in Hc as (t & Ht & E & _).
      simpl. eapply (ci_clock _ _ _ _ _ HI); eauto.
    - lia.
  Qed.

  Lemma hist_acked c : Forall (@returned K R) (c_threads c) -> hist c = acked key_of c.
  Proof.
    unfold hist, acked. induction 1 as [|t l [o E] H IH]; simpl; auto. rewrite IH. f_equal.
    unfold entry, stamp. rewrite E. destruct o; reflexivity.
  Qed.
  Lemma returned_not_sealing (l : list (thread K R)) : Forall (@returned K R) l -> Forall (fun t => ~ sealing t) l.
  Proof. intros H. eapply Forall_impl; [|exact H]. intros t [o E] F. unfold sealing in F. now rewrite E in F. Qed.

  Lemma sched_inv capacity es : sched_hyp capacity es -> cinv (crun (cstart capacity) es) /\
    (d_clock (c_db (crun (cstart capacity) es)) < 2 ^ 64)%N.
  Proof.
    intros (H1 & H2 & H3 & H4). split; [now apply cinv_reach|].
    pose proof (clock_run key_of es (cstart capacity)) as H. cbn [cstart db_new c_db d_clock] in H. lia.
  Qed.

  (** After all calls have returned, a scan lists the acknowledged writes in the order of
      their timestamps, whatever the schedule was. *)
  Theorem settled_scan capacity es prune cp limit : sched_hyp capacity es ->
    let c := crun (cstart capacity) es in
    Forall (@returned K R) (c_threads c) -> cp_sound key_of cp ->
    push_ok key_of prune cp (sn_ts (begin_snapshot (c_db c))) (d_levels (c_db c)) ->
    exists h full, Permutation h (acked key_of c) /\ by_time h /\
      scan key_of prune cp (begin_snapshot (c_db c)) limit (c_db c)
        = Some (match limit with Some n => firstn n full | None => full end) /\
      lists_table key_of (final key_of h) (c_full cp) full.
  Proof.
    intros HH c HRet HCP HPush. destruct (sched_inv _ _ HH) as [HI HC]. fold c in HI, HC.
    destruct (hist_inv c HI (returned_not_sealing _ HRet)) as (h & HP & HInc & HInv).
    rewrite hist_acked in HP by auto.
    destruct (read_spec key_of (mkSt (c_db c) h 0) prune cp limit (d_clock (c_db c) - 1) HInv HC HCP HPush) as (full & out & E1 & E2 & E3).
    - apply (seg_safe_latest key_of (mkSt (c_db c) h 0)); auto. cbn [st_db]. lia.
    - cbn [st_horizon]. lia.
    - exists h, full. split; auto. split; [exact HInc|]. split.
      + rewrite <- E2. exact E1.
      + cbn [st_hist] in E3. rewrite (as_of_all key_of h) in E3; auto.
        pose proof (iv_clock _ _ HInv) as H. cbn [st_hist st_db] in H. eapply Forall_impl; [|exact H].
        intros x Hx. simpl in Hx. lia.
  Qed.

  (** *** Timestamps of later calls *)
  Lemma stamp_call d rest t d' p ts : call_step d rest t = Some (d', p) -> stamp (mkTh (t_call t) p) = Some ts ->
    stamp t = Some ts \/ ts = d_clock d.
  Proof.
    unfold Sched.call_step, stamp. cbn [t_pc].
    destruct (t_pc t) as [got|n| |u n|u n sg|u|u sg|o]; intros H.
    - destruct (nth_error _ got); [destruct (existsb _ _); [discriminate|]|]; injection H as <- <-; discriminate.
    - destruct (nth_error _ n); [destruct (key_conflict _ _ _)|]; injection H as <- <-; discriminate.
    - destruct (parts_of _ _); injection H as <- <-; [discriminate|]. intros E. injection E as <-. auto.
    - destruct (nth_error _ n); [destruct (put_part _ _ _ _) as [m [sg|]|m|]|]; injection H as <- <-; auto; discriminate.
    - injection H as <- <-. auto.
    - destruct (dec_of _); [destruct (seal _ _)|]; injection H as <- <-; auto; discriminate.
    - injection H as <- <-. auto.
    - discriminate.
  Qed.
  Lemma nth_snoc {A} (l : list A) x i y : nth_error (l ++ [x]) i = Some y -> nth_error l i = Some y \/ (i = length l /\ y = x).
  Proof.
    intros H. destruct (Nat.lt_ge_cases i (length l)) as [L|L]; [left; now rewrite nth_error_app1 in H|].
    rewrite nth_error_app2 in H by auto. destruct (i - length l) as [|[|?]] eqn:E; try discriminate.
    injection H as <-. right. split; auto. lia.
  Qed.
  Lemma stamp_step c e i t ts : nth_error (c_threads (cstep c e)) i = Some t -> stamp t = Some ts ->
    (exists t0, nth_error (c_threads c) i = Some t0 /\ stamp t0 = Some ts) \/ ts = d_clock (c_db c).
  Proof.
    intros Hi HS. destruct e as [rows dec|rows dec|ms|j| |j|]; cbn [Sched.cstep spawn c_threads] in Hi.
    - apply nth_snoc in Hi as [Hi|[_ ->]]; [left; eauto|discriminate].
    - apply nth_snoc in Hi as [Hi|[_ ->]]; [left; eauto|discriminate].
    - apply nth_snoc in Hi as [Hi|[_ ->]]; [left; eauto|discriminate].
    - destruct (nth_error (c_threads c) j) as [u|] eqn:Hj; [|left; eauto].
      destruct (call_step (c_db c) (others j (c_threads c)) u) as [[d p]|] eqn:ES; [|left; eauto]. cbn [c_threads] in Hi.
      destruct (Nat.eq_dec j i) as [->|N].
      + rewrite (nth_set_same i (mkTh (t_call u) p) (c_threads c) u Hj) in Hi. injection Hi as <-.
        destruct (stamp_call _ _ _ _ _ _ ES HS) as [E|E]; [left; exists u; auto|right; auto].
      + rewrite nth_set_other in Hi by auto. left. eauto.
    - rewrite flush_threads in Hi. left. eauto.
    - destruct (nth_error (c_threads c) j) as [u|] eqn:Hj; [|left; eauto]. destruct (awaits (t_pc u)); [|left; eauto].
      cbn [c_threads] in Hi. destruct (Nat.eq_dec j i) as [->|N].
      + rewrite (nth_set_same _ _ _ u Hj) in Hi. injection Hi as <-. discriminate.
      + rewrite nth_set_other in Hi by auto. left. eauto.
    - left. eauto.
  Qed.
  Lemma clock_mono c e : (d_clock (c_db c) + 1 < 2 ^ 64)%N -> (d_clock (c_db c) <= d_clock (c_db (cstep c e)))%N.
  Proof.
    intros HC. destruct e as [rows dec|rows dec|ms|i| |i|]; cbn [Sched.cstep spawn c_db]; try lia.
    - destruct (nth_error (c_threads c) i) as [t|] eqn:Hi; [|lia].
      destruct (call_step (c_db c) (others i (c_threads c)) t) as [[d p]|] eqn:ES; [|lia]. cbn [c_db].
      unfold Sched.call_step in ES.
      destruct (t_pc t) as [got|n| |ts n|ts n sg|ts|ts sg|o].
      + destruct (nth_error _ got); [destruct (existsb _ _); [discriminate|]|]; injection ES as <- <-; lia.
      + destruct (nth_error _ n); injection ES as <- <-; lia.
      + destruct (parts_of _ _); injection ES as <- <-; [lia|]. cbn [tick d_clock]. rewrite N.mod_small by exact HC. lia.
      + destruct (nth_error _ n); [destruct (put_part _ _ _ _) as [m [sg|]|m|]|]; injection ES as <- <-; simpl; lia.
      + injection ES as <- <-. simpl. lia.
      + destruct (dec_of _); [destruct (seal _ _)|]; injection ES as <- <-; simpl; lia.
      + injection ES as <- <-. simpl. lia.
      + discriminate.
    - unfold flush_step. destruct (c_flush c) as [|id segs|n]; simpl; try lia.
      + destruct (d_imm (c_db c)); simpl; lia.
      + destruct (write_flush _ _ _); simpl; lia.
    - destruct (nth_error (c_threads c) i) as [t|]; [destruct (awaits (t_pc t))|]; simpl; lia.
  Qed.
  Lemma stamp_run es : forall c i t ts, (d_clock (c_db c) + N.of_nat (length es) < 2 ^ 64)%N ->
    nth_error (c_threads (crun c es)) i = Some t -> stamp t = Some ts ->
    (exists t0, nth_error (c_threads c) i = Some t0 /\ stamp t0 = Some ts) \/ (d_clock (c_db c) <= ts)%N.
  Proof.
    induction es as [|e es IH]; intros c i t ts HC Hi HS; [left; eauto|].
    change (crun c (e :: es)) with (crun (cstep c e) es) in Hi. cbn [length] in HC.
    pose proof (clock_step key_of c e) as C1. assert (C2 : (d_clock (c_db c) <= d_clock (c_db (cstep c e)))%N) by (apply clock_mono; lia).
    destruct (IH (cstep c e) i t ts) as [(t0 & H0 & S0)|H0]; auto; [lia| |right; lia].
    destruct (stamp_step c e i t0 ts H0 S0) as [H1|H1]; auto. right. lia.
  Qed.
  Lemma clock_mono_run es : forall c, (d_clock (c_db c) + N.of_nat (length es) < 2 ^ 64)%N ->
    (d_clock (c_db c) <= d_clock (c_db (crun c es)))%N.
  Proof.
    induction es as [|e es IH]; intros c HC; [simpl; lia|].
    change (crun c (e :: es)) with (crun (cstep c e) es). cbn [length] in HC.
    pose proof (clock_step key_of c e) as C1. assert (C2 : (d_clock (c_db c) <= d_clock (c_db (cstep c e)))%N) by (apply clock_mono; lia).
    specialize (IH (cstep c e)). lia.
  Qed.

  Lemma sched_prefix capacity es es' : sched_hyp capacity (es ++ es') -> sched_hyp capacity es.
  Proof.
    intros (H1 & H2 & H3 & H4). apply Forall_app in H2 as [H2 _]. rewrite app_length, Nat2N.inj_add in H3.
    split; auto. split; auto. split; [lia|]. rewrite crun_app in H4. eapply failed_back; eauto.
  Qed.
  Lemma sched_room capacity es es' : sched_hyp capacity (es ++ es') ->
    (d_clock (c_db (crun (cstart capacity) es)) + N.of_nat (length es') < 2 ^ 64)%N.
  Proof.
    intros (_ & _ & H3 & _). rewrite app_length, Nat2N.inj_add in H3.
    pose proof (clock_run key_of es (cstart capacity)) as H. cbn [cstart db_new c_db d_clock] in H. lia.
  Qed.

  (** A call that starts after another was acknowledged gets a later timestamp. *)
  Theorem real_time capacity es es' i j t u ts ts' : sched_hyp capacity (es ++ es') ->
    let c := crun (cstart capacity) es in
    let c' := crun (cstart capacity) (es ++ es') in
    nth_error (c_threads c) i = Some t -> acked_at t ts ->
    nth_error (c_threads c) j = None -> nth_error (c_threads c') j = Some u -> acked_at u ts' ->
    (ts < ts')%N.
  Proof.
    intros HH c c' Hi Ha Hj Hj' Hu. destruct (sched_inv _ _ (sched_prefix _ _ _ HH)) as [(M & Is & Hs & HI) _].
    assert (ts < d_clock (c_db c))%N.
    { apply (ci_clock _ _ _ _ _ HI t); [eapply nth_error_In; eauto|]. unfold stamp. now rewrite Ha. }
    unfold c' in Hj'. rewrite crun_app in Hj'.
    destruct (stamp_run es' c j u ts' (sched_room _ _ _ HH) Hj') as [(t0 & H0 & _)|H0].
    - unfold stamp. now rewrite Hu.
    - fold c in Hj. congruence.
    - fold c in H0. lia.
  Qed.

  (** *** A snapshot taken while nothing is being written *)
  Lemma stamped_acked (t : thread K R) ts : stamp t = Some ts -> ~ writing t -> acked_at t ts.
  Proof.
    unfold stamp, writing, acked_at. destruct (t_pc t) as [got|n| |u n|u n sg|u|u sg|[u| | | |]]; try discriminate;
      try (intros _ F; exfalso; apply F; exact I). intros E _. congruence.
  Qed.
  Lemma In_acked c ts ms : In (ts, ms) (acked key_of c) <-> exists t, In t (c_threads c) /\ acked_at t ts /\ ms = muts_of (t_call t).
  Proof.
    unfold acked, acked_at. rewrite in_flat_map. split.
    - intros (t & Ht & H). destruct (t_pc t) as [got|n| |u n|u n sg|u|u sg|[u| | | |]] eqn:E; try destruct H as [].
      injection H as -> <-. exists t. auto. destruct H.
    - intros (t & Ht & E & ->). exists t. split; auto. rewrite E. simpl. auto.
  Qed.
  Lemma acked_nodup c M Is Hs : cinv_at c M Is Hs -> NoDup (map fst (acked key_of c)).
  Proof.
    intros HI. pose proof (hist_nodup _ _ _ _ HI) as H. unfold hist, acked in *. clear HI. induction (c_threads c) as [|t l IH]; simpl in *; auto.
    rewrite map_app in *.
    assert (SUB : forall x, In x (map fst (flat_map (fun t0 => match t_pc t0 with PDone (Acked ts) => [(ts, muts_of (t_call t0))] | _ => [] end) l)) ->
                  In x (map fst (flat_map entry l))).
    { intros x Hx. apply in_map_iff in Hx as ([u ms] & E & Hx). simpl in E. subst u. apply in_flat_map in Hx as (w & Hw & Hx).
      apply in_map_iff. exists (x, ms). split; auto. apply in_flat_map. exists w. split; auto. unfold entry, stamp.
      destruct (t_pc w) as [got|n| |u n|u n sg|u|u sg|[u| | | |]]; try destruct Hx as [].
      - injection H0 as -> <-. simpl. auto.
      - destruct H0. }
    assert (NDr : NoDup (map fst (flat_map entry l))) by (apply NoDup_app_r in H; auto).
    unfold entry, stamp in H. destruct (t_pc t) as [got|n| |u n|u n sg|u|u sg|[u| | | |]]; simpl in *; auto.
    inversion H as [|? ? N1 N2]; subst. constructor; auto.
  Qed.
  Lemma NoDup_map_fst {A B} (l : list (A * B)) : NoDup (map fst l) -> NoDup l.
  Proof.
    induction l as [|a l IH]; simpl; intros H; constructor; inversion H; subst; auto.
    intros F. apply H2. apply in_map_iff. eauto.
  Qed.

  Lemma levels_step c e : not_flush e -> d_levels (c_db (cstep c e)) = d_levels (c_db c).
  Proof.
    intros HN. destruct e as [rows dec|rows dec|ms|i| |i|]; cbn [Sched.cstep spawn c_db]; auto.
    - destruct (nth_error (c_threads c) i) as [t|] eqn:Hi; auto.
      destruct (call_step (c_db c) (others i (c_threads c)) t) as [[d p]|] eqn:ES; auto. cbn [c_db].
      unfold Sched.call_step in ES.
      destruct (t_pc t) as [got|n| |ts n|ts n sg|ts|ts sg|o].
      + destruct (nth_error _ got); [destruct (existsb _ _); [discriminate|]|]; injection ES as <- <-; auto.
      + destruct (nth_error _ n); injection ES as <- <-; auto.
      + destruct (parts_of _ _); injection ES as <- <-; auto.
      + destruct (nth_error _ n); [destruct (put_part _ _ _ _) as [m [sg|]|m|]|]; injection ES as <- <-; auto.
      + injection ES as <- <-. auto.
      + destruct (dec_of _); [destruct (seal _ _)|]; injection ES as <- <-; auto.
      + injection ES as <- <-. auto.
      + discriminate.
    - exfalso. now apply HN.
    - destruct (nth_error (c_threads c) i) as [t|]; [destruct (awaits (t_pc t))|]; auto.
  Qed.
  Lemma levels_run es : forall c, Forall (@not_flush K R) es -> d_levels (c_db (crun c es)) = d_levels (c_db c).
  Proof.
    induction es as [|e es IH]; intros c H; auto. inversion H; subst.
    change (crun c (e :: es)) with (crun (cstep c e) es). rewrite IH by auto. now apply levels_step.
  Qed.

  Theorem calm_snapshot capacity es es' prune cp limit : sched_hyp capacity (es ++ es') ->
    let c := crun (cstart capacity) es in
    let c' := crun (cstart capacity) (es ++ es') in
    let sn := begin_snapshot (c_db c) in
    acked key_of c <> [] -> Forall (fun t => ~ writing t) (c_threads c) ->
    Forall (@not_flush K R) es' -> Forall (fun t => ~ sealing t) (c_threads c') ->
    Forall (seg_safe (sn_ts sn)) (d_imm (c_db c')) ->
    cp_sound key_of cp -> push_ok key_of prune cp (sn_ts sn) (d_levels (c_db c')) ->
    exists h full, Permutation h (acked key_of c) /\ by_time h /\
      scan key_of prune cp sn limit (c_db c')
        = Some (match limit with Some n => firstn n full | None => full end) /\
      lists_table key_of (final key_of h) (c_full cp) full.
  Proof.
    intros HH c c' sn HA HW HNF HNS HSafe HCP HPush.
    destruct (sched_inv _ _ HH) as [HI' HC']. fold c' in HI', HC'.
    destruct (sched_inv _ _ (sched_prefix _ _ _ HH)) as [HI HC]. fold c in HI, HC.
    pose proof (sched_room _ _ _ HH) as HRoom. fold c in HRoom.
    assert (EC : c' = crun c es') by (unfold c', c; apply crun_app).
    assert (EL : d_levels (c_db c') = d_levels (c_db c)) by (rewrite EC; now apply levels_run).
    destruct HI as (M & Is & Hs & HI).
    assert (HPos : (0 < d_clock (c_db c))%N).
    { destruct (acked key_of c) as [|[ts ms] l] eqn:E; [congruence|].
      assert (X : In (ts, ms) (acked key_of c)) by (rewrite E; simpl; auto). apply In_acked in X as (t & Ht & Ha & _).
      assert (ts < d_clock (c_db c))%N by (apply (ci_clock _ _ _ _ _ HI t); auto; unfold stamp; now rewrite Ha). lia. }
    destruct (hist_inv c' HI' HNS) as (h & HP & HInc & HInv).
    pose proof HI' as (M' & Is' & Hs' & HI'').
    destruct (read_spec key_of (mkSt (c_db c') h 0) prune cp limit (sn_ts sn) HInv HC' HCP HPush) as (full & out & E1 & E2 & E3); auto.
    { cbn [st_horizon]. lia. }
    cbn [st_db st_hist] in E1, E3. rewrite EL in E1.
    exists (filter (fun x => N.leb (fst x) (sn_ts sn)) h), full. split; [|split; [|split]].
    - apply NoDup_Permutation.
      + apply NoDup_filter. eapply Permutation_NoDup; [apply Permutation_sym, HP|]. apply NoDup_map_fst. eapply hist_nodup; eauto.
      + apply NoDup_map_fst. eapply acked_nodup; eauto.
      + intros [ts ms]. rewrite filter_In, N.leb_le. cbn [fst].
        assert (PI : In (ts, ms) h <-> In (ts, ms) (hist c')) by (split; apply Permutation_in; auto using Permutation_sym).
        rewrite PI, In_hist, In_acked. cbn [sn begin_snapshot sn_ts]. split.
        * intros [(t & Ht & ES & ->) L]. apply In_nth_error in Ht as [i Hi]. rewrite EC in Hi.
          destruct (stamp_run es' c i t ts HRoom Hi ES) as [(t0 & H0 & S0)|F]; [|lia].
          assert (A0 : acked_at t0 ts).
          { apply stamped_acked; auto. rewrite Forall_forall in HW. apply HW. eapply nth_error_In; eauto. }
          assert (t0 = t).
          { assert (X : nth_error (c_threads (crun c es')) i = Some t0) by (apply returned_stays_run; auto; now exists (Acked ts)).
            congruence. }
          subst t0. exists t. split; [eapply nth_error_In; eauto|]. split; auto. now rewrite A0.
        * intros (t & Ht & Ha & ->).
          assert (ts < d_clock (c_db c))%N by (apply (ci_clock _ _ _ _ _ HI t); auto; unfold stamp; now rewrite Ha).
          split; [|lia]. exists t. split; [|split; [unfold stamp; now rewrite Ha|now rewrite Ha]].
          apply In_nth_error in Ht as [i Hi]. rewrite EC. eapply nth_error_In. apply returned_stays_run; eauto. now exists (Acked ts).
    - now apply increasing_filter.
    - rewrite <- E2. exact E1.
    - exact E3.
  Qed.
End SchedReads.
