(** Concurrent calls: a scan that plans at one moment and reads at a later one. *)
From Coq Require Import List NArith Bool Arith Lia Sorted Permutation.
From Verif Require Import Base.Order Base.Sub Model.OMap Model.KeyTs Model.MemTable Model.Immutable
     Model.SsTable Model.KeyBounds Model.MergeStream Model.DbScan Model.Version Model.Db Spec.Mvcc Spec.KeySet Spec.Valid
     Spec.History Model.Run Model.Sched Spec.ConcSpec
     Proof.OMapFacts Proof.MemFacts Proof.ViewFacts Proof.SstFacts Proof.HistFacts Proof.VersionFacts
     Proof.MergeFacts Proof.ScanFacts Proof.DbFacts Proof.RunFacts Proof.Refine Proof.Reads
     Proof.SchedLive Proof.SchedInv Proof.SchedReads.
Import ListNotations.
Local Arguments kcmp : simpl never.

(** *** An empty stream changes nothing *)
Section Empty.
  Context {K : Type} {KO : KeyOrd K} {R : Type}.
  Notation source := (@source K R).

  Definition shift (o : option (@hentry K R)) : option (@hentry K R) :=
    match o with Some (i, p, e) => Some (S i, p, e) | None => None end.
  Lemma heap_min_shift (l : list source) : forall i, heap_min (S i) l = shift (heap_min i l).
  Proof.
    induction l as [|[p es] l IH]; intros i; [reflexivity|]. cbn [heap_min]. rewrite (IH (S i)).
    destruct es as [|[[k t] v] es]; auto. destruct (heap_min (S i) l) as [[[j q] [[k' t'] v']]|]; auto.
    cbn [shift heap_cmp]. destruct (kcmp k k'); auto. destruct (N.compare t' t); auto.
    destruct (Nat.compare p q); auto. cbn [Nat.compare]. now destruct (Nat.compare i j).
  Qed.
  Lemma heap_min_nth (l : list source) : forall i j p e, heap_min i l = Some (j, p, e) -> i <= j.
  Proof.
    induction l as [|[q es] l IH]; intros i j p e H; cbn [heap_min] in H; [discriminate|].
    destruct es as [|[[k t] v] es]; [apply IH in H; lia|].
    destruct (heap_min (S i) l) as [[[j' q'] e']|] eqn:E.
    - apply IH in E. destruct (heap_cmp _ _); injection H; intros; subst; lia.
    - injection H; intros; subst; lia.
  Qed.

  Fixpoint drop_at (n : nat) (l : list source) : list source :=
    match n, l with O, _ :: r => r | S n, a :: r => a :: drop_at n r | _, [] => [] end.

  Lemma merge_empty p : forall fuel lim buf (a b : list source),
    merge_run fuel lim buf (a ++ (p, []) :: b) = merge_run fuel lim buf (a ++ b).
  Proof.
    assert (HM : forall (a b : list source) i,
      match heap_min i (a ++ b), heap_min i (a ++ (p, []) :: b) with
      | None, None => True
      | Some (j, q, e), Some (j', q', e') => q = q' /\ e = e' /\ i <= j /\
          (if Nat.ltb (j - i) (length a) then j' = j else j' = S j)
      | _, _ => False
      end).
    { induction a as [|[q es] a IH]; intros b i.
      - cbn [app heap_min]. rewrite heap_min_shift.
        destruct (heap_min i b) as [[[j q] e]|] eqn:E; simpl; auto. split; auto. split; auto. split; auto.
        now apply heap_min_nth in E.
      - cbn [app heap_min]. specialize (IH b (S i)). destruct es as [|[[k t] v] es].
        + destruct (heap_min (S i) (a ++ b)) as [[[j q0] e]|]; destruct (heap_min (S i) (a ++ (p, []) :: b)) as [[[j' q'] e']|]; auto.
          destruct IH as (E1 & E2 & L & H). split; auto. split; auto. split; [lia|]. cbn [length].
          destruct (Nat.ltb_spec (j - S i) (length a)); destruct (Nat.ltb_spec (j - i) (S (length a))); auto; lia.
        + destruct (heap_min (S i) (a ++ b)) as [[[j q0] [[k0 t0] v0]]|]; destruct (heap_min (S i) (a ++ (p, []) :: b)) as [[[j' q'] [[k' t'] v']]|]; auto.
          * destruct IH as (E1 & E2 & L & H). injection E2 as <- <- <-. subst q'.
            assert (E : heap_cmp (i, q, ((k, t), v)) (j', q0, ((k0, t0), v0)) = heap_cmp (i, q, ((k, t), v)) (j, q0, ((k0, t0), v0))).
            { cbn [heap_cmp]. destruct (kcmp k k0); auto. destruct (N.compare t0 t); auto. destruct (Nat.compare q q0); auto.
              assert (i < j' /\ i < j) as [A1 A2] by (destruct (Nat.ltb _ _); lia).
              apply Nat.compare_lt_iff in A1, A2. now rewrite A1, A2. }
            rewrite E.
            destruct (heap_cmp (i, q, (k, t, v)) (j, q0, (k0, t0, v0))).
            -- split; auto. split; auto. split; auto. rewrite Nat.sub_diag. reflexivity.
            -- split; auto. split; auto. split; auto. rewrite Nat.sub_diag. reflexivity.
            -- split; auto. split; auto. split; [lia|]. cbn [length].
               destruct (Nat.ltb_spec (j - S i) (length a)); destruct (Nat.ltb_spec (j - i) (S (length a))); auto; lia.
          * contradiction.
          * contradiction.
          * split; auto. split; auto. split; auto. rewrite Nat.sub_diag. reflexivity. }
    assert (HA : forall (a b : list source) j, 
      (j < length a -> advance j (a ++ b) = advance j a ++ b /\ advance j (a ++ (p, []) :: b) = advance j a ++ (p, []) :: b) /\
      (length a <= j -> exists b', advance j (a ++ b) = a ++ b' /\ advance (S j) (a ++ (p, []) :: b) = a ++ (p, []) :: b')).
    { induction a as [|[q es] a IH]; intros b j; split; intros L.
      - simpl in L. lia.
      - exists (advance j b). split; reflexivity.
      - destruct j as [|j]; [split; reflexivity|]. cbn [app advance]. destruct (IH b j) as [H _].
        simpl in L. destruct H as [-> ->]; [lia|]. split; reflexivity.
      - destruct j as [|j]; [simpl in L; lia|]. destruct (IH b j) as [_ H]. destruct H as (b' & E1 & E2); [simpl in L; lia|].
        exists b'. cbn [app advance]. cbn [app advance] in E1, E2. split; [now rewrite E1|]. now rewrite <- E2. }
    induction fuel as [|fuel IH]; intros lim buf a b; cbn [merge_run]; specialize (HM a b 0);
      destruct (heap_min 0 (a ++ b)) as [[[j q] e]|]; destruct (heap_min 0 (a ++ (p, []) :: b)) as [[[j' q'] e']|]; try contradiction; auto.
    destruct HM as (<- & <- & _ & HJ). rewrite Nat.sub_0_r in HJ.
    assert (X : exists a' b', advance j (a ++ b) = a' ++ b' /\ advance j' (a ++ (p, []) :: b) = a' ++ (p, []) :: b').
    { destruct (HA a b j) as [H1 H2]. destruct (Nat.ltb_spec j (length a)); subst j'.
      - destruct H1 as [E1 E2]; auto. exists (advance j a), b. auto.
      - destruct H2 as (b' & E1 & E2); auto. exists a, b'. auto. }
    destruct X as (a' & b' & -> & ->). rewrite !IH.
    destruct lim as [[|n]|]; auto; destruct buf as [[bk [r|]]|]; rewrite ?IH; reflexivity.
  Qed.
End Empty.

Section SchedScan.
  Context {K : Type} {KO : KeyOrd K} {R : Type}.
  Variable key_of : R -> option K.
  Notation vers := (@vers K R).
  Notation cstep := (cstep key_of).
  Notation crun := (crun key_of).
  Notation sched_hyp := (sched_hyp key_of).

  (** *** The memtable has no version at or before [ts] *)
  Definition fresh_mem (ts : N) (m : mem K R) : Prop := Forall (fun e => (ts < snd (fst e))%N) (m_index m).
  Lemma fresh_repr ts m A : mem_repr key_of m A -> (fresh_mem ts m <-> forall v : vers, In v A -> (ts < vts v)%N).
  Proof.
    intros [_ HF]. unfold fresh_mem. induction HF as [|e v l l' [E _] _ IH].
    - split; [intros _ v []|constructor].
    - rewrite Forall_cons_iff, IH, E. split.
      + intros [H1 H2] w [<-|Hw]; auto.
      + intros H. split; [apply H; simpl; auto|]. intros w Hw. apply H; simpl; auto.
  Qed.
  Lemma fresh_step ts c e : cinv key_of c -> ev_ok key_of e ->
    (forall t u, In t (c_threads c) -> writing t -> stamp t = Some u -> (ts < u)%N) ->
    fresh_mem ts (d_mem (c_db c)) -> fresh_mem ts (d_mem (c_db (cstep c e))) \/ exists t, In t (c_threads (cstep c e)) /\ failed t.
  Proof.
    intros (M & Is & Hs & HI) HE HT HF. destruct e as [rows dec|rows dec|ms|i| |i|]; auto.
    - cbn [Sched.cstep]. destruct (nth_error (c_threads c) i) as [t|] eqn:Hi; auto.
      pose proof (nth_error_In _ _ Hi) as Ht.
      pose proof (ci_rep _ _ _ _ _ HI) as HR.
      pose proof (ci_calls _ _ _ _ _ HI) as HK. rewrite Forall_forall in HK. specialize (HK t Ht).
      destruct (call_step key_of (c_db c) (others i (c_threads c)) t) as [[d' p]|] eqn:HS; auto. cbn [c_db c_threads].
      assert (FL : p = PDone Failed -> exists u, In u (set_nth i (mkTh (t_call t) p) (c_threads c)) /\ failed u).
      { intros ->. exists (mkTh (t_call t) (PDone Failed)). split; [|reflexivity].
        eapply nth_error_In. eapply nth_set_same; eauto. }
      unfold Sched.call_step in HS. destruct (t_pc t) as [got|n| |u n|u n sg|u|u sg|o] eqn:Hpc.
      + left. destruct (nth_error _ got) as [k|]; [destruct (existsb _ _); [discriminate|]|]; injection HS as <- <-; auto.
      + left. destruct (nth_error _ n) as [k|]; [destruct (key_conflict _ _ _)|]; injection HS as <- <-; auto.
      + left. destruct (parts_of _ _); injection HS as <- <-; auto.
      + assert (L : (ts < u)%N) by (apply (HT t u Ht); [unfold writing; rewrite Hpc; exact I|unfold stamp; now rewrite Hpc]).
        destruct (nth_error (parts_of key_of (t_call t)) n) as [q|] eqn:Eq; [|left; injection HS as <- <-; auto].
        pose proof (parts_ok key_of _ HK) as HP. rewrite Forall_forall in HP.
        pose proof (put_cases key_of (c_db c) M Is u q HR (HP q (nth_error_In _ _ Eq))
                      (fresh_part key_of c M Is Hs i t u n q HI Hi Hpc Eq)) as HC.
        pose proof (proj1 (fresh_repr ts _ _ (rp_mem _ _ _ _ HR)) HF) as HF0.
        destruct (put_part _ _ _ _) as [m [sg|]|m|] eqn:EPut; injection HS as <- <-.
        * destruct HC as (M' & R' & _ & _ & HV). left. apply (proj2 (fresh_repr ts _ _ (rp_mem _ _ _ _ R'))).
          intros v Hv. apply HV in Hv. now rewrite (last_mut_ts _ _ _ _ Hv).
        * destruct HC as (M' & R' & HV). left. apply (proj2 (fresh_repr ts _ _ (rp_mem _ _ _ _ R'))).
          intros v Hv. apply HV in Hv as [Hv|Hv]; auto. now rewrite (last_mut_ts _ _ _ _ Hv).
        * right. now apply FL.
        * right. now apply FL.
      + left. injection HS as <- <-. exact HF.
      + destruct (dec_of (t_call t)); [|left; injection HS as <- <-; exact HF].
        rewrite (seal_repr key_of _ _ (rp_mem _ _ _ _ HR)) in HS. destruct M; injection HS as <- <-; left; [exact HF|constructor].
      + left. injection HS as <- <-. exact HF.
      + discriminate.
    - left. cbn [Sched.cstep]. unfold flush_step. destruct (c_flush c); [destruct (d_imm (c_db c))|destruct (write_flush _ _ _)|]; exact HF.
    - left. cbn [Sched.cstep]. destruct (nth_error (c_threads c) i) as [t|]; [destruct (awaits (t_pc t))|]; exact HF.
  Qed.
  Lemma fresh_run capacity es : forall es', sched_hyp capacity (es ++ es') ->
    let c := crun (cstart capacity) es in
    Forall (fun t => ~ writing t) (c_threads c) -> acked key_of c <> [] ->
    fresh_mem (sn_ts (begin_snapshot (c_db c))) (d_mem (c_db c)) ->
    fresh_mem (sn_ts (begin_snapshot (c_db c))) (d_mem (c_db (crun c es'))).
  Proof.
    intros es'. induction es' as [|e es' IH] using rev_ind; intros HH c HW HA HF; [exact HF|].
    rewrite app_assoc in HH. specialize (IH (sched_prefix _ _ _ _ HH) HW HA HF). fold c in IH.
    pose proof HH as (_ & HE & _ & HNF). rewrite crun_app.
    destruct (sched_inv _ _ _ (sched_prefix _ _ _ _ HH)) as [HI HC]. rewrite crun_app in HI, HC. fold c in HI, HC.
    rewrite Forall_app in HE. destruct HE as [_ HE]. inversion HE as [|? ? HE1 _]; subst.
    rewrite crun_app, crun_app in HNF. fold c in HNF. change (crun (crun c es') [e]) with (cstep (crun c es') e) in *.
    destruct (fresh_step (sn_ts (begin_snapshot (c_db c))) (crun c es') e HI HE1) as [H|(t & Ht & F)]; auto.
    - intros t u Ht Hw Hst. apply In_nth_error in Ht as [i Hi].
      pose proof (sched_prefix _ _ _ _ HH) as HH1. pose proof (sched_room _ _ _ _ HH1) as HRoom. fold c in HRoom.
      destruct (stamp_run key_of es' c i t u HRoom Hi Hst) as [(t0 & H0 & S0)|L].
      + exfalso. assert (A0 : acked_at t0 u).
        { apply stamped_acked; auto. rewrite Forall_forall in HW. apply HW. eapply nth_error_In; eauto. }
        assert (X : nth_error (c_threads (crun c es')) i = Some t0) by (apply returned_stays_run; auto; now exists (Acked u)).
        assert (t0 = t) by congruence. subst t0. unfold writing in Hw. now rewrite A0 in Hw.
      + cbn [begin_snapshot sn_ts]. destruct (sched_inv _ _ _ (sched_prefix _ _ _ _ HH1)) as [(M & Is & Hs & HI1) _]. fold c in HI1.
        destruct (acked key_of c) as [|[x ms] l] eqn:E; [congruence|].
        assert (X : In (x, ms) (acked key_of c)) by (rewrite E; simpl; auto). apply In_acked in X as (t' & Ht' & Ha & _).
        assert (x < d_clock (c_db c))%N by (apply (ci_clock _ _ _ _ _ HI1 t'); auto; unfold stamp; now rewrite Ha). lia.
    - exfalso. rewrite Forall_forall in HNF. apply (HNF t Ht F).
  Qed.

  (** A memtable without versions at or before [ts] gives an empty stream. *)
  Lemma fresh_scan ts (A : list vers) : (forall v, In v A -> (ts < vts v)%N) ->
    forall cur em, (em = false) -> visible_scan ts cur em A = [].
  Proof.
    induction A as [|[[k t] a] A IH]; intros H cur em ->; [reflexivity|]. cbn [visible_scan].
    rewrite andb_false_r. assert (L : (ts < t)%N) by (apply (H ((k, t), a)); simpl; auto).
    apply N.ltb_lt in L. rewrite L. apply IH; auto. intros v Hv. apply H. simpl; auto.
  Qed.
  Lemma dead_fresh ts m A : mem_repr key_of m A -> mem_kept None ts m = false -> fresh_mem ts m.
  Proof.
    intros HM H. apply (proj2 (fresh_repr ts _ _ HM)). intros v Hv. destruct (N.le_gt_cases (vts v) ts) as [L|L]; auto.
    destruct (mem_kept_dead key_of None ts m A v HM H Hv L) as (b & F & _). discriminate.
  Qed.
  Lemma all_some_drop {A} (a b : list (option A)) (x : A) :
    all_some (a ++ Some x :: b) =
    match all_some a, all_some b with Some u, Some v => Some (u ++ x :: v) | _, _ => None end /\
    all_some (a ++ b) = match all_some a, all_some b with Some u, Some v => Some (u ++ v) | _, _ => None end.
  Proof.
    induction a as [|[y|] a [IH1 IH2]]; cbn [app all_some].
    - split; destruct (all_some b); reflexivity.
    - rewrite IH1, IH2. split; destruct (all_some a); destruct (all_some b); reflexivity.
    - split; reflexivity.
  Qed.
  Lemma exec_mem ts m A imms (p q : plan K R) : mem_repr key_of m A -> fresh_mem ts m ->
    p_ts p = ts -> p_range p = None -> p_resid p = None -> p_mem p = true ->
    q = mkPlan (p_push p) (p_imm p) false (p_range p) (p_ssts p) (p_resid p) (p_limit p) (p_ts p) ->
    exec_plan key_of None m imms p = exec_plan key_of None m imms q.
  Proof.
    intros HM HF ET ER EP EM ->. unfold exec_plan. cbn [p_resid p_limit]. rewrite EP.
    unfold build_streams. cbn [p_mem p_ts p_range p_imm p_ssts p_push]. rewrite EM, ET, ER.
    rewrite (mem_scan_repr key_of _ _ _ _ HM). cbn [in_bounds source_of app].
    rewrite fresh_scan; auto; [|exact (proj1 (fresh_repr ts _ _ HM) HF)].
    cbn [all_some]. destruct (all_some _) as [l|]; auto.
    unfold merge_streams. cbn [map snd concat app]. apply (merge_empty 1 _ _ _ []).
  Qed.

  Lemma plan_all m imms (ls : list (list (sst K R))) ts :
    plan_scan (@t_rows K R) cp_all false m imms ls ts None =
    mkPlan None (prune_segments None ts imms) (mem_kept None ts m) None
           (select_ssts (@t_rows K R) None ts (concat ls)) None None ts.
  Proof.
    unfold plan_scan. cbn [cp_all c_bounds c_resid c_nonsst c_push c_true c_full andb negb option_map combine_and].
    destruct (mem_kept None ts m); destruct (select_ssts _ _ _ _); cbn; try reflexivity; now destruct (length _).
  Qed.

  Theorem calm_split capacity es es' : sched_hyp capacity (es ++ es') ->
    let c := crun (cstart capacity) es in
    let c' := crun (cstart capacity) (es ++ es') in
    acked key_of c <> [] -> Forall (fun t => ~ writing t) (c_threads c) ->
    Forall (@not_flush K R) es' -> Forall (fun t => ~ sealing t) (c_threads c') ->
    d_imm (c_db c') = d_imm (c_db c) ->
    exists h out, Permutation h (acked key_of c) /\ by_time h /\
      scan_split key_of (begin_snapshot (c_db c)) c c' = Some out /\
      lists_table key_of (final key_of h) (fun _ => true) out.
  Proof.
    intros HH c c' HA HW HNF HNS EI. set (sn := begin_snapshot (c_db c)).
    assert (EC : c' = crun c es') by (unfold c', c; apply crun_app).
    destruct (sched_inv _ _ _ (sched_prefix _ _ _ _ HH)) as [HI HC]. fold c in HI, HC.
    destruct (sched_inv _ _ _ HH) as [HI' HC']. fold c' in HI', HC'.
    assert (HNS0 : Forall (fun t => ~ sealing t) (c_threads c)).
    { eapply Forall_impl; [|exact HW]. intros t F G. apply F. unfold sealing in G. unfold writing. now destruct (t_pc t). }
    destruct (hist_inv key_of c HI HNS0) as (h0 & _ & _ & HInv).
    assert (HSafe : Forall (seg_safe (sn_ts sn)) (d_imm (c_db c'))).
    { rewrite EI. apply (seg_safe_latest key_of (mkSt (c_db c) h0 0)); auto. cbn [st_db sn begin_snapshot sn_ts]. lia. }
    destruct (calm_snapshot key_of capacity es es' (@t_rows K R) cp_all None HH HA HW HNF HNS HSafe) as (h & full & P1 & P2 & P3 & P4).
    { exact (cp_all_sound key_of (fun _ => 0) (fun _ => 0)). } { exact (push_all key_of _ _). }
    exists h, full. split; auto. split; auto. split; auto. rewrite <- P3. unfold scan_split, scan, scan_txn.
    fold c c' sn. rewrite EI.
    destruct HI as (M & Is & Hs & HIc). destruct HI' as (M' & Is' & Hs' & HIc').
    pose proof (rp_mem _ _ _ _ (ci_rep _ _ _ _ _ HIc)) as HM. pose proof (rp_mem _ _ _ _ (ci_rep _ _ _ _ _ HIc')) as HM'.
    rewrite !plan_all.
    destruct (mem_kept None (sn_ts sn) (d_mem (c_db c))) eqn:E1; destruct (mem_kept None (sn_ts sn) (d_mem (c_db c'))) eqn:E2;
      [reflexivity| | |reflexivity].
    - apply (exec_mem (sn_ts sn) _ M'); auto. eapply dead_fresh; eauto.
    - symmetry. apply (exec_mem (sn_ts sn) _ M'); auto. rewrite EC. apply fresh_run; auto. eapply dead_fresh; eauto.
  Qed.
End SchedScan.
