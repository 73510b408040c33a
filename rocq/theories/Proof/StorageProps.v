(** Table files, their identifiers, and rejected writes. *)
From Coq Require Import List NArith Bool Sorted Permutation Lia Arith.
From Verif Require Import Base.Order Base.Sub Model.OMap Model.KeyTs Model.MemTable Model.Immutable
     Model.SsTable Model.MergeStream Model.KeyBounds Model.DbScan Model.Version Model.Db Model.Compact
     Model.Planner Model.DbCompact Spec.Mvcc Spec.KeySet Spec.Files Spec.Valid Spec.History Model.Run
     Proof.OMapFacts Proof.MemFacts Proof.ViewFacts Proof.SstFacts Proof.MergeFacts Proof.ScanFacts
     Proof.HistFacts Proof.CompactFacts Proof.CompactLoop Proof.CompactOut Proof.VersionFacts Proof.DbFacts
     Proof.RunFacts Proof.Refine Proof.Reads.
Import ListNotations.
Local Arguments kcmp : simpl never.

Lemma SS_concat {A} (P : A -> A -> Prop) (Ls : list (list A)) : StronglySorted P (concat Ls) ->
  Forall (StronglySorted P) Ls /\ StronglySorted (fun a b => forall x y, In x a -> In y b -> P x y) Ls.
Proof.
  induction Ls as [|L Ls IH]; simpl; intros H; [split; constructor|].
  apply StronglySorted_app in H as (H1 & H2 & H3). destruct (IH H2) as [I1 I2]. split; constructor; auto.
  apply Forall_forall. intros M HM x y Hx Hy. apply H3; auto. apply in_concat. eauto.
Qed.
Lemma SS_Forall2 {A B} (P : A -> A -> Prop) (Q : B -> B -> Prop) (T : A -> B -> Prop) la lb :
  Forall2 T la lb -> (forall a a' b b', T a b -> T a' b' -> Q b b' -> P a a') -> StronglySorted Q lb -> StronglySorted P la.
Proof.
  intros H HI. induction H as [|a b la lb H1 H2 IH]; intros HS; [constructor|].
  inversion HS as [|? ? S1 S2]; subst. constructor; auto.
  clear - H1 H2 S2 HI. induction H2 as [|a' b' la lb H H2 IH]; [constructor|].
  inversion S2; subst. constructor; eauto.
Qed.

Lemma snoc_case {A} (l : list A) : l = [] \/ exists P v, l = P ++ [v].
Proof. destruct l as [|a l] using rev_ind; eauto. Qed.
Lemma flat_map_map {A B C} (f : B -> list C) (g : A -> B) l : flat_map f (map g l) = flat_map (fun x => f (g x)) l.
Proof. induction l as [|a l IH]; simpl; auto. now rewrite IH. Qed.

Section StorageProps.
  Context {K : Type} {KO : KeyOrd K} {R : Type}.
  Variable key_of : R -> option K.
  Variable row_bytes : R -> nat.
  Variable del_bytes : K -> nat.
  Notation vers := (@vers K R).
  Notation tver := (tver key_of).
  Notation store := (store key_of).
  Notation rep := (rep key_of).
  Notation step := (step key_of row_bytes del_bytes).
  Notation run := (run key_of row_bytes del_bytes).
  Notation inv := (inv key_of).
  Notation file_version := (file_version key_of).
  Notation some_file := (some_file key_of).

  Lemma file_tver t (v : vers) : file_version t v <-> In v (tver t).
  Proof.
    unfold Files.file_version, DbFacts.tver. rewrite in_app_iff, in_flat_map, in_map_iff.
    destruct v as [[k u] x]. unfold vval, vkey, vts. simpl. split.
    - intros [(r & E1 & H & E2)|[E1 H]].
      + left. exists (r, u). split; auto. unfold dver. simpl. rewrite E2. subst x. simpl; auto.
      + right. exists (k, u). subst x. auto.
    - intros [((r & u') & H & H')|((k' & u') & E1 & H)].
      + left. unfold dver in H'. simpl in H'. destruct (key_of r) as [k'|] eqn:EK; [|destruct H'].
        destruct H' as [H'|[]]. inversion H'; subst. exists r. auto.
      + right. unfold xver in E1. inversion E1; subst. auto.
  Qed.
  Lemma some_tver ts (v : vers) : some_file ts v <-> In v (flat_map tver ts).
  Proof.
    rewrite in_flat_map. unfold Files.some_file. split; intros (t & H1 & H2); exists t; split; auto; now apply file_tver.
  Qed.

  Lemma out_sorted t B : out_ok key_of t B -> ascending vkey B -> sorted_file key_of t /\ (forall v, file_version t v <-> In v B).
  Proof.
    intros (H1 & _ & ER & ED & HN) HA. destruct (sst_ok_tver key_of t B H1) as [EV _].
    assert (EF : forall v, file_version t v <-> In v B) by (intros v; rewrite file_tver; apply EV).
    assert (HK : keyed key_of B).
    { unfold keyed. apply Forall_forall. intros [[k u] [r|]] Hv; simpl; auto. apply EV in Hv.
      apply file_tver in Hv as [(r' & E1 & _ & E2)|[E1 _]]; unfold vval, vkey in *; simpl in *; [congruence|discriminate]. }
    split; auto. constructor.
    - rewrite ER. apply Forall_forall. intros [r u] Hr. apply ups_In in Hr as (k & Hr).
      unfold keyed in HK. rewrite Forall_forall in HK. specialize (HK _ Hr). simpl in HK. simpl. congruence.
    - rewrite ER. now apply ups_sorted.
    - rewrite ED. now apply CompactOut.dels_sorted.
    - intros v w Hv Hw Hk. apply EF in Hv. apply EF in Hw.
      assert (v = w); [|congruence]. clear - HA Hv Hw Hk. induction HA as [|x B HA IH HF]; [destruct Hv|].
      rewrite Forall_forall in HF. unfold same_key in *. destruct Hv as [->|Hv], Hw as [->|Hw]; auto.
      + specialize (HF _ Hw). simpl in HF. congruence.
      + specialize (HF _ Hv). simpl in HF. exfalso. korder.
  Qed.

  (** *** C32 *)
  Lemma compact_outputs s cf ch tk d' : inv s -> op_ok key_of s (OCompact cf ch tk) ->
    compact key_of row_bytes del_bytes cf ch tk (st_db s) = (d', true) ->
    exists ins outs,
      (forall t, In t ins <-> In t (concat (d_levels (st_db s))) /\ In (t_id t) (map snd (tk_input tk))) /\
      (forall l t, In t (nth l (d_levels d') []) <->
         (l = tk_target tk /\ In t outs) \/ (In t (nth l (d_levels (st_db s)) []) /\ ~ In (l, t_id t) (tk_input tk))) /\
      Forall (sorted_file key_of) outs /\ files_ascend key_of outs /\
      (forall c t, mc_rows cf = Some c -> In t outs -> length (t_rows t) <= Nat.max 1 c) /\
      (forall v, some_file outs v <-> newest_of key_of ins v).
  Proof.
    intros HI HO HE. destruct (iv_rep _ _ HI) as (M & Is & HR & HC).
    destruct (compact_spec key_of row_bytes del_bytes (st_db s) M Is cf ch tk HR HO)
      as (d1 & changed & E1 & _ & _ & _ & _ & _ & _ & Y & _).
    rewrite HE in E1. inversion E1; subst d1 changed. clear E1.
    destruct (Y eq_refl) as (ins & outs & Bs & ER & _ & E2 & E4 & E3 & _ & P1 & P2 & P3). clear Y.
    exists (map snd ins), outs. split; [|split; [exact P3|]].
    { intros t. rewrite in_map_iff. split.
      - intros (p & <- & Hp). auto.
      - intros [H1 H2]. destruct (P2 t H1 H2) as (l & Hl). exists (l, t). auto. }
    pose proof E3 as (M1 & M2 & M3). destruct (SS_concat _ _ M1) as [S1 S2].
    assert (OUT : Forall2 (fun t B => sorted_file key_of t /\ (forall v, file_version t v <-> In v B) /\ t_rows t = ups B) outs Bs).
    { clear - E2 S1. induction E2 as [|t B outs Bs H E2 IH]; [constructor|]. inversion S1; subst. constructor; auto.
      destruct (out_sorted t B H); auto. destruct H as (_ & _ & H & _). auto. }
    assert (EV : forall v, some_file outs v <-> In v (concat Bs)).
    { intros v. unfold Files.some_file. rewrite in_concat. clear - OUT. induction OUT as [|t B outs Bs (_ & H & _) HF IH].
      - split; intros (x & [] & _).
      - split; intros (x & [<-|Hx] & Hv).
        + exists B. split; [simpl; auto|now apply H].
        + destruct (proj1 IH) as (B' & B1 & B2); [eauto|]. exists B'. simpl. auto.
        + exists t. split; [simpl; auto|now apply H].
        + destruct (proj2 IH) as (B' & B1 & B2); [eauto|]. exists B'. simpl. auto. }
    split; [|split; [|split]].
    - apply Forall_forall. clear - OUT. induction OUT as [|t B outs Bs (H & _) HF IH]; intros x []; subst; auto.
    - eapply SS_Forall2; [exact OUT| |exact S2]. simpl. intros a a' b b' (_ & Ha & _) (_ & Ha' & _) HQ v w Hv Hw.
      apply HQ; [now apply Ha|now apply Ha'].
    - intros c t Hc. clear - OUT E4 Hc. induction OUT as [|t' B outs Bs (_ & _ & H) HF IH]; intros []; inversion E4; subst; auto.
      rewrite H. destruct (snoc_case B) as [->|(P & v & ->)]; [simpl; lia|].
      destruct P as [|p P].
      { assert (length (ups [v]) <= 1) by (destruct v as [kt [r|]]; simpl; lia). cbn [app] in *. lia. }
      assert (HP : over row_bytes del_bytes cf (p :: P) = false) by (eapply H3; [reflexivity|discriminate]).
      unfold over in HP. rewrite Hc in HP. apply orb_false_iff in HP as [HP _]. apply Nat.leb_gt in HP. unfold rows_of in HP.
      etransitivity; [apply Nat.eq_le_incl; exact (f_equal (@length _) (ups_app (p :: P) [v]))|]. rewrite app_length.
      assert (length (ups [v]) <= 1) by (destruct v as [kt [r|]]; simpl; lia). lia.
    - assert (IV : forall v, some_file (map snd ins) v <-> In v (flat_map (fun p => tver (snd p)) ins)).
      { intros v. rewrite some_tver, flat_map_map. reflexivity. }
      assert (HVS : forall v, In v (flat_map (fun p => tver (snd p)) ins) -> In v (hv key_of (st_hist s))).
      { intros v Hv. apply HC. apply in_flat_map in Hv as (p & Hp & Hv). apply store_In. right. right.
        apply in_flat_map. exists (snd p). split; auto. now apply P1. }
      intros v. rewrite EV. unfold newest_of. split.
      + intros Hv. destruct (M2 v Hv) as (A & B & _). split; [now apply IV|]. intros w Hw. apply B. now apply IV.
      + intros [A B]. apply IV in A. destruct (M3 v A) as [F|(w & W1 & W2)]; [discriminate|].
        destruct (M2 w W1) as (W3 & W4 & _). assert (v = w) as ->; auto.
        apply (hv_unique key_of (st_hist s)); auto; [apply (iv_inc key_of); auto| |].
        * unfold same_key in *; korder.
        * assert (vts v <= vts w)%N by (apply W4; auto; unfold same_key in *; korder).
          assert (vts w <= vts v)%N by (apply B; auto; now apply IV). lia.
  Qed.

  (** *** C33: identifiers in one run *)
  Lemma step_tables s o : inv s -> op_ok key_of s o ->
    (d_next_id (st_db s) <= d_next_id (st_db (step s o)))%N /\
    (forall t, In t (concat (d_levels (st_db (step s o)))) ->
       In t (concat (d_levels (st_db s))) \/ (d_next_id (st_db s) <= t_id t)%N).
  Proof.
    intros HI HO. destruct (iv_rep _ _ HI) as (M & Is & HR & HC).
    assert (NM : no_manifest o -> d_next_id (st_db (step s o)) = d_next_id (st_db s)).
    { intros HM. destruct o as [rows span dec|rows span dec|ts ms span| |]; cbn [Run.step].
      - simpl. unfold ingest.
        destruct (seq2_rest (observe_range span (tick (st_db s)))
                  (put_rows key_of rows (d_clock (st_db s)) (observe_range span (tick (st_db s)))) (maybe_seal key_of dec)) as (_ & _ & E).
        + apply put_rows_rest.
        + apply maybe_seal_rest.
        + rewrite E. destruct span; reflexivity.
      - simpl. unfold ingest_with_tombstones. destruct rows as [|p rows]; auto.
        destruct (seq2_rest (observe_range span (tick (st_db s)))
                  (apply_parts key_of (part_upserts (p :: rows)) (part_deletes key_of (p :: rows)) (d_clock (st_db s))
                     (observe_range span (tick (st_db s)))) (maybe_seal key_of dec)) as (_ & _ & E).
        + apply apply_parts_rest.
        + apply maybe_seal_rest.
        + rewrite E. destruct span; reflexivity.
      - unfold commit. destruct (stage key_of ms) as [|e st]; auto.
        destruct (has_conflict _ _ _); auto.
        destruct (apply_parts_rest key_of (staged_rows (e :: st)) (staged_dels (e :: st)) (d_clock (st_db s)) (observe_range span (tick (st_db s)))) as (_ & _ & E).
        destruct (apply_parts _ _ _ _ _) as [d' ok]. simpl in *. rewrite E. destruct span; reflexivity.
      - destruct HM.
      - destruct HM. }
    assert (NL : no_manifest o -> (d_next_id (st_db s) <= d_next_id (st_db (step s o)))%N /\
                 (forall t, In t (concat (d_levels (st_db (step s o)))) ->
                    In t (concat (d_levels (st_db s))) \/ (d_next_id (st_db s) <= t_id t)%N)).
    { intros HM. rewrite (NM HM). destruct (step_levels key_of row_bytes del_bytes s o HM) as [E _]. rewrite E. split; [apply N.le_refl|auto]. }
    clear NM. destruct o as [rows span dec|rows span dec|ts ms span| |cf ch tk]; try (apply NL; exact I); clear NL.
    - cbn [Run.step st_db]. unfold flush. destruct (d_imm (st_db s)) as [|g gs] eqn:EI; [split; [apply N.le_refl|auto]|].
      rewrite <- EI. destruct (write_flush key_of (d_next_id (st_db s)) (d_imm (st_db s))) as [| |t] eqn:EW; cbn [fst d_next_id d_levels]; [split; [lia|auto]|split; [lia|auto]|].
      split; [lia|]. intros x Hx.
      assert (ET : t_id t = d_next_id (st_db s)).
      { unfold write_flush in EW. destruct (fold_left _ _ _) as [st l]. destruct (Nat.eqb _ _); [discriminate|].
        destruct (if Nat.ltb 1 (length l) then _ else _); [|discriminate]. inversion EW. reflexivity. }
      apply (Permutation_in _ (tidy_perm (@t_id K R) _)) in Hx.
      assert (HP := add_ssts_perm (@t_id K R) level [t] (d_levels (st_db s))).
      apply (Permutation_in (l' := t :: concat (d_levels (st_db s)))) in Hx.
      + destruct Hx as [<-|Hx]; auto. right. lia.
      + apply HP; [repeat constructor; simpl; tauto|]. intros e [<-|[]]. rewrite ET. eapply ids_bound; [apply (rp_ids _ _ _ _ HR)|lia].
    - destruct (compact_spec key_of row_bytes del_bytes (st_db s) M Is cf ch tk HR HO)
        as (d1 & changed & E1 & _ & _ & HNx & _ & _ & HS & Y & _).
      cbn [Run.step]. rewrite E1. cbn [st_db]. split; auto. intros t Ht. destruct changed.
      + destruct (Y eq_refl) as (ins & outs & Bs & _ & TL & _ & _ & _ & HF & _). apply TL in Ht as [Ht|[Ht _]]; auto.
      + rewrite HS in Ht by auto. auto.
  Qed.

  Lemma run_tables ops : forall s, inv s -> (d_clock (st_db s) + N.of_nat (length ops) < 2 ^ 64)%N ->
    ops_ok key_of row_bytes del_bytes s ops ->
    forall t, In t (concat (d_levels (st_db (run s ops)))) -> In t (concat (d_levels (st_db s))) \/ (d_next_id (st_db s) <= t_id t)%N.
  Proof.
    induction ops as [|o ops IH]; intros s HI HL HO t Ht; [auto|].
    simpl in HO. destruct HO as [HO1 HO2]. cbn [length] in HL. rewrite Nat2N.inj_succ in HL.
    assert (HCR : clock_room s) by (unfold clock_room; lia).
    pose proof (step_clock key_of row_bytes del_bytes s o HCR) as HS.
    destruct (step_tables s o HI HO1) as [N1 N2].
    change (run s (o :: ops)) with (run (step s o) ops) in Ht.
    destruct (IH (step s o)) with (t := t) as [H|H]; auto.
    - now apply inv_step.
    - lia.
    - right. lia.
  Qed.

  Lemma same_id (l : list (sst K R)) t t' : NoDup (map (@t_id K R) l) -> In t l -> In t' l -> t_id t = t_id t' -> t = t'.
  Proof.
    induction l as [|x l IH]; intros HN Ht Ht' E; [destruct Ht|]. simpl in HN. inversion HN as [|? ? N1 N2]; subst.
    destruct Ht as [->|Ht], Ht' as [->|Ht']; auto.
    - exfalso. apply N1. rewrite E. now apply in_map.
    - exfalso. apply N1. rewrite <- E. now apply in_map.
  Qed.

  Lemma ids_stable capacity ops1 ops2 : run_hyp key_of row_bytes del_bytes capacity (ops1 ++ ops2) ->
    forall t t', In t (concat (d_levels (st_db (run (start capacity) ops1)))) ->
      In t' (concat (d_levels (st_db (run (start capacity) (ops1 ++ ops2))))) -> t_id t = t_id t' -> t = t'.
  Proof.
    intros (HC & HL & HO) t t' Ht Ht' E. apply ops_ok_app in HO as [HO1 HO2]. rewrite app_length, Nat2N.inj_add in HL.
    destruct (inv_run key_of row_bytes del_bytes ops1 (start capacity)) as [HI HK]; auto.
    { now apply inv_start. } { simpl. lia. }
    destruct (iv_rep _ _ HI) as (M & Is & HR & _).
    unfold Run.run in Ht'. rewrite fold_left_app in Ht'. fold (run (start capacity) ops1) in Ht'. fold (run (run (start capacity) ops1) ops2) in Ht'.
    simpl d_clock in HK at 2.
    assert (HK2 : (d_clock (st_db (run (start capacity) ops1)) <= N.of_nat (length ops1))%N) by (simpl in HK; lia).
    destruct (run_tables ops2 _ HI) with (t := t') as [H|H]; auto; [lia| |].
    - eapply same_id; eauto. apply (rp_nodup _ _ _ _ HR).
    - exfalso. pose proof (rp_ids _ _ _ _ HR) as X. rewrite Forall_forall in X. specialize (X t Ht). simpl in X. lia.
  Qed.

  (** *** C37: a rejected write *)
  Lemma scan_same_mem (d d' : db K R) M : mem_repr key_of (d_mem d) M -> mem_repr key_of (d_mem d') M ->
    m_index (d_mem d') = m_index (d_mem d) -> d_imm d' = d_imm d ->
    forall prune cp txn sn limit, scan_txn key_of prune cp txn sn limit d' = scan_txn key_of prune cp txn sn limit d.
  Proof.
    intros H1 H2 EI EM prune cp txn sn limit. unfold scan_txn.
    assert (EK : forall b ts, mem_kept b ts (d_mem d') = mem_kept b ts (d_mem d)).
    { intros b ts. unfold mem_kept, mem_row_count, mem_key_bounds, mem_commit_ts_bounds. now rewrite EI. }
    assert (EP : forall f, plan_scan prune cp f (d_mem d') (d_imm d') (sn_levels sn) (sn_ts sn) limit =
                      plan_scan prune cp f (d_mem d) (d_imm d) (sn_levels sn) (sn_ts sn) limit).
    { intros f. unfold plan_scan. now rewrite EK, EM. }
    rewrite EP. unfold exec_plan, build_streams. rewrite EM.
    rewrite (mem_scan_repr key_of _ M _ _ H1), (mem_scan_repr key_of _ M _ _ H2). reflexivity.
  Qed.

  Lemma reject_ingest s rows span dec : inv s -> null_key key_of rows -> has_slot s ->
    let r := ingest key_of rows span dec (st_db s) in
    snd r = false /\
    (forall prune cp txn sn limit, scan_txn key_of prune cp txn sn limit (fst r) = scan_txn key_of prune cp txn sn limit (st_db s)) /\
    d_levels (fst r) = d_levels (st_db s).
  Proof.
    intros HI HN HS r. destruct (iv_rep _ _ HI) as (M & Is & HR & HC). unfold r, ingest.
    destruct (put_rows_rejected key_of (observe_range span (tick (st_db s))) M Is (d_clock (st_db s)) rows (rep_tick _ _ _ _ _ HR) HN)
      as (m' & E1 & R1 & E2).
    { unfold has_slot in HS. destruct span; exact HS. }
    rewrite E1. cbn [seq2 fst snd]. split; auto. split; [|destruct span; reflexivity].
    apply (scan_same_mem _ _ M); [apply HR|apply R1| |destruct span; reflexivity].
    simpl. rewrite E2. destruct span; reflexivity.
  Qed.
  Lemma reject_tombs s rows span dec : inv s -> null_key key_of (part_upserts rows) -> has_slot s ->
    let r := ingest_with_tombstones key_of rows span dec (st_db s) in
    snd r = false /\
    (forall prune cp txn sn limit, scan_txn key_of prune cp txn sn limit (fst r) = scan_txn key_of prune cp txn sn limit (st_db s)) /\
    d_levels (fst r) = d_levels (st_db s).
  Proof.
    intros HI HN HS r. destruct (iv_rep _ _ HI) as (M & Is & HR & HC). unfold r, ingest_with_tombstones.
    destruct rows as [|p rows]; [destruct HN as (x & [] & _)|]. set (rows' := p :: rows) in *.
    destruct (put_rows_rejected key_of (observe_range span (tick (st_db s))) M Is (d_clock (st_db s)) (part_upserts rows') (rep_tick _ _ _ _ _ HR) HN)
      as (m' & E1 & R1 & E2).
    { unfold has_slot in HS. destruct span; exact HS. }
    assert (EP : apply_parts key_of (part_upserts rows') (part_deletes key_of rows') (d_clock (st_db s)) (observe_range span (tick (st_db s)))
                 = (set_mem (observe_range span (tick (st_db s))) m', false)).
    { unfold apply_parts. destruct (part_upserts rows') as [|u us]; [destruct HN as (x & [] & _)|]. rewrite E1. reflexivity. }
    rewrite EP. cbn [seq2 fst snd]. split; auto. split; [|destruct span; reflexivity].
    apply (scan_same_mem _ _ M); [apply HR|apply R1| |destruct span; reflexivity].
    simpl. rewrite E2. destruct span; reflexivity.
  Qed.

  (** *** C47: a valid write is accepted *)
  Definition free_slots (s : state K R) : Prop :=
    length (m_batches (d_mem (st_db s))) < m_capacity (d_mem (st_db s)) /\
    length (m_deletes (d_mem (st_db s))) < m_capacity (d_mem (st_db s)).

  Lemma put_rows_slot d M Is ts rows : rep d M Is -> Forall (fun r => key_of r <> None) rows ->
    length (m_batches (d_mem d)) < m_capacity (d_mem d) ->
    exists m', put_rows key_of rows ts d = (set_mem d m', true) /\ rep (set_mem d m') (ins_muts key_of (map Put rows) ts M) Is /\
               m_deletes m' = m_deletes (d_mem d) /\ m_capacity m' = m_capacity (d_mem d).
  Proof.
    intros HR HK HS. unfold put_rows, mem_insert_batch.
    pose proof (try_insert_batch_repr key_of (d_mem d) rows ts M (rp_mem _ _ _ _ HR)) as H.
    destruct (try_insert_batch key_of (d_mem d) rows (repeat ts (length rows))) as [m'|m'|] eqn:ET.
    - destruct H as (H1 & H2 & _ & _ & H3). exists m'. split; [reflexivity|]. split; auto.
      destruct HR. constructor; simpl; auto; [now rewrite ins_mut_rows|now rewrite H2].
    - destruct H as (_ & _ & H). apply Exists_exists in H as (r & Hr & E). rewrite Forall_forall in HK. elim (HK r Hr E).
    - lia.
  Qed.
  Lemma put_deletes_slot d M Is ts (ks : list K) : rep d M Is ->
    length (m_deletes (d_mem d)) < m_capacity (d_mem d) ->
    exists m', put_deletes key_of (map Some ks) ts d = (set_mem d m', true) /\ rep (set_mem d m') (ins_muts key_of (map Del ks) ts M) Is.
  Proof.
    intros HR HS. unfold put_deletes, mem_insert_deletes.
    pose proof (try_insert_delete_repr key_of (d_mem d) (map Some ks) ts M (rp_mem _ _ _ _ HR)) as H.
    destruct (try_insert_delete_batch (d_mem d) (map Some ks) (repeat ts (length (map Some ks)))) as [m'|m'|] eqn:ET.
    - destruct H as (H1 & H2 & _). exists m'. split; [reflexivity|].
      destruct HR. constructor; simpl; auto; [now rewrite ins_mut_dels|now rewrite H2].
    - destruct H as (_ & _ & H). apply Exists_exists in H as (r & Hr & ->). apply in_map_iff in Hr as (k & E & _). discriminate.
    - lia.
  Qed.

  Lemma accept_rows s rows span dec : inv s -> Forall (fun r => key_of r <> None) rows ->
    m_index (d_mem (st_db s)) <> [] \/ has_slot s ->
    snd (ingest key_of rows span dec (st_db s)) = true.
  Proof.
    intros HI HK HH. destruct (iv_rep _ _ HI) as (M & Is & HR & HC). unfold ingest.
    assert (HP : exists d1 M1 Is1, put_rows key_of rows (d_clock (st_db s)) (observe_range span (tick (st_db s))) = (d1, true) /\ rep d1 M1 Is1).
    { destruct HH as [HH|HH].
      - destruct (put_rows_spec key_of (observe_range span (tick (st_db s))) M Is (d_clock (st_db s)) rows (rep_tick _ _ _ _ _ HR) HK)
          as [(d1 & M1 & Is1 & E1 & R1 & _)|[_ EM]]; eauto.
        + intros w m Hw Hm. eapply mem_fresh; eauto.
        + subst M. exfalso. apply HH. destruct (rp_mem _ _ _ _ HR) as [_ HF]. now inversion HF.
      - destruct (put_rows_slot (observe_range span (tick (st_db s))) M Is (d_clock (st_db s)) rows (rep_tick _ _ _ _ _ HR) HK)
          as (m' & E1 & R1 & _); eauto. unfold has_slot in HH. destruct span; exact HH. }
    destruct HP as (d1 & M1 & Is1 & E1 & R1). rewrite E1. cbn [seq2].
    destruct (maybe_seal_spec key_of dec d1 M1 Is1 R1) as (d2 & M2 & Is2 & E2 & _). now rewrite E2.
  Qed.

  (** *** C06: upserts and deletes of one key in one call, in the memtable *)
  Lemma tomb_room s rows span dec : inv s -> clock_room s -> Forall (fun p => key_of (fst p) <> None) rows -> rows <> [] ->
    free_slots s ->
    let ks := flat_map (fun p : R * bool => if snd p then match key_of (fst p) with Some k => [k] | None => [] end else []) rows in
    let r := ingest_with_tombstones key_of rows span dec (st_db s) in
    snd r = true /\
    inv (mkSt (fst r) (st_hist s ++ [(d_clock (st_db s), map Put (part_upserts rows) ++ map Del ks)]) (st_horizon s)).
  Proof.
    intros HI HCR HK HN (F1 & F2) ks r. destruct (iv_rep _ _ HI) as (M & Is & HR & HC).
    set (ms := map Put (part_upserts rows) ++ map (@Del K R) ks).
    set (d0 := observe_range span (tick (st_db s))). set (c := d_clock (st_db s)) in *.
    assert (EK : part_deletes key_of rows = map Some ks).
    { unfold ks, part_deletes. clear - HK. induction HK as [|[x b] l H HF IH]; auto. simpl in *. destruct b; simpl; auto.
      destruct (key_of x) eqn:E; [|congruence]. simpl. now rewrite IH. }
    assert (HU : Forall (fun x => key_of x <> None) (part_upserts rows)).
    { apply Forall_forall. intros x Hx. unfold part_upserts in Hx. apply in_map_iff in Hx as (q & <- & Hq).
      apply filter_In in Hq as [Hq _]. rewrite Forall_forall in HK. exact (HK q Hq). }
    assert (HP : exists m', apply_parts key_of (part_upserts rows) (map Some ks) c d0 = (set_mem d0 m', true) /\
                   rep (set_mem d0 m') (ins_muts key_of ms c M) Is).
    { unfold apply_parts. assert (HR0 : rep d0 M Is) by (apply rep_tick; auto).
      assert (G1 : length (m_batches (d_mem d0)) < m_capacity (d_mem d0)) by (unfold d0; destruct span; exact F1).
      assert (G2 : length (m_deletes (d_mem d0)) < m_capacity (d_mem d0)) by (unfold d0; destruct span; exact F2).
      assert (P1 : exists m1, (match part_upserts rows with [] => (d0, true) | _ => put_rows key_of (part_upserts rows) c d0 end) = (set_mem d0 m1, true) /\
                    rep (set_mem d0 m1) (ins_muts key_of (map Put (part_upserts rows)) c M) Is /\
                    length (m_deletes m1) < m_capacity m1).
      { destruct (part_upserts rows) as [|u us] eqn:EU.
        - exists (d_mem d0). split; [destruct d0; reflexivity|]. split; [|exact G2]. destruct d0; exact HR0.
        - destruct (put_rows_slot d0 M Is c (u :: us) HR0 HU G1) as (m1 & E1 & E2 & E3 & E4). exists m1. split; auto. split; auto.
          rewrite E3, E4. exact G2. }
      destruct P1 as (m1 & E1 & R1 & G3). rewrite E1. cbn [seq2].
      assert (EMS : ins_muts key_of ms c M = ins_muts key_of (map Del ks) c (ins_muts key_of (map Put (part_upserts rows)) c M))
        by (unfold ms, ins_muts; now rewrite fold_left_app).
      rewrite EMS. destruct ks as [|k ks'].
      - exists m1. split; auto.
      - cbn [map]. change (Some k :: map Some ks') with (map Some (k :: ks')).
        destruct (put_deletes_slot (set_mem d0 m1) _ Is c (k :: ks') R1 G3) as (m2 & E2 & R2). rewrite E2.
        exists m2. split; auto. }
    destruct HP as (m' & E1 & R1). unfold r, ingest_with_tombstones. destruct rows as [|p rows]; [congruence|].
    rewrite EK. fold c d0. rewrite E1. cbn [seq2].
    destruct (maybe_seal_spec key_of dec _ _ _ R1) as (d2 & M2 & Is2 & E2 & R2 & (Q1 & Q2 & Q3) & V2). rewrite E2. cbn [fst snd].
    split; auto.
    assert (HNE : ms <> []).
    { intros F. apply app_eq_nil in F as [F F']. apply map_eq_nil in F. apply map_eq_nil in F'. clear - F F' HK.
      destruct p as [x b]. inversion HK as [|? ? HX _]; subst. unfold part_upserts in F. unfold ks in F'. simpl in *. destruct b; simpl in *; [|discriminate].
      destruct (key_of x); [discriminate|congruence]. }
    replace (mkSt d2 (st_hist s ++ [(c, ms)]) (st_horizon s)) with (ack s ms (d2, true))
      by (unfold ack; simpl; fold c; destruct ms; [congruence|reflexivity]).
    destruct (tick_rest (st_db s) span HCR) as (T1 & T2 & T3). fold d0 in T1, T2, T3. simpl in Q1, Q2, Q3.
    eapply inv_write; eauto; [congruence|congruence|].
    intros v. rewrite V2, !store_In, no_hits_In.
    - tauto.
    - apply (rp_mem _ _ _ _ HR).
    - intros w m Hw Hm. eapply mem_fresh; eauto.
  Qed.
End StorageProps.

(** *** The lemmas the storage properties are closed with *)
Section P.
  Context (K : Type) (KO : KeyOrd K) (R : Type) (key_of : R -> option K).
  Context (row_bytes : R -> nat) (del_bytes : K -> nat) (capacity : nat) (ops : list (op K R)).
  Hypothesis HC : 1 <= capacity.
  Hypothesis HL : (N.of_nat (length ops) < 2 ^ 64)%N.
  Hypothesis HO : ops_ok key_of row_bytes del_bytes (start capacity) ops.
  Let s := run key_of row_bytes del_bytes (start capacity) ops.
  Lemma p_inv : inv key_of s /\ (d_clock (st_db s) <= N.of_nat (length ops))%N.
  Proof.
    assert (H : run_hyp key_of row_bytes del_bytes capacity ops) by (repeat split; auto).
    destruct (inv_run key_of row_bytes del_bytes ops (start capacity)) as [HI HK]; auto.
    { now apply inv_start. }
    split; [exact HI|]. simpl in HK. unfold s. lia.
  Qed.

  Lemma c32_ cf ch tk d' : op_ok key_of s (OCompact cf ch tk) ->
    compact key_of row_bytes del_bytes cf ch tk (st_db s) = (d', true) ->
    exists ins outs,
      (forall t, In t ins <-> In t (concat (d_levels (st_db s))) /\ In (t_id t) (map snd (tk_input tk))) /\
      (forall l t, In t (nth l (d_levels d') []) <->
         (l = tk_target tk /\ In t outs) \/ (In t (nth l (d_levels (st_db s)) []) /\ ~ In (l, t_id t) (tk_input tk))) /\
      Forall (sorted_file key_of) outs /\ files_ascend key_of outs /\
      (forall c t, mc_rows cf = Some c -> In t outs -> length (t_rows t) <= Nat.max 1 c) /\
      (forall v, some_file key_of outs v <-> newest_of key_of ins v).
  Proof. intros. destruct p_inv. eapply compact_outputs; eauto. Qed.

  Lemma c37i_ rows span dec : (exists r, In r rows /\ key_of r = None) ->
    length (m_batches (d_mem (st_db s))) < m_capacity (d_mem (st_db s)) ->
    let r := ingest key_of rows span dec (st_db s) in
    snd r = false /\
    forall prune cp txn sn limit, scan_txn key_of prune cp txn sn limit (fst r) = scan_txn key_of prune cp txn sn limit (st_db s).
  Proof. intros H1 H2 r. destruct p_inv as [HI _]. destruct (reject_ingest key_of s rows span dec HI H1 H2) as (A & B & _). auto. Qed.
  Lemma c37t_ rows span dec : (exists r, In (r, false) rows /\ key_of r = None) ->
    length (m_batches (d_mem (st_db s))) < m_capacity (d_mem (st_db s)) ->
    let r := ingest_with_tombstones key_of rows span dec (st_db s) in
    snd r = false /\
    forall prune cp txn sn limit, scan_txn key_of prune cp txn sn limit (fst r) = scan_txn key_of prune cp txn sn limit (st_db s).
  Proof.
    intros (x & H1 & H1') H2 r. destruct p_inv as [HI _].
    destruct (reject_tombs key_of s rows span dec HI) as (A & B & _); auto.
    exists x. split; auto. unfold part_upserts. apply in_map_iff. exists (x, false). split; auto. apply filter_In. auto.
  Qed.

  Lemma c47_ rows span dec : Forall (fun r => key_of r <> None) rows ->
    m_index (d_mem (st_db s)) <> [] \/ length (m_batches (d_mem (st_db s))) < m_capacity (d_mem (st_db s)) ->
    snd (ingest key_of rows span dec (st_db s)) = true.
  Proof. intros. destruct p_inv. apply accept_rows; auto. Qed.

  Lemma deletes_last_eq rows : deletes_last key_of rows = map Put (part_upserts rows) ++
    map Del (flat_map (fun p : R * bool => if snd p then match key_of (fst p) with Some k => [k] | None => [] end else []) rows).
  Proof.
    unfold deletes_last, part_upserts. f_equal. induction rows as [|[x []] rows IH]; auto; simpl.
    rewrite map_app, <- IH. destruct (key_of x); reflexivity.
  Qed.
  Lemma c06m_ rows span dec : (N.of_nat (length ops) + 1 < 2 ^ 64)%N ->
    Forall (fun p => key_of (fst p) <> None) rows -> rows <> [] ->
    length (m_batches (d_mem (st_db s))) < m_capacity (d_mem (st_db s)) ->
    length (m_deletes (d_mem (st_db s))) < m_capacity (d_mem (st_db s)) ->
    let r := ingest_with_tombstones key_of rows span dec (st_db s) in
    let s1 := mkSt (fst r) (st_hist s ++ [(d_clock (st_db s), deletes_last key_of rows)]) (st_horizon s) in
    snd r = true /\
    forall ops2, (N.of_nat (length ops) + 1 + N.of_nat (length ops2) < 2 ^ 64)%N ->
      ops_ok key_of row_bytes del_bytes s1 ops2 ->
      let s2 := run key_of row_bytes del_bytes s1 ops2 in
      exists out, read_all key_of (st_db s2) = Some out /\ lists_table key_of (final key_of (st_hist s2)) (fun _ => true) out.
  Proof.
    intros H0 H1 H2 H3 H4 r s1. destruct p_inv as [HI X]. assert (HK : clock_room s) by (unfold clock_room; lia).
    destruct (tomb_room key_of s rows span dec HI HK H1 H2 (conj H3 H4)) as [A B].
    rewrite <- deletes_last_eq in B. fold r in A, B. fold s1 in B. split; auto. intros ops2 HL2 HO2 s2.
    assert (HE : (d_clock (st_db s1) <= N.of_nat (length ops) + 1)%N).
    { pose proof (step_clock key_of row_bytes del_bytes s (OTomb rows span dec) HK) as Y.
      change (d_clock (st_db s1)) with (d_clock (st_db (step key_of row_bytes del_bytes s (OTomb rows span dec)))). lia. }
    destruct (inv_run key_of row_bytes del_bytes ops2 s1) as [HI2 HK2]; auto; [lia|].
    subst s2. cbv zeta. apply (read_all_spec key_of row_bytes del_bytes); [exact HI2|]. lia.
  Qed.
End P.

Lemma c33_ids (K : Type) (KO : KeyOrd K) (R : Type) (key_of : R -> option K) row_bytes del_bytes capacity ops1 ops2 :
  1 <= capacity -> (N.of_nat (length (ops1 ++ ops2)) < 2 ^ 64)%N ->
  ops_ok key_of row_bytes del_bytes (start capacity) (ops1 ++ ops2) ->
  forall t t', In t (concat (d_levels (st_db (run key_of row_bytes del_bytes (start capacity) ops1)))) ->
    In t' (concat (d_levels (st_db (run key_of row_bytes del_bytes (start capacity) (ops1 ++ ops2))))) -> t_id t = t_id t' -> t = t'.
Proof. intros H1 H2 H3. apply ids_stable. repeat split; auto. Qed.

Section SstTie.
  Context (K : Type) (KO : KeyOrd K) (R : Type) (key_of : R -> option K).
  Lemma nf_kts {A} (key : A -> K) ts l : newest_first key ts l ->
    StronglySorted (fun a b => kcmp (key a, ts a) (key b, ts b) <> Gt) l.
  Proof.
    intros H. induction H as [|a l H IH HF]; [constructor|]. constructor; auto.
    eapply Forall_impl; [|exact HF]. intros b Hb.
    assert (HK : forall a b : K*N, kcmp a b = kts_cmp a b) by reflexivity. rewrite HK. unfold kts_cmp. cbn [fst snd].
    destruct Hb as [->|[-> Hb]]; [discriminate|]. intros F. apply N.compare_gt_iff in F. lia.
  Qed.
  Lemma c06s_ (rows : list (K * (R * N))) (t : sst K R) keep ts k u :
    t_rows t = map snd rows -> Forall (fun p => key_of (fst (snd p)) = Some (fst p)) rows ->
    newest_first fst (fun p => snd (snd p)) rows -> newest_first fst snd (t_dels t) ->
    In (k, u) (t_dels t) -> (u <= ts)%N ->
    (forall p, In p rows -> kcmp (fst p) k = Eq -> (snd (snd p) <= ts)%N -> (snd (snd p) <= u)%N) ->
    exists out, sst_scan key_of keep (t_rows t) (t_dels t) ts = Some out /\
      forall k' v r, In ((k', v), Some r) out -> kcmp k' k <> Eq.
  Proof.
    intros E HK S1 S2 HD HU HM. set (D := map (fun p : K * (R * N) => ((fst p, snd (snd p)), fst (snd p))) rows).
    assert (ED : map drow D = t_rows t).
    { rewrite E. unfold D, drow. rewrite map_map. apply map_ext. intros [a [b c]]. reflexivity. }
    destruct (sst_scan_view key_of keep D (t_dels t) ts) as (out & O1 & (_ & O2 & _) & O3).
    - unfold dkeyed, D. apply Forall_map. exact HK.
    - apply nf_kts in S1. clear - S1. unfold D. induction S1 as [|a l S IH HF]; [constructor|]. simpl. constructor; auto.
      apply Forall_map. exact HF.
    - apply nf_kts in S2. clear - S2. induction S2 as [|a l S IH HF]; [constructor|]. constructor; auto.
    - rewrite ED in O1. exists out. split; auto. intros k' v r Hin Hk.
      destruct (O2 _ Hin) as (V1 & V2 & V3). apply (O3 _ _ Hin (k, u) HD).
      + simpl. rewrite kcmp_opp, Hk. reflexivity.
      + simpl. apply N.le_antisymm.
        * apply (V3 ((k, u), None)).
          -- unfold sst_vers. apply in_or_app. right. apply in_map_iff. exists (k, u). auto.
          -- unfold same_key, vkey. simpl. rewrite kcmp_opp, Hk. reflexivity.
          -- exact HU.
        * unfold sst_vers in V1. apply in_app_or in V1 as [V1|V1].
          -- apply in_map_iff in V1 as ([[a b] c] & E1 & V1). apply filter_In in V1 as [V1 _].
             unfold D in V1. apply in_map_iff in V1 as (p & E2 & Hp). inversion E2; subst. simpl in E1. inversion E1; subst.
             apply HM; auto.
          -- apply in_map_iff in V1 as (x & E1 & _). inversion E1.
  Qed.
End SstTie.
