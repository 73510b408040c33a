(** What reads return, for every run. *)
From Coq Require Import List NArith Bool Sorted Permutation Lia Arith.
From Verif Require Import Base.Order Base.Sub Model.OMap Model.KeyTs Model.MemTable Model.Immutable
     Model.SsTable Model.MergeStream Model.KeyBounds Model.DbScan Model.Version Model.Db Model.Compact
     Model.Planner Model.DbCompact Spec.Mvcc Spec.History Spec.KeySet Model.Run Spec.Valid
     Proof.OMapFacts Proof.MemFacts Proof.ViewFacts Proof.SstFacts Proof.MergeFacts Proof.ScanFacts
     Proof.HistFacts Proof.CompactFacts Proof.CompactLoop Proof.CompactOut Proof.VersionFacts Proof.DbFacts
     Proof.RunFacts Proof.Refine.
Import ListNotations.
Local Arguments kcmp : simpl never.

(** Strictly sorted lists with the same elements are equal. *)
Lemma sorted_ext {A} (P : A -> A -> Prop) : (forall a, ~ P a a) -> (forall a b, P a b -> ~ P b a) ->
  forall l m, StronglySorted P l -> StronglySorted P m -> (forall x, In x l <-> In x m) -> l = m.
Proof.
  intros HI HA. induction l as [|a l IH]; intros m Hl Hm HE.
  - destruct m as [|b m]; auto. exfalso. apply (HE b). simpl; auto.
  - inversion Hl as [|? ? Sl Fl]; subst. destruct m as [|b m]; [exfalso; apply (HE a); simpl; auto|].
    inversion Hm as [|? ? Sm Fm]; subst. rewrite Forall_forall in Fl, Fm.
    assert (a = b).
    { pose proof (proj1 (HE a) (or_introl eq_refl)) as [E|H1]; auto.
      pose proof (proj2 (HE b) (or_introl eq_refl)) as [E|H2]; auto.
      exfalso. apply (HA a b); auto. }
    subst b. f_equal. apply IH; auto. intros x. split; intros Hx.
    + destruct (proj1 (HE x) (or_intror Hx)) as [<-|H]; auto. exfalso. apply (HI a). auto.
    + destruct (proj2 (HE x) (or_intror Hx)) as [<-|H]; auto. exfalso. apply (HI a). auto.
Qed.

Section Reads.
  Context {K : Type} {KO : KeyOrd K} {R : Type}.
  Variable key_of : R -> option K.
  Variable row_bytes : R -> nat.
  Variable del_bytes : K -> nat.
  Notation vers := (@vers K R).
  Notation inv := (@inv K KO R key_of).
  Notation step := (step key_of row_bytes del_bytes).
  Notation run := (run key_of row_bytes del_bytes).
  Notation op_ok := (op_ok key_of).
  Notation ops_ok := (ops_ok key_of row_bytes del_bytes).

  Lemma lists_table_unique m p (a b : list ((K * N) * R)) :
    lists_table key_of m p a -> lists_table key_of m p b -> a = b.
  Proof.
    intros [A1 A2] [B1 B2]. unfold ascending in *.
    eapply sorted_ext; [| |exact A1|exact B1|].
    - intros x H. simpl in H. rewrite kcmp_refl in H. discriminate.
    - intros x y H1 H2. simpl in *. korder.
    - intros [[k t] r]. rewrite A2, B2. tauto.
  Qed.

  Lemma lists_table_ext m m' p (a : list ((K * N) * R)) :
    (forall k, m k = m' k) -> lists_table key_of m p a -> lists_table key_of m' p a.
  Proof. intros E [A1 A2]. split; auto. intros k t r. rewrite A2, E. tauto. Qed.

  Lemma as_of_all h ts : Forall (fun c : hcommit K R => (fst c <= ts)%N) h -> as_of key_of h ts = final key_of h.
  Proof.
    intros H. unfold as_of. f_equal. induction H as [|c h H HF IH]; simpl; auto.
    apply N.leb_le in H. now rewrite H, IH.
  Qed.

  Lemma as_of_app h1 h2 ts : Forall (fun c : hcommit K R => (ts < fst c)%N) h2 -> as_of key_of (h1 ++ h2) ts = as_of key_of h1 ts.
  Proof.
    intros H. unfold as_of. rewrite filter_app. replace (filter _ h2) with (@nil (hcommit K R)); [now rewrite app_nil_r|].
    induction H as [|c h H HF IH]; simpl; auto. apply N.leb_gt in H. now rewrite H.
  Qed.

  (** *** A scan without predicate *)
  Lemma cp_all_sound : cp_sound key_of (@cp_all K R).
  Proof. constructor; simpl; auto; try discriminate. tauto. Qed.
  Lemma push_all ts ls : push_ok key_of (@t_rows K R) (@cp_all K R) ts ls.
  Proof. split; simpl; [intros; apply sublist_refl|auto]. Qed.

  Definition scan_all (ts : N) (d : db K R) : option (list ((K * N) * R)) :=
    scan key_of (@t_rows K R) (@cp_all K R) (mkSnap ts (d_levels d)) None d.

  Lemma inv_seg_le s g : inv s -> In g (d_imm (st_db s)) ->
    (forall p, In p (s_mvcc g) -> (fst p < d_clock (st_db s))%N) /\ (forall t, In t (s_del_ts g) -> (t < d_clock (st_db s))%N).
  Proof.
    intros [(M & Is & HR & [C1 _]) I2 I3 I4] Hg. rewrite (rp_imm _ _ _ _ HR) in Hg.
    apply in_map_iff in Hg as (A & <- & HA).
    assert (HV : forall v, In v A -> (vts v < d_clock (st_db s))%N).
    { intros v Hv. eapply hv_clock; eauto. apply C1, store_In. right. left. apply in_concat. eauto. }
    simpl. split.
    - intros p Hp. apply in_map_iff in Hp as ([r t] & <- & Hp). unfold ups in Hp.
      apply in_flat_map in Hp as ([[k t'] [r'|]] & H1 & H2); simpl in H2; [|destruct H2].
      destruct H2 as [E|[]]. inversion E; subst. apply (HV _ H1).
    - intros t Ht. apply in_map_iff in Ht as ([k t'] & <- & Ht). unfold dels in Ht.
      apply in_flat_map in Ht as ([[k0 t0] [r'|]] & H1 & H2); simpl in H2; [destruct H2|].
      destruct H2 as [E|[]]. inversion E; subst. apply (HV _ H1).
  Qed.
  Lemma seg_safe_latest s ts : inv s -> (d_clock (st_db s) <= ts + 1)%N -> Forall (seg_safe ts) (d_imm (st_db s)).
  Proof.
    intros HI HT. apply Forall_forall. intros g Hg HN HA t Ht. exfalso.
    destruct (inv_seg_le s g HI Hg) as [H1 _]. destruct (s_mvcc g) as [|p l]; [congruence|].
    specialize (HA p (or_introl eq_refl)). specialize (H1 p (or_introl eq_refl)). lia.
  Qed.

  Theorem scan_all_spec s ts : inv s -> (d_clock (st_db s) < 2 ^ 64)%N ->
    Forall (seg_safe ts) (d_imm (st_db s)) -> (st_horizon s <= ts)%N ->
    exists out, scan_all ts (st_db s) = Some out /\ lists_table key_of (as_of key_of (st_hist s) ts) (fun _ => true) out.
  Proof.
    intros HI HC HS HZ.
    destruct (read_spec key_of s (@t_rows K R) cp_all None ts HI HC cp_all_sound (push_all _ _) HS HZ) as (full & out & E1 & E2 & E3).
    subst out. exists full. auto.
  Qed.

  Theorem read_all_spec s : inv s -> (d_clock (st_db s) < 2 ^ 64)%N ->
    exists out, read_all key_of (st_db s) = Some out /\ lists_table key_of (final key_of (st_hist s)) (fun _ => true) out.
  Proof.
    intros HI HC. destruct (scan_all_spec s (d_clock (st_db s) - 1)%N HI HC) as (out & E1 & E2).
    - apply seg_safe_latest; auto. lia.
    - apply iv_hz with (key_of := key_of); auto.
    - exists out. split; auto. rewrite as_of_all in E2; auto.
      pose proof (iv_clock _ _ HI) as H. eapply Forall_impl; [|exact H]. intros c Hc. simpl in Hc. lia.
  Qed.

  (** *** The statements over whole runs *)
  Definition run_hyp (capacity : nat) (ops : list (op K R)) : Prop :=
    1 <= capacity /\ (N.of_nat (length ops) < 2 ^ 64)%N /\ ops_ok (start capacity) ops.

  Lemma run_inv capacity ops : run_hyp capacity ops ->
    inv (run (start capacity) ops) /\ (d_clock (st_db (run (start capacity) ops)) < 2 ^ 64)%N.
  Proof.
    intros (H1 & H2 & H3). destruct (inv_run key_of row_bytes del_bytes ops (start capacity)) as [I1 I2]; auto.
    - now apply inv_start.
    - simpl in *. split; auto. lia.
  Qed.

  Lemma step_clock_same s o : (match o with OFlush _ | OCompact _ _ _ => True | _ => False end) ->
    d_clock (st_db (step s o)) = d_clock (st_db s) /\ st_hist (step s o) = st_hist s.
  Proof.
    destruct o; try tauto; intros _; cbn [Run.step].
    - simpl. split; auto. apply flush_clock.
    - pose proof (compact_clock key_of row_bytes del_bytes cf ch tk (st_db s)) as E. destruct (compact _ _ _ _ _ _ _). auto.
  Qed.

  (** Two states with the same history read the same. *)
  Lemma same_reads s s' ts : inv s -> inv s' -> (d_clock (st_db s) < 2 ^ 64)%N -> (d_clock (st_db s') < 2 ^ 64)%N ->
    st_hist s = st_hist s' ->
    Forall (seg_safe ts) (d_imm (st_db s)) -> Forall (seg_safe ts) (d_imm (st_db s')) ->
    (st_horizon s <= ts)%N -> (st_horizon s' <= ts)%N ->
    exists out, scan_all ts (st_db s) = Some out /\ scan_all ts (st_db s') = Some out.
  Proof.
    intros HI HI' HC HC' HH HS HS' HZ HZ'.
    destruct (scan_all_spec s ts HI HC HS HZ) as (out & E1 & E2).
    destruct (scan_all_spec s' ts HI' HC' HS' HZ') as (out' & E1' & E2').
    rewrite <- HH in E2'. rewrite (lists_table_unique _ _ _ _ E2 E2') in E1. exists out'. auto.
  Qed.

  Lemma inv_clock_room s : inv s -> (d_clock (st_db s) < 2 ^ 64)%N -> forall o,
    (match o with OFlush _ | OCompact _ _ _ => True | _ => False end) -> op_ok s o -> inv (step s o).
  Proof.
    intros HI HC o Ho HO. destruct o; try tauto.
    - (* the clock is not used *)
      clear Ho. pose proof (iv_rep _ _ HI) as (M & Is & HR & HCv).
      cbn [Run.step]. destruct (flush_spec key_of level (st_db s) M Is HR) as (d' & Is' & ok & E & R' & EC & V & _).
      rewrite E. simpl. destruct HI as [I1 I2 I3 I4]. constructor; simpl; auto; [|rewrite EC; auto|rewrite EC; auto].
      exists M, Is'. split; auto. destruct HCv as [C1 C2]. split.
      + intros v Hv. apply C1, V, Hv.
      + intros v Hv. destruct (C2 v Hv) as [H|(w & W1 & W2)]; [left; now apply V|right; exists w; split; auto; now apply V].
    - now apply inv_compact.
  Qed.

  (** Flushing changes no read at a timestamp not below the horizon (immutables that a
      read would skip wrongly are excluded). *)
  Theorem flush_reads capacity ops level ts : run_hyp capacity ops ->
    let s := run (start capacity) ops in
    Forall (seg_safe ts) (d_imm (st_db s)) -> (st_horizon s <= ts)%N ->
    exists out, scan_all ts (st_db s) = Some out /\ scan_all ts (fst (flush key_of level (st_db s))) = Some out.
  Proof.
    intros HH s HS HZ. destruct (run_inv _ _ HH) as [HI HC]. fold s in HI, HC.
    assert (HI' : inv (step s (OFlush level))) by (apply inv_clock_room; simpl; auto).
    destruct (step_clock_same s (OFlush level) I) as [E1 E2].
    apply (same_reads s (step s (OFlush level))); auto.
    - now rewrite E1.
    - cbn [Run.step st_db]. unfold flush. destruct (d_imm (st_db s)) as [|g l] eqn:EG; [simpl; rewrite EG; auto|].
      destruct (write_flush _ _ _); simpl; auto.
  Qed.

  Theorem compact_reads capacity ops cf ch tk ts : run_hyp capacity ops ->
    let s := run (start capacity) ops in
    op_ok s (OCompact cf ch tk) ->
    Forall (seg_safe ts) (d_imm (st_db s)) -> (st_horizon s <= ts)%N -> (newest_input (st_db s) tk <= ts)%N ->
    exists out, scan_all ts (st_db s) = Some out /\
                scan_all ts (fst (compact key_of row_bytes del_bytes cf ch tk (st_db s))) = Some out.
  Proof.
    intros HH s HO HS HZ HT. destruct (run_inv _ _ HH) as [HI HC]. fold s in HI, HC.
    assert (HI' : inv (step s (OCompact cf ch tk))) by (apply inv_clock_room; simpl; auto).
    destruct (step_clock_same s (OCompact cf ch tk) I) as [E1 E2].
    assert (EI : d_imm (st_db (step s (OCompact cf ch tk))) = d_imm (st_db s)).
    { cbn [Run.step]. pose proof (compact_front key_of row_bytes del_bytes cf ch tk (st_db s)) as (F1 & F2 & _).
      destruct (compact _ _ _ _ _ _ _). simpl in *. auto. }
    destruct (same_reads s (step s (OCompact cf ch tk)) ts) as (out & A & B); auto.
    - now rewrite E1.
    - now rewrite EI.
    - cbn [Run.step]. destruct (compact _ _ _ _ _ _ _) as [d' []]; simpl; lia.
    - exists out. split; auto. cbn [Run.step] in B. destruct (compact _ _ _ _ _ _ _). exact B.
  Qed.

  (** At the latest timestamp the side conditions hold by themselves. *)
  Lemma latest_ok capacity ops ts : run_hyp capacity ops ->
    let s := run (start capacity) ops in (d_clock (st_db s) <= ts + 1)%N ->
    Forall (seg_safe ts) (d_imm (st_db s)) /\ (st_horizon s <= ts)%N /\ (forall tk, (newest_input (st_db s) tk <= ts)%N).
  Proof.
    intros HH s HT. destruct (run_inv _ _ HH) as [HI HC]. fold s in HI, HC.
    split; [now apply seg_safe_latest|]. split; [pose proof (iv_hz _ _ HI); lia|]. intros tk.
    pose proof (newest_le key_of s tk HI). lia.
  Qed.

  Theorem seal_reads capacity ops ts : run_hyp capacity ops ->
    let s := run (start capacity) ops in
    exists d', seal_now key_of (st_db s) = (d', true) /\
      (Forall (seg_safe ts) (d_imm d') -> (st_horizon s <= ts)%N ->
       exists out, scan_all ts (st_db s) = Some out /\ scan_all ts d' = Some out).
  Proof.
    intros HH s. destruct (run_inv _ _ HH) as [HI HC]. fold s in HI, HC.
    pose proof (iv_rep _ _ HI) as (M & Is & HR & HCv).
    destruct (maybe_seal_spec key_of true (st_db s) M Is HR) as (d' & M' & Is' & E & R' & (S1 & S2 & S3) & V).
    exists d'. split; [exact E|]. intros HS HZ.
    set (s' := mkSt d' (st_hist s) (st_horizon s)).
    assert (HI' : inv s').
    { destruct HI as [I1 I2 I3 I4]. constructor; simpl; auto; [|rewrite S2; auto|rewrite S2; auto].
      exists M', Is'. split; auto. rewrite S1. destruct HCv as [C1 C2]. split.
      + intros v Hv. apply C1, V, Hv.
      + intros v Hv. destruct (C2 v Hv) as [H|(w & W1 & W2)]; [left; now apply V|right; exists w; split; auto; now apply V]. }
    destruct (same_reads s s' ts) as (out & A & B); auto.
    - unfold s'; simpl. now rewrite S2.
    - (* the old segments are among the new ones *)
      assert (SUB : exists l, d_imm d' = d_imm (st_db s) ++ l).
      { unfold maybe_seal, seal_now in E. destruct (seal key_of (d_mem (st_db s))); inversion E; subst.
        - exists []. now rewrite app_nil_r.
        - eexists; reflexivity. }
      destruct SUB as (l & EL). rewrite EL in HS. apply Forall_app in HS. tauto.
    - exists out. auto.
  Qed.

  (** *** Snapshots *)
  Definition no_manifest (o : op K R) : Prop := match o with OFlush _ | OCompact _ _ _ => False | _ => True end.

  Lemma run_hist s ops : (d_clock (st_db s) + N.of_nat (length ops) < 2 ^ 64)%N ->
    exists h, st_hist (run s ops) = st_hist s ++ h /\ Forall (fun c => (d_clock (st_db s) <= fst c)%N) h /\
      (d_clock (st_db s) <= d_clock (st_db (run s ops)))%N.
  Proof.
    revert s. induction ops as [|o ops IH]; intros s HL.
    - exists []. simpl. rewrite app_nil_r. split; auto. split; [constructor|lia].
    - cbn [length] in HL. rewrite Nat2N.inj_succ in HL.
      assert (HCR : clock_room s) by (unfold clock_room; lia).
      pose proof (step_clock key_of row_bytes del_bytes s o HCR) as HS.
      destruct (IH (step s o)) as (h & H1 & H2 & H3); [lia|].
      assert (HE : exists h0, st_hist (step s o) = st_hist s ++ h0 /\ Forall (fun c => (d_clock (st_db s) <= fst c)%N) h0).
      { assert (AK : forall ms r, exists h0, st_hist (ack s ms r) = st_hist s ++ h0 /\ Forall (fun c : hcommit K R => (d_clock (st_db s) <= fst c)%N) h0).
        { intros ms r. unfold ack; simpl. eexists. split; [reflexivity|]. destruct ms; [constructor|].
          destruct (snd r); repeat constructor. simpl. lia. }
        destruct o; cbn [Run.step]; try apply AK.
        - destruct (commit _ _ _ _ _). apply AK.
        - exists []. rewrite app_nil_r. split; [reflexivity|constructor].
        - destruct (compact _ _ _ _ _ _ _). exists []. rewrite app_nil_r. split; [reflexivity|constructor]. }
      destruct HE as (h0 & E1 & E2). exists (h0 ++ h). split; [|split].
      + change (run s (o :: ops)) with (run (step s o) ops). rewrite H1, E1. now rewrite app_assoc.
      + apply Forall_app. split; auto. eapply Forall_impl; [|exact H2]. intros c Hc. simpl in Hc. lia.
      + change (run s (o :: ops)) with (run (step s o) ops). lia.
  Qed.

  Lemma step_levels s o : no_manifest o -> d_levels (st_db (step s o)) = d_levels (st_db s) /\ st_horizon (step s o) = st_horizon s.
  Proof.
    unfold no_manifest. destruct o as [rows span dec|rows span dec|ts ms span| |]; try tauto; intros _; cbn [Run.step].
    - split; auto. simpl. unfold ingest.
      destruct (seq2_rest (observe_range span (tick (st_db s)))
                  (put_rows key_of rows (d_clock (st_db s)) (observe_range span (tick (st_db s)))) (maybe_seal key_of dec)) as (E & _).
      + apply put_rows_rest.
      + apply maybe_seal_rest.
      + rewrite E. destruct span; reflexivity.
    - split; auto. simpl. unfold ingest_with_tombstones. destruct rows as [|p rows]; auto.
      destruct (seq2_rest (observe_range span (tick (st_db s)))
                  (apply_parts key_of (part_upserts (p :: rows)) (part_deletes key_of (p :: rows)) (d_clock (st_db s))
                     (observe_range span (tick (st_db s)))) (maybe_seal key_of dec)) as (E & _).
      + apply apply_parts_rest.
      + apply maybe_seal_rest.
      + rewrite E. destruct span; reflexivity.
    - unfold commit. destruct (stage key_of ms) as [|e st]; auto.
      destruct (has_conflict _ _ _); auto.
      destruct (apply_parts_rest key_of (staged_rows (e :: st)) (staged_dels (e :: st)) (d_clock (st_db s)) (observe_range span (tick (st_db s)))) as (E & _).
      destruct (apply_parts _ _ _ _ _) as [d' ok]. simpl in *. split; auto. rewrite E. destruct span; reflexivity.
  Qed.
  Lemma run_levels ops : forall s, Forall no_manifest ops ->
    d_levels (st_db (run s ops)) = d_levels (st_db s) /\ st_horizon (run s ops) = st_horizon s.
  Proof.
    induction ops as [|o ops IH]; intros s H; [auto|]. inversion H; subst.
    change (run s (o :: ops)) with (run (step s o) ops). destruct (IH (step s o) H3) as [E1 E2].
    destruct (step_levels s o H2) as [F1 F2]. rewrite E1, E2, F1, F2. auto.
  Qed.

  (** Writes look at the memtables and the clock only. *)
  Definition front (d d' : db K R) : Prop :=
    d_mem d' = d_mem d /\ d_imm d' = d_imm d /\ d_mrange d' = d_mrange d /\ d_iranges d' = d_iranges d /\ d_clock d' = d_clock d.
  Definition swap_back (l : list (list (sst K R))) (i : N) (d : db K R) : db K R :=
    mkDb (d_mem d) (d_imm d) (d_mrange d) (d_iranges d) l (d_clock d) i.
  Lemma front_swap d d' : front d d' -> d' = swap_back (d_levels d') (d_next_id d') d.
  Proof. destruct d, d'. unfold front, swap_back. simpl. intros (-> & -> & -> & -> & ->). reflexivity. Qed.

  Lemma apply_insert_swap l i d r : apply_insert (swap_back l i d) r = (swap_back l i (fst (apply_insert d r)), snd (apply_insert d r)).
  Proof. destruct r as [m [g|]|m|]; reflexivity. Qed.
  Lemma observe_swap l i d sp : observe_range sp (tick (swap_back l i d)) = swap_back l i (observe_range sp (tick d)).
  Proof. destruct sp; reflexivity. Qed.
  Lemma seal_swap l i d dec : maybe_seal key_of dec (swap_back l i d) = (swap_back l i (fst (maybe_seal key_of dec d)), snd (maybe_seal key_of dec d)).
  Proof. destruct dec; [|reflexivity]. unfold maybe_seal, seal_now. simpl. destruct (seal key_of (d_mem d)); reflexivity. Qed.
  Lemma rows_swap l i d rows ts : put_rows key_of rows ts (swap_back l i d) = (swap_back l i (fst (put_rows key_of rows ts d)), snd (put_rows key_of rows ts d)).
  Proof. apply apply_insert_swap. Qed.
  Lemma dels_swap l i d ks ts : put_deletes key_of ks ts (swap_back l i d) = (swap_back l i (fst (put_deletes key_of ks ts d)), snd (put_deletes key_of ks ts d)).
  Proof. apply apply_insert_swap. Qed.
  Lemma seq2_swap l i d r f g : r = (swap_back l i d, snd r) ->
    (g (swap_back l i d) = (swap_back l i (fst (f d)), snd (f d))) ->
    seq2 r g = (swap_back l i (fst (seq2 (d, snd r) f)), snd (seq2 (d, snd r) f)).
  Proof. intros -> H. simpl. destruct (snd r); [apply H|reflexivity]. Qed.
  Lemma parts_swap l i d us ds ts : apply_parts key_of us ds ts (swap_back l i d) =
    (swap_back l i (fst (apply_parts key_of us ds ts d)), snd (apply_parts key_of us ds ts d)).
  Proof.
    unfold apply_parts.
    assert (U : (match us with [] => (swap_back l i d, true) | _ => put_rows key_of us ts (swap_back l i d) end) =
                (swap_back l i (fst (match us with [] => (d, true) | _ => put_rows key_of us ts d end)),
                 snd (match us with [] => (d, true) | _ => put_rows key_of us ts d end))).
    { destruct us; [reflexivity|apply rows_swap]. }
    rewrite U. destruct (match us with [] => (d, true) | _ => put_rows key_of us ts d end) as [d1 ok]. simpl.
    destruct ok; [|reflexivity]. destruct ds; [reflexivity|apply dels_swap].
  Qed.

  Lemma step_front s s' o : no_manifest o -> front (st_db s) (st_db s') -> st_hist s' = st_hist s ->
    front (st_db (step s o)) (st_db (step s' o)) /\ st_hist (step s' o) = st_hist (step s o).
  Proof.
    intros Ho HF HH. pose proof (front_swap _ _ HF) as E.
    set (l := d_levels (st_db s')) in *. set (i := d_next_id (st_db s')) in *.
    assert (FS : forall d, front d (swap_back l i d)) by (intros d; unfold front; simpl; auto).
    assert (AK : forall ms r r', r' = (swap_back l i (fst r), snd r) ->
              front (st_db (ack s ms r)) (st_db (ack s' ms r')) /\ st_hist (ack s' ms r') = st_hist (ack s ms r)).
    { intros ms r r' ->. unfold ack. cbn [st_db st_hist fst snd]. split; [apply FS|]. rewrite HH, E. reflexivity. }
    unfold no_manifest in Ho. destruct o as [rows span dec|rows span dec|ts ms span| |]; try tauto; cbn [Run.step]; rewrite E.
    - apply AK. unfold ingest. rewrite observe_swap, rows_swap. simpl.
      destruct (put_rows key_of rows (d_clock (st_db s)) (observe_range span (tick (st_db s)))) as [d1 ok]. simpl.
      destruct ok; [apply seal_swap|reflexivity].
    - apply AK. unfold ingest_with_tombstones. destruct rows as [|p rows]; [reflexivity|].
      rewrite observe_swap, parts_swap. simpl d_clock.
      destruct (apply_parts _ _ _ _ _) as [d1 ok]. simpl.
      destruct ok; [apply seal_swap|reflexivity].
    - unfold commit. destruct (stage key_of ms) as [|e st]; [apply AK; reflexivity|].
      change (has_conflict (swap_back l i (st_db s))) with (has_conflict (st_db s)).
      destruct (has_conflict _ _ _); [apply AK; reflexivity|].
      rewrite observe_swap, parts_swap. simpl d_clock. destruct (apply_parts _ _ _ _ _) as [d1 ok]. apply AK. reflexivity.
  Qed.

  Definition no_flush (o : op K R) : Prop := match o with OFlush _ => False | _ => True end.
  Definition is_write (o : op K R) : bool := match o with OFlush _ | OCompact _ _ _ => false | _ => true end.

  Lemma run_front ops : forall s s', Forall no_flush ops -> front (st_db s) (st_db s') -> st_hist s' = st_hist s ->
    front (st_db (run s ops)) (st_db (run s' (filter is_write ops))) /\ st_hist (run s' (filter is_write ops)) = st_hist (run s ops).
  Proof.
    induction ops as [|o ops IH]; intros s s' HN HF HH; [auto|]. inversion HN; subst.
    change (run s (o :: ops)) with (run (step s o) ops). simpl filter. destruct (is_write o) eqn:EW.
    - change (run s' (o :: filter is_write ops)) with (run (step s' o) (filter is_write ops)).
      destruct (step_front s s' o) as [F1 F2]; auto. destruct o; simpl in *; auto; discriminate.
    - apply IH; auto.
      + destruct o; try discriminate; [destruct H1|]. cbn [Run.step].
        pose proof (compact_front key_of row_bytes del_bytes cf ch tk (st_db s)) as F.
        destruct (compact _ _ _ _ _ _ _) as [d' ch']. simpl in *. unfold front in *.
        destruct F as (F1 & F2 & F3 & F4 & F5), HF as (G1 & G2 & G3 & G4 & G5).
        rewrite F1, F2, F3, F4, F5. auto.
      + destruct o; try discriminate; [destruct H1|]. cbn [Run.step]. destruct (compact _ _ _ _ _ _ _). auto.
  Qed.
  Lemma write_ok ops : forall s s', Forall no_flush ops -> front (st_db s) (st_db s') -> st_hist s' = st_hist s ->
    ops_ok s ops -> ops_ok s' (filter is_write ops).
  Proof.
    induction ops as [|o ops IH]; intros s s' HN HF HH H; [exact I|]. destruct H as [H1 H2]. inversion HN; subst.
    simpl filter. destruct (is_write o) eqn:EW.
    - destruct (step_front s s' o) as [F1 F2]; auto; [destruct o; simpl in *; auto; discriminate|].
      split; [|apply (IH (step s o)); auto].
      destruct HF as (F & _). destruct o; try discriminate; unfold Valid.op_ok, has_slot in *; rewrite ?F; auto.
    - apply (IH (step s o)); auto.
      + destruct o; try discriminate; [destruct H3|]. cbn [Run.step].
        pose proof (compact_front key_of row_bytes del_bytes cf ch tk (st_db s)) as F.
        destruct (compact _ _ _ _ _ _ _) as [d' ch']. simpl in *. unfold front in *.
        destruct F as (F1 & F2 & F3 & F4 & F5), HF as (G1 & G2 & G3 & G4 & G5).
        rewrite F1, F2, F3, F4, F5. auto.
      + destruct o; try discriminate; [destruct H3|]. cbn [Run.step]. destruct (compact _ _ _ _ _ _ _). auto.
  Qed.
  Lemma filter_writes ops : Forall no_manifest (filter is_write ops).
  Proof. induction ops as [|o ops IH]; simpl; auto. destruct o; simpl; auto; constructor; auto; exact I. Qed.

  Lemma ops_ok_app ops1 : forall s ops2, ops_ok s (ops1 ++ ops2) <-> ops_ok s ops1 /\ ops_ok (run s ops1) ops2.
  Proof.
    induction ops1 as [|o ops1 IH]; intros s ops2; simpl; [tauto|].
    rewrite IH. change (run s (o :: ops1)) with (run (step s o) ops1). tauto.
  Qed.

  Lemma snapshot_stable_writes capacity ops1 ops2 : run_hyp capacity (ops1 ++ ops2) ->
    Forall no_manifest ops2 ->
    let s1 := run (start capacity) ops1 in
    let s2 := run s1 ops2 in
    let sn := begin_snapshot (st_db s1) in
    (1 <= d_clock (st_db s1))%N ->
    Forall (seg_safe (sn_ts sn)) (d_imm (st_db s2)) ->
    exists out,
      scan key_of (@t_rows K R) (@cp_all K R) sn None (st_db s1) = Some out /\
      scan key_of (@t_rows K R) (@cp_all K R) sn None (st_db s2) = Some out.
  Proof.
    intros HH HM s1 s2 sn HC1 HS.
    assert (E2 : s2 = run (start capacity) (ops1 ++ ops2)) by (unfold s2, s1, Run.run; now rewrite fold_left_app).
    destruct (run_inv _ _ HH) as [I2 B2]. rewrite <- E2 in I2, B2.
    assert (H1 : run_hyp capacity ops1).
    { destruct HH as (A1 & A2 & A3). split; auto. rewrite app_length in A2. split; [lia|]. now apply ops_ok_app in A3. }
    destruct (run_inv _ _ H1) as [I1 B1]. fold s1 in I1, B1.
    destruct (run_levels ops2 s1 HM) as [L1 L2]. fold s2 in L1, L2.
    assert (HL : (d_clock (st_db s1) + N.of_nat (length ops2) < 2 ^ 64)%N).
    { destruct HH as (A1 & A2 & A3). rewrite app_length, Nat2N.inj_add in A2.
      destruct H1 as (_ & B & C). pose proof (proj2 (inv_run key_of row_bytes del_bytes ops1 (start capacity) (inv_start key_of capacity A1) B C)) as D.
      fold s1 in D. simpl in D. lia. }
    destruct (run_hist s1 ops2 HL) as (h & HH1 & HH2 & _). fold s2 in HH1.
    pose proof (iv_hz _ _ I1) as Z1.
    destruct (scan_all_spec s1 (sn_ts sn) I1 B1) as (out & O1 & O2).
    { apply seg_safe_latest; auto. simpl. lia. }
    { exact Z1. }
    destruct (scan_all_spec s2 (sn_ts sn) I2 B2 HS) as (out' & O1' & O2').
    { rewrite L2. exact Z1. }
    exists out. split; [exact O1|].
    rewrite HH1, as_of_app in O2'.
    - rewrite (lists_table_unique _ _ _ _ O2 O2'). unfold scan_all in O1'. rewrite L1 in O1'. exact O1'.
    - eapply Forall_impl; [|exact HH2]. intros c Hc. simpl in *. lia.
  Qed.

  Theorem snapshot_stable capacity ops1 ops2 : run_hyp capacity (ops1 ++ ops2) ->
    Forall no_flush ops2 ->
    let s1 := run (start capacity) ops1 in
    let s2 := run s1 ops2 in
    let sn := begin_snapshot (st_db s1) in
    (1 <= d_clock (st_db s1))%N ->
    Forall (seg_safe (sn_ts sn)) (d_imm (st_db s2)) ->
    exists out,
      scan key_of (@t_rows K R) (@cp_all K R) sn None (st_db s1) = Some out /\
      scan key_of (@t_rows K R) (@cp_all K R) sn None (st_db s2) = Some out.
  Proof.
    intros HH HN s1 s2 sn HC HS.
    destruct (run_front ops2 s1 s1 HN) as [(F1 & F2 & _) _]; [unfold front; auto|auto|]. fold s2 in F1, F2.
    destruct (snapshot_stable_writes capacity ops1 (filter is_write ops2)) as (out & O1 & O2); auto.
    - destruct HH as (A1 & A2 & A3). split; auto. split.
      + rewrite app_length in *. assert (length (filter is_write ops2) <= length ops2); [|lia].
        clear. induction ops2 as [|o l IH]; simpl; auto. destruct (is_write o); simpl; lia.
      + apply ops_ok_app in A3 as [B1 B2]. apply ops_ok_app. split; auto. eapply (write_ok ops2 s1); eauto. unfold front; auto 6.
    - apply filter_writes.
    - fold s1. rewrite F2. exact HS.
    - exists out. split; auto. fold s1 sn in O2. unfold scan, scan_txn in *. rewrite F1, F2 in O2. exact O2.
  Qed.
End Reads.
