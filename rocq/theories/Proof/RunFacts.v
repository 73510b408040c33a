(** Every run of the database keeps the acknowledged writes: the invariant. *)
From Coq Require Import List NArith Bool Sorted Permutation Lia Arith.
From Verif Require Import Base.Order Base.Sub Model.OMap Model.KeyTs Model.MemTable Model.Immutable
     Model.SsTable Model.MergeStream Model.KeyBounds Model.DbScan Model.Version Model.Db Model.Compact
     Model.Planner Model.DbCompact Spec.Mvcc Spec.KeySet Spec.Valid Spec.History Model.Run
     Proof.OMapFacts Proof.MemFacts Proof.ViewFacts Proof.SstFacts Proof.MergeFacts Proof.ScanFacts
     Proof.HistFacts Proof.CompactFacts Proof.CompactLoop Proof.CompactOut Proof.VersionFacts Proof.DbFacts.
Import ListNotations.
Local Arguments kcmp : simpl never.

Section RunFacts.
  Context {K : Type} {KO : KeyOrd K} {R : Type}.
  Variable key_of : R -> option K.
  Notation vers := (@vers K R).
  Notation tver := (tver key_of).
  Notation store := (store key_of).

  (** *** Staged mutations *)
  Definition at_ts (t : N) (e : K * option R) : vers := ((fst e, t), snd e).

  Lemma om_insert_ts t k (o : option R) s :
    map (at_ts t) (om_insert k o s) = om_insert (k, t) o (map (at_ts t) s).
  Proof.
    induction s as [|[k' o'] s IH]; simpl; auto. unfold at_ts at 3. simpl.
    change (@kcmp (K * N) kts_ord (k, t) (k', t)) with (kts_cmp (k, t) (k', t)). unfold kts_cmp. simpl.
    destruct (kcmp k k') eqn:E; simpl; auto.
    - rewrite N.compare_refl. reflexivity.
    - now rewrite IH.
  Qed.
  Lemma stage_vers t ms : map (at_ts t) (stage key_of ms) = ins_muts key_of ms t [].
  Proof.
    unfold stage, ins_muts. assert (H : forall s A, map (at_ts t) s = A ->
      map (at_ts t) (fold_left (stage_call key_of) ms s) = fold_left (ins_mut key_of t) ms A).
    { induction ms as [|m ms IH]; intros s A E; simpl; auto. apply IH.
      unfold stage_call, ins_mut, mut_ver. destruct m as [r|k]; simpl.
      - unfold stage_upsert. destruct (key_of r) as [k|]; auto. simpl. now rewrite om_insert_ts, E.
      - unfold stage_delete. now rewrite om_insert_ts, E. }
    apply H. reflexivity.
  Qed.
  Lemma stage_sorted ms : osorted (stage key_of ms).
  Proof.
    unfold stage. assert (H : forall s, osorted s -> osorted (fold_left (stage_call key_of) ms s)).
    { induction ms as [|m ms IH]; intros s HS; simpl; auto. apply IH. destruct m as [r|k]; simpl.
      - unfold stage_upsert. destruct (key_of r); auto. now apply om_insert_sorted.
      - unfold stage_delete. now apply om_insert_sorted. }
    apply H. constructor.
  Qed.
  Lemma ins_accepted ms t : forall A, ins_muts key_of (accepted key_of ms) t A = ins_muts key_of ms t A.
  Proof.
    unfold ins_muts, accepted. induction ms as [|m ms IH]; intros A; simpl; auto.
    destruct (mut_key key_of m) as [k|] eqn:E; simpl; auto.
    rewrite IH. f_equal. unfold ins_mut, mut_ver. now rewrite E.
  Qed.
  Lemma last_accepted t ms v : last_mut key_of t (accepted key_of ms) v <-> In v (map (at_ts t) (stage key_of ms)).
  Proof.
    rewrite stage_vers, <- ins_accepted. rewrite ins_muts_In by constructor. simpl. tauto.
  Qed.
  Lemma stage_keyed ms k r : In (k, Some r) (stage key_of ms) -> key_of r = Some k.
  Proof.
    intros H. apply (in_map (at_ts 0%N)) in H. apply last_accepted in H.
    apply (last_mut_keyed _ _ _ _ r H). reflexivity.
  Qed.

  Definition staged_keys (s : list (K * option R)) : list K :=
    flat_map (fun e => match snd e with Some _ => [] | None => [fst e] end) s.
  Lemma staged_dels_keys s : staged_dels s = map Some (staged_keys s).
  Proof. induction s as [|[k [r|]] s IH]; simpl; auto. now rewrite IH. Qed.

  Lemma last_mut_uniq t ms v :
    (forall x y kx ky, In x ms -> In y ms -> mut_key key_of x = Some kx -> mut_key key_of y = Some ky ->
       kcmp kx ky = Eq -> x = y) ->
    (last_mut key_of t ms v <-> exists m, In m ms /\ mut_ver key_of t m = Some v).
  Proof.
    intros HU. split.
    - intros H. destruct (last_mut_hits _ _ _ _ H) as (m & H1 & H2 & _). eauto.
    - intros (m & Hm & Hv). unfold mut_ver in Hv. destruct (mut_key key_of m) as [k|] eqn:EM; [|discriminate].
      inversion Hv; subst v. clear Hv.
      destruct (last_mut_dec key_of t ms k) as [(v & H1 & H2)|H].
      + destruct (last_mut_hits _ _ _ _ H1) as (m' & H3 & H4 & _). unfold mut_ver in H4.
        destruct (mut_key key_of m') as [k'|] eqn:EM'; [|discriminate]. inversion H4; subst v.
        unfold vkey in H2; simpl in H2. assert (m' = m) by (eapply HU; eauto). subst m'.
        rewrite EM in EM'. inversion EM'; subst. exact H1.
      + exfalso. apply (H m k Hm EM). apply kcmp_refl.
  Qed.

  Lemma staged_muts_In ms x :
    let s := stage key_of ms in
    In x (map Put (staged_rows s) ++ map Del (staged_keys s)) ->
    exists k, mut_key key_of x = Some k /\ In (k, mut_row x) s.
  Proof.
    cbv zeta. rewrite in_app_iff, !in_map_iff. intros [(r & <- & H)|(k & <- & H)].
    - apply in_flat_map in H as ([k [r'|]] & H1 & H2); simpl in H2; [|destruct H2].
      destruct H2 as [->|[]]. exists k. split; auto. simpl. eapply stage_keyed; eauto.
    - apply in_flat_map in H as ([k' [r'|]] & H1 & H2); simpl in H2; [destruct H2|].
      destruct H2 as [->|[]]. exists k. split; auto.
  Qed.

  Lemma stage_uniq ms x y kx ky :
    let s := stage key_of ms in
    let l := map Put (staged_rows s) ++ map Del (staged_keys s) in
    In x l -> In y l -> mut_key key_of x = Some kx -> mut_key key_of y = Some ky -> kcmp kx ky = Eq -> x = y.
  Proof.
    cbv zeta. intros Hx Hy EX EY E.
    apply staged_muts_In in Hx as (k1 & A1 & A2). apply staged_muts_In in Hy as (k2 & B1 & B2).
    rewrite EX in A1. inversion A1; subst k1. rewrite EY in B1. inversion B1; subst k2.
    assert (EQ : (kx, mut_row x) = (ky, mut_row y)).
    { eapply osorted_unique; eauto. apply stage_sorted. }
    inversion EQ as [[E1 E2]]. clear - EX EY E1 E2.
    destruct x, y; simpl in *; congruence.
  Qed.

  Lemma staged_last t ms v :
    let s := stage key_of ms in
    last_mut key_of t (map Put (staged_rows s) ++ map Del (staged_keys s)) v <-> last_mut key_of t (accepted key_of ms) v.
  Proof.
    cbv zeta. rewrite last_mut_uniq by (intros; eapply stage_uniq; eauto).
    rewrite last_accepted, in_map_iff. split.
    - intros (m & Hm & Hv). apply staged_muts_In in Hm as (k & E1 & E2). unfold mut_ver in Hv. rewrite E1 in Hv.
      inversion Hv; subst. exists (k, mut_row m). auto.
    - intros ([k [r|]] & <- & H).
      + exists (Put r). split.
        * apply in_app_iff. left. apply in_map. apply in_flat_map. exists (k, Some r). simpl; auto.
        * unfold mut_ver. simpl. rewrite (stage_keyed _ _ _ H). reflexivity.
      + exists (Del k). split; [|reflexivity].
        apply in_app_iff. right. apply in_map. apply in_flat_map. exists (k, None). simpl; auto.
  Qed.

  (** *** Rows with tombstone flags *)
  Definition tomb_keys (rows : list (R * bool)) : list K :=
    flat_map (fun p : R * bool => if snd p then match key_of (fst p) with Some k => [k] | None => [] end else []) rows.

  Lemma part_deletes_keys rows : Forall (fun p => key_of (fst p) <> None) rows ->
    part_deletes key_of rows = map Some (tomb_keys rows).
  Proof.
    induction 1 as [|[r b] rows H HF IH]; simpl; auto. unfold part_deletes in *. simpl in *.
    destruct b; simpl; auto. destruct (key_of r) as [k|] eqn:E; [|congruence]. simpl. now rewrite IH.
  Qed.
  Lemma tomb_muts_In rows x : Forall (fun p => key_of (fst p) <> None) rows ->
    (In x (tomb_muts key_of rows) <-> In x (map Put (part_upserts rows) ++ map Del (tomb_keys rows))).
  Proof.
    induction 1 as [|[r b] rows H HF IH]; simpl; [tauto|]. unfold part_upserts in *. simpl in *. destruct b; simpl.
    - destruct (key_of r) as [k|] eqn:E; [|congruence]. simpl. rewrite IH, !in_app_iff. simpl. tauto.
    - rewrite IH, !in_app_iff. tauto.
  Qed.
  Lemma tomb_sep rows : tomb_separate key_of rows ->
    separate key_of (map Put (part_upserts rows)) (map Del (tomb_keys rows)).
  Proof.
    intros HS x y kx ky Hx Hy EX EY. apply in_map_iff in Hx as (r & <- & Hr). apply in_map_iff in Hy as (k & <- & Hk).
    simpl in *. inversion EY; subst ky. unfold part_upserts in Hr. apply in_map_iff in Hr as ([r0 b0] & E0 & Hr).
    apply filter_In in Hr as [Hr Hb]. simpl in *. destruct b0; [discriminate|]. subst r0.
    apply in_flat_map in Hk as ([r' b'] & H1 & H2). simpl in H2. destruct b'; [|destruct H2].
    destruct (key_of r') as [k'|] eqn:E'; [|destruct H2]. destruct H2 as [->|[]].
    eapply HS; eauto.
  Qed.

  Lemma tomb_last t rows v : Forall (fun p => key_of (fst p) <> None) rows -> tomb_separate key_of rows ->
    (last_mut key_of t (tomb_muts key_of rows) v <->
     last_mut key_of t (map Put (part_upserts rows) ++ map Del (tomb_keys rows)) v).
  Proof.
    induction 1 as [|[r b] rows H HF IH]; intros HS; [simpl; tauto|].
    assert (HS' : tomb_separate key_of rows) by (intros r1 r2 k1 k2 H1 H2; apply HS; simpl; auto).
    specialize (IH HS'). pose proof (tomb_sep _ HS) as SP. pose proof (tomb_sep _ HS') as SP'.
    assert (FE : forall kt, Forall (fun x => ~ hits key_of t x kt) (tomb_muts key_of rows) <->
                 Forall (fun x => ~ hits key_of t x kt) (map Put (part_upserts rows) ++ map Del (tomb_keys rows))).
    { intros kt. rewrite !Forall_forall. split; intros F x Hx; apply F; now apply tomb_muts_In. }
    simpl in H. destruct b.
    - destruct (key_of r) as [k|] eqn:E; [|congruence].
      assert (E1 : tomb_muts key_of ((r, true) :: rows) = Del k :: tomb_muts key_of rows) by (unfold tomb_muts; simpl; now rewrite E).
      assert (E2 : tomb_keys ((r, true) :: rows) = k :: tomb_keys rows) by (unfold tomb_keys; simpl; now rewrite E).
      assert (E3 : part_upserts ((r, true) :: rows) = part_upserts rows) by reflexivity.
      rewrite E1, E2, E3 in *. cbn [map]. rewrite last_mut_cons, IH, FE.
      rewrite (separate_app key_of t _ _ v SP), (separate_app key_of t _ _ v SP'). cbn [map]. rewrite last_mut_cons, Forall_app.
      split; [tauto|]. intros [A|[A|[A B]]]; auto. right. split; auto. split; auto.
      apply Forall_forall. intros x Hx Hh.
      destruct (mut_key key_of x) as [kx|] eqn:EX; [|unfold hits in Hh; now rewrite EX in Hh].
      apply (SP x (Del k) kx k Hx (or_introl eq_refl) EX eq_refl).
      apply (hits_same key_of t x (Del k) (fst v) kx k Hh); auto.
      unfold mut_ver in A. simpl in A. inversion A; subst. unfold hits. simpl. apply kcmp_refl.
    - assert (E1 : tomb_muts key_of ((r, false) :: rows) = Put r :: tomb_muts key_of rows) by reflexivity.
      assert (E2 : tomb_keys ((r, false) :: rows) = tomb_keys rows) by reflexivity.
      assert (E3 : part_upserts ((r, false) :: rows) = r :: part_upserts rows) by reflexivity.
      rewrite E1, E2, E3. cbn [map app]. rewrite !last_mut_cons, IH, FE. tauto.
  Qed.
End RunFacts.
