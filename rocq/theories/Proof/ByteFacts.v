(** Proofs about byte limits: key sizes, what a limit bounds and what it does not. *)
From Coq Require Import List NArith ZArith Bool Lia Arith Sorted.
From Verif Require Import Base.Order Base.Lex Model.OMap Model.KeyTs Model.MemTable Model.Immutable Model.Db Model.Policy Spec.LimitSpec
     Model.Utf8 Model.Key Model.KeySize Spec.ByteSpec
     Spec.Mvcc Spec.History Model.Run Spec.Valid Proof.OMapFacts Proof.MemFacts Proof.ViewFacts Proof.DbFacts Proof.Refine Proof.LimitFacts.
Import ListNotations.
Local Open Scope N_scope.

(** *** Sizes of keys *)
Lemma lexN_len a : forall b, lexN a b = Eq -> length a = length b.
Proof.
  unfold lexN. induction a as [|x a IH]; intros [|y b]; cbn [lex]; try discriminate; auto.
  destruct (N.compare x y); try discriminate. intros H. cbn [length]. now rewrite (IH b H).
Qed.
Lemma cell_size_eq a b : cells_cmp a b = Eq -> cell_heap_size a = cell_heap_size b.
Proof.
  destruct a, b; cbn [cells_cmp cell_heap_size cell_tag]; intros H; auto; try discriminate H.
  - now rewrite (lexN_len _ _ H).
  - now rewrite (lexN_len _ _ H).
Qed.
Lemma key_size_eq a : forall b, keys_cmp a b = Eq -> key_heap_size a = key_heap_size b.
Proof.
  unfold keys_cmp. induction a as [|x a IH]; intros [|y b]; cbn [lex]; try discriminate; auto.
  destruct (cells_cmp x y) eqn:E; try discriminate. intros H. unfold key_heap_size in *. cbn [fold_right].
  now rewrite (cell_size_eq _ _ E), (IH b H).
Qed.

Section Bytes.
  Context {K : Type} {KO : KeyOrd K} {R : Type}.
  Variable key_of : R -> option K.
  Variable row_bytes : R -> nat.
  Variable del_bytes : K -> nat.
  Variable key_bytes : K -> N.

  Lemma limited_reached s l p : byte_limited l p -> l <= ms_key_bytes s + ms_entries s * ms_overhead s -> reached s p.
  Proof. intros H. induction H as [|p ps Hin H IH]; intros HL; [now constructor|]. eapply re_any; eauto. Qed.

  Lemma sum_overhead (ks : list K) :
    fold_right (fun k a => key_bytes k + a) 0 ks + N.of_nat (length ks) * 32 = sum_of (fun k => key_bytes k + 32) ks.
  Proof.
    induction ks as [|k ks IH]; [reflexivity|]. unfold sum_of in *. cbn [fold_right length]. rewrite <- IH.
    rewrite Nat2N.inj_succ. lia.
  Qed.

  (** *** What a limit bounds *)
  Lemma c84_bound capacity ops p limit since rows span d1 :
    (1 <= capacity)%nat -> N.of_nat (length ops) + 1 < 2 ^ 64 ->
    ops_ok key_of row_bytes del_bytes (start capacity) ops ->
    let d := st_db (run key_of row_bytes del_bytes (start capacity) ops) in
    Forall (fun r => key_of r <> None) rows ->
    put_rows key_of rows (d_clock d) (observe_range span (tick d)) = (d1, true) ->
    byte_limited limit p ->
    exists d' ks, ingest_policy key_of key_bytes p since rows span d = (d', true) /\
      lists_keys (map (fun e => fst (fst e)) (m_index (d_mem d'))) ks /\
      (ks = [] \/ sum_of (fun k => key_bytes k + 32) ks < limit).
  Proof.
    intros HC HL HO d HK E1 HB.
    pose proof (inv_run key_of row_bytes del_bytes ops (start capacity) (inv_start key_of capacity HC)) as HI.
    specialize (HI ltac:(simpl; lia) HO).
    destruct (iv_rep _ _ (proj1 HI)) as (M & Is & HR & HCo).
    assert (NIL : lists_keys (K := K) [] []).
    { split; [constructor|]. split; [intros k []|intros k []]. }
    assert (RE : exists M1 Is1, rep key_of d1 M1 Is1).
    { destruct (put_rows_spec key_of (observe_range span (tick d)) M Is (d_clock d) rows) as [(d2 & M1 & Is1 & E2 & R1 & _)|[E2 _]].
      - now apply rep_tick.
      - exact HK.
      - intros w m Hw Hm. exact (mem_fresh key_of _ M Is (proj1 HI) HCo _ w m Hw Hm).
      - rewrite E1 in E2. inversion E2; subst d2. eauto.
      - rewrite E1 in E2. discriminate. }
    destruct RE as (M1 & Is1 & R1).
    destruct (policy_seal_spec key_of key_bytes p since d1 M1 Is1 R1) as (d' & EP & HN & HY).
    assert (EI : ingest_policy key_of key_bytes p since rows span d = (d', true)).
    { unfold ingest_policy. rewrite E1. exact EP. }
    destruct (m_index (d_mem d1)) as [|e idx] eqn:EX.
    - exists d', []. split; [exact EI|]. split; [|now left].
      assert (ED : d' = d1).
      { revert EP. unfold policy_seal, maybe_seal, seal_now, seal. rewrite EX.
        match goal with |- (if ?b then _ else _) = _ -> _ => destruct b end; intros EP'; injection EP' as EP'; now symmetry. }
      rewrite ED, EX. exact NIL.
    - set (ks := distinct_keys None (e :: idx)) in *.
      assert (LK : lists_keys (map (fun e => fst (fst e)) (e :: idx)) ks).
      { destruct (distinct_spec del_bytes key_bytes (e :: idx) None) as (A & _ & B & C).
        - rewrite <- EX. destruct R1 as [HM _ _ _ _ _ _]. eapply index_osorted; eauto.
        - discriminate.
        - split; auto. split; auto. intros k Hk. destruct (C k Hk) as [(q & F & _)|H]; [discriminate|auto]. }
      destruct (N.lt_ge_cases (sum_of (fun k => key_bytes k + 32) ks) limit) as [Hlt|Hge].
      + destruct (seals (evaluate p (build_stats key_bytes (d_mem d1) since))) eqn:ES.
        * apply evaluate_reached in ES. destruct (HY ES) as [EM _]; [discriminate|].
          exists d', []. split; [exact EI|]. rewrite EM. split; [exact NIL|now left].
        * assert (ED : d' = d1). { apply HN. intros F. apply evaluate_reached in F. congruence. }
          exists d', ks. split; [exact EI|]. rewrite ED, EX. split; [exact LK|now right].
      + assert (RC : reached (build_stats key_bytes (d_mem d1) since) p).
        { apply (limited_reached _ limit p HB). unfold build_stats. cbn [ms_key_bytes ms_entries ms_overhead].
          rewrite EX. fold ks. rewrite sum_overhead. exact Hge. }
        destruct (HY RC) as [EM _]; [discriminate|].
        exists d', []. split; [exact EI|]. rewrite EM. split; [exact NIL|now left].
  Qed.

  (** *** What it does not bound: the rows themselves *)
  Variable size : R -> N.
  Variable k : K.
  Definition only_k (idx : list ((K * N) * mloc)) : Prop := Forall (fun e => fst (fst e) = k) idx.
  Lemma insert_only t v idx : only_k idx -> only_k (om_insert (k, t) v idx).
  Proof.
    induction idx as [|[k' v'] idx IH]; intros H; cbn [om_insert].
    - constructor; [reflexivity|constructor].
    - inversion H as [|x l H1 H2]; subst. destruct (kcmp (k, t) k').
      + constructor; [reflexivity|exact H2].
      + constructor; [reflexivity|exact H].
      + constructor; [exact H1|now apply IH].
  Qed.
  Lemma distinct_some idx : only_k idx -> distinct_keys (Some k) idx = [].
  Proof.
    induction idx as [|e idx IH]; intros H; [reflexivity|]. inversion H as [|x l H1 H2]; subst.
    cbn [distinct_keys]. rewrite H1. unfold keqb. rewrite kcmp_refl. now apply IH.
  Qed.
  Lemma distinct_one idx : only_k idx -> distinct_keys None idx = [] \/ distinct_keys None idx = [k].
  Proof.
    destruct idx as [|e idx]; intros H; [now left|]. inversion H as [|x l H1 H2]; subst.
    right. cbn [distinct_keys]. rewrite H1. now rewrite distinct_some.
  Qed.
  Lemma sum_of_app {A} (f : A -> N) l m : sum_of f (l ++ m) = sum_of f l + sum_of f m.
  Proof. induction l as [|a l IH]; [reflexivity|]. unfold sum_of in *. cbn [app fold_right]. rewrite IH. lia. Qed.

  Lemma payload_gen limit rows : forall d last,
    Forall (fun r => key_of r = Some k) rows -> key_bytes k + 32 < limit ->
    only_k (m_index (d_mem d)) -> (length (m_batches (d_mem d)) + length rows <= m_capacity (d_mem d))%nat ->
    let r := ingest_all key_of key_bytes (BytesThreshold limit) (map (fun r => (0, [r])) rows) (d, last) in
    d_imm (fst r) = d_imm d /\ held size (d_mem (fst r)) = held size (d_mem d) + sum_of size rows.
  Proof.
    induction rows as [|x rows IH]; intros d last HK HL HI HC; [cbn; split; [reflexivity|lia]|].
    inversion HK as [|y l K1 K2]; subst. cbn [map]. unfold ingest_all. cbn [fold_left fst snd].
    cbn [length] in HC.
    set (d1 := mkDb (mkMem (om_insert (k, d_clock d) (Up (length (m_batches (d_mem d))) 0) (m_index (d_mem d)))
                           (m_batches (d_mem d) ++ [Some ([x], [d_clock d])]) (m_deletes (d_mem d)) (m_capacity (d_mem d)))
                    (d_imm d) (d_mrange d) (d_iranges d) (d_levels d) ((d_clock d + 1) mod 2 ^ 64) (d_next_id d)).
    assert (E : put_rows key_of [x] (d_clock d) (observe_range None (tick d)) = (d1, true)).
    { unfold put_rows, mem_insert_batch, try_insert_batch, observe_range, tick. cbn [d_mem].
      destruct (Nat.leb_spec (m_capacity (d_mem d)) (length (m_batches (d_mem d)))) as [F|F]; [lia|].
      cbn [length repeat project_view]. rewrite K1. reflexivity. }
    assert (EP : forall since, policy_seal key_of key_bytes (BytesThreshold limit) since d1 = (d1, true)).
    { intros since. unfold policy_seal, maybe_seal. cbn [evaluate]. unfold build_stats. cbn [ms_key_bytes ms_entries ms_overhead].
      assert (O : only_k (m_index (d_mem d1))) by (apply insert_only; exact HI).
      destruct (distinct_one _ O) as [EK|EK]; rewrite EK; cbn [fold_right length];
      match goal with |- context [N.leb limit ?s] => destruct (N.leb_spec limit s) as [F|F] end; try reflexivity; exfalso; lia. }
    assert (EA : fst (ingest_at key_of key_bytes (BytesThreshold limit) 0 [x] None (d, last)) = (d1, last)).
    { unfold ingest_at. rewrite E. cbv zeta. rewrite EP. unfold note_seal. cbn [d_imm d1]. rewrite Nat.eqb_refl.
      reflexivity. }
    rewrite EA. destruct (IH d1 last K2 HL) as [A B].
    - apply insert_only. exact HI.
    - cbn [d1 d_mem m_batches m_capacity]. rewrite app_length. cbn [length]. lia.
    - split; [exact A|]. etransitivity; [exact B|].
      assert (H1 : held size (d_mem d1) = held size (d_mem d) + size x).
      { unfold held. cbn [d1 d_mem m_batches]. rewrite sum_of_app. f_equal. unfold sum_of. cbn [fold_right]. lia. }
      assert (H2 : sum_of size (x :: rows) = size x + sum_of size rows) by reflexivity.
      rewrite H1, H2. lia.
  Qed.
  Lemma c84_payload limit capacity rows :
    Forall (fun r => key_of r = Some k) rows -> key_bytes k + 32 < limit -> (length rows <= capacity)%nat ->
    let r := ingest_all key_of key_bytes (BytesThreshold limit) (map (fun r => (0, [r])) rows) (db_new capacity, None) in
    d_imm (fst r) = [] /\ held size (d_mem (fst r)) = sum_of size rows.
  Proof. intros H1 H2 H3. apply (payload_gen limit rows (db_new capacity) None H1 H2); [constructor|exact H3]. Qed.
End Bytes.

Lemma key_size_content (k : key) : key_heap_size k = N.of_nat (length (content k)).
Proof.
  unfold key_heap_size, content. induction k as [|c k IH]; [reflexivity|]. cbn [fold_right map concat].
  rewrite IH, app_length, Nat2N.inj_add. f_equal. destruct c; reflexivity.
Qed.
