(** The database refines the history of acknowledged writes. *)
From Coq Require Import List NArith Bool Sorted Permutation Lia Arith.
From Verif Require Import Base.Order Base.Sub Model.OMap Model.KeyTs Model.MemTable Model.Immutable
     Model.SsTable Model.MergeStream Model.KeyBounds Model.DbScan Model.Version Model.Db Model.Compact
     Model.Planner Model.DbCompact Spec.Mvcc Spec.History Model.Run
     Proof.OMapFacts Proof.MemFacts Proof.ViewFacts Proof.SstFacts Proof.MergeFacts Proof.ScanFacts
     Proof.HistFacts Proof.CompactFacts Proof.CompactLoop Proof.CompactOut Proof.VersionFacts.
Import ListNotations.
Local Arguments kcmp : simpl never.

Section DbFacts.
  Context {K : Type} {KO : KeyOrd K} {R : Type}.
  Variable key_of : R -> option K.
  Notation vers := (@vers K R).

  (** *** The versions of an SST *)
  Definition tver (t : sst K R) : list vers := flat_map (dver key_of) (t_rows t) ++ map xver (t_dels t).
  Definition tok (t : sst K R) : Prop := sst_ok key_of t (tver t) /\ tver t <> [].

  Lemma dver_drow D : dkeyed key_of D -> flat_map (dver key_of) (map drow D) = map (fun e => (fst e, Some (snd e))) D.
  Proof.
    induction 1 as [|[[k t] r] D H HF IH]; simpl; auto. unfold dver at 1. simpl in *. rewrite H. simpl. now rewrite IH.
  Qed.
  Lemma tver_repr t D X : sst_repr key_of t D X -> tver t = sst_vers D X.
  Proof. intros (E1 & HK & E2 & _). unfold tver, sst_vers. rewrite E1, E2, dver_drow by auto. reflexivity. Qed.
  Lemma sst_ok_tver t A : sst_ok key_of t A -> (forall v, In v (tver t) <-> In v A) /\ sst_ok key_of t (tver t).
  Proof.
    intros (D & X & HR & HV & HC). rewrite (tver_repr _ _ _ HR).
    assert (EQ : forall v, In v (sst_vers D X) <-> In v A) by (intros v; symmetry; apply HV).
    split; auto. exists D, X. split; auto. split; [tauto|].
    intros v Hv. apply HC. now apply EQ.
  Qed.
  Lemma sst_ok_tok t A : sst_ok key_of t A -> A <> [] -> (forall v, In v (tver t) <-> In v A) /\ tok t.
  Proof.
    intros H HN. destruct (sst_ok_tver t A H) as [H1 H2]. split; auto. split; auto.
    destruct A as [|a A]; [congruence|]. intros F. assert (X : In a (tver t)) by (apply H1; simpl; auto).
    rewrite F in X. destruct X.
  Qed.

  (** *** What a database state holds *)
  Definition store (M : list vers) (Is : list (list vers)) (ls : list (list (sst K R))) : list vers :=
    M ++ concat Is ++ flat_map tver (concat ls).

  Record rep (d : db K R) (M : list vers) (Is : list (list vers)) : Prop := {
    rp_mem : mem_repr key_of (d_mem d) M;
    rp_imm : d_imm d = map seg_of Is;
    rp_good : Forall (good key_of) Is;
    rp_sst : Forall tok (concat (d_levels d));
    rp_ids : Forall (fun t => (t_id t < d_next_id d)%N) (concat (d_levels d));
    rp_nodup : NoDup (map (@t_id K R) (concat (d_levels d)));
    rp_cap : 1 <= m_capacity (d_mem d)
  }.

  (** Nothing but the memtable side changed. *)
  Definition same_rest (d d' : db K R) : Prop :=
    d_levels d' = d_levels d /\ d_clock d' = d_clock d /\ d_next_id d' = d_next_id d.

  Lemma rep_same d d' M Is : rep d M Is -> d_mem d' = d_mem d -> d_imm d' = d_imm d ->
    d_levels d' = d_levels d -> d_next_id d' = d_next_id d -> rep d' M Is.
  Proof. intros [H1 H2 H3 H4 H5 H6 H7] E1 E2 E3 E4. constructor; rewrite ?E1, ?E2, ?E3, ?E4; auto. Qed.

  Lemma store_In M Is ls v : In v (store M Is ls) <-> In v M \/ In v (concat Is) \/ In v (flat_map tver (concat ls)).
  Proof. unfold store. now rewrite !in_app_iff. Qed.

  Lemma last_mut_nil t v : ~ last_mut key_of t [] v.
  Proof. intros (m1 & m & m2 & E & _). destruct m1; discriminate. Qed.

  Lemma no_hits_In ts ms (M : list vers) v : osorted M ->
    (forall w m, In w M -> In m ms -> ~ hits key_of ts m (fst w)) ->
    (In v (ins_muts key_of ms ts M) <-> In v M \/ last_mut key_of ts ms v).
  Proof.
    intros HS H. rewrite ins_muts_In by auto. split; [tauto|].
    intros [Hv|Hv]; [right|left]; auto. split; auto. apply Forall_forall. intros m Hm. now apply H.
  Qed.

  Lemma good_of m M : mem_repr key_of m M -> M <> [] -> good key_of M.
  Proof. intros HM HN. split; [apply HM|]. split; auto. eapply mem_repr_keyed; eauto. Qed.

  (** *** Inserting with the automatic seal *)
  Lemma insert_gen d M Is ts ms (try : mem K R -> insert_result K R) :
    rep d M Is ->
    (forall m A, mem_repr key_of m A ->
       match try m with
       | IOk m' => mem_repr key_of m' (ins_muts key_of ms ts A) /\ m_capacity m' = m_capacity m
       | IKeyErr _ => False
       | IExhausted => forall c, m = mem_new c -> c = 0
       end) ->
    (forall w m, In w M -> In m ms -> ~ hits key_of ts m (fst w)) ->
    (exists d' M' Is',
      apply_insert d (match try (d_mem d) with
                      | IOk m' => MOk m' None | IKeyErr m' => MKeyErr m'
                      | IExhausted => after_seal key_of (d_mem d) try end) = (d', true) /\
      rep d' M' Is' /\ same_rest d d' /\
      (forall v ls, In v (store M' Is' ls) <-> In v (store M Is ls) \/ last_mut key_of ts ms v) /\
      (forall v, last_mut key_of ts ms v -> In v M') /\
      (forall v, In v M' -> In v M \/ last_mut key_of ts ms v)) \/
    (apply_insert d (match try (d_mem d) with
                      | IOk m' => MOk m' None | IKeyErr m' => MKeyErr m'
                      | IExhausted => after_seal key_of (d_mem d) try end) = (d, false) /\ M = []).
  Proof.
    intros HR HT HH. pose proof HR as [HM HI HG HS HD HN HC].
    pose proof (HT _ _ HM) as H1. destruct (try (d_mem d)) as [m'|m'|] eqn:ET; [|contradiction|].
    - destruct H1 as [H1 H2]. left.
      exists (set_mem d m'), (ins_muts key_of ms ts M), Is. split; [reflexivity|].
      assert (IN : forall v, In v (ins_muts key_of ms ts M) <-> In v M \/ last_mut key_of ts ms v)
        by (intros v; apply no_hits_In; auto; apply HM).
      split; [|split; [repeat split|split; [|split]]].
      + constructor; simpl; auto. now rewrite H2.
      + intros v ls. rewrite !store_In, IN. tauto.
      + intros v Hv. apply IN. auto.
      + intros v Hv. now apply IN.
    - unfold after_seal. rewrite (seal_repr key_of _ _ HM). destruct M as [|a M].
      + right. rewrite ET. auto.
      + set (B := a :: M) in *.
        pose proof (HT _ _ (mem_new_repr key_of (m_capacity (d_mem d)))) as H2.
        destruct (try (mem_new (m_capacity (d_mem d)))) as [m'|m'|] eqn:ET2; [|contradiction|].
        * destruct H2 as [H2 H3]. left.
          exists (add_immutable d m' (seg_of B)), (ins_muts key_of ms ts []), (Is ++ [B]).
          split; [reflexivity|].
          assert (IN : forall v, In v (ins_muts key_of ms ts []) <-> last_mut key_of ts ms v).
          { intros v. rewrite no_hits_In; [simpl; tauto|constructor|intros w m []]. }
          split; [|split; [repeat split|split; [|split]]].
          -- constructor; simpl; auto.
             ++ now rewrite HI, map_app.
             ++ apply Forall_app. split; auto. constructor; auto. eapply good_of; eauto. discriminate.
             ++ rewrite H3. exact HC.
          -- intros v ls. rewrite !store_In, IN, concat_app, in_app_iff. simpl. rewrite app_nil_r. tauto.
          -- intros v Hv. now apply IN.
          -- intros v Hv. right. now apply IN.
        * exfalso. specialize (H2 _ eq_refl). lia.
  Qed.

  Lemma put_rows_spec d M Is ts rows : rep d M Is ->
    Forall (fun r => key_of r <> None) rows ->
    (forall w m, In w M -> In m (map Put rows) -> ~ hits key_of ts m (fst w)) ->
    (exists d' M' Is', put_rows key_of rows ts d = (d', true) /\ rep d' M' Is' /\ same_rest d d' /\
      (forall v ls, In v (store M' Is' ls) <-> In v (store M Is ls) \/ last_mut key_of ts (map Put rows) v) /\
      (forall v, last_mut key_of ts (map Put rows) v -> In v M') /\
      (forall v, In v M' -> In v M \/ last_mut key_of ts (map Put rows) v)) \/
    (put_rows key_of rows ts d = (d, false) /\ M = []).
  Proof.
    intros HR HK HH. apply (insert_gen d M Is ts (map Put rows)
       (fun m0 => try_insert_batch key_of m0 rows (repeat ts (length rows)))); auto.
    intros m A Hm. pose proof (try_insert_batch_repr key_of m rows ts A Hm) as H.
    rewrite ins_mut_rows. destruct (try_insert_batch _ _ _ _) as [m'|m'|] eqn:ET.
    - tauto.
    - destruct H as (_ & _ & H). revert H HK. clear. intros H HK. rewrite Forall_forall in HK.
      match type of H with Exists _ _ => idtac | _ => destruct H as [H _] end.
      apply Exists_exists in H as (r & H1 & H2). apply (HK r H1 H2).
    - intros c ->. simpl in H. lia.
  Qed.

  Lemma put_deletes_spec d M Is ts (ks : list K) : rep d M Is ->
    (forall w m, In w M -> In m (map Del ks) -> ~ hits key_of ts m (fst w)) ->
    (exists d' M' Is', put_deletes key_of (map Some ks) ts d = (d', true) /\ rep d' M' Is' /\ same_rest d d' /\
      (forall v ls, In v (store M' Is' ls) <-> In v (store M Is ls) \/ last_mut key_of ts (map Del ks) v) /\
      (forall v, last_mut key_of ts (map Del ks) v -> In v M') /\
      (forall v, In v M' -> In v M \/ last_mut key_of ts (map Del ks) v)) \/
    (put_deletes key_of (map Some ks) ts d = (d, false) /\ M = []).
  Proof.
    intros HR HH. apply (insert_gen d M Is ts (map Del ks)
       (fun m0 => try_insert_delete_batch m0 (map Some ks) (repeat ts (length (map Some ks))))); auto.
    intros m A Hm. pose proof (try_insert_delete_repr key_of m (map Some ks) ts A Hm) as H.
    rewrite ins_mut_dels. destruct (try_insert_delete_batch _ _ _) as [m'|m'|] eqn:ET.
    - tauto.
    - destruct H as (_ & _ & H). apply Exists_exists in H as (r & H1 & ->).
      apply in_map_iff in H1 as (k & H1 & _). discriminate.
    - intros c ->. simpl in H. lia.
  Qed.

  Lemma last_mut_app t a b v :
    last_mut key_of t (a ++ b) v <-> last_mut key_of t b v \/ (last_mut key_of t a v /\ Forall (fun x => ~ hits key_of t x (fst v)) b).
  Proof.
    induction a as [|m a IH]; simpl.
    - split; auto. intros [H|[H _]]; auto. exfalso. eapply last_mut_nil; eauto.
    - rewrite !last_mut_cons, IH, Forall_app. tauto.
  Qed.

  Lemma last_mut_hits t ms v : last_mut key_of t ms v -> exists m, In m ms /\ mut_ver key_of t m = Some v /\ hits key_of t m (fst v).
  Proof.
    intros (a & m & b & -> & H & _). exists m. split; [rewrite in_app_iff; simpl; auto|]. split; auto.
    unfold mut_ver in H. unfold hits. destruct (mut_key key_of m); inversion H; subst. simpl. apply kcmp_refl.
  Qed.

  Lemma hits_eq t m kt kt' : kcmp kt kt' = Eq -> hits key_of t m kt -> hits key_of t m kt'.
  Proof. unfold hits. destruct (mut_key key_of m); auto. intros E H. korder. Qed.

  Definition separate (a b : list (mut K R)) : Prop :=
    forall x y kx ky, In x a -> In y b -> mut_key key_of x = Some kx -> mut_key key_of y = Some ky -> kcmp kx ky <> Eq.

  Lemma separate_app t a b v : separate a b ->
    (last_mut key_of t (a ++ b) v <-> last_mut key_of t a v \/ last_mut key_of t b v).
  Proof.
    intros HS. rewrite last_mut_app. split; [tauto|]. intros [H|H]; auto. right. split; auto.
    apply Forall_forall. intros y Hy Hh. destruct (last_mut_hits _ _ _ H) as (x & Hx & Hv & Hhx).
    unfold hits in *. destruct (mut_key key_of y) as [ky|] eqn:EY; auto.
    destruct (mut_key key_of x) as [kx|] eqn:EX; auto.
    apply (HS x y kx ky Hx Hy EX EY). assert (E : kcmp (kx, t) (ky, t) = Eq) by korder.
    apply kts_eq in E. apply E.
  Qed.

  Lemma last_mut_exists t ms : ms <> [] -> Forall (fun m => mut_key key_of m <> None) ms ->
    exists v, last_mut key_of t ms v.
  Proof.
    intros HN HF. destruct (exists_last HN) as (a & m & ->). apply Forall_app in HF as [_ HF].
    inversion HF; subst. destruct (mut_key key_of m) as [k|] eqn:E; [|congruence].
    exists ((k, t), mut_row m). exists a, m, []. split; auto. split; auto. unfold mut_ver. now rewrite E.
  Qed.

  Lemma hits_same t x m (kt : K * N) kx km : hits key_of t x kt -> hits key_of t m kt ->
    mut_key key_of x = Some kx -> mut_key key_of m = Some km -> kcmp kx km = Eq.
  Proof.
    unfold hits. intros H1 H2 E1 E2. rewrite E1 in H1. rewrite E2 in H2.
    assert (E : kcmp (kx, t) (km, t) = Eq) by korder. apply kts_eq in E. apply E.
  Qed.

  (** Upserts, then deletes of other keys. *)
  Lemma apply_parts_spec d M Is ts ups (ks : list K) : rep d M Is ->
    Forall (fun r => key_of r <> None) ups ->
    separate (map Put ups) (map Del ks) ->
    (forall w m, In w M -> In m (map Put ups ++ map Del ks) -> ~ hits key_of ts m (fst w)) ->
    exists d' M' Is' ok, apply_parts key_of ups (map Some ks) ts d = (d', ok) /\ rep d' M' Is' /\ same_rest d d' /\
      (forall v ls, In v (store M' Is' ls) <->
         In v (store M Is ls) \/ (ok = true /\ last_mut key_of ts (map Put ups ++ map Del ks) v)).
  Proof.
    intros HR HK HSep HH. unfold apply_parts.
    assert (P1 : (exists d1 M1 Is1, (match ups with [] => (d, true) | _ => put_rows key_of ups ts d end) = (d1, true) /\
                   rep d1 M1 Is1 /\ same_rest d d1 /\
                   (forall v ls, In v (store M1 Is1 ls) <-> In v (store M Is ls) \/ last_mut key_of ts (map Put ups) v) /\
                   ((forall w m, In w M1 -> In m (map Del ks) -> ~ hits key_of ts m (fst w))) /\
                   (M1 = [] -> ups = []))
               \/ ((match ups with [] => (d, true) | _ => put_rows key_of ups ts d end) = (d, false))).
    { destruct ups as [|r rs].
      - left. exists d, M, Is. split; auto. split; auto. split; [repeat split|]. split.
        + intros v ls. split; auto. intros [H|H]; auto. exfalso. eapply last_mut_nil; eauto.
        + split; auto.
      - destruct (put_rows_spec d M Is ts (r :: rs) HR HK) as [(d1 & M1 & Is1 & E1 & R1 & S1 & V1 & L1 & L2)|[E1 _]].
        + intros w m Hw Hm. apply HH; auto. apply in_app_iff. auto.
        + left. exists d1, M1, Is1. split; auto. split; auto. split; auto. split; auto. split.
          * intros w m Hw Hm Hh. apply L2 in Hw as [Hw|Hw].
            -- apply (HH w m); auto. apply in_app_iff. auto.
            -- destruct (last_mut_hits _ _ _ Hw) as (x & Hx & _ & Hhx).
               destruct (mut_key key_of m) as [km|] eqn:EM; [|unfold hits in Hh; now rewrite EM in Hh].
               destruct (mut_key key_of x) as [kx|] eqn:EX; [|unfold hits in Hhx; now rewrite EX in Hhx].
               apply (HSep x m kx km Hx Hm EX EM). exact (hits_same ts x m (fst w) kx km Hhx Hh EX EM).
          * intros ->. exfalso. destruct (last_mut_exists ts (map Put (r :: rs))) as (v & Hv); [discriminate| |].
            -- apply Forall_map. exact HK.
            -- apply (L1 v Hv).
        + right. exact E1. }
    destruct P1 as [(d1 & M1 & Is1 & E1 & R1 & S1 & V1 & HH1 & N1)|E1]; rewrite E1; cbn [seq2].
    2:{ exists d, M, Is, false. split; auto. split; auto. split; [repeat split|]. intros v ls. split; auto.
        intros [H|[F _]]; [auto|discriminate]. }
    destruct ks as [|k ks].
    - simpl. exists d1, M1, Is1, true. split; auto. split; auto. split; auto.
      intros v ls. rewrite V1, app_nil_r. split; intros [H|H]; tauto.
    - set (KS := k :: ks) in *. cbn [map].
      destruct (put_deletes_spec d1 M1 Is1 ts KS R1 HH1) as [(d2 & M2 & Is2 & E2 & R2 & S2 & V2 & _)|[E2 E3]].
      + change (Some k :: map Some ks) with (map Some KS). rewrite E2.
        exists d2, M2, Is2, true. split; auto. split; auto. split.
        { destruct S1 as (A1 & A2 & A3), S2 as (B1 & B2 & B3). repeat split; congruence. }
        intros v ls. rewrite V2, V1, (separate_app ts _ _ v HSep). tauto.
      + change (Some k :: map Some ks) with (map Some KS). rewrite E2.
        exists d1, M1, Is1, false. split; auto. split; auto. split; auto.
        rewrite (N1 E3) in V1. intros v ls. rewrite V1. split; intros [H|H]; auto.
        * exfalso. eapply last_mut_nil; eauto.
        * destruct H; discriminate.
  Qed.

  (** *** Sealing and flushing *)
  Lemma maybe_seal_spec dec d M Is : rep d M Is ->
    exists d' M' Is', maybe_seal key_of dec d = (d', true) /\ rep d' M' Is' /\ same_rest d d' /\
      (forall v ls, In v (store M' Is' ls) <-> In v (store M Is ls)).
  Proof.
    intros HR. unfold maybe_seal. destruct dec.
    - pose proof HR as [HM HI HG HS HD HN HC]. unfold seal_now. rewrite (seal_repr key_of _ _ HM).
      destruct M as [|a M].
      + exists d, [], Is. split; auto. split; auto. split; [repeat split|tauto].
      + set (B := a :: M) in *. exists (add_immutable d (mem_new (m_capacity (d_mem d))) (seg_of B)), [], (Is ++ [B]).
        split; auto. split; [|split; [repeat split|]].
        * constructor; simpl; auto.
          -- apply mem_new_repr.
          -- now rewrite HI, map_app.
          -- apply Forall_app. split; auto. constructor; auto. eapply good_of; eauto. discriminate.
        * intros v ls. rewrite !store_In, concat_app, in_app_iff. simpl. rewrite app_nil_r. tauto.
    - exists d, M, Is. split; auto. split; auto. split; [repeat split|tauto].
  Qed.

  Lemma ids_bound (l : list (sst K R)) n e : Forall (fun t => (t_id t < n)%N) l -> (n <= e)%N -> ~ In e (map (@t_id K R) l).
  Proof.
    intros H L F. apply in_map_iff in F as (t & F1 & F2). rewrite Forall_forall in H. specialize (H t F2). lia.
  Qed.

  Lemma flush_spec level d M Is : rep d M Is ->
    exists d' Is' ok, flush key_of level d = (d', ok) /\ rep d' M Is' /\ d_clock d' = d_clock d /\
      (forall v, In v (store M Is' (d_levels d')) <-> In v (store M Is (d_levels d))) /\
      (d_next_id d <= d_next_id d')%N /\
      (Is <> [] -> ok = true /\ Is' = []).
  Proof.
    intros HR. pose proof HR as [HM HI HG HS HD HN HC]. unfold flush. rewrite HI.
    destruct Is as [|A Is].
    - simpl. exists d, [], false. split; auto. split; auto. split; auto. split; [tauto|]. split; [lia|congruence].
    - cbn [map]. change (seg_of A :: map seg_of Is) with (map seg_of (A :: Is)).
      destruct (write_flush_repr key_of (d_next_id d) (A :: Is) HG) as (t & D & X & E1 & E2 & E3 & E4 & E5 & E6); [discriminate|].
      rewrite E1. set (B := A :: Is) in *.
      set (ls' := tidy (@t_id K R) (add_ssts (@t_id K R) level [t] (d_levels d))).
      assert (HP : Permutation (concat ls') (t :: concat (d_levels d))).
      { unfold ls'. etransitivity; [apply tidy_perm|]. apply (add_ssts_perm (@t_id K R) level [t]).
        - repeat constructor. simpl; tauto.
        - intros e [<-|[]]. rewrite E2. eapply ids_bound; eauto. lia. }
      assert (HO : sst_ok key_of t (concat B)).
      { exists D, X. split; auto. split; auto. intros v. symmetry. apply E4. }
      destruct (sst_ok_tok t (concat B) HO) as [T1 T2].
      { inversion HG as [|x l (_ & _ & HA) HX EX]. unfold B. simpl. destruct A; [exfalso; apply HA; reflexivity|discriminate]. }
      assert (FT : forall v, In v (flat_map tver (concat ls')) <-> In v (tver t) \/ In v (flat_map tver (concat (d_levels d)))).
      { intros v. rewrite <- in_app_iff. change (tver t ++ flat_map tver (concat (d_levels d))) with (flat_map tver (t :: concat (d_levels d))).
        split; intros H; (eapply Permutation_in; [|exact H]); apply Permutation_flat_map; auto using Permutation_sym. }
      eexists _, [], true. split; [reflexivity|]. split; [|split; [reflexivity|split; [|split]]].
      + constructor; cbn [d_mem d_imm d_levels d_next_id]; auto.
        * eapply Permutation_Forall; [apply Permutation_sym, HP|]. constructor; auto.
        * eapply Permutation_Forall; [apply Permutation_sym, HP|]. constructor; [rewrite E2; lia|].
          eapply Forall_impl; [|exact HD]. intros x Hx. simpl in Hx. lia.
        * eapply Permutation_NoDup; [apply Permutation_map, Permutation_sym, HP|]. simpl. constructor; auto.
          rewrite E2. eapply ids_bound; eauto. lia.
      + cbn [d_levels]. intros v. rewrite !store_In, FT, T1. simpl. tauto.
      + simpl. lia.
      + intros _. auto.
  Qed.
End DbFacts.
