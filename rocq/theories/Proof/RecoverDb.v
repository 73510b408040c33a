(** Recovery of the memtable from the log: replaying committed payloads into an empty
    memtable over the levels of the manifest. *)
From Coq Require Import List NArith Bool Sorted Permutation Lia Arith.
From Verif Require Import Base.Order Model.OMap Model.KeyTs Model.MemTable Model.Immutable
     Model.SsTable Model.Version Model.Compact Model.Planner Model.Db Model.DbCompact Model.WalScan Model.Replay
     Model.WalWriter Spec.Mvcc Spec.History Spec.ReplaySpec Model.Run Model.WalDb
     Proof.OMapFacts Proof.MemFacts Proof.ViewFacts Proof.HistFacts Proof.DbFacts Proof.RunFacts Proof.Refine
     Proof.ReplayFacts Proof.ReplayGen.
Import ListNotations.
Local Arguments kcmp : simpl never.

Section RecoverDb.
  Context {K : Type} {KO : KeyOrd K} {R : Type}.
  Variable key_of : R -> option K.
  Notation vers := (@vers K R).
  Notation tver := (tver key_of).
  Notation rep := (rep key_of).
  Notation last_mut := (last_mut key_of).

  (** The mutations of a payload. *)
  Definition pay_muts (p : pay K R) : list (mut K R) :=
    match p with
    | LRows rows _ => map Put rows
    | LDels ks _ => flat_map (fun k => match k with Some k => [Del k] | None => [] end) ks
    end.
  Definition pay_cts (p : pay K R) : N := match p with LRows _ c => c | LDels _ c => c end.
  Definition pay_keyed (p : pay K R) : Prop :=
    match p with
    | LRows rows _ => rows <> [] /\ Forall (fun r => key_of r <> None) rows
    | LDels ks _ => ks <> [] /\ Forall (fun k => k <> None) ks
    end.
  (** A payload that only has versions of [V]. *)
  Definition pay_ok (V : list vers) (ts : N) (p : pay K R) : Prop :=
    pay_keyed p /\ pay_cts p = ts /\ forall v, last_mut ts (pay_muts p) v -> In v V.

  Lemma dels_some (ks : list (option K)) : Forall (fun k => k <> None) ks ->
    exists l, ks = map Some l /\ flat_map (fun k => match k with Some k => [@Del K R k] | None => [] end) ks = map Del l.
  Proof.
    induction 1 as [|k ks Hk HF (l & E1 & E2)]; [exists []; auto|].
    destruct k as [k|]; [|congruence]. exists (k :: l). cbn. now rewrite <- E1, E2.
  Qed.

  Definition keyed_apart (V : list vers) : Prop :=
    forall v w, In v V -> In w V -> same_key (vkey v) (vkey w) -> vts v = vts w -> v = w.

  Lemma last_mut_or ts ms (v : vers) : vts v = ts ->
    Forall (fun m => ~ hits key_of ts m (fst v)) ms \/ exists w, last_mut ts ms w /\ kcmp (fst w) (fst v) = Eq.
  Proof.
    intros HT. induction ms as [|m ms IH]; [left; constructor|]. destruct IH as [IH|(w & W1 & W2)].
    - destruct (mut_ver key_of ts m) as [u|] eqn:EU.
      + assert (EH : hits key_of ts m = fun kt => kcmp (fst u) kt = Eq).
        { unfold mut_ver in EU. unfold hits. destruct (mut_key key_of m); inversion EU; subst. reflexivity. }
        destruct (kcmp (fst u) (fst v)) eqn:EK.
        * right. exists u. split; auto. apply last_mut_cons. right. split; auto.
          eapply Forall_impl; [|exact IH]. intros x Hx F. apply Hx. eapply hits_eq; eauto.
        * left. constructor; auto. rewrite EH. congruence.
        * left. constructor; auto. rewrite EH. congruence.
      + left. constructor; auto. unfold mut_ver in EU. unfold hits. destruct (mut_key key_of m); [discriminate|tauto].
    - right. exists w. split; auto. apply last_mut_cons. auto.
  Qed.

  (** Inserting versions some of which may be there already. *)
  Lemma insert_in V (M : list vers) ts ms v : osorted M -> keyed_apart V ->
    (forall v, In v M -> In v V) -> (forall v, last_mut ts ms v -> In v V) ->
    (In v (ins_muts key_of ms ts M) <-> In v M \/ last_mut ts ms v).
  Proof.
    intros HS HV HM HL. rewrite ins_muts_In by auto. split; [tauto|]. intros [H|H]; auto.
    destruct (N.eq_dec (vts v) ts) as [ET|NT].
    - destruct (last_mut_or ts ms v ET) as [HH|(w & W1 & W2)]; auto. left.
      assert (v = w) as ->; auto. apply kts_eq in W2 as [W2 W3].
      apply HV; auto. unfold same_key, vkey in *. korder.
    - right. split; auto. apply Forall_forall. intros m Hm F. apply NT. unfold hits in F.
      destruct (mut_key key_of m); [|destruct F]. apply kts_eq in F as [_ F]. symmetry. exact F.
  Qed.

  (** How the memtable side may move: nothing sealed, or something sealed. *)
  Definition moved (d d' : db K R) : Prop :=
    (d_imm d' = d_imm d /\ d_mrange d' = d_mrange d /\ d_iranges d' = d_iranges d) \/
    length (d_imm d) < length (d_imm d').
  Lemma moved_refl d : moved d d. Proof. left. auto. Qed.
  Lemma moved_trans a b c : moved a b -> moved b c -> moved a c.
  Proof.
    intros [(A1 & A2 & A3)|A] [(B1 & B2 & B3)|B].
    - left. repeat split; congruence.
    - right. now rewrite <- A1.
    - right. now rewrite B1.
    - right. lia.
  Qed.

  (** The state during replay. *)
  Record rst (V : list vers) (d : db K R) (M : list vers) (Is : list (list vers)) : Prop := {
    rs_rep : rep d M Is;
    rs_in : forall v, In v (M ++ concat Is) -> In v V;
    rs_new : M = [] -> d_mem d = mem_new (m_capacity (d_mem d));
    rs_rng : length (d_iranges d) = length (d_imm d)
  }.
  Definition grown (d d' : db K R) : Prop :=
    same_rest d d' /\ moved d d' /\ m_capacity (d_mem d') = m_capacity (d_mem d).
  Lemma grown_refl d : grown d d.
  Proof. split; [repeat split|split; [apply moved_refl|auto]]. Qed.
  Lemma grown_trans a b c : grown a b -> grown b c -> grown a c.
  Proof.
    intros ((A1 & A2 & A3) & A4 & A5) ((B1 & B2 & B3) & B4 & B5). split; [repeat split; congruence|].
    split; [eapply moved_trans; eauto|congruence].
  Qed.

  Lemma insert_replay V d M Is ts ms (try : mem K R -> insert_result K R) :
    keyed_apart V -> rst V d M Is ->
    (forall m A, mem_repr key_of m A ->
       match try m with
       | IOk m' => mem_repr key_of m' (ins_muts key_of ms ts A) /\ m_capacity m' = m_capacity m
       | IKeyErr _ => False
       | IExhausted => forall c, m = mem_new c -> c = 0
       end) ->
    (forall v, last_mut ts ms v -> In v V) ->
    (exists v, last_mut ts ms v) ->
    exists d' M' Is',
      apply_insert d (match try (d_mem d) with
                      | IOk m' => MOk m' None | IKeyErr m' => MKeyErr m'
                      | IExhausted => after_seal key_of (d_mem d) try end) = (d', true) /\
      rst V d' M' Is' /\ grown d d' /\
      (forall v, In v (M' ++ concat Is') <-> In v (M ++ concat Is) \/ last_mut ts ms v).
  Proof.
    intros HA HRS HT HL (v0 & Hv0). destruct HRS as [HR HV HNW HRG]. pose proof HR as [HM HI HG HS HD HN HC].
    assert (HMV : forall v, In v M -> In v V) by (intros v Hv; apply HV, in_or_app; auto).
    pose proof (HT _ _ HM) as H1. destruct (try (d_mem d)) as [m'|m'|] eqn:ET; [|contradiction|].
    - destruct H1 as [H1 H2].
      exists (set_mem d m'), (ins_muts key_of ms ts M), Is. split; [reflexivity|].
      assert (IN : forall v, In v (ins_muts key_of ms ts M) <-> In v M \/ last_mut ts ms v)
        by (intros v; eapply insert_in; eauto; apply HM).
      assert (EQ : forall v, In v (ins_muts key_of ms ts M ++ concat Is) <-> In v (M ++ concat Is) \/ last_mut ts ms v).
      { intros v. rewrite !in_app_iff, IN. tauto. }
      split; [|split; [|exact EQ]].
      + constructor; auto.
        * constructor; simpl; auto. now rewrite H2.
        * intros v Hv. apply EQ in Hv as [Hv|Hv]; auto.
        * intros F. exfalso. assert (X : In v0 (ins_muts key_of ms ts M)) by (apply IN; auto). rewrite F in X. destruct X.
      + split; [repeat split|split; [left; auto|exact H2]].
    - unfold after_seal. rewrite (seal_repr key_of _ _ HM). destruct M as [|a M].
      { exfalso. specialize (H1 _ (HNW eq_refl)). lia. }
      set (B := a :: M) in *.
      pose proof (HT _ _ (mem_new_repr key_of (m_capacity (d_mem d)))) as H2.
      destruct (try (mem_new (m_capacity (d_mem d)))) as [m'|m'|] eqn:ET2; [|contradiction|].
      + destruct H2 as [H2 H3].
        exists (add_immutable d m' (seg_of B)), (ins_muts key_of ms ts []), (Is ++ [B]).
        split; [reflexivity|].
        assert (IN : forall v, In v (ins_muts key_of ms ts []) <-> last_mut ts ms v).
        { intros v. rewrite no_hits_In; [simpl; tauto|constructor|intros w m []]. }
        assert (EQ : forall v, In v (ins_muts key_of ms ts [] ++ concat (Is ++ [B])) <-> In v (B ++ concat Is) \/ last_mut ts ms v).
        { intros v. rewrite concat_app, !in_app_iff, IN. simpl concat. rewrite app_nil_r. tauto. }
        split; [|split; [|exact EQ]].
        * constructor.
          -- constructor; simpl; auto.
             ++ now rewrite HI, map_app.
             ++ apply Forall_app. split; auto. constructor; auto. eapply good_of; eauto. discriminate.
             ++ rewrite H3. exact HC.
          -- intros v Hv. apply EQ in Hv as [Hv|Hv]; auto.
          -- intros F. exfalso. assert (X : In v0 (ins_muts key_of ms ts [])) by (apply IN; auto). rewrite F in X. destruct X.
          -- simpl. rewrite !app_length. simpl. lia.
        * split; [repeat split|split; [right; simpl; rewrite app_length; simpl; lia|exact H3]].
      + exfalso. specialize (H2 _ eq_refl). lia.
  Qed.

  Lemma seal_replay V dec d M Is : rst V d M Is ->
    exists d' M' Is', maybe_seal key_of dec d = (d', true) /\ rst V d' M' Is' /\ grown d d' /\
      (forall v, In v (M' ++ concat Is') <-> In v (M ++ concat Is)).
  Proof.
    intros HRS. pose proof HRS as [HR HV HNW HRG]. unfold maybe_seal. destruct dec.
    - pose proof HR as [HM HI HG HS HD HN HC]. unfold seal_now. rewrite (seal_repr key_of _ _ HM).
      destruct M as [|a M].
      + exists d, [], Is. split; auto. split; auto. split; [apply grown_refl|tauto].
      + set (B := a :: M) in *. exists (add_immutable d (mem_new (m_capacity (d_mem d))) (seg_of B)), [], (Is ++ [B]).
        assert (EQ : forall v, In v ([] ++ concat (Is ++ [B])) <-> In v (B ++ concat Is)).
        { intros v. rewrite concat_app. cbn [app concat]. rewrite app_nil_r, !in_app_iff. tauto. }
        split; auto. split; [|split; [|exact EQ]].
        * constructor.
          -- constructor; simpl; auto.
             ++ apply mem_new_repr.
             ++ now rewrite HI, map_app.
             ++ apply Forall_app. split; auto. constructor; auto. eapply good_of; eauto. discriminate.
          -- intros v Hv. apply EQ in Hv. auto.
          -- reflexivity.
          -- simpl. rewrite !app_length. simpl. lia.
        * split; [repeat split|split; [right; simpl; rewrite app_length; simpl; lia|reflexivity]].
    - exists d, M, Is. split; auto. split; auto. split; [apply grown_refl|tauto].
  Qed.

  Lemma keyed_muts p : pay_keyed p -> pay_muts p <> [] /\ Forall (fun m => mut_key key_of m <> None) (pay_muts p).
  Proof.
    destruct p as [rows c|ks c]; intros [H1 H2]; cbn [pay_muts].
    - split; [destruct rows; [congruence|discriminate]|]. apply Forall_map. exact H2.
    - destruct (dels_some ks H2) as (l & -> & E). rewrite E. split; [destruct l; [elim H1; reflexivity|discriminate]|].
      apply Forall_map, Forall_forall. intros k _. cbn. discriminate.
  Qed.

  Lemma apply_pay_spec V p ts d M Is decs : keyed_apart V -> rst V d M Is -> pay_ok V ts p ->
    exists d' M' Is' decs', apply_pay key_of p ts (d, decs) = Some (d', decs') /\ rst V d' M' Is' /\ grown d d' /\
      (forall v, In v (M' ++ concat Is') <-> In v (M ++ concat Is) \/ last_mut ts (pay_muts p) v).
  Proof.
    intros HA HRS (HK & HT & HV). destruct (keyed_muts p HK) as [HM0 HM1].
    pose proof (last_mut_exists key_of ts _ HM0 HM1) as HE.
    unfold apply_pay. destruct (match decs with [] => (false, []) | b :: r => (b, r) end) as [dec decs'].
    assert (P : exists d1 M1 Is1,
              match p with
              | LRows rows cts => match rows with [] => put_rows key_of [] ts d
                                  | _ => if (cts =? ts)%N then put_rows key_of rows ts d else (d, false) end
              | LDels ks cts => match ks with [] => put_deletes key_of [] ts d
                                | _ => if (cts =? ts)%N then put_deletes key_of ks ts d else (d, false) end
              end = (d1, true) /\ rst V d1 M1 Is1 /\ grown d d1 /\
              (forall v, In v (M1 ++ concat Is1) <-> In v (M ++ concat Is) \/ last_mut ts (pay_muts p) v)).
    { destruct p as [rows c|ks c]; cbn [pay_keyed pay_cts pay_muts] in *.
      - destruct HK as [K1 K2]. destruct rows as [|r0 rows0]; [congruence|]. set (rows := r0 :: rows0) in *.
        rewrite HT, N.eqb_refl.
        apply (insert_replay V d M Is ts (map Put rows)
           (fun m0 => try_insert_batch key_of m0 rows (repeat ts (length rows)))); auto.
        intros m A Hm. pose proof (try_insert_batch_repr key_of m rows ts A Hm) as H.
        rewrite ins_mut_rows. destruct (try_insert_batch _ _ _ _) as [m'|m'|] eqn:ET.
        + tauto.
        + destruct H as (_ & _ & H). apply Exists_exists in H as (r & H1 & H2). rewrite Forall_forall in K2. apply (K2 r H1 H2).
        + intros x ->. simpl in H. lia.
      - destruct HK as [K1 K2]. destruct ks as [|k0 ks0]; [congruence|]. set (ks := k0 :: ks0) in *.
        rewrite HT, N.eqb_refl. destruct (dels_some ks K2) as (l & EK & E). rewrite E in *. rewrite EK.
        apply (insert_replay V d M Is ts (map Del l)
           (fun m0 => try_insert_delete_batch m0 (map Some l) (repeat ts (length (map Some l))))); auto.
        intros m A Hm. pose proof (try_insert_delete_repr key_of m (map Some l) ts A Hm) as H.
        rewrite ins_mut_dels. destruct (try_insert_delete_batch _ _ _) as [m'|m'|] eqn:ET.
        + tauto.
        + destruct H as (_ & _ & H). apply Exists_exists in H as (r & H1 & ->).
          apply in_map_iff in H1 as (k & H1 & _). discriminate.
        + intros x ->. simpl in H. lia. }
    destruct P as (d1 & M1 & Is1 & E1 & R1 & G1 & Q1). rewrite E1. cbn [seq2].
    destruct (seal_replay V dec d1 M1 Is1 R1) as (d2 & M2 & Is2 & E2 & R2 & G2 & Q2). rewrite E2.
    exists d2, M2, Is2, decs'. split; auto. split; auto. split; [eapply grown_trans; eauto|].
    intros v. rewrite Q2. apply Q1.
  Qed.

  Lemma apply_all_spec V l : keyed_apart V -> (forall p ts, In (p, ts) l -> pay_ok V ts p) ->
    forall d M Is decs, rst V d M Is ->
    exists d' M' Is' decs', apply_all (apply_pay key_of) l (d, decs) = Some (d', decs') /\ rst V d' M' Is' /\ grown d d' /\
      (forall v, In v (M' ++ concat Is') <-> In v (M ++ concat Is) \/ exists p ts, In (p, ts) l /\ last_mut ts (pay_muts p) v).
  Proof.
    intros HA. induction l as [|[p ts] l IH]; intros HP d M Is decs HR.
    - exists d, M, Is, decs. split; auto. split; auto. split; [apply grown_refl|]. intros v. split; auto.
      intros [H|(p & ts & [] & _)]; auto.
    - destruct (apply_pay_spec V p ts d M Is decs HA HR) as (d1 & M1 & Is1 & decs1 & E1 & R1 & G1 & Q1); [apply HP; cbn; auto|].
      destruct (IH (fun q t H => HP q t (or_intror H)) d1 M1 Is1 decs1 R1) as (d2 & M2 & Is2 & decs2 & E2 & R2 & G2 & Q2).
      exists d2, M2, Is2, decs2. split; [cbn [apply_all fst snd]; rewrite E1; exact E2|]. split; auto. split; [eapply grown_trans; eauto|].
      intros v. rewrite Q2, Q1. split.
      + intros [[H|H]|(q & t & H1 & H2)]; auto; right; [exists p, ts|exists q, t]; cbn; auto.
      + intros [H|(q & t & [H1|H1] & H2)]; auto; [inversion H1; subst; auto|]. right. exists q, t. auto.
  Qed.

  (** *** The recovered database *)
  Lemma recover_spec V cap levels nid floor hint decs (l : list (rec K R)) :
    keyed_apart V -> 1 <= cap ->
    Forall (tok key_of) (concat levels) -> Forall (fun t => (t_id t < nid)%N) (concat levels) ->
    NoDup (map (@t_id K R) (concat levels)) ->
    (forall p ts, applied l p ts -> pay_ok V ts p) ->
    exists d M Is, recover_db key_of cap levels nid floor hint decs l = Some d /\ rep d M Is /\
      d_levels d = levels /\ d_next_id d = nid /\ m_capacity (d_mem d) = cap /\
      d_clock d = match (match newest (gtimes [] l) with Some t => Some t | None => hint end) with Some t => sat1 t | None => 0%N end /\
      length (d_iranges d) = length (d_imm d) /\
      (d_imm d = [] -> d_mrange d = match l with [] => None | _ => match floor with Some f => Some (r_first f, r_last f) | None => Some (1, 1)%N end end) /\
      (forall v, In v (M ++ concat Is) <-> exists p ts, applied l p ts /\ last_mut ts (pay_muts p) v).
  Proof.
    intros HA HC H1 H2 H3 HP. unfold recover_db.
    set (rng := match l with [] => None | _ => match floor with Some f => Some (r_first f, r_last f) | None => Some (1, 1)%N end end).
    set (d0 := mkDb (mem_new cap) [] rng [] levels 0 nid).
    assert (R0 : rst V d0 [] []).
    { constructor; auto; [|intros v []]. constructor; cbn; auto. apply mem_new_repr. }
    destruct (apply_all_spec V (gcom [] l) HA (fun p ts H => HP p ts (proj1 (gcom_In l p ts) H)) d0 [] [] decs R0)
      as (d & M & Is & decs' & E & RR & ((G1 & G2 & G3) & G4 & G5) & Q).
    rewrite replay_all, E. eexists _, M, Is. split; [reflexivity|]. cbn [d_mem d_imm d_mrange d_iranges d_levels d_clock d_next_id].
    split; [|split; [auto|split; [auto|split; [auto|split; [reflexivity|split; [apply (rs_rng _ _ _ _ RR)|split]]]]]].
    - eapply rep_same; [apply (rs_rep _ _ _ _ RR)|reflexivity..].
    - intros EI. destruct G4 as [(_ & G4 & _)|G4]; [exact G4|]. rewrite EI in G4. cbn in G4. lia.
    - intros v. rewrite Q. split.
      + intros [[]|(p & ts & Hp & Hv)]. exists p, ts. split; auto. now apply gcom_In.
      + intros (p & ts & Hp & Hv). right. exists p, ts. split; auto. now apply gcom_In.
  Qed.
End RecoverDb.
