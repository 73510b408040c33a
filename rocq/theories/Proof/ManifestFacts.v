(** Facts about the version manifest. *)
From Coq Require Import List NArith Bool Lia Sorted Permutation.
From Verif Require Import Base.Order Model.SsTable Model.Version Model.WalWriter Model.Sessions Model.Manifest
     Spec.ManifestSpec Proof.SstFacts Proof.SessionFacts.
Import ListNotations.
Local Open Scope N_scope.

Lemma vkey_eqb_iff a b : vkey_eqb a b = true <-> a = b.
Proof.
  destruct a, b; cbn; rewrite ?andb_true_iff, ?N.eqb_eq; split; intros H; try discriminate; try congruence.
  - destruct H; congruence.
  - inversion H; auto.
Qed.

Section ManifestFacts.
  Context {E : Type}.
  Variable eid : E -> N.
  Notation vval := (vval E).
  Notation vstore := (store vkey vval).
  Notation get := (kget (Val := vval) vkey_eqb).
  Notation vms := (mstore vkey vval (vreq E) (mres (option N))).
  Notation mstep := (mstep vkey_eqb (vexec eid)).
  Notation mrun := (mrun vkey_eqb (vexec eid)).
  Definition top : N := 2 ^ 64 - 1.

  Lemma apply_each_ts es (v v' : vstate E) : apply_each eid v es = Some v' -> v_ts v' = v_ts v.
  Proof.
    revert v. induction es as [|e es IH]; cbn; intros v H; [congruence|]. destruct (apply_edit eid v e) as [u|] eqn:EE; [|discriminate].
    rewrite (IH _ H). destruct e; cbn in EE; try (inversion EE; reflexivity). destruct (remove_ssts _ _ _ _); inversion EE; reflexivity.
  Qed.
  Lemma apply_edits_ts es (v v' : vstate E) : apply_edits eid v es = Some v' -> v_ts v' = v_ts v.
  Proof.
    unfold apply_edits. destruct (apply_each eid v es) as [u|] eqn:EE; [|discriminate]. intros H. inversion H. rewrite <- (apply_each_ts _ _ _ EE).
    unfold normalise. cbn. destruct (v_wal u); reflexivity.
  Qed.
  Lemma apply_edits_floor es (v v' : vstate E) : apply_edits eid v es = Some v' -> v_floor v' = hd_error (v_wal v').
  Proof.
    unfold apply_edits. destruct (apply_each eid v es) as [u|] eqn:EE; [|discriminate]. intros H. inversion H.
    unfold normalise. cbn. destruct (v_wal u); reflexivity.
  Qed.

  Record vinv (kv : vstore) (n : N) : Prop := {
    vi_keys : NoDup (map fst kv);
    vi_head : forall t x, get (KHead t) kv = Some x -> exists h, x = VHead h;
    vi_ver : forall t ts x, get (KVer t ts) kv = Some x ->
      exists v h last, x = VVer v /\ v_ts v = ts /\ 1 <= ts <= n /\ get (KHead t) kv = Some (VHead h) /\ h_txn h = Some last /\ ts <= last;
    vi_last : forall t h, get (KHead t) kv = Some (VHead h) ->
      match h_txn h with
      | None => h_floor h = None /\ get (KFloor t) kv = None
      | Some ts => exists v, get (KVer t ts) kv = Some (VVer v) /\ v_floor v = hd_error (v_wal v) /\ h_floor h = v_floor v /\ get (KFloor t) kv = option_map VFloor (v_floor v)
      end;
    vi_floor : forall t, get (KHead t) kv = None -> get (KFloor t) kv = None
  }.

  Lemma vinv_nil : vinv [] 0.
  Proof. constructor; cbn; try discriminate; auto. constructor. Qed.

  Definition base_of (kv : vstore) (t : N) (h : thead) (v : vstate E) : Prop :=
    match h_txn h with None => v = vstate_empty | Some ts => get (KVer t ts) kv = Some (VVer v) end.
  Definition writes_of (t : N) (h : thead) (v : vstate E) (next : N) : list (vkey * option vval) :=
    [(KVer t next, Some (VVer (set_ts next v))); (KHead t, Some (VHead (mkHead (h_schema h) (v_floor v) (Some next)))); (KFloor t, option_map VFloor (v_floor v))].

  Lemma publish_inv kv n t es x ws r : vinv kv n -> n < top -> publish eid t es x kv = Staged ws r ->
    exists h base v, es <> [] /\ get (KHead t) kv = Some (VHead h) /\ (forall y, x = Some y -> h_txn h = y) /\ base_of kv t h base /\
      apply_edits eid base es = Some v /\ ws = writes_of t h v (v_ts base + 1) /\ r = MOk (Some (v_ts base + 1)) /\
      v_ts base <= n /\ match h_txn h with None => v_ts base = 0 | Some ts => v_ts base = ts end.
  Proof.
    intros HI HN. unfold publish. destruct es as [|e0 es0]; [discriminate|]. set (es := e0 :: es0). unfold get_head.
    destruct (get (KHead t) kv) as [x0|] eqn:EH; [|discriminate]. destruct (vi_head _ _ HI _ _ EH) as (h & ->).
    destruct (match x with Some y => negb (same_txn (h_txn h) y) | None => false end) eqn:EX; [discriminate|].
    destruct (base_version t h kv) as [base|er] eqn:EB; [|discriminate]. destruct (apply_edits eid base es) as [v|] eqn:EA; [|discriminate].
    intros H. inversion H; subst; clear H. exists h, base, v.
    assert (HB : base_of kv t h base /\ v_ts base <= n /\ match h_txn h with None => v_ts base = 0 | Some ts => v_ts base = ts end).
    { unfold base_version, base_of, get_ver in *. pose proof (vi_last _ _ HI _ _ EH) as HL. destruct (h_txn h) as [ts|].
      - destruct HL as (u & HU & _). rewrite HU in EB. inversion EB; subst. destruct (vi_ver _ _ HI _ _ _ HU) as (u' & h' & last & EU & ET & EN & _). inversion EU; subst. repeat split; auto. lia.
      - inversion EB; subst. repeat split; cbn; auto. lia. }
    destruct HB as (HB1 & HB2 & HB3). pose proof (apply_edits_ts _ _ _ EA) as ET.
    assert (ES : sat1 (v_ts v) = v_ts base + 1) by (unfold sat1; rewrite ET; unfold top in HN; lia).
    split; [discriminate|]. split; auto. split.
    { intros y ->. destruct (h_txn h) as [a|], y as [b|]; cbn in EX; try discriminate; auto. destruct (N.eqb_spec a b); [congruence|discriminate]. }
    repeat split; auto; rewrite ?ES; unfold writes_of; cbn; reflexivity.
  Qed.

  Lemma get_writes t h v next kv k : get k (kapply vkey_eqb (writes_of t h v next) kv) =
    if vkey_eqb (KVer t next) k then Some (VVer (set_ts next v))
    else if vkey_eqb (KHead t) k then Some (VHead (mkHead (h_schema h) (v_floor v) (Some next)))
    else if vkey_eqb (KFloor t) k then option_map VFloor (v_floor v) else get k kv.
  Proof.
    unfold writes_of, kapply. cbn [fold_left]. rewrite !(kget_write vkey_eqb vkey_eqb_iff). cbn [fst snd].
    destruct k as [t'|t' s'|t']; cbn; auto; destruct (N.eqb t t'); cbn; auto. 
  Qed.

  Lemma vinv_step q ws r kv n : n < top -> vinv kv n -> vexec eid q kv = Staged ws r -> vinv (kapply vkey_eqb ws kv) (n + 1).
  Proof.
    intros HN HI. destruct q as [t es x|t sv]; cbn [vexec].
    - intros HP. destruct (publish_inv _ _ _ _ _ _ _ HI HN HP) as (h & base & v & _ & EH & _ & HB & EA & -> & _ & HB2 & HB3).
      assert (HV : forall ts y, get (KVer t ts) kv = Some y -> ts <= v_ts base).
      { intros ts y HG. destruct (vi_ver _ _ HI _ _ _ HG) as (u & h' & last & _ & _ & _ & EH' & EL & HLE). rewrite EH in EH'. inversion EH'; subst h'. rewrite EL in HB3. lia. }
      constructor.
      + apply (kapply_keys _ vkey_eqb_iff). exact (vi_keys _ _ HI).
      + intros t' y. rewrite get_writes. cbn [vkey_eqb]. destruct (N.eqb t t'); [intros H; inversion H; eauto|]. apply (vi_head _ _ HI).
      + intros t' ts y. rewrite !get_writes. cbn. destruct (N.eqb_spec t t') as [<-|NE]; cbn.
        * destruct (N.eqb_spec (v_ts base + 1) ts) as [<-|NE].
          -- intros H. inversion H. eexists _, _, _. split; [reflexivity|]. cbn. repeat split; eauto; lia.
          -- intros H. destruct (vi_ver _ _ HI _ _ _ H) as (u & h' & last & -> & E1 & E2 & E3 & E4 & E5). eexists u, _, _. split; auto. split; auto. split; [lia|]. split; [reflexivity|]. cbn. split; eauto.
             pose proof (HV _ _ H). lia.
        * intros H. destruct (vi_ver _ _ HI _ _ _ H) as (u & h' & last & -> & E1 & E2 & E3 & E4 & E5). exists u, h', last. repeat split; auto; lia.
      + intros t' h'. rewrite get_writes. cbn [vkey_eqb]. destruct (N.eqb_spec t t') as [<-|NE].
        * intros H. inversion H; subst. cbn [h_txn]. exists (set_ts (v_ts base + 1) v). rewrite !get_writes. cbn [vkey_eqb]. rewrite !N.eqb_refl. cbn. repeat split. apply (apply_edits_floor _ _ _ EA).
        * intros H. pose proof (vi_last _ _ HI _ _ H) as HL. destruct (h_txn h') as [ts|].
          -- destruct HL as (u & E1 & E2 & E3 & E4). exists u. rewrite !get_writes. cbn [vkey_eqb]. apply N.eqb_neq in NE. rewrite NE. cbn. auto.
          -- rewrite get_writes. cbn [vkey_eqb]. apply N.eqb_neq in NE. rewrite NE. exact HL.
      + intros t'. rewrite !get_writes. cbn. destruct (N.eqb t t'); [discriminate|]. apply (vi_floor _ _ HI).
    - unfold init_head. destruct (get (KHead t) kv) eqn:EH; [discriminate|]. intros H. inversion H; subst; clear H.
      assert (GW : forall k, get k (kapply vkey_eqb [(KHead t, Some (VHead (mkHead sv None None)))] kv) = if vkey_eqb (KHead t) k then Some (VHead (mkHead sv None None)) else get k kv).
      { intros k. unfold kapply. cbn [fold_left]. rewrite (kget_write vkey_eqb vkey_eqb_iff). reflexivity. }
      constructor.
      + apply (kapply_keys _ vkey_eqb_iff). exact (vi_keys _ _ HI).
      + intros t' y. rewrite GW. cbn [vkey_eqb]. destruct (N.eqb t t'); [intros H; inversion H; eauto|]. apply (vi_head _ _ HI).
      + intros t' ts y. rewrite !GW. cbn [vkey_eqb]. intros H. destruct (vi_ver _ _ HI _ _ _ H) as (u & h' & last & -> & E1 & E2 & E3 & E4 & E5). destruct (N.eqb_spec t t') as [<-|NE]; [congruence|].
        exists u, h', last. repeat split; auto; lia.
      + intros t' h'. rewrite !GW. cbn [vkey_eqb]. destruct (N.eqb_spec t t') as [<-|NE].
        * intros H. inversion H; subst. cbn [h_txn h_floor]. split; auto. apply (vi_floor _ _ HI). auto.
        * intros H. pose proof (vi_last _ _ HI _ _ H) as HL. destruct (h_txn h') as [ts|].
          -- destruct HL as (u & E1 & E2 & E3 & E4). exists u. rewrite !GW. cbn [vkey_eqb]. auto.
          -- exact HL.
      + intros t'. rewrite !GW. cbn [vkey_eqb]. destruct (N.eqb t t'); [discriminate|]. apply (vi_floor _ _ HI).
  Qed.

  Lemma vinv_run es : N.of_nat (length es) <= top -> vinv (m_kv (mrun mstart es)) (m_tag (mrun mstart es)) /\ m_tag (mrun mstart es) <= N.of_nat (length es).
  Proof. intros HB. apply (store_inv vkey_eqb (vexec eid) vinv top); auto; [apply vinv_nil|]. intros. eapply vinv_step; eauto. Qed.

  (** *** Observations *)
  Lemma loads_iff (s : vms) n t ts v : vinv (m_kv s) n -> loads s t ts v <-> get (KVer t ts) (m_kv s) = Some (VVer v).
  Proof.
    intros HI. unfold loads, snapshot_at_version, get_head, get_ver. split.
    - intros (h & H). destruct (get (KHead t) (m_kv s)) as [[h'| |]|]; try discriminate. destruct (get (KVer t ts) (m_kv s)) as [[| |]|]; inversion H; subst; auto.
    - intros H. destruct (vi_ver _ _ HI _ _ _ H) as (u & h & last & E0 & E1 & E2 & E3 & E4 & E5). inversion E0; subst. rewrite E3, H. eauto.
  Qed.
  Lemma latest_some (s : vms) n t h : vinv (m_kv s) n -> get (KHead t) (m_kv s) = Some (VHead h) ->
    exists v, snapshot_latest t (m_kv s) = MOk (h, v) /\ h_txn h = option_map (@v_ts E) v /\
      match v with Some u => get (KVer t (v_ts u)) (m_kv s) = Some (VVer u) | None => True end.
  Proof.
    intros HI H. unfold snapshot_latest, get_head, get_ver. rewrite H. pose proof (vi_last _ _ HI _ _ H) as HL. destruct (h_txn h) as [ts|] eqn:ET.
    - destruct HL as (u & E1 & _). destruct (vi_ver _ _ HI _ _ _ E1) as (u' & h' & last & E0 & E2 & _). inversion E0; subst u'. rewrite E1. exists (Some u). cbn. rewrite E2. repeat split; auto.
    - exists None. auto.
  Qed.

  (** *** The theorems *)
  Section Run.
    Variable es : list (event (vreq E)).
    Hypothesis HB : N.of_nat (length es) < top.
    Let s := mrun mstart es.
    Variable e : event (vreq E).
    Let s' := fst (mstep s e).
    Let rep := snd (mstep s e).

    Lemma here : vinv (m_kv s) (m_tag s) /\ m_tag s < top.
    Proof. destruct (vinv_run es) as [A1 A2]; [now apply N.lt_le_incl|]. split; [exact A1|]. eapply N.le_lt_trans; [exact A2|exact HB]. Qed.
    Lemma next : vinv (m_kv s') (m_tag s').
    Proof.
      destruct (vinv_run (es ++ [e])) as [A1 _]; [rewrite app_length, Nat2N.inj_add; cbn [length]; lia|]. rewrite (mrun_app vkey_eqb (vexec eid)) in A1. exact A1.
    Qed.
    Lemma fresh : fresh_sessions (vexec eid) s.
    Proof. apply fresh_run, fresh_start. Qed.

    Lemma success t eds x ts : published rep t eds x ts ->
      exists h base v, get (KHead t) (m_kv s) = Some (VHead h) /\ (forall y, x = Some y -> h_txn h = y) /\ base_of (m_kv s) t h base /\
        apply_edits eid base eds = Some v /\ ts = v_ts base + 1 /\ m_kv s' = kapply vkey_eqb (writes_of t h v ts) (m_kv s) /\
        match h_txn h with None => v_ts base = 0 | Some u => v_ts base = u end.
    Proof.
      intros HP. destruct here as [HI HN]. unfold published in HP.
      destruct (step_cases vkey_eqb (vexec eid) s e fresh) as [(_ & _ & [F|[(q & F)|(q & r & F & G)]])|(c & q & ws & r & _ & F & G & K & _)]; fold rep in F; rewrite HP in F; inversion F; subst; clear F.
      - cbn [vexec] in G. unfold publish in G. destruct eds; [discriminate|]. destruct (get_head t (m_kv s)) as [[h|]|]; try discriminate.
        destruct (match x with Some y => negb (same_txn (h_txn h) y) | None => false end); [discriminate|]. destruct (base_version t h (m_kv s)); [|discriminate]. destruct (apply_edits eid a _); discriminate.
      - cbn [vexec] in G. destruct (publish_inv _ _ _ _ _ _ _ HI HN G) as (h & base & v & _ & E1 & E2 & E3 & E4 & E5 & E6 & _ & E7). inversion E6; subst. exists h, base, v. repeat split; auto.
    Qed.

    Lemma c25_publish t eds x ts : published rep t eds x ts ->
      (forall ts' v, loads s t ts' v -> ts' < ts) /\
      exists base v, latest s t base /\ apply_edits eid (match base with Some u => u | None => vstate_empty end) eds = Some v /\
        loads s' t ts (set_ts ts v) /\ latest s' t (Some (set_ts ts v)).
    Proof.
      intros HP. destruct (success _ _ _ _ HP) as (h & base & v & EH & _ & HBs & EA & -> & EK & ET). destruct here as [HI HN]. pose proof next as HI'. split.
      - intros ts' u HL. apply (loads_iff _ _ _ _ _ HI) in HL. destruct (vi_ver _ _ HI _ _ _ HL) as (u' & h' & last & _ & _ & _ & EH' & EL & HLE).
        rewrite EH in EH'. inversion EH'; subst h'. rewrite EL in ET. lia.
      - destruct (latest_some s _ t h HI EH) as (b & L1 & L2 & L3). exists b, v. split; [exists h; auto|].
        assert (EB : match b with Some u => u | None => vstate_empty end = base).
        { unfold base_of in HBs. destruct b as [u|]; cbn in L2; rewrite L2 in HBs; [congruence|auto]. }
        rewrite EB. split; auto.
        assert (GV : get (KVer t (v_ts base + 1)) (m_kv s') = Some (VVer (set_ts (v_ts base + 1) v))) by (rewrite EK, get_writes; cbn; now rewrite !N.eqb_refl).
        assert (GH : get (KHead t) (m_kv s') = Some (VHead (mkHead (h_schema h) (v_floor v) (Some (v_ts base + 1))))) by (rewrite EK, get_writes; cbn; now rewrite !N.eqb_refl).
        split; [apply (loads_iff _ _ _ _ _ HI'); auto|]. exists (mkHead (h_schema h) (v_floor v) (Some (v_ts base + 1))). split; auto.
        unfold snapshot_latest, get_head, get_ver. rewrite GH. cbn [h_txn]. now rewrite GV.
    Qed.

    Lemma c25_immutable t ts v : loads s t ts v -> loads s' t ts v.
    Proof.
      intros HL. destruct here as [HI HN]. apply (loads_iff _ _ _ _ _ next). apply (loads_iff _ _ _ _ _ HI) in HL.
      destruct (step_cases vkey_eqb (vexec eid) s e fresh) as [(F & _)|(c & q & ws & r & _ & F & G & K & _)].
      - unfold s'. now rewrite F.
      - unfold s'. rewrite K. destruct q as [t' es' x'|t' sv]; cbn [vexec] in G.
        + destruct (publish_inv _ _ _ _ _ _ _ HI HN G) as (h & base & u & _ & E1 & E2 & E3 & E4 & E5 & E6 & _ & E7). subst ws. rewrite get_writes. cbn.
          destruct (N.eqb_spec t' t) as [->|NE]; cbn; auto. destruct (N.eqb_spec (v_ts base + 1) ts) as [EQ|]; auto. exfalso.
          destruct (vi_ver _ _ HI _ _ _ HL) as (u' & h' & last & _ & _ & _ & EH' & EL & HLE). rewrite E1 in EH'. inversion EH'; subst h'. rewrite EL in E7. lia.
        + unfold init_head in G. destruct (get (KHead t') (m_kv s)); inversion G; subst. unfold kapply. cbn [fold_left]. rewrite (kget_write vkey_eqb vkey_eqb_iff). cbn. auto.
    Qed.
    Lemma c25_only_publish t ts v : loads s' t ts v -> loads s t ts v \/ exists eds x, published rep t eds x ts.
    Proof.
      intros HL. destruct here as [HI HN]. apply (loads_iff _ _ _ _ _ next) in HL.
      destruct (step_cases vkey_eqb (vexec eid) s e fresh) as [(F & _)|(c & q & ws & r & _ & F & G & K & _)].
      - left. unfold s' in HL. rewrite F in HL. apply (loads_iff _ _ _ _ _ HI). auto.
      - unfold s' in HL. rewrite K in HL. destruct q as [t' es' x'|t' sv]; cbn [vexec] in G.
        + destruct (publish_inv _ _ _ _ _ _ _ HI HN G) as (h & base & u & _ & E1 & E2 & E3 & E4 & E5 & E6 & _ & E7). subst ws r. rewrite get_writes in HL. cbn in HL.
          destruct (N.eqb_spec t' t) as [->|NE]; cbn in HL; [|left; now apply (loads_iff _ _ _ _ _ HI)]. destruct (N.eqb_spec (v_ts base + 1) ts) as [EQ|]; [|left; now apply (loads_iff _ _ _ _ _ HI)].
          right. exists es', x'. unfold published, rep. rewrite F. now rewrite EQ.
        + left. unfold init_head in G. destruct (get (KHead t') (m_kv s)); inversion G; subst. unfold kapply in HL. cbn [fold_left] in HL. rewrite (kget_write vkey_eqb vkey_eqb_iff) in HL. cbn in HL. now apply (loads_iff _ _ _ _ _ HI).
    Qed.

    Lemma c26_expected t eds x ts : published rep t eds (Some x) ts -> exists v, latest s t v /\ option_map (@v_ts E) v = x.
    Proof.
      intros HP. destruct (success _ _ _ _ HP) as (h & base & v & EH & EX & _). destruct here as [HI HN]. destruct (latest_some s _ t h HI EH) as (b & L1 & L2 & _).
      exists b. split; [exists h; auto|]. rewrite <- L2. apply EX. reflexivity.
    Qed.
    Lemma c26_failed : failed rep -> m_kv s' = m_kv s.
    Proof.
      intros (q & HF). destruct (step_cases vkey_eqb (vexec eid) s e fresh) as [(F & _)|(c & q' & ws & r & _ & F & G & _)]; auto. fold rep in F. rewrite F in HF. exfalso.
      destruct HF as [HF|(er & HF)]; inversion HF; subst. destruct here as [HI HN]. destruct q as [t' es' x'|t' sv]; cbn [vexec] in G.
      - destruct (publish_inv _ _ _ _ _ _ _ HI HN G) as (h & base & u & _ & E1 & E2 & E3 & E4 & E5 & E6 & _). discriminate.
      - unfold init_head in G. destruct (get (KHead t') (m_kv s)); inversion G.
    Qed.
    Lemma c26_until_commit : (forall c, e <> ECommit c) -> m_kv s' = m_kv s.
    Proof. intros HC. destruct (step_cases vkey_eqb (vexec eid) s e fresh) as [(F & _)|(c & q' & ws & r & -> & _)]; auto. now destruct (HC c). Qed.
  End Run.

  (** The newest version number of a table never decreases. *)
  Lemma latest_grows es1 es2 t h ts : N.of_nat (length (es1 ++ es2)) < top ->
    get (KHead t) (m_kv (mrun mstart es1)) = Some (VHead h) -> h_txn h = Some ts ->
    exists h' ts', get (KHead t) (m_kv (mrun mstart (es1 ++ es2))) = Some (VHead h') /\ h_txn h' = Some ts' /\ ts <= ts'.
  Proof.
    intros HB EH ET. pose proof (vinv_run es1) as [HI _]; [rewrite app_length, Nat2N.inj_add in HB; lia|].
    pose proof (vi_last _ _ HI _ _ EH) as HL. rewrite ET in HL. destruct HL as (v & HV & _).
    assert (HK : get (KVer t ts) (m_kv (mrun mstart (es1 ++ es2))) = Some (VVer v)).
    { revert HB. pattern es2. apply rev_ind; [now rewrite app_nil_r|]. clear es2. intros e es2 IH HB. rewrite app_assoc in *.
      rewrite app_length, Nat2N.inj_add in HB. cbn [length] in HB. assert (HB' : N.of_nat (length (es1 ++ es2)) < top) by lia.
      destruct (vinv_run (es1 ++ es2)) as [HI2 _]; [lia|]. rewrite (mrun_app vkey_eqb (vexec eid)). cbn [Sessions.mrun].
      pose proof (next (es1 ++ es2) HB' e) as HI3. eapply (loads_iff _ _ _ _ _ HI3). eapply (c25_immutable _ HB'). apply (loads_iff _ _ _ _ _ HI2). auto. }
    destruct (vinv_run (es1 ++ es2)) as [HI2 _]; [lia|]. destruct (vi_ver _ _ HI2 _ _ _ HK) as (u & h' & last & _ & _ & _ & E3 & E4 & E5). exists h', last. auto.
  Qed.
  Lemma c26_one_winner es1 e1 es2 e2 t eds1 eds2 x ts1 ts2 :
    N.of_nat (length (es1 ++ e1 :: es2)) < top ->
    published (snd (mstep (mrun mstart es1) e1)) t eds1 (Some x) ts1 ->
    published (snd (mstep (mrun mstart (es1 ++ e1 :: es2)) e2)) t eds2 (Some x) ts2 -> False.
  Proof.
    intros HB P1 P2. assert (HB1 : N.of_nat (length es1) < top) by (rewrite app_length, Nat2N.inj_add in HB; lia).
    destruct (success _ HB1 e1 _ _ _ _ P1) as (h & base & v & EH & EX & _ & _ & E1 & EK & ET). destruct (success _ HB e2 _ _ _ _ P2) as (h2 & _ & _ & EH2 & EX2 & _).
    assert (GH : get (KHead t) (m_kv (mrun mstart (es1 ++ [e1]))) = Some (VHead (mkHead (h_schema h) (v_floor v) (Some ts1)))).
    { rewrite (mrun_app vkey_eqb (vexec eid)). cbn [Sessions.mrun]. rewrite EK, get_writes. cbn. now rewrite !N.eqb_refl. }
    replace (es1 ++ e1 :: es2) with ((es1 ++ [e1]) ++ es2) in * by (rewrite <- app_assoc; reflexivity).
    destruct (latest_grows (es1 ++ [e1]) es2 t _ ts1 HB GH eq_refl) as (h' & ts' & A1 & A2 & A3). rewrite EH2 in A1. inversion A1; subst h'.
    rewrite (EX2 _ eq_refl) in A2. rewrite (EX _ eq_refl), A2 in ET. lia.
  Qed.

  (** *** Listing *)
  Lemma scan_In kv n t : vinv kv n -> exists l, scan_versions t kv = MOk l /\ NoDup (map (@v_ts E) l) /\ forall v, In v l <-> get (KVer t (v_ts v)) kv = Some (VVer v).
  Proof.
    intros HI. assert (G : forall kv', (forall e, In e kv' -> In e kv) -> NoDup (map fst kv') ->
      exists l, scan_versions t kv' = MOk l /\ NoDup (map (@v_ts E) l) /\ forall v, In v l <-> In (KVer t (v_ts v), VVer v) kv').
    { induction kv' as [|[k x] kv' IH]; intros HS ND.
      - exists []. cbn. split; auto. split; [constructor|tauto].
      - inversion ND as [|? ? ND1 ND2]; subst. destruct IH as (l & E1 & E2 & E3); auto; [intros e He; apply HS; cbn; auto|]. cbn [scan_versions fold_right fst snd].
        change (fold_right _ (MOk []) kv') with (scan_versions t kv'). rewrite E1.
        destruct k as [t'|t' ts|t']; [exists l|destruct (N.eqb_spec t' t) as [->|NE]|exists l]; cbn [In].
        + repeat split; auto; [intros H; right; now apply E3|intros [H|H]; [inversion H|now apply E3]].
        + assert (HX : get (KVer t ts) kv = Some x). { apply (In_kget _ vkey_eqb_iff); [apply (vi_keys _ _ HI)|]. apply HS. cbn. auto. }
          destruct (vi_ver _ _ HI _ _ _ HX) as (u & h' & last & -> & ET & _). exists (u :: l). split; auto. split.
          * cbn. constructor; auto. intros F. apply in_map_iff in F as (u' & EU & F). apply E3 in F. apply ND1. cbn. apply in_map_iff. exists (KVer t (v_ts u'), VVer u'). split; auto. cbn. congruence.
          * intros v. cbn. rewrite E3. split; intros [H|H]; auto; [subst; left; congruence|inversion H; auto].
        + exists l. repeat split; auto; [intros H; right; now apply E3|intros [H|H]; [inversion H; congruence|now apply E3]].
        + repeat split; auto; [intros H; right; now apply E3|intros [H|H]; [inversion H|now apply E3]]. }
    destruct (G kv) as (l & E1 & E2 & E3); auto; [apply (vi_keys _ _ HI)|]. exists l. split; auto. split; auto. intros v. rewrite E3. split; [apply (In_kget _ vkey_eqb_iff), (vi_keys _ _ HI)|apply (kget_In _ vkey_eqb_iff)].
  Qed.

  Lemma c25_listing es t : N.of_nat (length es) < top -> let s := mrun mstart es in
    exists l, list_versions t 0 (m_kv s) = MOk l /\ StronglySorted (fun a b => v_ts b < v_ts a) l /\
      (forall v, In v l <-> loads s t (v_ts v) v) /\ (forall ts v, loads s t ts v -> v_ts v = ts) /\
      forall n, (0 < n)%nat -> list_versions t n (m_kv s) = MOk (firstn n l).
  Proof.
    intros HB s. destruct (here es HB) as [HI _]. fold s in HI. destruct (scan_In _ _ t HI) as (l & E1 & E2 & E3). unfold list_versions. rewrite E1.
    exists (sort_by (fun a b => N.leb (v_ts b) (v_ts a)) l). split; auto.
    pose proof (sort_by_perm (fun a b : vstate E => N.leb (v_ts b) (v_ts a)) l) as PM. split; [|split; [|split]].
    - assert (SS : StronglySorted (fun a b : vstate E => v_ts b <= v_ts a) (sort_by (fun a b => N.leb (v_ts b) (v_ts a)) l)).
      { apply sort_by_sorted.
        - intros a b H. now apply N.leb_le.
        - intros a b H. apply N.leb_gt in H. lia.
        - intros a b c H1 H2. lia. }
      assert (ND : NoDup (map (@v_ts E) (sort_by (fun a b => N.leb (v_ts b) (v_ts a)) l))) by (eapply Permutation_NoDup; [apply Permutation_map, PM|exact E2]).
      clear PM. induction SS as [|a r SS IH HF]; [constructor|]. inversion ND; subst. constructor; [apply IH|]; auto. apply Forall_forall. intros b Hb. rewrite Forall_forall in HF. specialize (HF b Hb).
      assert (v_ts a <> v_ts b) by (intros EQ; apply H1; rewrite EQ; apply in_map, Hb). lia.
    - intros v. rewrite (loads_iff _ _ _ _ _ HI), <- E3. split; apply Permutation_in; auto. now apply Permutation_sym.
    - intros ts v HL. apply (loads_iff _ _ _ _ _ HI) in HL. destruct (vi_ver _ _ HI _ _ _ HL) as (u & _ & _ & EU & ET & _). inversion EU; subst. reflexivity.
    - intros n Hn. destruct n; [lia|reflexivity].
  Qed.

  (** *** The WAL floor *)
  Lemma c49_floor es t v : N.of_nat (length es) < top -> let s := mrun mstart es in latest s t v ->
    wal_floor t (m_kv s) = MOk (match v with Some u => hd_error (v_wal u) | None => None end).
  Proof.
    intros HB s (h & HL & ET). destruct (here es HB) as [HI _]. fold s in HI. unfold snapshot_latest, get_head in HL. destruct (get (KHead t) (m_kv s)) as [[h0| |]|] eqn:EH; try discriminate.
    pose proof (vi_last _ _ HI _ _ EH) as HV. unfold wal_floor, get_floor. destruct (h_txn h0) as [ts|] eqn:E0.
    - destruct HV as (u & E1 & E2 & E3 & E4). unfold get_ver in HL. rewrite E1 in HL. inversion HL; subst. rewrite E4, <- E2. destruct (v_floor u); reflexivity.
    - inversion HL; subst. destruct HV as [_ ->]. reflexivity.
  Qed.
End ManifestFacts.
