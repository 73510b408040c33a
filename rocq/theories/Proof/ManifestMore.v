(** A publish that is not disturbed succeeds; the WAL floor; concrete runs of the manifest. *)
From Coq Require Import List NArith Bool Lia Sorted Permutation.
From Verif Require Import Base.Order Model.SsTable Model.Version Model.WalWriter Model.Sessions Model.Manifest
     Spec.ManifestSpec Proof.SstFacts Proof.SessionFacts Proof.ManifestFacts.
Import ListNotations.
Local Open Scope N_scope.

Lemma wr_cmp_seq a b : wr_cmp a b <> Gt -> wr_seq a <= wr_seq b.
Proof. unfold wr_cmp. destruct (N.compare_spec (wr_seq a) (wr_seq b)); intros; [lia|lia|congruence]. Qed.

Section ManifestMore.
  Context {E : Type}.
  Variable eid : E -> N.
  Notation vval := (vval E).
  Notation get := (kget (Val := vval) vkey_eqb).
  Notation mstep := (mstep vkey_eqb (vexec eid)).
  Notation mrun := (mrun vkey_eqb (vexec eid)).

  Lemma same_txn_refl x : same_txn x x = true.
  Proof. destruct x; cbn; auto. apply N.eqb_refl. Qed.
  Lemma c26_succeeds es c t eds x v v' : N.of_nat (length es) < top -> let s := mrun mstart es in
    latest s t v -> eds <> [] -> (x = None \/ x = Some (option_map (@v_ts E) v)) ->
    apply_edits eid (match v with Some u => u | None => vstate_empty end) eds = Some v' ->
    let s1 := fst (mstep s (EOpen c (RPublish t eds x))) in
    snd (mstep s (EOpen c (RPublish t eds x))) = None /\
    published (snd (mstep s1 (ECommit c))) t eds x (match v with Some u => v_ts u + 1 | None => 1 end).
  Proof.
    intros HB s (h & HL & HT) HE HX HA. destruct (vinv_run eid es) as [HI HN]; [unfold top in *; lia|]. fold s in HI, HN.
    unfold snapshot_latest, get_head in HL. destruct (get (KHead t) (m_kv s)) as [[h0| |]|] eqn:EH; try discriminate.
    assert (G : exists ws, publish eid t eds x (m_kv s) = Staged ws (MOk (Some (match v with Some u => v_ts u + 1 | None => 1 end)))).
    { unfold publish, get_head. destruct eds as [|e0 eds0]; [congruence|]. rewrite EH.
      assert (h0 = h) by (destruct (h_txn h0) as [ts|]; [destruct (get_ver t ts (m_kv s)); inversion HL|inversion HL]; auto). subst h0.
      assert (EX : match x with Some y => negb (same_txn (h_txn h) y) | None => false end = false).
      { destruct HX as [->| ->]; auto. rewrite HT, same_txn_refl. reflexivity. }
      rewrite EX.
      assert (EB : base_version t h (m_kv s) = MOk (match v with Some u => u | None => vstate_empty end)).
      { unfold base_version. destruct (h_txn h) as [ts|] eqn:ET.
        - destruct v as [u|]; [|discriminate]. unfold get_ver in *. destruct (get (KVer t ts) (m_kv s)) as [[| |]|]; inversion HL; auto.
        - destruct v; [discriminate|auto]. }
      rewrite EB, HA. eexists. f_equal. do 2 f_equal. pose proof (apply_edits_ts _ _ _ _ HA) as E1.
      assert (E2 : (match v with Some u => v_ts u | None => 0 end) <= m_tag s).
      { destruct v as [u|]; [|lia]. destruct (h_txn h) as [ts|] eqn:ET; [|discriminate]. cbn in HT. unfold get_ver in HL. destruct (get (KVer t ts) (m_kv s)) as [y|] eqn:EV; [|discriminate].
        destruct (vi_ver _ _ HI _ _ _ EV) as (u' & h' & last & -> & Q1 & Q2 & _). inversion HL; subst. lia. }
      unfold sat1. rewrite E1. unfold top in HB. destruct v as [u|]; cbn [v_ts vstate_empty] in *; lia. }
    destruct G as (ws & G). cbn [Sessions.mstep vexec]. rewrite G. cbn [fst snd]. split; auto.
    unfold find_open. cbn [Sessions.mstep m_open m_tag m_kv find fst snd]. rewrite N.eqb_refl. cbn [s_tag]. rewrite N.eqb_refl. reflexivity.
  Qed.

  (** Every stored version lists its WAL segments in order. *)
  Definition wal_sorted (v : vstate E) : Prop := StronglySorted (fun a b => wr_cmp a b <> Gt) (v_wal v).
  Lemma apply_edits_sorted es (v v' : vstate E) : apply_edits eid v es = Some v' -> wal_sorted v'.
  Proof.
    unfold apply_edits. destruct (apply_each eid v es) as [u|]; [|discriminate]. intros H. inversion H. unfold wal_sorted, normalise. cbn [v_wal].
    destruct (v_wal u) as [|a r] eqn:EW; cbn [v_wal]; [constructor|]. rewrite <- EW. apply sort_by_sorted.
    - intros p q. unfold wr_le. destruct (wr_cmp p q); congruence.
    - intros p q. unfold wr_le. destruct (wr_cmp p q) eqn:EC; try discriminate. intros _.
      assert (wr_cmp q p = CompOpp (wr_cmp p q)) as ->; [|rewrite EC; discriminate].
      unfold wr_cmp. rewrite (N.compare_antisym (wr_seq p)), (N.compare_antisym (wr_first p)), (N.compare_antisym (wr_last p)), (N.compare_antisym (wr_file p)).
      destruct (N.compare (wr_seq p)), (N.compare (wr_first p)), (N.compare (wr_last p)), (N.compare (wr_file p)); reflexivity.
    - intros p q w. unfold wr_cmp.
      destruct (N.compare_spec (wr_seq p) (wr_seq q)), (N.compare_spec (wr_seq q) (wr_seq w)), (N.compare_spec (wr_seq p) (wr_seq w)); try lia; try congruence; intros;
      destruct (N.compare_spec (wr_first p) (wr_first q)), (N.compare_spec (wr_first q) (wr_first w)), (N.compare_spec (wr_first p) (wr_first w)); try lia; try congruence;
      destruct (N.compare_spec (wr_last p) (wr_last q)), (N.compare_spec (wr_last q) (wr_last w)), (N.compare_spec (wr_last p) (wr_last w)); try lia; try congruence;
      destruct (N.compare_spec (wr_file p) (wr_file q)), (N.compare_spec (wr_file q) (wr_file w)), (N.compare_spec (wr_file p) (wr_file w)); try lia; try congruence.
  Qed.
  Lemma sorted_run es : N.of_nat (length es) <= top -> forall t ts v, get (KVer t ts) (m_kv (mrun mstart es)) = Some (VVer v) -> wal_sorted v.
  Proof.
    intros HB.
    destruct (store_inv vkey_eqb (vexec eid) (fun kv n => vinv kv n /\ forall t ts v, get (KVer t ts) kv = Some (VVer v) -> wal_sorted v) top) with (es := es) as [[_ A] _]; auto.
    - split; [apply vinv_nil|discriminate].
    - intros q ws r kv n HN (HI & HS) HX. split; [eapply vinv_step; eauto|]. intros t ts v. destruct q as [t' eds x|t' sv]; cbn [vexec] in HX.
      + destruct (publish_inv eid _ _ _ _ _ _ _ HI HN HX) as (h & base & u & _ & _ & _ & _ & EA & -> & _). rewrite get_writes. cbn.
        destruct (N.eqb t' t && N.eqb (v_ts base + 1) ts); [|apply HS]. intros H. inversion H; subst. exact (apply_edits_sorted _ _ _ EA).
      + unfold init_head in HX. destruct (get (KHead t') kv); inversion HX; subst. unfold kapply. cbn [fold_left]. rewrite (kget_write vkey_eqb vkey_eqb_iff). cbn. apply HS.
  Qed.
  Lemma c49_smallest es t v : N.of_nat (length es) < top -> let s := mrun mstart es in latest s t v ->
    exists fl, wal_floor t (m_kv s) = MOk fl /\
      match v with
      | None => fl = None
      | Some u => match fl with
                  | None => v_wal u = []
                  | Some r => In r (v_wal u) /\ forall r', In r' (v_wal u) -> wr_seq r <= wr_seq r'
                  end
      end.
  Proof.
    intros HB s HL. exists (match v with Some u => hd_error (v_wal u) | None => None end). split; [now apply c49_floor|].
    destruct v as [u|]; auto. destruct HL as (h & HL & HT). unfold snapshot_latest in HL. destruct (get_head t (m_kv s)) as [[h0|]|]; try discriminate.
    destruct (h_txn h0) as [ts|]; [|discriminate]. unfold get_ver in HL. destruct (get (KVer t ts) (m_kv s)) as [[|u'|]|] eqn:EV; inversion HL; subst.
    assert (SS : wal_sorted u) by (eapply sorted_run; [|exact EV]; lia). unfold wal_sorted in SS. destruct (v_wal u) as [|a r]; cbn; auto. split; auto.
    inversion SS; subst. intros r' [<-|H]; [lia|]. rewrite Forall_forall in H2. apply wr_cmp_seq. auto.
  Qed.
End ManifestMore.

(** *** Runs *)
(** A table with two publishers on the same head; SST entries are their ids. *)
Definition two_publishers : list (event (vreq N)) :=
  [EOpen 1 (RInit 7 1); ECommit 1;
   EOpen 1 (RPublish 7 [AddSsts 0 [10; 11]; SetWal [mkWR 4 0 0 9; mkWR 2 0 0 5]] (Some None)); ECommit 1;
   EOpen 1 (RPublish 7 [RemoveSsts 0 [10]] (Some (Some 1)));
   EOpen 2 (RPublish 7 [AddSsts 1 [12]; SetWal [mkWR 4 0 0 9]] (Some (Some 1)));
   ECommit 2].
Notation vrun := (mrun vkey_eqb (vexec (fun x : N => x))).
Notation vstep := (mstep vkey_eqb (vexec (fun x : N => x))).
Definition demo_v1 : vstate N := mkVer 1 [[10; 11]] [mkWR 2 0 0 5; mkWR 4 0 0 9] (Some (mkWR 2 0 0 5)) None.
Definition demo_v2 : vstate N := mkVer 2 [[10; 11]; [12]] [mkWR 4 0 0 9] (Some (mkWR 4 0 0 9)) None.
Lemma demo_publishers :
  snd (vstep (vrun mstart (removelast two_publishers)) (ECommit 2)) = Some (RPublish 7 [AddSsts 1 [12]; SetWal [mkWR 4 0 0 9]] (Some (Some 1)), Returned (MOk (Some 2))) /\
  snd (vstep (vrun mstart two_publishers) (ECommit 1)) = Some (RPublish 7 [RemoveSsts 0 [10]] (Some (Some 1)), Precondition) /\
  snd (vstep (vrun mstart two_publishers) (EOpen 3 (RPublish 7 [RemoveSsts 0 [10]] (Some (Some 1))))) = Some (RPublish 7 [RemoveSsts 0 [10]] (Some (Some 1)), Returned (MErr ECas)) /\
  list_versions 7 0 (m_kv (vrun mstart two_publishers)) = MOk [demo_v2; demo_v1] /\
  list_versions 7 1 (m_kv (vrun mstart two_publishers)) = MOk [demo_v2] /\
  snapshot_at_version 7 1 (m_kv (vrun mstart two_publishers)) = MOk (mkHead 1 (Some (mkWR 4 0 0 9)) (Some 2), Some demo_v1) /\
  snapshot_latest 7 (m_kv (vrun mstart two_publishers)) = MOk (mkHead 1 (Some (mkWR 4 0 0 9)) (Some 2), Some demo_v2) /\
  wal_floor 7 (m_kv (vrun mstart two_publishers)) = MOk (Some (mkWR 4 0 0 9)).
Proof. vm_compute. repeat split. Qed.

(** Registrations; names, schemas and columns are numbers. *)
Definition two_registrations : list (event (creq N)) :=
  [EOpen 1 RRoot; ECommit 1;
   EOpen 1 (RRegister 100 (mkDef 1 5 [0; 2] None 1)); EOpen 2 (RRegister 101 (mkDef 1 5 [0; 2] None 1));
   ECommit 2; ECommit 1;
   EOpen 1 (RRegister 102 (mkDef 2 5 [0] (Some (mkRet 3 10)) 1)); ECommit 1].
Notation crun := (mrun ckey_eqb (cexec N.eqb)).
Notation cstep := (mstep ckey_eqb (cexec N.eqb)).
Definition demo_table : tmeta N := mkMeta 101 1 5 [0; 2] None 1.
Lemma demo_registrations :
  drawn two_registrations = [100; 101; 102] /\
  table_meta 101 (m_kv (crun mstart two_registrations)) = MOk demo_table /\
  table_meta 100 (m_kv (crun mstart two_registrations)) = MErr EInvariant /\
  table_meta 102 (m_kv (crun mstart two_registrations)) = MOk (mkMeta 102 2 5 [0] (Some (mkRet 3 10)) 1) /\
  snd (cstep (crun mstart two_registrations) (EOpen 3 (RRegister 103 (mkDef 1 5 [0; 2] None 1)))) =
    Some (RRegister 103 (mkDef 1 5 [0; 2] None 1), Returned (MOk (Some demo_table))) /\
  snd (cstep (crun mstart two_registrations) (EOpen 3 (RRegister 103 (mkDef 1 5 [2; 0] None 1)))) =
    Some (RRegister 103 (mkDef 1 5 [2; 0] None 1), Returned (MErr ECatalog)).
Proof. vm_compute. repeat split. Qed.
