(** Facts about the table catalog. *)
From Coq Require Import List NArith Bool Lia.
From Verif Require Import Base.Order Model.SsTable Model.Version Model.WalWriter Model.Sessions Model.Manifest
     Spec.ManifestSpec Proof.SessionFacts.
Import ListNotations.
Local Open Scope N_scope.

Lemma ckey_eqb_iff a b : ckey_eqb a b = true <-> a = b.
Proof. destruct a, b; cbn; rewrite ?N.eqb_eq; split; intros H; try discriminate; congruence. Qed.

Section CatalogFacts.
  Context {S : Type}.
  Variable seqb : S -> S -> bool.
  Hypothesis seqb_iff : forall a b, seqb a b = true <-> a = b.
  Notation cval := (cval S).
  Notation cstore := (store ckey cval).
  Notation get := (kget (Val := cval) ckey_eqb).
  Notation cms := (mstore ckey cval (creq S) (mres (option (tmeta S)))).
  Notation exec := (cexec seqb).
  Notation mstep := (mstep ckey_eqb exec).
  Notation mrun := (mrun ckey_eqb exec).

  Record cinv (kv : cstore) : Prop := {
    ci_root : forall x, get CRoot kv = Some x -> exists c, x = CCat c;
    ci_meta : forall i x, get (CMeta i) kv = Some x -> exists m c, x = CTab m /\ tm_id m = i /\ get CRoot kv = Some (CCat c) /\ In (i, tm_name m) (c_tables c);
    ci_tab : forall c i n, get CRoot kv = Some (CCat c) -> In (i, n) (c_tables c) -> exists m, get (CMeta i) kv = Some (CTab m) /\ tm_name m = n;
    ci_names : forall c i j n, get CRoot kv = Some (CCat c) -> In (i, n) (c_tables c) -> In (j, n) (c_tables c) -> i = j
  }.
  Lemma cinv_nil : cinv [].
  Proof. constructor; cbn; try discriminate. Qed.

  Lemma tables_insert_In i (n : S) l e : In e (tables_insert i n l) -> e = (i, n) \/ In e l.
  Proof.
    induction l as [|[j m] l IH]; cbn; [intuition|]. destruct (N.compare i j); cbn; [intuition|intuition|]. intros [H|H]; auto. destruct (IH H); auto.
  Qed.
  Lemma tables_insert_new i (n : S) l : In (i, n) (tables_insert i n l).
  Proof. induction l as [|[j m] l IH]; cbn; auto. destruct (N.compare i j); cbn; auto. Qed.
  Lemma tables_insert_old i (n : S) l j m : In (j, m) l -> j <> i -> In (j, m) (tables_insert i n l).
  Proof.
    induction l as [|[j' m'] l IH]; cbn; [tauto|]. intros H NE. destruct (N.compare i j') eqn:EC; cbn; auto; destruct H as [H|H]; auto.
    apply N.compare_eq_iff in EC. inversion H; subst. tauto.
  Qed.
  Lemma find_table_some c n i : find_table seqb c n = Some i -> In (i, n) (c_tables c).
  Proof.
    unfold find_table. destruct (find _ (c_tables c)) as [[j m]|] eqn:EF; [|discriminate]. intros H. inversion H; subst. apply find_some in EF as [F1 F2]. cbn in F2. apply seqb_iff in F2. now subst.
  Qed.
  Lemma find_table_none c n i : find_table seqb c n = None -> ~ In (i, n) (c_tables c).
  Proof.
    unfold find_table. destruct (find _ (c_tables c)) as [[j m]|] eqn:EF; [discriminate|]. intros _ F. apply (find_none _ _ EF) in F. cbn in F.
    assert (seqb n n = true) by now apply seqb_iff. congruence.
  Qed.

  (** The catalog a registration reads. *)
  Definition root_of (kv : cstore) : catalog S := match get CRoot kv with Some (CCat c) => c | _ => mkCat [] 0 end.
  Lemma register_staged kv i d ws r : register seqb i d kv = Staged ws r ->
    exists m, m = mkMeta i (td_name d) (td_schema d) (td_pk d) (td_ret d) (td_version d) /\ find_table seqb (root_of kv) (td_name d) = None /\
      ws = [(CRoot, Some (CCat (mkCat (tables_insert i (td_name d) (c_tables (root_of kv))) (sat1 (c_ordinal (root_of kv)))))); (CMeta i, Some (CTab m))] /\ r = MOk (Some m).
  Proof.
    unfold register, root_of. destruct (get CRoot kv) as [[c|m]|]; [|discriminate|];
      (destruct (find_table seqb _ (td_name d)) as [j|] eqn:EF; [destruct (get (CMeta j) kv) as [[|m']|]; try discriminate; destruct (compat seqb m' d); discriminate|]);
      intros H; inversion H; eexists; repeat split; auto.
  Qed.

  (** The identifier a call would give to a new table. *)
  Definition id_of (q : creq S) : list N := match q with RRegister i _ => [i] | RRoot => [] end.
  Lemma cinv_step q ws r kv : cinv kv -> (forall i, In i (id_of q) -> get (CMeta i) kv = None) -> exec q kv = Staged ws r -> cinv (kapply ckey_eqb ws kv).
  Proof.
    intros HI HF. destruct q as [|i d]; cbn [cexec].
    - destruct (get CRoot kv) eqn:ER; [discriminate|]. intros H. inversion H; subst.
      assert (GW : forall k, get k (kapply ckey_eqb [(CRoot, Some (CCat (mkCat [] 0)))] kv) = if ckey_eqb CRoot k then Some (CCat (mkCat [] 0)) else get k kv).
      { intros k. unfold kapply. cbn [fold_left]. rewrite (kget_write ckey_eqb ckey_eqb_iff). reflexivity. }
      constructor; intros *; rewrite ?GW; cbn [ckey_eqb].
      + intros H0. inversion H0. eauto.
      + intros H0. destruct (ci_meta _ HI _ _ H0) as (m & c & _ & _ & E & _). congruence.
      + intros H0. inversion H0. cbn. tauto.
      + intros H0. inversion H0. cbn. tauto.
    - intros H. destruct (register_staged _ _ _ _ _ H) as (m & EM & EF & -> & _). specialize (HF i (or_introl eq_refl)).
      set (c' := mkCat _ _). assert (GW : forall k, get k (kapply ckey_eqb [(CRoot, Some (CCat c')); (CMeta i, Some (CTab m))] kv) =
        if ckey_eqb (CMeta i) k then Some (CTab m) else if ckey_eqb CRoot k then Some (CCat c') else get k kv).
      { intros k. unfold kapply. cbn [fold_left]. rewrite !(kget_write ckey_eqb ckey_eqb_iff). reflexivity. }
      assert (OLD : forall j n, In (j, n) (c_tables (root_of kv)) -> j <> i /\ exists m, get (CMeta j) kv = Some (CTab m) /\ tm_name m = n).
      { intros j n Hj. unfold root_of in Hj. destruct (get CRoot kv) as [[c|]|] eqn:ER; try (destruct Hj; fail).
        destruct (ci_tab _ HI c j n ER Hj) as (m0 & E1 & E2). split; [intros ->; congruence|eauto]. }
      constructor; intros *; rewrite ?GW; cbn [ckey_eqb].
      + intros H0. inversion H0. eauto.
      + destruct (N.eqb_spec i i0) as [<-|NE].
        * intros H0. inversion H0; subst x. exists m, c'. rewrite EM. cbn. repeat split. apply tables_insert_new.
        * intros H0. destruct (ci_meta _ HI _ _ H0) as (m0 & c & -> & E1 & E2 & E3). exists m0, c'. repeat split; auto. cbn. apply tables_insert_old; auto. unfold root_of. now rewrite E2.
      + intros H0 H1. inversion H0; subst c. cbn in H1. apply tables_insert_In in H1 as [H1|H1].
        * inversion H1; subst. exists (mkMeta i (td_name d) (td_schema d) (td_pk d) (td_ret d) (td_version d)). rewrite N.eqb_refl. auto.
        * destruct (OLD _ _ H1) as [NE (m0 & E1 & E2)]. exists m0. destruct (N.eqb_spec i i0); [congruence|]. auto.
      + intros H0. inversion H0; subst c. cbn. intros H1 H2. apply tables_insert_In in H1, H2. destruct H1 as [H1|H1], H2 as [H2|H2]; try congruence.
        * inversion H1; subst. destruct (find_table_none _ _ j EF H2).
        * inversion H2; subst. destruct (find_table_none _ _ i0 EF H1).
        * unfold root_of in H1, H2. destruct (get CRoot kv) as [[c|]|] eqn:ER; try (destruct H1; fail). eapply (ci_names _ HI); eauto.
  Qed.

  (** Identifiers in the store and in open sessions are distinct and were drawn. *)
  Definition open_ids (l : list (N * @session ckey cval (creq S) (mres (option (tmeta S))))) : list N := flat_map (fun e => id_of (s_req (snd e))) l.
  Record jinv (s : cms) (used : list N) : Prop := {
    ji_store : forall i, get (CMeta i) (m_kv s) <> None -> In i used;
    ji_open : forall i, In i (open_ids (m_open s)) -> In i used /\ get (CMeta i) (m_kv s) = None;
    ji_nodup : NoDup (open_ids (m_open s))
  }.
  Lemma NoDup_app_inv (a b : list N) : NoDup (a ++ b) -> NoDup a /\ NoDup b /\ forall x, In x a -> ~ In x b.
  Proof.
    induction a as [|x a IH]; cbn; intros H; [repeat split; auto; constructor|]. inversion H; subst. destruct (IH H3) as (A1 & A2 & A3). repeat split; auto.
    - constructor; auto. intros F. apply H2, in_or_app. auto.
    - intros y [->|Hy]; auto. intros F. apply H2, in_or_app. auto.
  Qed.
  Lemma close_ids c (l : list (N * @session ckey cval (creq S) (mres (option (tmeta S))))) i : In i (open_ids (close c l)) -> In i (open_ids l).
  Proof. unfold open_ids. rewrite !in_flat_map. intros (e & H1 & H2). exists e. split; auto. eapply close_In; eauto. Qed.
  Lemma close_nodup c (l : list (N * @session ckey cval (creq S) (mres (option (tmeta S))))) : NoDup (open_ids l) -> NoDup (open_ids (close c l)).
  Proof.
    unfold open_ids, close. induction l as [|e l IH]; cbn; auto. intros H. apply NoDup_app_inv in H as (H1 & H2 & H3). destruct (N.eqb (fst e) c); cbn; auto.
    destruct (id_of (s_req (snd e))) as [|i [|j r]] eqn:EI; cbn; auto; [|destruct (s_req (snd e)); discriminate].
    constructor; auto. intros F. apply (H3 i); cbn; auto. apply (close_ids c). exact F.
  Qed.
  Lemma closed_id c (s : cms) x i : NoDup (open_ids (m_open s)) -> find_open c s = Some x -> In i (id_of (s_req x)) -> ~ In i (open_ids (close c (m_open s))) /\ In i (open_ids (m_open s)).
  Proof.
    unfold find_open. intros ND. induction (m_open s) as [|[c' y] l IH]; cbn; [discriminate|]. cbn in ND. apply NoDup_app_inv in ND as (N1 & N2 & N3). destruct (N.eqb_spec c' c) as [->|NE]; cbn.
    - intros H. inversion H; subst. intros Hi. split; [|apply in_or_app; auto]. intros F. apply close_ids in F. apply (N3 i); auto.
    - intros H Hi. destruct (IH N2 H Hi) as [A1 A2]. split; [|apply in_or_app; auto]. intros F. apply in_app_or in F as [F|F]; [|tauto]. apply (N3 i F A2).
  Qed.

  Lemma stage_meta kv q ws r i : exec q kv = Staged ws r -> get (CMeta i) (kapply ckey_eqb ws kv) <> None -> get (CMeta i) kv <> None \/ In i (id_of q).
  Proof.
    destruct q as [|j d]; cbn [cexec].
    - destruct (get CRoot kv); [discriminate|]. intros H. inversion H; subst. unfold kapply. cbn [fold_left]. rewrite !(kget_write ckey_eqb ckey_eqb_iff). cbn. auto.
    - intros H. destruct (register_staged _ _ _ _ _ H) as (m & _ & _ & -> & _). unfold kapply. cbn [fold_left]. rewrite !(kget_write ckey_eqb ckey_eqb_iff). cbn. destruct (N.eqb_spec j i); auto.
  Qed.
  Definition drawn1 (e : event (creq S)) : list N := match e with EOpen _ (RRegister i _) => [i] | _ => [] end.

  Lemma cat_step s used e : fresh_sessions exec s -> cinv (m_kv s) -> jinv s used -> (forall i, In i (drawn1 e) -> ~ In i used) ->
    cinv (m_kv (fst (mstep s e))) /\ jinv (fst (mstep s e)) (used ++ drawn1 e).
  Proof.
    intros HF HC HJ HD. destruct e as [c q|c|c]; cbn [Sessions.mstep fst].
    - destruct (exec q (m_kv s)) as [r|ws r] eqn:EX; cbn [fst m_kv].
      + split; auto. destruct HJ as [J1 J2 J3]. constructor; cbn [m_kv m_open].
        * intros i Hi. apply in_or_app. auto.
        * intros i Hi. apply close_ids in Hi. destruct (J2 i Hi). split; auto. apply in_or_app. auto.
        * now apply close_nodup.
      + split; auto. destruct HJ as [J1 J2 J3]. constructor; cbn [m_kv m_open].
        * intros i Hi. apply in_or_app. auto.
        * intros i Hi. cbn in Hi. apply in_app_or in Hi as [Hi|Hi].
          -- destruct q as [|j d]; cbn in Hi; [tauto|]. destruct Hi as [<-|[]]. cbn. split; [apply in_or_app; cbn; auto|].
             destruct (get (CMeta j) (m_kv s)) eqn:EG; auto. exfalso. apply (HD j); [cbn; auto|]. apply J1. congruence.
          -- apply close_ids in Hi. destruct (J2 i Hi). split; auto. apply in_or_app. auto.
        * cbn. destruct q as [|j d]; cbn; [now apply close_nodup|]. constructor; [|now apply close_nodup]. intros F. apply close_ids in F. destruct (J2 _ F) as [F1 _]. apply (HD j); cbn; auto.
    - cbn [drawn1]. rewrite app_nil_r. destruct (find_open c s) as [x|] eqn:EF; cbn [fst]; auto. destruct HJ as [J1 J2 J3]. destruct (N.eqb (s_tag x) (m_tag s)) eqn:ET; cbn [fst m_kv].
      + destruct (find_open_In _ _ _ EF) as (c' & HX). destruct (HF _ _ HX) as [_ HE]. apply N.eqb_eq in ET. specialize (HE ET).
        assert (HN : forall i, In i (id_of (s_req x)) -> get (CMeta i) (m_kv s) = None). { intros i Hi. destruct (closed_id _ _ _ _ J3 EF Hi) as [_ A]. apply (J2 i A). }
        split; [eapply cinv_step; eauto|]. constructor; cbn [m_kv m_open].
        * intros i Hi. destruct (stage_meta _ _ _ _ _ HE Hi) as [A|A]; auto. destruct (closed_id _ _ _ _ J3 EF A) as [_ B]. apply (J2 i B).
        * intros i Hi. assert (Hi' := Hi). apply close_ids in Hi'. destruct (J2 i Hi') as [A1 A2]. split; auto. destruct (get (CMeta i) (kapply ckey_eqb (s_writes x) (m_kv s))) eqn:EG; auto. exfalso.
          destruct (stage_meta _ _ _ _ i HE) as [B|B]; [congruence|congruence|]. destruct (closed_id _ _ _ _ J3 EF B) as [B1 _]. tauto.
        * now apply close_nodup.
      + split; auto. constructor; cbn [m_kv m_open]; auto; [|now apply close_nodup]. intros i Hi. apply close_ids in Hi. auto.
    - cbn [drawn1]. rewrite app_nil_r. split; auto. destruct HJ as [J1 J2 J3]. constructor; cbn [m_kv m_open]; auto; [|now apply close_nodup]. intros i Hi. apply close_ids in Hi. auto.
  Qed.
  Lemma drawn_app a b : drawn (S := S) (a ++ b) = drawn a ++ drawn b.
  Proof. unfold drawn. apply flat_map_app. Qed.
  Lemma cat_run es : NoDup (drawn es) -> cinv (m_kv (mrun mstart es)) /\ jinv (mrun mstart es) (drawn es) /\ fresh_sessions exec (mrun mstart es).
  Proof.
    pattern es. apply rev_ind.
    - intros _. cbn. split; [apply cinv_nil|]. split; [|apply fresh_start]. constructor; cbn; [tauto|tauto|constructor].
    - clear es. intros e es IH HD. rewrite drawn_app in HD. destruct (NoDup_app_inv _ _ HD) as (D1 & D2 & D3). destruct (IH D1) as (I1 & I2 & I3).
      rewrite (mrun_app ckey_eqb exec). cbn [Sessions.mrun]. rewrite drawn_app. replace (drawn [e]) with (drawn1 e) in * by (cbn; now rewrite app_nil_r).
      destruct (cat_step _ _ e I3 I1 I2) as [A1 A2]; [intros i Hi F; apply (D3 i F Hi)|]. split; auto. split; auto. now apply fresh_step.
  Qed.

  (** *** The theorems *)
  Lemma list_eqb_iff a b : list_eqb seqb a b = true <-> a = b.
  Proof.
    revert b. induction a as [|x a IH]; destruct b as [|y b]; cbn; try (split; congruence). specialize (IH b). unfold list_eqb in *. cbn. split.
    - intros H. apply andb_true_iff in H as [H1 H2]. apply andb_true_iff in H2 as [H2 H3]. apply seqb_iff in H2. subst. f_equal. apply IH. now rewrite H1, H3.
    - intros H. inversion H; subst. destruct IH as [_ IH]. specialize (IH eq_refl). apply andb_true_iff in IH as [IH1 IH2]. rewrite IH1, IH2. cbn. rewrite (proj2 (seqb_iff y y)); auto.
  Qed.
  Lemma ret_eqb_iff a b : ret_eqb a b = true <-> a = b.
  Proof.
    destruct a as [[a1 a2]|], b as [[b1 b2]|]; cbn; try (split; congruence). rewrite andb_true_iff, !N.eqb_eq. split; [intros [-> ->]; auto|intros H; inversion H; auto].
  Qed.
  Lemma compat_iff m d : compat seqb m d = true <-> agrees m d.
  Proof.
    unfold compat, agrees. rewrite <- list_eqb_iff, <- ret_eqb_iff, <- seqb_iff, <- (N.eqb_eq (tm_version m)).
    destruct (seqb (tm_schema m) (td_schema d)), (list_eqb seqb (tm_pk m) (td_pk d)), (N.eqb (tm_version m) (td_version d)), (ret_eqb (tm_ret m) (td_ret d)); cbn; intuition congruence.
  Qed.
  Lemma registered_iff (s : cms) m : registered s m <-> get (CMeta (tm_id m)) (m_kv s) = Some (CTab m).
  Proof. unfold registered, table_meta. destruct (get (CMeta (tm_id m)) (m_kv s)) as [[|m']|]; split; intros H; inversion H; auto. Qed.

  Lemma register_existing kv m i d : cinv kv -> get (CMeta (tm_id m)) kv = Some (CTab m) -> td_name d = tm_name m ->
    register seqb i d kv = Ended (if compat seqb m d then MOk (Some m) else MErr ECatalog).
  Proof.
    intros HI HG HN. destruct (ci_meta _ HI _ _ HG) as (m' & c & E & _ & ER & HT). inversion E; subst m'. unfold register. rewrite ER.
    destruct (find_table seqb c (td_name d)) as [j|] eqn:EF.
    - apply find_table_some in EF. rewrite HN in EF. assert (j = tm_id m) by (eapply (ci_names _ HI); eauto). subst j. rewrite HG. now destruct (compat seqb m d).
    - exfalso. apply (find_table_none _ _ (tm_id m) EF). now rewrite HN.
  Qed.

  Lemma c40_existing es c i d m : NoDup (drawn es) -> let s := mrun mstart es in registered s m -> td_name d = tm_name m ->
    m_kv (fst (mstep s (EOpen c (RRegister i d)))) = m_kv s /\
    (agrees m d -> snd (mstep s (EOpen c (RRegister i d))) = Some (RRegister i d, Returned (MOk (Some m)))) /\
    (~ agrees m d -> snd (mstep s (EOpen c (RRegister i d))) = Some (RRegister i d, Returned (MErr ECatalog))).
  Proof.
    intros HD s HR HN. destruct (cat_run es HD) as (HI & _ & _). fold s in HI. apply registered_iff in HR. cbn [Sessions.mstep cexec].
    rewrite (register_existing _ _ i d HI HR HN). cbn. split; auto. rewrite <- compat_iff. destruct (compat seqb m d); split; auto; congruence.
  Qed.
  (** A registration that writes: a new name, a new table. *)
  Lemma c40_created es e i d m : NoDup (drawn (es ++ [e])) -> let s := mrun mstart es in let s' := fst (mstep s e) in
    snd (mstep s e) = Some (RRegister i d, Returned (MOk (Some m))) ->
    tm_name m = td_name d /\ agrees m d /\ registered s' m /\ (registered s m \/ tm_id m = i /\ forall m', registered s m' -> tm_name m' <> td_name d /\ tm_id m' <> i).
  Proof.
    intros HD s s' HR. rewrite drawn_app in HD. destruct (NoDup_app_inv _ _ HD) as (D1 & _ & D3). destruct (cat_run es D1) as (HI & HJ & HF). fold s in HI, HJ, HF.
    destruct (step_cases ckey_eqb exec s e HF) as [(K & _ & [F|[(q & F)|(q & r & F & G)]])|(c & q & ws & r & EE & F & G & K & _)]; rewrite HR in F; inversion F; subst; clear F.
    - cbn [cexec] in G. unfold register in G. destruct (match get CRoot (m_kv s) with Some (CCat c) => MOk c | Some _ => MErr EInvariant | None => MOk (mkCat [] 0) end) as [c|] eqn:ER; [|discriminate].
      destruct (find_table seqb c (td_name d)) as [j|] eqn:EF; [|discriminate]. destruct (get (CMeta j) (m_kv s)) as [[|m']|] eqn:EM; try discriminate. destruct (compat seqb m' d) eqn:EC; [|discriminate]. inversion G; subst m'.
      apply find_table_some in EF. destruct (ci_meta _ HI _ _ EM) as (m' & c' & EX & EI & ER' & HT). inversion EX; subst m'. rewrite ER' in ER. inversion ER; subst c'.
      assert (HG : registered s m) by (apply registered_iff; congruence). split; [|split; [now apply compat_iff|split; [|auto]]].
      + destruct (ci_tab _ HI c j (td_name d) ER' EF) as (m' & E1 & E2). congruence.
      + unfold registered, s'. now rewrite K.
    - cbn [cexec] in G. destruct (register_staged _ _ _ _ _ G) as (m0 & -> & EF & EW & ER). inversion ER; subst. cbn. split; auto. split; [unfold agrees; auto|]. split.
      + apply registered_iff. unfold s'. rewrite K. unfold kapply. cbn [fold_left tm_id]. rewrite !(kget_write ckey_eqb ckey_eqb_iff). cbn. now rewrite N.eqb_refl.
      + right. split; auto. intros m' HM. apply registered_iff in HM. destruct (ci_meta _ HI _ _ HM) as (m2 & c2 & EX & _ & ER' & HT). inversion EX; subst m2. split.
        * intros EN. apply (find_table_none _ _ (tm_id m') EF). unfold root_of. rewrite ER'. now rewrite <- EN.
        * intros EI. subst i. assert (HO : In (tm_id m') (open_ids (m_open s))).
          { cbn [Sessions.mstep] in HR. destruct (find_open c s) as [x|] eqn:EFO; [|discriminate]. destruct (N.eqb (s_tag x) (m_tag s)); inversion HR.
            destruct (find_open_In _ _ _ EFO) as (c' & HX). unfold open_ids. apply in_flat_map. exists (c', x). split; auto. cbn. rewrite H0. cbn. auto. }
          destruct (ji_open _ _ HJ _ HO). congruence.
  Qed.
  Lemma c40_unique es m m' : NoDup (drawn es) -> let s := mrun mstart es in registered s m -> registered s m' -> tm_name m = tm_name m' \/ tm_id m = tm_id m' -> m = m'.
  Proof.
    intros HD s H1 H2 HN. destruct (cat_run es HD) as (HI & _ & _). fold s in HI. apply registered_iff in H1, H2.
    destruct (ci_meta _ HI _ _ H1) as (a & c & E1 & _ & R1 & T1). destruct (ci_meta _ HI _ _ H2) as (b & c' & E2 & _ & R2 & T2). inversion E1; inversion E2; subst a b. rewrite R1 in R2. inversion R2; subst c'.
    assert (EI : tm_id m = tm_id m'). { destruct HN as [HN|HN]; auto. rewrite HN in T1. eapply (ci_names _ HI); eauto. }
    rewrite EI in H1. congruence.
  Qed.
  Lemma c40_kept es e m : NoDup (drawn (es ++ [e])) -> let s := mrun mstart es in registered s m -> registered (fst (mstep s e)) m.
  Proof.
    intros HD s HM. rewrite drawn_app in HD. destruct (NoDup_app_inv _ _ HD) as (D1 & _ & _). destruct (cat_run es D1) as (HI & HJ & HF). fold s in HI, HJ, HF. apply registered_iff in HM. apply registered_iff.
    destruct (step_cases ckey_eqb exec s e HF) as [(K & _)|(c & q & ws & r & -> & F & G & K & _)]; rewrite K; auto. destruct q as [|i d]; cbn [cexec] in G.
    - destruct (get CRoot (m_kv s)); inversion G; subst. unfold kapply. cbn [fold_left]. rewrite !(kget_write ckey_eqb ckey_eqb_iff). cbn. auto.
    - destruct (register_staged _ _ _ _ _ G) as (m0 & _ & _ & -> & ER). unfold kapply. cbn [fold_left]. rewrite !(kget_write ckey_eqb ckey_eqb_iff). cbn. destruct (N.eqb_spec i (tm_id m)) as [->|]; auto. exfalso.
      assert (HO : In (tm_id m) (open_ids (m_open s))).
      { cbn [Sessions.mstep] in F. destruct (find_open c s) as [x|] eqn:EFO; [|discriminate]. destruct (N.eqb (s_tag x) (m_tag s)); inversion F.
        destruct (find_open_In _ _ _ EFO) as (c' & HX). unfold open_ids. apply in_flat_map. exists (c', x). split; auto. cbn. rewrite H0. cbn. auto. }
      destruct (ji_open _ _ HJ _ HO). congruence.
  Qed.
  Lemma c40_new es c i d : NoDup (drawn es) -> let s := mrun mstart es in (forall m, registered s m -> tm_name m <> td_name d) ->
    let s1 := fst (mstep s (EOpen c (RRegister i d))) in
    snd (mstep s (EOpen c (RRegister i d))) = None /\
    snd (mstep s1 (ECommit c)) =
      Some (RRegister i d, Returned (MOk (Some (mkMeta i (td_name d) (td_schema d) (td_pk d) (td_ret d) (td_version d))))).
  Proof.
    intros HD s HM. destruct (cat_run es HD) as (HI & _ & _). fold s in HI. cbn [Sessions.mstep cexec].
    assert (G : exists ws, register seqb i d (m_kv s) = Staged ws (MOk (Some (mkMeta i (td_name d) (td_schema d) (td_pk d) (td_ret d) (td_version d))))).
    { unfold register. destruct (get CRoot (m_kv s)) as [x|] eqn:ER.
      - destruct (ci_root _ HI _ ER) as (c0 & ->). destruct (find_table seqb c0 (td_name d)) as [j|] eqn:EF; [|eauto]. exfalso.
        apply find_table_some in EF. destruct (ci_tab _ HI _ _ _ ER EF) as (m & E1 & E2). apply (HM m); auto. apply registered_iff.
        destruct (ci_meta _ HI _ _ E1) as (m' & c1 & E3 & E4 & _). inversion E3; subst m'. now rewrite E4.
      - cbn. eauto. }
    destruct G as (ws & G). rewrite G. cbn [fst snd]. split; auto. unfold find_open. cbn [m_open m_tag m_kv find fst snd]. rewrite N.eqb_refl. cbn [s_tag]. rewrite N.eqb_refl. reflexivity.
  Qed.
End CatalogFacts.
