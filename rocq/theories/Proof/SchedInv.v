(** Concurrent calls: what the database holds at every point of every schedule. *)
From Coq Require Import List NArith Bool Arith Lia Sorted Permutation.
From Verif Require Import Base.Order Base.Sub Model.OMap Model.KeyTs Model.MemTable Model.Immutable
     Model.SsTable Model.KeyBounds Model.DbScan Model.Version Model.Db Spec.Mvcc Spec.KeySet Spec.Valid
     Spec.History Model.Run Model.Sched Spec.ConcSpec
     Proof.OMapFacts Proof.MemFacts Proof.ViewFacts Proof.SstFacts Proof.HistFacts Proof.VersionFacts
     Proof.MergeFacts Proof.ScanFacts Proof.DbFacts Proof.RunFacts Proof.SchedLive.
Import ListNotations.
Local Arguments kcmp : simpl never.

Section Lists.
  Context {A : Type}.
  Lemma ex_nth (P : A -> Prop) i (x : A) l : nth_error l i = Some x ->
    ((exists a, In a l /\ P a) <-> P x \/ exists a, In a (others i l) /\ P a).
  Proof.
    intros H. split.
    - intros (a & Ha & Hp). apply In_nth_error in Ha as [j Hj]. destruct (Nat.eq_dec j i) as [->|N].
      + left. congruence.
      + right. exists a. split; auto. apply In_others. eauto.
    - intros [Hp|(a & Ha & Hp)]; [exists x; split; auto; eapply nth_error_In; eauto|].
      apply In_others in Ha as (j & _ & Hj). exists a. split; auto. eapply nth_error_In; eauto.
  Qed.
  Lemma others_set i (x : A) l : others i (set_nth i x l) = others i l.
  Proof. revert i. induction l as [|a l IH]; intros [|i]; simpl; auto. now rewrite IH. Qed.
  Lemma ex_set (P : A -> Prop) i (x y : A) l : nth_error l i = Some y ->
    ((exists a, In a (set_nth i x l) /\ P a) <-> P x \/ exists a, In a (others i l) /\ P a).
  Proof.
    intros H. rewrite (ex_nth P i x (set_nth i x l)) by (eapply nth_set_same; eauto). now rewrite others_set.
  Qed.
  Lemma ex_snoc (P : A -> Prop) l x : (exists a, In a (l ++ [x]) /\ P a) <-> (exists a, In a l /\ P a) \/ P x.
  Proof.
    split.
    - intros (a & Ha & Hp). apply in_app_iff in Ha as [Ha|[<-|[]]]; eauto.
    - intros [(a & Ha & Hp)|Hp]; [exists a|exists x]; (split; [apply in_app_iff; simpl; auto|auto]).
  Qed.
End Lists.
Lemma Forall2_set {A B} (P : A -> B -> Prop) i x y l l' : Forall2 P l l' -> P x y -> Forall2 P (set_nth i x l) (set_nth i y l').
Proof. intros H. revert i. induction H; intros [|i] Hp; simpl; constructor; auto. Qed.
Lemma Forall2_nth {A B} (P : A -> B -> Prop) i x l l' : Forall2 P l l' -> nth_error l i = Some x ->
  exists y, nth_error l' i = Some y /\ P x y.
Proof. intros H. revert i. induction H as [|a b l l' H HF IH]; intros [|i] E; simpl in E; try discriminate.
  - injection E as <-. exists b. auto.
  - apply IH. exact E.
Qed.

Section SchedInv.
  Context {K : Type} {KO : KeyOrd K} {R : Type}.
  Variable key_of : R -> option K.
  Notation vers := (@vers K R).
  Notation tver := (tver key_of).
  Notation store := (store key_of).
  Notation rep := (rep key_of).
  Notation cstep := (cstep key_of).
  Notation crun := (crun key_of).
  Notation call_step := (call_step key_of).
  Notation parts_of := (parts_of key_of).
  Notation last_mut := (last_mut key_of).
  Notation muts_of := (muts_of key_of).

  Definition part_muts (p : @part K R) : list (mut K R) :=
    match p with
    | PRows rows => map Put rows
    | PDels ks => flat_map (fun o => match o with Some k => [Del k] | None => [] end) ks
    end.
  Definition part_ok (p : @part K R) : Prop :=
    match p with
    | PRows rows => Forall (fun r => key_of r <> None) rows
    | PDels ks => Forall (fun o => o <> None) ks
    end.
  Definition stamp (t : thread K R) : option N :=
    match t_pc t with
    | PPut ts _ | PAdd ts _ _ | PSeal ts | PAddLast ts _ | PDone (Acked ts) => Some ts
    | _ => None
    end.
  Definition napp (t : thread K R) : nat :=
    match t_pc t with
    | PPut _ n | PAdd _ n _ => n
    | _ => length (parts_of (t_call t))
    end.
  Definition applied (t : thread K R) : list (mut K R) :=
    flat_map part_muts (firstn (napp t) (parts_of (t_call t))).
  Definition hand (t : thread K R) : list (seg K R) :=
    match t_pc t with PAdd _ _ sg | PAddLast _ sg => [sg] | _ => [] end.
  Definition call_ok (w : call K R) : Prop :=
    match w with
    | CIngest rows _ => Forall (fun r => key_of r <> None) rows
    | CTomb rows _ => Forall (fun p => key_of (fst p) <> None) rows /\ tomb_separate key_of rows
    | CTxn _ _ => True
    end.

  Lemma dels_some (ks : list K) : flat_map (fun o : option K => match o with Some k => [@Del K R k] | None => [] end) (map Some ks) = map Del ks.
  Proof. induction ks; simpl; auto. now f_equal. Qed.
  Lemma two_muts ups (ks : list K) : flat_map part_muts (two_parts ups (map Some ks)) = map Put ups ++ map Del ks.
  Proof.
    unfold two_parts. destruct ups, ks; simpl; rewrite ?app_nil_r, ?dels_some; auto.
  Qed.
  Lemma two_ok ups (ks : list K) : Forall (fun r => key_of r <> None) ups -> Forall part_ok (two_parts ups (map Some ks)).
  Proof.
    intros H. unfold two_parts. apply Forall_app. split.
    - destruct ups; constructor; auto.
    - destruct ks as [|k ks]; simpl; constructor; auto. simpl. constructor; [discriminate|].
      rewrite Forall_map. apply Forall_forall. discriminate.
  Qed.
  Lemma two_sep ups (ks : list K) n p : separate key_of (map Put ups) (map Del ks) ->
    nth_error (two_parts ups (map Some ks)) n = Some p ->
    separate key_of (flat_map part_muts (firstn n (two_parts ups (map Some ks)))) (part_muts p).
  Proof.
    intros HS. unfold two_parts. destruct ups as [|r ups], ks as [|k ks]; simpl; destruct n as [|[|n]]; simpl; try discriminate;
      intros E; try (injection E as <-); try (intros x y kx ky F; solve [destruct F]); try (destruct n; discriminate).
    rewrite app_nil_r. change (part_muts (PDels (Some k :: map Some ks))) with (part_muts (PDels (map Some (k :: ks)))).
    cbn [part_muts]. rewrite dels_some. exact HS.
  Qed.

  Lemma staged_rows_keyed ms : Forall (fun r => key_of r <> None) (staged_rows (stage key_of ms)).
  Proof.
    apply Forall_forall. intros r H. unfold staged_rows in H. apply in_flat_map in H as ([k [r'|]] & H1 & H2); simpl in H2; [|destruct H2].
    destruct H2 as [<-|[]]. apply stage_keyed in H1. congruence.
  Qed.
  Lemma staged_sep ms : separate key_of (map Put (staged_rows (stage key_of ms))) (map Del (staged_keys (stage key_of ms))).
  Proof.
    intros x y kx ky Hx Hy EX EY E.
    assert (x = y).
    { eapply (stage_uniq key_of ms x y); eauto; apply in_app_iff; auto. }
    subst y. apply in_map_iff in Hx as (r & <- & _). apply in_map_iff in Hy as (k & Hy & _). discriminate.
  Qed.
  Lemma part_ups_keyed rows : Forall (fun p => key_of (fst p) <> None) rows ->
    Forall (fun r => key_of r <> None) (@part_upserts R rows).
  Proof.
    intros H. unfold part_upserts. rewrite Forall_map. apply Forall_forall. intros p Hp. apply filter_In in Hp as [Hp _].
    rewrite Forall_forall in H. auto.
  Qed.

  Lemma parts_ok w : call_ok w -> Forall part_ok (parts_of w).
  Proof.
    destruct w as [rows dec|rows dec|snap ms]; simpl.
    - intros H. repeat constructor. exact H.
    - intros [H1 H2]. rewrite part_deletes_keys by auto. apply two_ok. now apply part_ups_keyed.
    - intros _. rewrite staged_dels_keys. apply two_ok, staged_rows_keyed.
  Qed.
  Lemma parts_sep w n p : call_ok w -> nth_error (parts_of w) n = Some p ->
    separate key_of (flat_map part_muts (firstn n (parts_of w))) (part_muts p).
  Proof.
    destruct w as [rows dec|rows dec|snap ms]; simpl.
    - intros _ E. destruct n as [|n]; [intros x y kx ky []|destruct n; discriminate].
    - intros [H1 H2]. rewrite part_deletes_keys by auto. apply two_sep. now apply tomb_sep.
    - intros _. rewrite staged_dels_keys. apply two_sep, staged_sep.
  Qed.
  Lemma parts_muts w ts v : call_ok w ->
    (last_mut ts (flat_map part_muts (parts_of w)) v <-> last_mut ts (muts_of w) v).
  Proof.
    destruct w as [rows dec|rows dec|snap ms]; simpl.
    - intros _. now rewrite app_nil_r.
    - intros [H1 H2]. rewrite part_deletes_keys by auto. rewrite two_muts. symmetry. now apply tomb_last.
    - intros _. rewrite staged_dels_keys, two_muts. apply staged_last.
  Qed.

  (** *** One insert *)
  Lemma insert_cases d M Is ts ms (try : mem K R -> insert_result K R) :
    rep d M Is ->
    (forall m A, mem_repr key_of m A ->
       match try m with
       | IOk m' => mem_repr key_of m' (ins_muts key_of ms ts A) /\ m_capacity m' = m_capacity m
       | IKeyErr _ => False
       | IExhausted => forall c, m = mem_new c -> c = 0
       end) ->
    (forall w m, In w M -> In m ms -> ~ hits key_of ts m (fst w)) ->
    match (match try (d_mem d) with
           | IOk m' => MOk m' None | IKeyErr m' => MKeyErr m'
           | IExhausted => after_seal key_of (d_mem d) try end) with
    | MOk m None => exists M', rep (set_mem d m) M' Is /\ forall v, In v M' <-> In v M \/ last_mut ts ms v
    | MOk m (Some sg) => exists M', rep (set_mem d m) M' Is /\ sg = seg_of M /\ good key_of M /\
                                    (forall v, In v M' <-> last_mut ts ms v)
    | MKeyErr _ => False
    | MFail => True
    end.
  Proof.
    intros HR HT HH. pose proof HR as [HM HI HG HS HD HN HC].
    pose proof (HT _ _ HM) as H1. destruct (try (d_mem d)) as [m'|m'|] eqn:ET; [|contradiction|].
    - destruct H1 as [H1 H2]. exists (ins_muts key_of ms ts M). split.
      + constructor; simpl; auto. now rewrite H2.
      + intros v. apply no_hits_In; auto. apply HM.
    - unfold after_seal. rewrite (seal_repr key_of _ _ HM). destruct M as [|a M].
      + rewrite ET. exact I.
      + set (B := a :: M) in *.
        pose proof (HT _ _ (mem_new_repr key_of (m_capacity (d_mem d)))) as H2.
        destruct (try (mem_new (m_capacity (d_mem d)))) as [m'|m'|] eqn:ET2; [|contradiction|exact I].
        destruct H2 as [H2 H3]. exists (ins_muts key_of ms ts []). split; [|split; [reflexivity|split]].
        * constructor; simpl; auto. rewrite H3. exact HC.
        * eapply good_of; eauto. discriminate.
        * intros v. rewrite no_hits_In; [simpl; tauto|constructor|intros w m []].
  Qed.
  Lemma put_cases d M Is ts p :
    rep d M Is -> part_ok p ->
    (forall w m, In w M -> In m (part_muts p) -> ~ hits key_of ts m (fst w)) ->
    match put_part key_of p ts (d_mem d) with
    | MOk m None => exists M', rep (set_mem d m) M' Is /\ forall v, In v M' <-> In v M \/ last_mut ts (part_muts p) v
    | MOk m (Some sg) => exists M', rep (set_mem d m) M' Is /\ sg = seg_of M /\ good key_of M /\
                                    (forall v, In v M' <-> last_mut ts (part_muts p) v)
    | MKeyErr _ => False
    | MFail => True
    end.
  Proof.
    intros HR HK HH. destruct p as [rows|os]; cbn [part_muts put_part] in *.
    - apply (insert_cases d M Is ts (map Put rows)
        (fun m0 => try_insert_batch key_of m0 rows (repeat ts (length rows)))); auto.
      intros m A Hm. pose proof (try_insert_batch_repr key_of m rows ts A Hm) as H.
      rewrite ins_mut_rows. destruct (try_insert_batch _ _ _ _) as [m'|m'|] eqn:ET.
      + tauto.
      + destruct H as (_ & _ & H). apply Exists_exists in H as (r & H1 & H2).
        cbn [part_ok] in HK. rewrite Forall_forall in HK. apply (HK r H1 H2).
      + intros c ->. simpl in H. lia.
    - assert (exists ks : list K, os = map Some ks) as [ks ->].
      { cbn [part_ok] in HK. clear - HK. induction HK as [|o os H HF [ks ->]]; [exists []; auto|].
        destruct o as [k|]; [|congruence]. exists (k :: ks). reflexivity. }
      rewrite dels_some in *.
      apply (insert_cases d M Is ts (map Del ks)
        (fun m0 => try_insert_delete_batch m0 (map Some ks) (repeat ts (length (map Some ks))))); auto.
      intros m A Hm. pose proof (try_insert_delete_repr key_of m (map Some ks) ts A Hm) as H.
      rewrite ins_mut_dels. destruct (try_insert_delete_batch _ _ _) as [m'|m'|] eqn:ET.
      + tauto.
      + destruct H as (_ & _ & H). apply Exists_exists in H as (r & H1 & ->).
        apply in_map_iff in H1 as (k & H1 & _). discriminate.
      + intros c ->. simpl in H. lia.
  Qed.

  (** *** The invariant *)
  Definition flush_ok (f : flushing K R) (d : db K R) (Is : list (list vers)) : Prop :=
    match f with
    | FNone => True
    | FTaken id segs => exists B rest, Is = B ++ rest /\ segs = map seg_of B /\ B <> [] /\
                        (id < d_next_id d)%N /\ ~ In id (map (@t_id K R) (concat (d_levels d)))
    | FPublished n => exists B rest, Is = B ++ rest /\ length B = n /\
                      (forall v, In v (concat B) -> In v (flat_map tver (concat (d_levels d))))
    end.

  Definition wrote (v : vers) (t : thread K R) : Prop := exists ts, stamp t = Some ts /\ last_mut ts (applied t) v.
  Definition heldv (v : vers) (H : list (list vers)) : Prop := In v (concat H).

  Record cinv_at (c : conc K R) (M : list vers) (Is : list (list vers)) (Hs : list (list (list vers))) : Prop := {
    ci_rep : rep (c_db c) M Is;
    ci_hand : Forall2 (fun t H => hand t = map seg_of H /\ Forall (good key_of) H) (c_threads c) Hs;
    ci_store : forall v, (In v (store M Is (d_levels (c_db c))) \/ (exists H, In H Hs /\ heldv v H)) <->
                         (exists t, In t (c_threads c) /\ wrote v t);
    ci_ts : forall i j t u ts, nth_error (c_threads c) i = Some t -> nth_error (c_threads c) j = Some u ->
                         stamp t = Some ts -> stamp u = Some ts -> i = j;
    ci_clock : forall t ts, In t (c_threads c) -> stamp t = Some ts -> (ts < d_clock (c_db c))%N;
    ci_calls : Forall (fun t => call_ok (t_call t)) (c_threads c);
    ci_flush : flush_ok (c_flush c) (c_db c) Is
  }.
  Definition cinv (c : conc K R) : Prop := exists M Is Hs, cinv_at c M Is Hs.

  Lemma cinv_start capacity : 1 <= capacity -> cinv (cstart capacity).
  Proof.
    intros HC. exists [], [], []. constructor.
    - constructor; simpl; auto; try constructor; try constructor.
    - constructor.
    - simpl. intros v. split; [intros [[]|(H & [] & _)]|intros (t & [] & _)].
    - intros [|i] j t u ts H; discriminate.
    - intros t ts [].
    - constructor.
    - exact I.
  Qed.

  (** One call moves on; the other calls and the flush are as before. *)
  Lemma cinv_upd c M Is Hs i t H d' p H' M' Is' :
    cinv_at c M Is Hs -> nth_error (c_threads c) i = Some t -> nth_error Hs i = Some H ->
    let t' := mkTh (t_call t) p in
    rep d' M' Is' -> hand t' = map seg_of H' -> Forall (good key_of) H' ->
    (exists Delta : vers -> Prop,
      (forall v, (In v (store M' Is' (d_levels d')) \/ heldv v H') <->
                 (In v (store M Is (d_levels (c_db c))) \/ heldv v H) \/ Delta v) /\
      (forall v, wrote v t' <-> wrote v t \/ Delta v)) ->
    (d_clock (c_db c) <= d_clock d')%N ->
    (stamp t' = None \/ stamp t' = stamp t \/ (stamp t' = Some (d_clock (c_db c)) /\ d_clock d' = (d_clock (c_db c) + 1)%N)) ->
    flush_ok (c_flush c) d' Is' ->
    cinv_at (mkC d' (set_nth i t' (c_threads c)) (c_flush c)) M' Is' (set_nth i H' Hs).
  Proof.
    intros HI Hi HHi t' HR HH1 HH2 (Delta & D1 & D2) HC HS HF.
    assert (HO : forall u j ts, nth_error (c_threads c) j = Some u -> stamp u = Some ts -> (ts < d_clock d')%N).
    { intros u j ts Hj E. apply nth_error_In in Hj. pose proof (ci_clock _ _ _ _ HI u ts Hj E). lia. }
    constructor; cbn [c_db c_threads c_flush].
    - exact HR.
    - apply Forall2_set; [apply (ci_hand _ _ _ _ HI)|auto].
    - intros v. pose proof (ci_store _ _ _ _ HI v) as HV.
      rewrite (ex_set (heldv v) i H' H Hs HHi), (ex_set (wrote v) i t' t (c_threads c) Hi).
      rewrite (ex_nth (heldv v) i H Hs HHi), (ex_nth (wrote v) i t (c_threads c) Hi) in HV.
      rewrite D2. specialize (D1 v). revert HV D1. generalize (In v (store M' Is' (d_levels d'))) (heldv v H')
        (In v (store M Is (d_levels (c_db c)))) (heldv v H) (Delta v) (wrote v t)
        (exists a, In a (others i Hs) /\ heldv v a) (exists a, In a (others i (c_threads c)) /\ wrote v a).
      intros A B C D E F G J [V1 V2] [W1 W2]. split.
      + intros [X|[X|X]].
        * destruct W1 as [[Y|Y]|Y]; auto; destruct V1; auto.
        * destruct W1 as [[Y|Y]|Y]; auto; destruct V1; auto.
        * destruct V1; auto.
      + intros [[X|X]|X].
        * destruct V2 as [Y|[Y|Y]]; auto; destruct W2; auto.
        * destruct W2; auto.
        * destruct V2 as [Y|[Y|Y]]; auto; destruct W2; auto.
    - intros a b u w ts Ha Hb Eu Ew.
      assert (X : forall b w, b <> i -> nth_error (c_threads c) b = Some w -> stamp w = stamp t' -> stamp w <> None -> False).
      { intros b0 w0 N0 Hb0 E0 N1. destruct HS as [S|[S|[S1 S2]]]; [congruence| |].
        - destruct (stamp w0) as [tw|] eqn:EW; [|congruence]. apply N0.
          apply (ci_ts _ _ _ _ HI b0 i w0 t tw Hb0 Hi EW). congruence.
        - rewrite S1 in E0. apply nth_error_In in Hb0. pose proof (ci_clock _ _ _ _ HI w0 _ Hb0 E0). lia. }
      destruct (Nat.eq_dec a i) as [->|Na].
      + rewrite (nth_set_same i t' (c_threads c) t Hi) in Ha. injection Ha as <-.
        destruct (Nat.eq_dec b i) as [->|Nb]; auto. exfalso. rewrite nth_set_other in Hb by auto.
        apply (X b w Nb Hb); congruence.
      + rewrite nth_set_other in Ha by auto. destruct (Nat.eq_dec b i) as [->|Nb].
        * exfalso. rewrite (nth_set_same i t' (c_threads c) t Hi) in Hb. injection Hb as <-.
          apply (X a u Na Ha); congruence.
        * rewrite nth_set_other in Hb by auto. eapply (ci_ts _ _ _ _ HI a b); eauto.
    - intros u ts Hu E. apply In_set_nth in Hu as [->|Hu].
      + destruct HS as [S|[S|[S1 S2]]]; [congruence| |].
        * rewrite S in E. eapply HO; eauto.
        * rewrite S1 in E. injection E as <-. lia.
      + apply In_others in Hu as (j & _ & Hj). eapply HO; eauto.
    - apply Forall_forall. intros u Hu. pose proof (ci_calls _ _ _ _ HI) as HK. rewrite Forall_forall in HK.
      apply In_set_nth in Hu as [->|Hu].
      + simpl. apply (HK t). eapply nth_error_In; eauto.
      + apply In_others in Hu as (j & _ & Hj). apply HK. eapply nth_error_In; eauto.
    - exact HF.
  Qed.

  Lemma flush_ok_push f d d' Is A : flush_ok f d Is -> d_levels d' = d_levels d -> d_next_id d' = d_next_id d ->
    flush_ok f d' (Is ++ A).
  Proof.
    intros H E1 E2. destruct f as [|id segs|n]; simpl in *; auto; rewrite ?E1, ?E2.
    - destruct H as (B & rest & -> & H). exists B, (rest ++ A). rewrite app_assoc. auto.
    - destruct H as (B & rest & -> & H). exists B, (rest ++ A). rewrite app_assoc. auto.
  Qed.
  Lemma flush_ok_same f d d' Is : flush_ok f d Is -> d_levels d' = d_levels d -> d_next_id d' = d_next_id d ->
    flush_ok f d' Is.
  Proof. intros H E1 E2. rewrite <- (app_nil_r Is). eapply flush_ok_push; eauto. Qed.

  Lemma firstn_S_nth {A} n (l : list A) x : nth_error l n = Some x -> firstn (S n) l = firstn n l ++ [x].
  Proof.
    revert l. induction n as [|n IH]; intros [|a l] H; simpl in H; try discriminate.
    - injection H as ->. reflexivity.
    - change (firstn (S (S n)) (a :: l)) with (a :: firstn (S n) l). rewrite (IH l H). reflexivity.
  Qed.

  (** No mutation of the next part of a call meets a version that is already there. *)
  Lemma fresh_part c M Is Hs i t ts n p :
    cinv_at c M Is Hs -> nth_error (c_threads c) i = Some t -> t_pc t = PPut ts n ->
    nth_error (parts_of (t_call t)) n = Some p ->
    forall w m, In w M -> In m (part_muts p) -> ~ hits key_of ts m (fst w).
  Proof.
    intros HI Hi Hpc Hp w m Hw Hm Hh.
    assert (X : exists u, In u (c_threads c) /\ wrote w u).
    { apply (ci_store _ _ _ _ HI). left. apply store_In. auto. }
    destruct X as (u & Hu & tu & Eu & Lu). apply In_nth_error in Hu as [j Hj].
    assert (tu = ts).
    { apply last_mut_ts in Lu. unfold hits in Hh. destruct (mut_key key_of m); [|contradiction].
      apply kts_eq in Hh as [_ Hh]. simpl in Hh. unfold vts in Lu. congruence. }
    subst tu. assert (j = i).
    { apply (ci_ts _ _ _ _ HI j i u t ts); auto. unfold stamp. now rewrite Hpc. }
    subst j. assert (u = t) by congruence. subst u.
    unfold applied, napp in Lu. rewrite Hpc in Lu.
    destruct (last_mut_hits _ _ _ _ Lu) as (x & Hx & _ & Hhx).
    pose proof (ci_calls _ _ _ _ HI) as HK. rewrite Forall_forall in HK.
    assert (Ht : call_ok (t_call t)) by (apply HK; eapply nth_error_In; eauto).
    pose proof (parts_sep _ _ _ Ht Hp) as SP.
    pose proof Hh as Hh'. pose proof Hhx as Hhx'. unfold hits in Hh', Hhx'.
    destruct (mut_key key_of m) as [km|] eqn:EM; [|contradiction].
    destruct (mut_key key_of x) as [kx|] eqn:EX; [|contradiction].
    apply (SP x m kx km Hx Hm EX EM). exact (hits_same key_of ts x m (fst w) kx km Hhx Hh EX EM).
  Qed.

  Lemma wrote_none v t : stamp t = None -> ~ wrote v t.
  Proof. intros E (ts & F & _). congruence. Qed.
  Lemma wrote_nones v t u : stamp t = None -> stamp u = None -> (wrote v t <-> wrote v u).
  Proof. intros H1 H2. split; intros F; exfalso; [exact (wrote_none v t H1 F)|exact (wrote_none v u H2 F)]. Qed.
  Lemma rep_mem_other d d' M Is : rep d M Is -> d_mem d' = d_mem d -> d_imm d' = d_imm d ->
    d_levels d' = d_levels d -> d_next_id d' = d_next_id d -> rep d' M Is.
  Proof. intros. eapply rep_same; eauto. Qed.
  Lemma rep_push d M Is B : rep d M Is -> good key_of B -> rep (push_seg d (seg_of B)) M (Is ++ [B]).
  Proof.
    intros [HM HI HG HS HD HN HC] HB. constructor; simpl; auto.
    - rewrite HI, map_app. reflexivity.
    - apply Forall_app. auto.
  Qed.

  (** A step that changes no data. *)
  Lemma cinv_quiet c M Is Hs i t p d' :
    cinv_at c M Is Hs -> nth_error (c_threads c) i = Some t ->
    d_mem d' = d_mem (c_db c) -> d_imm d' = d_imm (c_db c) -> d_levels d' = d_levels (c_db c) ->
    d_next_id d' = d_next_id (c_db c) -> (d_clock (c_db c) <= d_clock d')%N ->
    let t' := mkTh (t_call t) p in
    hand t' = [] -> hand t = [] -> (forall v, wrote v t' <-> wrote v t) ->
    (stamp t' = None \/ stamp t' = stamp t \/ (stamp t' = Some (d_clock (c_db c)) /\ d_clock d' = (d_clock (c_db c) + 1)%N)) ->
    cinv (mkC d' (set_nth i t' (c_threads c)) (c_flush c)).
  Proof.
    intros HI Hi E1 E2 E3 E4 E5 t' H1 H2 HW HS.
    destruct (Forall2_nth _ _ _ _ _ (ci_hand _ _ _ _ HI) Hi) as (H & HH & EH & _).
    assert (H = []) as -> by (rewrite H2 in EH; destruct H; [auto|discriminate]).
    exists M, Is, (set_nth i [] Hs). apply (cinv_upd c M Is Hs i t [] d' p [] M Is HI Hi HH); auto.
    - eapply rep_mem_other; eauto. apply (ci_rep _ _ _ _ HI).
    - exists (fun _ => False). split; intros v; [rewrite E3; tauto|]. fold t'. rewrite HW. tauto.
    - eapply flush_ok_same; eauto. apply (ci_flush _ _ _ _ HI).
  Qed.

  Lemma cinv_call c i t d' p : cinv c -> nth_error (c_threads c) i = Some t ->
    call_step (c_db c) (others i (c_threads c)) t = Some (d', p) ->
    (d_clock (c_db c) + 1 < 2 ^ 64)%N -> p <> PDone Failed ->
    cinv (mkC d' (set_nth i (mkTh (t_call t) p) (c_threads c)) (c_flush c)).
  Proof.
    intros (M & Is & Hs & HI) Hi HStep HCl HNF.
    pose proof (ci_rep _ _ _ _ HI) as HR.
    pose proof (ci_calls _ _ _ _ HI) as HK. rewrite Forall_forall in HK.
    assert (Ht : call_ok (t_call t)) by (apply HK; eapply nth_error_In; eauto).
    pose proof (parts_ok _ Ht) as HP. rewrite Forall_forall in HP.
    destruct (Forall2_nth _ _ _ _ _ (ci_hand _ _ _ _ HI) Hi) as (H & HH & EH & GH).
    unfold Sched.call_step in HStep.
    destruct (t_pc t) as [got|n| |ts n|ts n sg|ts|ts sg|o] eqn:Hpc.
    - (* locking *)
      assert (ST : stamp t = None) by (unfold stamp; now rewrite Hpc).
      assert (X : d' = c_db c /\ stamp (mkTh (t_call t) p) = None /\ hand (mkTh (t_call t) p) = []).
      { destruct (nth_error _ got) as [k|]; [destruct (existsb _ _); [discriminate|]|]; injection HStep as <- <-; auto. }
      destruct X as (-> & X1 & X2). eapply cinv_quiet; eauto; try lia.
      + unfold hand. now rewrite Hpc.
      + intros v. now apply wrote_nones.
    - assert (ST : stamp t = None) by (unfold stamp; now rewrite Hpc).
      assert (X : d' = c_db c /\ stamp (mkTh (t_call t) p) = None /\ hand (mkTh (t_call t) p) = []).
      { destruct (nth_error _ n) as [k|]; [destruct (key_conflict _ _ _)|]; injection HStep as <- <-; auto. }
      destruct X as (-> & X1 & X2). eapply cinv_quiet; eauto; try lia.
      + unfold hand. now rewrite Hpc.
      + intros v. now apply wrote_nones.
    - assert (ST : stamp t = None) by (unfold stamp; now rewrite Hpc).
      assert (HT : hand t = []) by (unfold hand; now rewrite Hpc).
      destruct (parts_of (t_call t)) as [|q l] eqn:EP; injection HStep as <- <-.
      + eapply cinv_quiet; eauto; try lia.
        intros v. now apply wrote_nones.
      + assert (ET : d_clock (tick (c_db c)) = (d_clock (c_db c) + 1)%N) by (simpl; now rewrite N.mod_small).
        eapply cinv_quiet; eauto; try reflexivity; try (rewrite ET; lia); auto.
        intros v. split; intros F; exfalso; [|exact (wrote_none v t ST F)].
        destruct F as (ts & _ & F). exact (last_mut_nil key_of ts v F).
    - (* inserting *)
      assert (ST : stamp t = Some ts) by (unfold stamp; now rewrite Hpc).
      assert (HT : hand t = []) by (unfold hand; now rewrite Hpc).
      assert (H = []) as -> by (rewrite HT in EH; destruct H; [auto|discriminate]).
      assert (AP : applied t = flat_map part_muts (firstn n (parts_of (t_call t)))) by (unfold applied, napp; now rewrite Hpc).
      destruct (nth_error (parts_of (t_call t)) n) as [q|] eqn:Eq.
      + assert (Hq : part_ok q) by (apply HP; eapply nth_error_In; eauto).
        pose proof (put_cases (c_db c) M Is ts q HR Hq (fresh_part c M Is Hs i t ts n q HI Hi Hpc Eq)) as HC.
        assert (WR : forall p' v, stamp (mkTh (t_call t) p') = Some ts -> napp (mkTh (t_call t) p') = S n ->
                     (wrote v (mkTh (t_call t) p') <-> wrote v t \/ last_mut ts (part_muts q) v)).
        { intros p' v E1 E2. assert (AQ : applied (mkTh (t_call t) p') = applied t ++ part_muts q).
          { unfold applied at 1. rewrite E2. cbn [t_call]. rewrite (firstn_S_nth _ _ _ Eq), flat_map_app, AP. simpl.
            now rewrite app_nil_r. }
          unfold wrote. rewrite E1, ST, AQ. pose proof (parts_sep _ _ _ Ht Eq) as SP. rewrite <- AP in SP.
          split.
          - intros (u & E & L). injection E as <-. apply separate_app in L; auto. destruct L; eauto.
          - intros [(u & E & L)|L]; [injection E as <-|]; exists ts; (split; [reflexivity|]); apply separate_app; auto. }
        destruct (put_part _ _ _ _) as [m [sg|]|m|] eqn:EPut; injection HStep as <- <-.
        * destruct HC as (M' & R' & -> & HG & HV). exists M', Is, (set_nth i [M] Hs).
          apply (cinv_upd c M Is Hs i t [] _ _ [M] M' Is HI Hi HH); auto.
          -- exists (last_mut ts (part_muts q)). split; intros v; [|apply WR; reflexivity].
             unfold heldv. rewrite !store_In. cbn [set_mem d_levels concat]. rewrite HV, app_nil_r. simpl. tauto.
          -- simpl. lia.
          -- eapply flush_ok_same; [apply (ci_flush _ _ _ _ HI)|reflexivity|reflexivity].
        * destruct HC as (M' & R' & HV). exists M', Is, (set_nth i [] Hs).
          apply (cinv_upd c M Is Hs i t [] _ _ [] M' Is HI Hi HH); auto.
          -- exists (last_mut ts (part_muts q)). split; intros v; [|apply WR; reflexivity].
             unfold heldv. rewrite !store_In. cbn [set_mem d_levels concat]. rewrite HV. simpl. tauto.
          -- simpl. lia.
          -- eapply flush_ok_same; [apply (ci_flush _ _ _ _ HI)|reflexivity|reflexivity].
        * congruence.
        * congruence.
      + injection HStep as <- <-. eapply cinv_quiet; eauto; try lia.
        intros v. unfold wrote. rewrite ST. cbn [stamp t_pc].
        assert (applied (mkTh (t_call t) (PSeal ts)) = applied t) as ->; [|tauto].
        rewrite AP. unfold applied, napp. cbn [t_pc t_call]. rewrite firstn_all.
        rewrite firstn_all2 by (now apply nth_error_None). reflexivity.
    - injection HStep as <- <-. unfold hand in EH. rewrite Hpc in EH. destruct H as [|B [|? ?]]; try discriminate.
      injection EH as ->. inversion GH as [|? ? GB _]; subst.
      exists M, (Is ++ [B]), (set_nth i [] Hs). apply (cinv_upd c M Is Hs i t [B] _ _ [] M (Is ++ [B]) HI Hi HH); auto.
      + now apply rep_push.
      + exists (fun _ => False). split; intros v.
        * unfold heldv. rewrite !store_In. cbn [push_seg d_levels concat]. rewrite concat_app, in_app_iff.
          cbn [concat]. rewrite app_nil_r. simpl. tauto.
        * unfold wrote, stamp, applied, napp. cbn [t_pc t_call]. rewrite Hpc. tauto.
      + simpl. lia.
      + right. left. unfold stamp. cbn [t_pc]. now rewrite Hpc.
      + eapply flush_ok_push; [apply (ci_flush _ _ _ _ HI)|reflexivity|reflexivity].
    - assert (ST : stamp t = Some ts) by (unfold stamp; now rewrite Hpc).
      assert (HT : hand t = []) by (unfold hand; now rewrite Hpc).
      assert (WR : forall p' v, stamp (mkTh (t_call t) p') = Some ts -> napp (mkTh (t_call t) p') = length (parts_of (t_call t)) ->
                   (wrote v (mkTh (t_call t) p') <-> wrote v t)).
      { intros p' v E1 E2. unfold wrote, applied. rewrite E1, E2, ST. unfold napp. rewrite Hpc. tauto. }
      destruct (dec_of (t_call t)).
      + rewrite (seal_repr key_of _ _ (rp_mem _ _ _ _ HR)) in HStep. destruct M as [|a M].
        * injection HStep as <- <-. eapply cinv_quiet; eauto; try lia.
        * set (B := a :: M) in *. injection HStep as <- <-.
          assert (H = []) as -> by (rewrite HT in EH; destruct H; [auto|discriminate]).
          assert (GB : good key_of B) by (eapply good_of; [apply (rp_mem _ _ _ _ HR)|discriminate]).
          exists [], Is, (set_nth i [B] Hs).
          apply (cinv_upd c B Is Hs i t [] _ _ [B] [] Is HI Hi HH); auto.
          -- destruct HR as [HM HI' HG HS HD HN HC]. constructor; simpl; auto. apply mem_new_repr.
          -- exists (fun _ => False). split; intros v.
             ++ unfold heldv. rewrite !store_In. cbn [set_mem d_levels concat]. rewrite app_nil_r. simpl. tauto.
             ++ rewrite WR by reflexivity. tauto.
          -- simpl. lia.
          -- eapply flush_ok_same; [apply (ci_flush _ _ _ _ HI)|reflexivity|reflexivity].
      + injection HStep as <- <-. eapply cinv_quiet; eauto; try lia.
    - injection HStep as <- <-. unfold hand in EH. rewrite Hpc in EH. destruct H as [|B [|? ?]]; try discriminate.
      injection EH as ->. inversion GH as [|? ? GB _]; subst.
      exists M, (Is ++ [B]), (set_nth i [] Hs). apply (cinv_upd c M Is Hs i t [B] _ _ [] M (Is ++ [B]) HI Hi HH); auto.
      + now apply rep_push.
      + exists (fun _ => False). split; intros v.
        * unfold heldv. rewrite !store_In. cbn [push_seg d_levels concat]. rewrite concat_app, in_app_iff.
          cbn [concat]. rewrite app_nil_r. simpl. tauto.
        * unfold wrote, stamp, applied, napp. cbn [t_pc t_call]. rewrite Hpc. tauto.
      + simpl. lia.
      + right. left. unfold stamp. cbn [t_pc]. now rewrite Hpc.
      + eapply flush_ok_push; [apply (ci_flush _ _ _ _ HI)|reflexivity|reflexivity].
    - discriminate.
  Qed.

  Lemma cinv_spawn c w p : cinv c -> call_ok w -> stamp (mkTh w p) = None -> hand (mkTh w p) = [] -> cinv (spawn c w p).
  Proof.
    intros (M & Is & Hs & HI) Hw HS HH. exists M, Is, (Hs ++ [[]]). constructor; cbn [spawn c_db c_threads c_flush].
    - apply (ci_rep _ _ _ _ HI).
    - apply Forall2_app; [apply (ci_hand _ _ _ _ HI)|]. constructor; [|constructor]. auto.
    - intros v. rewrite !ex_snoc. pose proof (ci_store _ _ _ _ HI v) as [V1 V2]. split.
      + intros [X|[X|X]]; [left; apply V1; auto|left; apply V1; auto|destruct X].
      + intros [X|X]; [apply V2 in X as [X|X]; auto|exfalso; exact (wrote_none v _ HS X)].
    - assert (X : forall i t ts, nth_error (c_threads c ++ [mkTh w p]) i = Some t -> stamp t = Some ts -> nth_error (c_threads c) i = Some t).
      { intros i t ts Hi E. destruct (Nat.lt_ge_cases i (length (c_threads c))) as [L|L].
        - now rewrite nth_error_app1 in Hi.
        - rewrite nth_error_app2 in Hi by auto. destruct (i - length (c_threads c)) as [|[|?]]; try discriminate.
          injection Hi as <-. congruence. }
      intros i j t u ts Hi Hj Et Eu. eapply (ci_ts _ _ _ _ HI); eauto.
    - intros t ts Ht E. apply in_app_iff in Ht as [Ht|[<-|[]]]; [eapply (ci_clock _ _ _ _ HI); eauto|congruence].
    - apply Forall_app. split; [apply (ci_calls _ _ _ _ HI)|]. constructor; auto.
    - apply (ci_flush _ _ _ _ HI).
  Qed.

  (** The flush changes which layer holds a version, not which versions there are. *)
  Lemma cinv_flush_to c M Is Hs d' Is' f :
    cinv_at c M Is Hs -> rep d' M Is' -> d_clock d' = d_clock (c_db c) ->
    (forall v, In v (store M Is' (d_levels d')) <-> In v (store M Is (d_levels (c_db c)))) ->
    flush_ok f d' Is' -> cinv_at (mkC d' (c_threads c) f) M Is' Hs.
  Proof.
    intros HI HR EC HV HF. constructor; cbn [c_db c_threads c_flush]; auto.
    - apply (ci_hand _ _ _ _ HI).
    - intros v. rewrite HV. apply (ci_store _ _ _ _ HI).
    - apply (ci_ts _ _ _ _ HI).
    - rewrite EC. apply (ci_clock _ _ _ _ HI).
    - apply (ci_calls _ _ _ _ HI).
  Qed.

  Lemma cinv_flush level c : cinv c -> cinv (flush_step key_of level c).
  Proof.
    intros (M & Is & Hs & HI). pose proof (ci_rep _ _ _ _ HI) as HR. pose proof HR as [HM HIm HG HS HD HN HC].
    pose proof (ci_flush _ _ _ _ HI) as HF. unfold flush_step. destruct (c_flush c) as [|id segs|n] eqn:EF.
    - rewrite HIm. destruct Is as [|A Is]; [simpl; exists M, [], Hs; exact HI|].
      cbn [map]. change (seg_of A :: map seg_of Is) with (map seg_of (A :: Is)).
      exists M, (A :: Is), Hs. eapply cinv_flush_to; eauto; try reflexivity.
      + constructor; cbn [d_mem d_imm d_levels d_next_id]; auto.
        eapply Forall_impl; [|exact HD]. intros x Hx. simpl in Hx. lia.
      + simpl. exists (A :: Is), []. rewrite app_nil_r. split; auto. split; auto. split; [discriminate|].
        split; [lia|]. eapply ids_bound; eauto. lia.
    - destruct HF as (B & rest & EI & -> & HB & Hid & Hnin).
      assert (GB : Forall (good key_of) B) by (rewrite EI in HG; now apply Forall_app in HG).
      destruct (write_flush_repr key_of id B GB HB) as (t & D & X & E1 & E2 & E3 & E4 & E5 & E6).
      rewrite E1. set (ls' := tidy (@t_id K R) (add_ssts (@t_id K R) level [t] (d_levels (c_db c)))).
      assert (HP : Permutation (concat ls') (t :: concat (d_levels (c_db c)))).
      { unfold ls'. etransitivity; [apply tidy_perm|]. apply (add_ssts_perm (@t_id K R) level [t]).
        - repeat constructor. simpl; tauto.
        - intros e [<-|[]]. now rewrite E2. }
      assert (HO : sst_ok key_of t (concat B)).
      { exists D, X. split; auto. split; auto. intros v. symmetry. apply E4. }
      destruct (sst_ok_tok key_of t (concat B) HO) as [T1 T2].
      { destruct B as [|b B]; [congruence|]. inversion GB as [|x l (_ & _ & HA) HX EX]; subst. simpl. destruct b; [exfalso; apply HA; reflexivity|discriminate]. }
      assert (FT : forall v, In v (flat_map tver (concat ls')) <-> In v (tver t) \/ In v (flat_map tver (concat (d_levels (c_db c))))).
      { intros v. rewrite <- in_app_iff.
        change (tver t ++ flat_map tver (concat (d_levels (c_db c)))) with (flat_map tver (t :: concat (d_levels (c_db c)))).
        split; intros H; (eapply Permutation_in; [|exact H]); apply Permutation_flat_map; auto using Permutation_sym. }
      exists M, Is, Hs. eapply cinv_flush_to; eauto; try reflexivity.
      + constructor; cbn [d_mem d_imm d_levels d_next_id]; auto.
        * eapply Permutation_Forall; [apply Permutation_sym, HP|]. constructor; auto.
        * eapply Permutation_Forall; [apply Permutation_sym, HP|]. constructor; [now rewrite E2|]. exact HD.
        * eapply Permutation_NoDup; [apply Permutation_map, Permutation_sym, HP|]. simpl. constructor; auto. now rewrite E2.
      + cbn [d_levels]. intros v. rewrite !store_In, FT, T1. split; [|tauto].
        intros [Y|[Y|[Y|Y]]]; auto. right. left. rewrite EI, concat_app, in_app_iff. auto.
      + simpl. exists B, rest. split; auto. split; [now rewrite map_length|]. intros v Hv. apply FT. left. now apply T1.
    - destruct HF as (B & rest & EI & EL & HV).
      assert (ES : skipn n Is = rest).
      { rewrite EI, <- EL. rewrite skipn_app, Nat.sub_diag, skipn_all. reflexivity. }
      exists M, rest, Hs. eapply cinv_flush_to; eauto; try reflexivity.
      + constructor; cbn [d_mem d_imm d_levels d_next_id]; auto.
        * rewrite HIm, <- ES. clear. revert n. induction Is as [|a Is IH]; intros [|n]; simpl; auto.
        * rewrite EI in HG. now apply Forall_app in HG.
      + cbn [d_levels]. intros v. rewrite !store_In, EI, concat_app, in_app_iff. split; [tauto|].
        intros [Y|[[Y|Y]|Y]]; auto.
  Qed.

  Lemma cinv_drop c i : cinv c -> cinv (cstep c (EDrop i)).
  Proof.
    intros HI. cbn [Sched.cstep]. destruct (nth_error (c_threads c) i) as [t|] eqn:Hi; auto.
    destruct (awaits (t_pc t)) eqn:EA; auto. destruct HI as (M & Is & Hs & HI).
    assert (W : forall v, ~ wrote v t).
    { intros v (ts & E & L). unfold stamp, applied, napp in *. destruct (t_pc t) as [got|n| |u [|n]|u n sg|u|u sg|o]; try discriminate.
      cbn [firstn flat_map] in L. destruct (last_mut_hits _ _ _ _ L) as (x & [] & _). }
    apply (cinv_quiet c M Is Hs i t (PDone GaveUp) (c_db c)); auto; try lia.
    - unfold hand. destruct (t_pc t); auto; discriminate.
    - intros v. split; intros F; exfalso; [|exact (W v F)]. exact (wrote_none v (mkTh (t_call t) (PDone GaveUp)) eq_refl F).
  Qed.

  Definition nobody_failed (c : conc K R) : Prop := Forall (fun t => ~ failed t) (c_threads c).

  Lemma cinv_step c e : cinv c -> ev_ok key_of e -> (d_clock (c_db c) + 1 < 2 ^ 64)%N ->
    nobody_failed (cstep c e) -> cinv (cstep c e).
  Proof.
    intros HI HE HC HN. destruct e as [rows dec|rows dec|ms|i| |i|]; cbn [Sched.cstep] in *.
    - apply cinv_spawn; auto.
    - apply cinv_spawn; auto.
    - apply cinv_spawn; auto.
    - destruct (nth_error (c_threads c) i) as [t|] eqn:Hi; auto.
      destruct (call_step (c_db c) (others i (c_threads c)) t) as [[d p]|] eqn:ES; auto.
      eapply cinv_call; eauto. intros ->. unfold nobody_failed in HN. rewrite Forall_forall in HN.
      apply (HN (mkTh (t_call t) (PDone Failed))); [|reflexivity]. cbn [c_threads].
      eapply nth_error_In. eapply nth_set_same; eauto.
    - now apply cinv_flush.
    - now apply cinv_drop.
    - destruct HI as (M & Is & Hs & HI). exists M, Is, Hs. destruct HI. constructor; auto.
  Qed.

  (** Returned calls stay as they are. *)
  Lemma flush_threads level c : c_threads (flush_step key_of level c) = c_threads c.
  Proof.
    unfold flush_step. destruct (c_flush c) as [|id segs|n]; simpl; auto.
    - destruct (d_imm (c_db c)); auto.
    - destruct (write_flush _ _ _); auto.
  Qed.
  Lemma returned_stays c e i t : nth_error (c_threads c) i = Some t -> returned t ->
    nth_error (c_threads (cstep c e)) i = Some t.
  Proof.
    intros Hi [o Ho]. destruct e as [rows dec|rows dec|ms|j| |j|]; cbn [Sched.cstep spawn c_threads];
      try (rewrite nth_error_app1; [auto|apply nth_error_Some; congruence]).
    - destruct (nth_error (c_threads c) j) as [u|] eqn:Hj; auto.
      destruct (call_step (c_db c) (others j (c_threads c)) u) as [[d p]|] eqn:ES; auto. cbn [c_threads].
      destruct (Nat.eq_dec j i) as [->|N]; [|now rewrite nth_set_other].
      assert (u = t) by congruence. subst u. unfold Sched.call_step in ES. rewrite Ho in ES. discriminate.
    - now rewrite flush_threads.
    - destruct (nth_error (c_threads c) j) as [u|] eqn:Hj; auto. destruct (awaits (t_pc u)) eqn:EA; auto. cbn [c_threads].
      destruct (Nat.eq_dec j i) as [->|N]; [|now rewrite nth_set_other].
      assert (u = t) by congruence. subst u. rewrite Ho in EA. discriminate.
    - exact Hi.
  Qed.
  Lemma returned_stays_run es : forall c i t, nth_error (c_threads c) i = Some t -> returned t ->
    nth_error (c_threads (crun c es)) i = Some t.
  Proof.
    induction es as [|e es IH]; intros c i t Hi Ht; auto.
    change (crun c (e :: es)) with (crun (cstep c e) es). apply IH; auto. now apply returned_stays.
  Qed.
  Lemma failed_back es c : nobody_failed (crun c es) -> nobody_failed c.
  Proof.
    unfold nobody_failed. rewrite !Forall_forall. intros H t Ht F. apply In_nth_error in Ht as [i Hi].
    apply (H t); auto. eapply nth_error_In. eapply returned_stays_run; eauto. now exists Failed.
  Qed.

  Lemma clock_step c e : (d_clock (c_db (cstep c e)) <= d_clock (c_db c) + 1)%N.
  Proof.
    destruct e as [rows dec|rows dec|ms|i| |i|]; cbn [Sched.cstep spawn c_db]; try lia.
    - destruct (nth_error (c_threads c) i) as [t|] eqn:Hi; [|lia].
      destruct (call_step (c_db c) (others i (c_threads c)) t) as [[d p]|] eqn:ES; [|lia]. cbn [c_db].
      unfold Sched.call_step in ES.
      destruct (t_pc t) as [got|n| |ts n|ts n sg|ts|ts sg|o].
      + destruct (nth_error _ got); [destruct (existsb _ _); [discriminate|]|]; injection ES as <- <-; lia.
      + destruct (nth_error _ n); injection ES as <- <-; lia.
      + destruct (parts_of (t_call t)); injection ES as <- <-; [lia|]. cbn [tick d_clock]. apply N.mod_le. discriminate.
      + destruct (nth_error _ n); [destruct (put_part _ _ _ _) as [m [sg|]|m|]|]; injection ES as <- <-; simpl; lia.
      + injection ES as <- <-. simpl. lia.
      + destruct (dec_of _); [destruct (seal _ _)|]; injection ES as <- <-; simpl; lia.
      + injection ES as <- <-. simpl. lia.
      + discriminate.
    - unfold flush_step. destruct (c_flush c) as [|id segs|n]; simpl; try lia.
      + destruct (d_imm (c_db c)); simpl; lia.
      + destruct (write_flush _ _ _); simpl; lia.
    - destruct (nth_error (c_threads c) i) as [t|]; [destruct (awaits (t_pc t))|]; simpl; lia.
  Qed.
  Lemma clock_run es : forall c, (d_clock (c_db (crun c es)) <= d_clock (c_db c) + N.of_nat (length es))%N.
  Proof.
    induction es as [|e es IH]; intros c; [simpl; lia|].
    change (crun c (e :: es)) with (crun (cstep c e) es). specialize (IH (cstep c e)). pose proof (clock_step c e).
    cbn [length]. lia.
  Qed.

  Lemma crun_app c es es' : crun c (es ++ es') = crun (crun c es) es'.
  Proof. apply fold_left_app. Qed.

  Lemma cinv_run es : forall c, cinv c -> Forall (ev_ok key_of) es ->
    (d_clock (c_db c) + N.of_nat (length es) < 2 ^ 64)%N -> nobody_failed (crun c es) -> cinv (crun c es).
  Proof.
    induction es as [|e es IH]; intros c HI HE HC HN; auto.
    change (crun c (e :: es)) with (crun (cstep c e) es) in *. inversion HE; subst. cbn [length] in HC.
    apply IH; auto.
    - apply cinv_step; auto; [lia|]. now apply failed_back in HN.
    - pose proof (clock_step c e). lia.
  Qed.
  Lemma cinv_reach capacity es : 1 <= capacity -> Forall (ev_ok key_of) es -> (N.of_nat (length es) < 2 ^ 64)%N ->
    nobody_failed (crun (cstart capacity) es) -> cinv (crun (cstart capacity) es).
  Proof.
    intros HC HE HL HN. apply cinv_run; auto. now apply cinv_start.
  Qed.
End SchedInv.
