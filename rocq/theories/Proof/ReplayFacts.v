(** Recovery applies transactions all-or-nothing. *)
From Coq Require Import List NArith Bool Lia.
From Verif Require Import Model.Columns Model.Frame Model.WalScan Model.Replay Spec.WalSpec Spec.ReplaySpec Proof.FrameFacts.
Import ListNotations.
Local Open Scope N_scope.

Section Facts.
  Context {P S : Type}.
  Variable apply : P -> N -> S -> option S.
  Notation wrec := (wrec P).

  (** *** The pending map *)
  Lemma get_remove id j (m : list (N * list P)) : pn_get j (pn_remove id m) = if j =? id then None else pn_get j m.
  Proof.
    induction m as [|[i l] m IH]; cbn.
    - now destruct (j =? id).
    - destruct (N.eqb_spec i id) as [->|Ei]; cbn [negb].
      + fold (pn_remove id m). rewrite IH. destruct (N.eqb_spec j id) as [->|]; auto. destruct (N.eqb_spec id j); [congruence|auto].
      + fold (pn_remove id m). cbn [pn_get]. rewrite IH. destruct (N.eqb_spec j id) as [->|]; auto. destruct (N.eqb_spec i id); [congruence|auto].
  Qed.
  Lemma get_touch id j (m : list (N * list P)) :
    pn_get j (pn_touch id m) = if j =? id then Some (match pn_get id m with Some l => l | None => [] end) else pn_get j m.
  Proof.
    unfold pn_touch. destruct (pn_get id m) eqn:E.
    - destruct (N.eqb_spec j id) as [->|]; auto.
    - cbn [pn_get]. destruct (N.eqb_spec j id) as [->|]; [now rewrite N.eqb_refl|]. destruct (N.eqb_spec id j); [congruence|auto].
  Qed.
  Lemma get_push id j p (m : list (N * list P)) :
    pn_get j (pn_push id p m) = if j =? id then Some ((match pn_get id m with Some l => l | None => [] end) ++ [p]) else pn_get j m.
  Proof.
    unfold pn_push. destruct (pn_get id m) eqn:E; cbn [pn_get].
    - destruct (N.eqb_spec j id) as [->|Hj]; [now rewrite N.eqb_refl|]. destruct (N.eqb_spec id j); [congruence|].
      rewrite get_remove. now destruct (N.eqb_spec j id).
    - destruct (N.eqb_spec j id) as [->|]; [now rewrite N.eqb_refl|]. destruct (N.eqb_spec id j); [congruence|auto].
  Qed.

  Notation apply_list := (apply_all apply).
  Lemma apply_payloads_list l ts s : apply_payloads apply l ts s = apply_list (map (fun p => (p, ts)) l) s.
  Proof. revert s. induction l as [|p l IH]; intros s; cbn; auto. destruct (apply p ts s); auto. Qed.
  Lemma apply_list_app a b s : apply_list (a ++ b) s = match apply_list a s with Some s' => apply_list b s' | None => None end.
  Proof. revert s. induction a as [|[p t] a IH]; intros s; cbn; auto. destruct (apply p t s); auto. Qed.

  (** Timestamps of the commits with recorded mutations. *)
  Definition times_in (pre l : list wrec) : list N :=
    flat_map (fun c => match payloads (fst c) pre with [] => [] | _ => [snd c] end) (commits l).
  Definition acc_max (last : option N) (l : list N) : option N :=
    fold_left (fun a t => Some (match a with Some x => N.max x t | None => t end)) l last.

  Definition live (id : N) (l : list wrec) : Prop := ~ exists r, In r l /\ finishes r = Some id.
  Lemma payloads_app id (a b : list wrec) : payloads id (a ++ b) = payloads id a ++ payloads id b.
  Proof. unfold payloads. now rewrite flat_map_app. Qed.
  Lemma payloads_none id (l : list wrec) : Forall (fun x => ~ about id x) l -> payloads id l = [].
  Proof.
    induction 1 as [|r l H HF IH]; auto. change (r :: l) with ([r] ++ l). rewrite payloads_app, IH, app_nil_r.
    destruct r; cbn in *; auto. destruct (N.eqb_spec id0 id); [contradiction|reflexivity].
  Qed.

  (** The pending map holds the mutations of the transactions that have not finished. *)
  Definition tracks (m : list (N * list P)) (pre : list wrec) : Prop :=
    forall id, live id pre -> match pn_get id m with Some l => l | None => [] end = payloads id pre.

  Lemma live_app id (a : list wrec) r : live id (a ++ [r]) <-> live id a /\ finishes r <> Some id.
  Proof.
    unfold live. split.
    - intros H. split.
      + intros (x & Hx & E). apply H. exists x. rewrite in_app_iff. auto.
      + intros E. apply H. exists r. rewrite in_app_iff. cbn. auto.
    - intros [H1 H2] (x & Hx & E). apply in_app_iff in Hx as [Hx|[<-|[]]]; [|auto]. apply H1. eauto.
  Qed.
  Lemma wf_live (a : list wrec) r b id : log_wf (a ++ r :: b) -> about id r -> live id a.
  Proof.
    intros HW HA (x & Hx & E). apply in_split in Hx as (u & v & ->).
    specialize (HW u x (v ++ r :: b) id). rewrite <- app_assoc in HW. specialize (HW eq_refl E).
    rewrite Forall_forall in HW. apply (HW r); auto. apply in_app_iff. cbn. auto.
  Qed.
  Lemma wf_rest (a : list wrec) r b id : log_wf (a ++ r :: b) -> finishes r = Some id -> payloads id b = [].
  Proof. intros HW E. apply payloads_none. eapply HW; eauto. Qed.

  Lemma replay_gen (post pre : list wrec) m last s : log_wf (pre ++ post) -> tracks m pre ->
    replay apply post m last s =
      match apply_list (flat_map (fun c => map (fun p => (p, snd c)) (payloads (fst c) (pre ++ post))) (commits post)) s with
      | Some s' => Some (s', acc_max last (times_in (pre ++ post) post))
      | None => None
      end.
  Proof.
    revert pre m last s. induction post as [|r post IH]; intros pre m last s HW HT; [reflexivity|].
    assert (HW' : log_wf ((pre ++ [r]) ++ post)) by (rewrite <- app_assoc; exact HW).
    assert (EQ : (pre ++ [r]) ++ post = pre ++ r :: post) by (now rewrite <- app_assoc).
    assert (NOC : (forall i t, r <> RCommit i t) -> commits (r :: post) = commits post).
    { intros H. destruct r; try reflexivity. destruct (H id ts eq_refl). }
    destruct r as [id|id p|id ts|id|]; cbn [replay].
    - rewrite (IH (pre ++ [RBegin id])); auto.
      + now rewrite EQ.
      + intros j HL. apply live_app in HL as [HL _]. rewrite get_touch, payloads_app. cbn. rewrite app_nil_r.
        specialize (HT j HL). destruct (N.eqb_spec j id) as [->|]; auto.
    - rewrite (IH (pre ++ [RPay id p])); auto.
      + now rewrite EQ.
      + intros j HL. apply live_app in HL as [HL _]. rewrite get_push, payloads_app. cbn. specialize (HT j HL).
        destruct (N.eqb_spec j id) as [->|Hj].
        * rewrite N.eqb_refl. cbn. now rewrite HT.
        * destruct (N.eqb_spec id j); [congruence|]. cbn. now rewrite app_nil_r.
    - assert (HL : live id pre) by (eapply wf_live; eauto; reflexivity).
      pose proof (HT id HL) as HG.
      assert (PA : payloads id (pre ++ RCommit id ts :: post) = payloads id pre).
      { rewrite payloads_app. change (payloads id (RCommit id ts :: post)) with (payloads id post).
        rewrite (wf_rest _ _ _ id HW eq_refl). apply app_nil_r. }
      assert (TR : tracks (pn_remove id m) (pre ++ [RCommit id ts])).
      { intros j HJ. apply live_app in HJ as [HJ HN]. cbn in HN. rewrite get_remove, payloads_app. cbn. rewrite app_nil_r.
        destruct (N.eqb_spec j id) as [->|]; [congruence|]. now apply HT. }
      assert (TN : pn_get id m = None -> tracks m (pre ++ [RCommit id ts])).
      { intros EG j HJ. apply live_app in HJ as [HJ HN]. rewrite payloads_app. cbn. rewrite app_nil_r. now apply HT. }
      change (commits (RCommit id ts :: post)) with ((id, ts) :: commits post).
      cbn [flat_map fst snd]. rewrite PA, apply_list_app. unfold times_in.
      change (commits (RCommit id ts :: post)) with ((id, ts) :: commits post). cbn [flat_map fst snd]. rewrite PA.
      rewrite <- HG. destruct (pn_get id m) as [[|q l]|] eqn:EG; cbn [map app].
      + cbn [apply_all]. rewrite (IH (pre ++ [RCommit id ts])); auto. now rewrite EQ.
      + rewrite apply_payloads_list. cbn [map].
        destruct (apply_list ((q, ts) :: map (fun p => (p, ts)) l) s) as [s'|]; auto.
        rewrite (IH (pre ++ [RCommit id ts])); auto. now rewrite EQ.
      + cbn [apply_all]. rewrite (IH (pre ++ [RCommit id ts])); auto. now rewrite EQ.
    - rewrite (IH (pre ++ [RAbort id])); auto.
      + now rewrite EQ.
      + intros j HJ. apply live_app in HJ as [HJ HN]. cbn in HN. rewrite get_remove, payloads_app. cbn. rewrite app_nil_r.
        destruct (N.eqb_spec j id) as [->|]; [congruence|]. now apply HT.
    - rewrite (IH (pre ++ [RSeal])); auto.
      + now rewrite EQ.
      + intros j HJ. apply live_app in HJ as [HJ _]. rewrite payloads_app. cbn. rewrite app_nil_r. now apply HT.
  Qed.

  Lemma tracks_nil : tracks [] [].
  Proof. intros id _. reflexivity. Qed.
  Lemma acc_some l x : acc_max (Some x) l = Some (fold_right N.max x l).
  Proof.
    unfold acc_max. revert x. induction l as [|t l IH]; intros x; cbn; auto. rewrite IH. f_equal.
    clear IH. induction l as [|y l IH]; cbn; lia.
  Qed.
  Lemma acc_newest l : acc_max None l = newest l.
  Proof. destruct l as [|t l]; [reflexivity|]. cbn. apply acc_some. Qed.

  Theorem c16 l s : log_wf l ->
    replay apply l [] None s =
      match apply_list (committed l) s with
      | Some s' => Some (s', newest (commit_times l))
      | None => None
      end.
  Proof. intros H. rewrite (replay_gen l [] [] None s H tracks_nil). now rewrite acc_newest. Qed.

  Lemma wf_prefix (l m : list wrec) : log_wf (l ++ m) -> log_wf l.
  Proof.
    intros H a r b id E F. specialize (H a r (b ++ m) id). rewrite E, <- app_assoc in H. specialize (H eq_refl F).
    apply Forall_app in H. tauto.
  Qed.

  (** *** Identifiers used again *)
  Definition same_pending (idof : N -> N) (pre : list wrec) (m m' : list (N * list P)) : Prop :=
    (forall i l, pn_get i m = Some l -> exists t, idof t = i /\ pn_get t m' = Some l) /\
    (forall t l, pn_get t m' = Some l ->
       pn_get (idof t) m = Some l /\ (exists x, In x pre /\ about t x) /\ ~ exists x, In x pre /\ finishes x = Some t).
  Lemma agree idof pre r post m m' t : one_at_a_time idof (pre ++ r :: post) -> same_pending idof pre m m' -> about t r ->
    pn_get (idof t) m = pn_get t m' /\ forall u l, pn_get u m' = Some l -> u <> t -> idof u <> idof t.
  Proof.
    intros HO [H1 H2] HA.
    assert (HU : forall u l, pn_get u m' = Some l -> u <> t -> idof u <> idof t).
    { intros u l HU HN EI. destruct (H2 u l HU) as (_ & HS & HL). apply HL. eapply HO; eauto. }
    split; auto. destruct (pn_get t m') as [l|] eqn:E; [now apply H2|].
    destruct (pn_get (idof t) m) as [l|] eqn:EM; auto. apply H1 in EM as (u & EU & EM). exfalso.
    apply (HU u l EM); auto. intros ->. congruence.
  Qed.
  Lemma same_other idof pre r m m' : same_pending idof pre m m' -> (forall t, ~ about t r) -> (forall t, finishes r <> Some t) ->
    same_pending idof (pre ++ [r]) m m'.
  Proof.
    intros [H1 H2] HA HF. split; auto. intros t l H. destruct (H2 t l H) as (E & (x & Hx & HX) & HL). split; auto. split.
    - exists x. rewrite in_app_iff. auto.
    - intros (y & Hy & F). apply in_app_iff in Hy as [Hy|[<-|[]]]; [|now apply (HF t)]. apply HL. eauto.
  Qed.
  Lemma same_set idof pre r m m' t new m2 m2' : same_pending idof pre m m' -> about t r -> finishes r = None ->
    live t pre ->
    (forall u l, pn_get u m' = Some l -> u <> t -> idof u <> idof t) ->
    (forall i, pn_get i m2 = if i =? idof t then Some new else pn_get i m) ->
    (forall i, pn_get i m2' = if i =? t then Some new else pn_get i m') ->
    same_pending idof (pre ++ [r]) m2 m2'.
  Proof.
    intros [H1 H2] HA HF HL HU E1 E2. split.
    - intros i l. rewrite E1. destruct (N.eqb_spec i (idof t)) as [->|Hi].
      + intros H. inversion H; subst. exists t. split; auto. now rewrite E2, N.eqb_refl.
      + intros H. apply H1 in H as (u & EU & H). exists u. split; auto. rewrite E2. destruct (N.eqb_spec u t); [congruence|auto].
    - intros u l. rewrite E2. destruct (N.eqb_spec u t) as [->|Hu].
      + intros H. inversion H; subst. split; [now rewrite E1, N.eqb_refl|]. split.
        * exists r. rewrite in_app_iff. cbn. auto.
        * intros (y & Hy & F). apply in_app_iff in Hy as [Hy|[<-|[]]]; [|congruence]. apply HL. eauto.
      + intros H. specialize (HU u l H Hu). destruct (H2 u l H) as (E & (x & Hx & HX) & HN). split; [|split].
        * rewrite E1. destruct (N.eqb_spec (idof u) (idof t)); [contradiction|auto].
        * exists x. rewrite in_app_iff. auto.
        * intros (y & Hy & F). apply in_app_iff in Hy as [Hy|[<-|[]]]; [|congruence]. apply HN. eauto.
  Qed.
  Lemma same_end idof pre r m m' t m2 m2' : same_pending idof pre m m' -> finishes r = Some t ->
    (forall u l, pn_get u m' = Some l -> u <> t -> idof u <> idof t) ->
    (forall i, pn_get i m2 = if i =? idof t then None else pn_get i m) ->
    (forall i, pn_get i m2' = if i =? t then None else pn_get i m') ->
    same_pending idof (pre ++ [r]) m2 m2'.
  Proof.
    intros [H1 H2] HF HU E1 E2. split.
    - intros i l. rewrite E1. destruct (N.eqb_spec i (idof t)) as [->|Hi]; [discriminate|].
      intros H. apply H1 in H as (u & EU & H). exists u. split; auto. rewrite E2. destruct (N.eqb_spec u t); [congruence|auto].
    - intros u l. rewrite E2. destruct (N.eqb_spec u t) as [->|Hu]; [discriminate|].
      intros H. specialize (HU u l H Hu). destruct (H2 u l H) as (E & (x & Hx & HX) & HN). split; [|split].
      + rewrite E1. destruct (N.eqb_spec (idof u) (idof t)); [contradiction|auto].
      + exists x. rewrite in_app_iff. auto.
      + intros (y & Hy & F). apply in_app_iff in Hy as [Hy|[<-|[]]]; [|congruence]. apply HN. eauto.
  Qed.

  Lemma replay_rename idof : forall post pre m m' last s, log_wf (pre ++ post) -> one_at_a_time idof (pre ++ post) ->
    same_pending idof pre m m' ->
    replay apply (map (rename idof) post) m last s = replay apply post m' last s.
  Proof.
    induction post as [|r post IH]; intros pre m m' last s HW HO HP; [reflexivity|].
    assert (NEXT : forall m2 m2' last2 s2, same_pending idof (pre ++ [r]) m2 m2' ->
      replay apply (map (rename idof) post) m2 last2 s2 = replay apply post m2' last2 s2).
    { intros. apply (IH (pre ++ [r])); auto; now rewrite <- app_assoc. }
    destruct r as [t|t p|t ts|t|]; cbn [map rename replay].
    - destruct (agree idof pre _ post m m' t HO HP eq_refl) as [EA EU]. apply NEXT.
      eapply (same_set idof pre _ m m' t (match pn_get t m' with Some l => l | None => [] end)); eauto; try reflexivity.
      + eapply wf_live; eauto. reflexivity.
      + intros i. rewrite get_touch, EA. destruct (i =? idof t); auto.
      + intros i. rewrite get_touch. auto.
    - destruct (agree idof pre _ post m m' t HO HP eq_refl) as [EA EU]. apply NEXT.
      eapply (same_set idof pre _ m m' t (match pn_get t m' with Some l => l | None => [] end ++ [p])); eauto; try reflexivity.
      + eapply wf_live; eauto. reflexivity.
      + intros i. rewrite get_push, EA. destruct (i =? idof t); auto.
      + intros i. rewrite get_push. auto.
    - destruct (agree idof pre _ post m m' t HO HP eq_refl) as [EA EU]. rewrite EA.
      assert (SE : same_pending idof (pre ++ [RCommit t ts]) (pn_remove (idof t) m) (pn_remove t m')).
      { eapply same_end; eauto; try reflexivity; intros i; now rewrite get_remove. }
      destruct (pn_get t m') as [[|q l]|] eqn:EG.
      + now apply NEXT.
      + destruct (apply_payloads apply (q :: l) ts s); auto.
      + apply NEXT. eapply same_end; eauto; try reflexivity; intros i.
        * destruct (N.eqb_spec i (idof t)); subst; auto.
        * destruct (N.eqb_spec i t); subst; auto.
    - destruct (agree idof pre _ post m m' t HO HP eq_refl) as [EA EU]. apply NEXT.
      eapply same_end; eauto; try reflexivity; intros i; now rewrite get_remove.
    - apply NEXT. apply same_other; auto; cbn; auto; discriminate.
  Qed.
  Theorem c16_reused idof own s : log_wf own -> one_at_a_time idof own ->
    replay apply (map (rename idof) own) [] None s =
      match apply_list (committed own) s with
      | Some s' => Some (s', newest (commit_times own))
      | None => None
      end.
  Proof.
    intros HW HO. rewrite (replay_rename idof own [] [] []); auto; [now apply c16|]. split; discriminate.
  Qed.
  Lemma one_prefix idof (l m : list wrec) : one_at_a_time idof (l ++ m) -> one_at_a_time idof l.
  Proof. intros H a r b t o E. specialize (H a r (b ++ m) t o). apply H. now rewrite E, <- app_assoc. Qed.

  (** *** Pieces: what belongs to one transaction *)
  Lemma commits_one (l : list wrec) id t1 t2 : log_wf l -> In (id, t1) (commits l) -> In (id, t2) (commits l) -> t1 = t2.
  Proof.
    intros HW H1 H2. unfold commits in *. apply in_flat_map in H1 as (r1 & H1 & E1). apply in_flat_map in H2 as (r2 & H2 & E2).
    destruct r1; try contradiction. destruct r2; try contradiction. destruct E1 as [E1|[]]. destruct E2 as [E2|[]].
    inversion E1; inversion E2; subst. apply in_split in H1 as (a & b & ->).
    apply in_app_iff in H2 as [H2|[H2|H2]].
    - exfalso. apply in_split in H2 as (u & v & ->).
      specialize (HW u (RCommit id t2) (v ++ RCommit id t1 :: b) id). rewrite <- app_assoc in HW. specialize (HW eq_refl eq_refl).
      rewrite Forall_forall in HW. apply (HW (RCommit id t1)); [apply in_app_iff; cbn; auto|reflexivity].
    - now inversion H2.
    - exfalso. specialize (HW a (RCommit id t1) b id eq_refl eq_refl). rewrite Forall_forall in HW. apply (HW _ H2). reflexivity.
  Qed.
  Lemma commit_once (l : list wrec) id t1 t2 : log_wf l -> In (RCommit id t1) l -> In (RCommit id t2) l -> t1 = t2.
  Proof.
    intros HW H1 H2. apply (commits_one l id); auto; apply in_flat_map; [exists (RCommit id t1)|exists (RCommit id t2)]; cbn; auto.
  Qed.
  Lemma committed_In (l : list wrec) p ts : In (p, ts) (committed l) <-> exists id, In (RCommit id ts) l /\ In (RPay id p) l.
  Proof.
    unfold committed. rewrite in_flat_map. split.
    - intros ([id t] & H1 & H2). apply in_map_iff in H2 as (q & E & H2). inversion E; subst. cbn in *. exists id. split.
      + unfold commits in H1. apply in_flat_map in H1 as (r & H1 & E1). destruct r; try contradiction. destruct E1 as [E1|[]].
        inversion E1; subst. exact H1.
      + unfold payloads in H2. apply in_flat_map in H2 as (r & H2 & E2). destruct r; try contradiction.
        destruct (N.eqb_spec id0 id) as [->|]; [|contradiction]. destruct E2 as [->|[]]. exact H2.
    - intros (id & H1 & H2). exists (id, ts). split.
      + apply in_flat_map. exists (RCommit id ts). cbn. auto.
      + apply in_map_iff. exists p. split; auto. apply in_flat_map. exists (RPay id p). split; auto. cbn. rewrite N.eqb_refl. cbn. auto.
  Qed.
End Facts.

(** *** From the bytes on disk *)
Section Disk.
  Context {S : Type}.
  Variable array : Type.
  Variable array_len : array -> nat.
  Variable ipc_write : batch array -> bytes.
  Variable ipc_read : bytes -> option (list (batch array)).
  Variable apply : wpayload array -> N -> S -> option S.
  Notation carries := (carries array array_len ipc_write ipc_read).

  Lemma kept_prefix floor segs s last n :
    exists more, kept_frames floor (segs ++ [(s, last)]) = kept_frames floor (segs ++ [(s, firstn n last)]) ++ more.
  Proof.
    assert (G : exists more, kept_seg floor s last = kept_seg floor s (firstn n last) ++ more).
    { pose proof (firstn_skipn n last) as E. revert E. generalize (firstn n last) (skipn n last). intros a b <-.
      unfold kept_seg. destruct floor as [f|]; [|eauto]. destruct (s <? r_seq f); [exists []; reflexivity|].
      destruct (s =? r_seq f); [rewrite filter_app|]; eauto. }
    destruct G as (more & E). exists more. rewrite !kept_app, !kept_one, E. now rewrite app_assoc.
  Qed.
  Theorem c16_disk floor segs s last k n evs idof own st :
    Forall (fun x => Forall frame_ok (snd x)) segs -> Forall frame_ok last ->
    (k <= length (log_bytes last))%nat -> whole_frames last k n ->
    Forall2 carries (kept_frames floor (segs ++ [(s, last)])) evs ->
    map to_wrec evs = map (rename idof) own -> log_wf own -> one_at_a_time idof own ->
    exists found lost, evs = found ++ lost /\
      Forall2 carries (kept_frames floor (segs ++ [(s, firstn n last)])) found /\
      scan_segments array array_len ipc_read floor (dir_of segs ++ [(s, firstn k (log_bytes last))]) = Ok found /\
      replay apply (map to_wrec found) [] None st =
        match apply_all apply (committed (firstn (length found) own)) st with
        | Some st' => Some (st', newest (commit_times (firstn (length found) own)))
        | None => None
        end.
  Proof.
    intros HS HL HK HW HE EM HF HO. destruct (kept_prefix floor segs s last n) as (more & E). rewrite E in HE.
    apply Forall2_split in HE as (found & lost & -> & H1 & H2). exists found, lost. split; auto. split; auto. split.
    - eapply scan_cut; eauto.
    - assert (EF : map to_wrec found = map (rename idof) (firstn (length found) own)).
      { rewrite <- firstn_map, <- EM, map_app, firstn_app, map_length, PeanoNat.Nat.sub_diag, firstn_O, app_nil_r.
        rewrite <- (map_length to_wrec). now rewrite firstn_all. }
      rewrite EF. pose proof (firstn_skipn (length found) own) as ES. rewrite <- ES in HF, HO.
      apply c16_reused; [eapply wf_prefix; eauto|eapply one_prefix; eauto].
  Qed.
End Disk.
