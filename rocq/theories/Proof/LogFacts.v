(** Where the versions are in the log, and what recovery finds after appending, pruning
    and publishing references. *)
From Coq Require Import List NArith Bool Sorted Permutation Lia Arith.
From Verif Require Import Base.Order Model.OMap Model.KeyTs Model.MemTable Model.Immutable
     Model.SsTable Model.Version Model.Compact Model.Planner Model.Db Model.DbCompact Model.WalScan Model.Replay
     Model.WalWriter Spec.Mvcc Spec.History Spec.ReplaySpec Model.Run Model.WalDb
     Proof.HistFacts Proof.DbFacts Proof.RunFacts Proof.Refine
     Proof.ReplayFacts Proof.ReplayGen Proof.WriterFacts Proof.RecoverDb.
Import ListNotations.
Local Arguments kcmp : simpl never.
Local Open Scope N_scope.

Lemma app_split_at {A} (P : A -> Prop) (pre t' ta : list A) x rest :
  pre ++ t' = ta ++ x :: rest -> (forall y, In y pre -> P y) -> ~ P x -> exists ta', ta = pre ++ ta' /\ t' = ta' ++ x :: rest.
Proof.
  revert ta. induction pre as [|y pre IH]; intros ta E HP HX; [exists ta; auto|].
  destruct ta as [|z ta]; cbn in E; inversion E; subst.
  - elim HX. apply HP. cbn. auto.
  - destruct (IH ta H1) as (ta' & -> & E2); auto. { intros w Hw. apply HP. cbn. auto. }
    exists ta'. auto.
Qed.
Lemma app_case {A} (l new a : list A) x b : l ++ new = a ++ x :: b ->
  (exists b1, l = a ++ x :: b1 /\ b = b1 ++ new) \/ (exists a1, new = a1 ++ x :: b /\ a = l ++ a1).
Proof.
  revert a. induction l as [|y l IH]; intros a E; [right; exists a; auto|].
  destruct a as [|z a]; cbn in E; inversion E; subst; [left; exists l; auto|].
  destruct (IH a H1) as [(b1 & -> & ->)|(a1 & -> & ->)]; [left; exists b1; auto|right; exists a1; auto].
Qed.
Lemma head_le (l : list N) x y r : StronglySorted N.lt l -> l = x :: r -> In y l -> x <= y.
Proof. intros HS -> [<-|H]; [lia|]. inversion HS as [|? ? _ HF]; subst. rewrite Forall_forall in HF. specialize (HF y H). lia. Qed.

Section LogFacts.
  Context {K : Type} {KO : KeyOrd K} {R : Type}.
  Variable key_of : R -> option K.
  Notation vers := (@vers K R).
  Notation tver := (tver key_of).
  Notation last_mut := (last_mut key_of).
  Notation rec := (rec K R).
  Notation pay := (pay K R).
  Notation tframe := (N * frame rec)%type.

  Definition rc (t : tframe) : rec := snd (snd t).
  (** The records of the log, in order. *)
  Definition log_recs (w : writer rec) : list rec := map rc (tagged (w_files w)).

  (** *** Records of one transaction *)
  Definition of_id (id : N) (r : rec) : Prop :=
    match r with RBegin i | RPay i _ | RCommit i _ | RAbort i => i = id | RSeal => True end.
  Lemma since_app id (l l' : list rec) : since id (l ++ l') = fold_left (since_step id) l' (since id l).
  Proof. unfold since. now rewrite fold_left_app. Qed.
  Lemma since_other j id (new l : list rec) : Forall (of_id id) new -> j <> id -> since j (l ++ new) = since j l.
  Proof.
    intros HF HJ. rewrite since_app. generalize (since j l). induction HF as [|r new Hr HF IH]; intros acc; auto.
    cbn [fold_left]. rewrite IH. destruct r as [i|i q|i t|i|]; cbn in *; subst; auto; destruct (N.eqb_spec id j); congruence.
  Qed.
  Lemma since_pays id (l : list rec) ps : since id (l ++ map (RPay id) ps) = since id l ++ ps.
  Proof.
    rewrite since_app. generalize (since id l). induction ps as [|p ps IH]; intros acc; cbn; [now rewrite app_nil_r|].
    rewrite N.eqb_refl, IH, <- app_assoc. reflexivity.
  Qed.
  Lemma since_begin id j (l : list rec) : since j (l ++ [RBegin id]) = since j l.
  Proof. now rewrite since_snoc. Qed.
  Definition no_commit (l : list rec) : Prop := forall i t, ~ In (RCommit i t) l.
  Lemma gcom_no_commit (new : list rec) : no_commit new -> forall pre, gcom pre new = [].
  Proof.
    induction new as [|r new IH]; intros HN pre; auto. cbn [gcom]. rewrite IH by (intros i t H; apply (HN i t); cbn; auto).
    destruct r; auto. exfalso. apply (HN id ts). cbn. auto.
  Qed.
  Lemma applied_no_commit (l new : list rec) p ts : no_commit new -> applied (l ++ new) p ts -> applied l p ts.
  Proof.
    intros HN H. apply gcom_In in H. rewrite gcom_app, (gcom_no_commit new HN), app_nil_r in H. now apply gcom_In.
  Qed.
  Lemma since_suffix j (a b : list rec) : since j (a ++ b) = [] -> since j b = [].
  Proof.
    intros H. destruct (since j b) as [|p l] eqn:E; auto. exfalso.
    assert (X : In p (since j b)) by (rewrite E; cbn; auto). apply since_In in X as (x & y & -> & U).
    assert (In p (since j (a ++ x ++ RPay j p :: y))); [|rewrite H in *; auto].
    apply since_In. exists (a ++ x), y. rewrite <- app_assoc. auto.
  Qed.

  Section Txn.
    Variables (id ts : N) (b0 : list rec) (ps : list pay) (l : list rec).
    Hypothesis HB : b0 = [] \/ b0 = [RBegin id].
    Hypothesis HF : since id l = [].
    Let new := b0 ++ map (RPay id) ps ++ [RCommit id ts].

    Lemma new_of_id : Forall (of_id id) new.
    Proof.
      unfold new. rewrite !Forall_app. split; [destruct HB as [->| ->]; repeat constructor|]. split; [|repeat constructor].
      apply Forall_map, Forall_forall. intros p _. reflexivity.
    Qed.
    Lemma pays_no_commit : no_commit (b0 ++ map (RPay id) ps).
    Proof.
      intros i t H. apply in_app_or in H as [H|H]; [destruct HB as [->| ->]; [destruct H|destruct H as [H|[]]; discriminate]|].
      apply in_map_iff in H as (p & E & _). discriminate.
    Qed.
    Lemma since_new_pays : since id (l ++ b0 ++ map (RPay id) ps) = ps.
    Proof. rewrite app_assoc, since_pays. destruct HB as [->| ->]; [rewrite app_nil_r|rewrite since_begin]; now rewrite HF. Qed.
    Lemma applied_new p t : applied (l ++ new) p t <-> applied l p t \/ (t = ts /\ In p ps).
    Proof.
      unfold new. rewrite app_assoc. rewrite <- !gcom_In, app_assoc, gcom_app, in_app_iff, <- app_assoc.
      rewrite gcom_app, (gcom_no_commit _ pays_no_commit), app_nil_r. cbn [app gcom]. rewrite since_new_pays, app_nil_r.
      rewrite in_map_iff. split.
      - intros [H|(q & E & H)]; auto. inversion E; subst. auto.
      - intros [H|(-> & H)]; auto. right. exists p. auto.
    Qed.
    (** A payload of the transaction with its commit, as positions. *)
    Lemma new_position (p : pay) : In p ps -> exists u v, new = u ++ RPay id p :: v ++ [RCommit id ts] /\ unfinished id v.
    Proof.
      intros H. apply in_split in H as (x & y & ->). exists (b0 ++ map (RPay id) x), (map (RPay id) y). unfold new. split.
      - rewrite map_app, <- !app_assoc. reflexivity.
      - apply Forall_map, Forall_forall. intros q _. cbn. discriminate.
    Qed.
  End Txn.

  (** *** Positions of versions *)
  (** The log has, in segment [q] with frame number [s], a payload with version [v], and
      later the commit of its transaction. *)
  Definition at_log (tg : list tframe) (v : vers) (q s : N) : Prop :=
    exists ta i p tb q2 s2 ts tc,
      tg = ta ++ (q, (s, RPay i p)) :: tb ++ (q2, (s2, RCommit i ts)) :: tc /\
      unfinished i (map rc tb) /\ last_mut ts (pay_muts p) v.

  Lemma at_log_app tg new v q s : at_log tg v q s -> at_log (tg ++ new) v q s.
  Proof.
    intros (ta & i & p & tb & q2 & s2 & ts & tc & -> & U & L). exists ta, i, p, tb, q2, s2, ts, (tc ++ new).
    split; auto. rewrite <- app_assoc, <- app_comm_cons, <- app_assoc, <- app_comm_cons. reflexivity.
  Qed.
  Lemma at_log_suffix pre tg v q s : at_log (pre ++ tg) v q s -> (forall t, In t pre -> fst t < q) -> at_log tg v q s.
  Proof.
    intros (ta & i & p & tb & q2 & s2 & ts & tc & E & U & L) HP.
    destruct (app_split_at (fun t : tframe => fst t < q) _ _ _ _ _ E HP) as (ta' & _ & ->); [cbn; lia|].
    exists ta', i, p, tb, q2, s2, ts, tc. auto.
  Qed.
  Lemma at_log_applied tg v q s : at_log tg v q s -> exists p ts, applied (map rc tg) p ts /\ last_mut ts (pay_muts p) v.
  Proof.
    intros (ta & i & p & tb & q2 & s2 & ts & tc & -> & U & L). exists p, ts. split; auto.
    exists (map rc ta), i, (map rc tb), (map rc tc). split; auto.
    rewrite map_app. cbn [map]. rewrite map_app. reflexivity.
  Qed.
  Lemma at_log_In tg v q s : at_log tg v q s -> exists r, In (q, (s, r)) tg.
  Proof.
    intros (ta & i & p & tb & q2 & s2 & ts & tc & -> & _). exists (RPay i p). apply in_or_app. cbn. auto.
  Qed.
  Lemma rc_split (new : list tframe) u x v z w : map rc new = u ++ x :: v ++ z :: w ->
    exists tu q s tv q2 s2 tw, new = tu ++ (q, (s, x)) :: tv ++ (q2, (s2, z)) :: tw /\ map rc tv = v.
  Proof.
    intros E. apply map_eq_app in E as (tu & t1 & -> & E1 & E). destruct t1 as [|[q [s x']] t1]; [discriminate|].
    cbn [map rc snd] in E. inversion E as [[E2 E3]]. apply map_eq_app in E3 as (tv & t2 & -> & E4 & E3).
    destruct t2 as [|[q2 [s2 z']] t2]; [discriminate|]. cbn [map rc snd] in E3. inversion E3.
    exists tu, q, s, tv, q2, s2, t2. unfold rc at 1. cbn. auto.
  Qed.

  (** *** References *)
  (** Segment [q] is kept by the references, and by every later choice among them. *)
  Record loc_ok (q : N) (refs : list seg_ref) (ids : list (N * option (list N))) : Prop := {
    lo_floor : forall r, floor_of refs = Some r -> r_seq r <= q;
    lo_refs : forall r, In r refs -> q <= r_seq r -> In q (map r_seq refs);
    lo_ids : forall t I x, In (t, Some I) ids -> In x I -> q <= x -> In q I
  }.
  Definition refs_ok (fs : files rec) (refs : list seg_ref) : Prop :=
    StronglySorted N.lt (map r_seq refs) /\ forall r, In r refs -> ref_on fs r.

  Lemma seg_le (w : writer rec) s l : winv w -> In (s, l) (w_files w) -> s <= w_seg w.
  Proof.
    intros [[F1 _] _ _ _ _] H. unfold w_files in *. rewrite map_app in F1. apply SSort_app in F1 as (_ & _ & F).
    apply in_app_or in H as [H|[H|[]]]; [|inversion H; lia]. apply (in_map fst) in H. specialize (F s (w_seg w) H (or_introl eq_refl)). lia.
  Qed.
  Lemma ref_le (w : writer rec) r : winv w -> ref_on (w_files w) r -> r_seq r <= w_seg w.
  Proof. intros HW (f & l & H & _). eapply seg_le; eauto. Qed.
  Lemma refs_ok_grows fs fs' refs : grows fs fs' -> refs_ok fs refs -> refs_ok fs' refs.
  Proof.
    intros G [H1 H2]. split; auto. intros r Hr. destruct (H2 r Hr) as (f & l & HI & E).
    destruct (G _ _ HI) as (l' & HI'). exists f, (l ++ l'). auto.
  Qed.
  Lemma refs_ok_prune a fs refs : refs_ok (a ++ fs) refs ->
    (forall s, In s a -> match floor_of refs with Some f => fst s < r_seq f | None => False end) -> refs_ok fs refs.
  Proof.
    intros [H1 H2] HA. split; auto. intros r Hr. destruct (H2 r Hr) as (f & l & HI & E). exists f, l. split; auto.
    apply in_app_or in HI as [HI|HI]; auto. exfalso. specialize (HA _ HI). destruct refs as [|r0 refs]; [destruct Hr|]. cbn in HA.
    assert (r_seq r0 <= r_seq r); [|lia]. eapply head_le; [exact H1|reflexivity|]. now apply in_map.
  Qed.
  (** A place at or after the active segment. *)
  Lemma loc_fresh (w : writer rec) q refs ids : winv w -> refs_ok (w_files w) refs -> w_seg w <= q ->
    (forall t I x, In (t, Some I) ids -> In x I -> x <= w_seg w) -> loc_ok q refs ids.
  Proof.
    intros HW [_ H2] HQ HI. constructor.
    - intros r Hr. destruct refs as [|r0 refs]; inversion Hr; subst. assert (r_seq r <= w_seg w) by (apply ref_le; auto; apply H2; cbn; auto). lia.
    - intros r Hr L. assert (r_seq r <= w_seg w) by (apply ref_le; auto). replace q with (r_seq r) by lia. now apply in_map.
    - intros t I x Ht Hx L. specialize (HI t I x Ht Hx). replace q with x by lia. exact Hx.
  Qed.

  Lemma all_ids_In ids tables l : all_wal_ids ids tables = Some l ->
    forall x, In x l -> exists t I, In (t, Some I) ids /\ In x I /\ incl I l.
  Proof.
    revert l. induction tables as [|t tables IH]; intros l E x Hx; cbn [all_wal_ids] in E; [inversion E; subst; destruct Hx|].
    destruct (ids_of ids t) as [a|] eqn:EA; [|discriminate]. destruct (all_wal_ids ids tables) as [b|]; [|discriminate]. inversion E; subst.
    apply in_app_or in Hx as [Hx|Hx].
    - unfold ids_of in EA. destruct (find _ ids) as [[t0 o]|] eqn:EF; [|discriminate]. apply find_some in EF as [EF _]. cbn in EA. subst o.
      exists t0, a. split; auto. split; auto. apply incl_appl, incl_refl.
    - destruct (IH b eq_refl x Hx) as (t1 & I & H1 & H2 & H3). exists t1, I. split; auto. split; auto. apply incl_appr, H3.
  Qed.
  Lemma before_ref_In s (l : list seg_ref) r : In r (before_ref s l) -> In r l.
  Proof. induction l as [|x l IH]; cbn; [tauto|]. destruct (_ =? _); cbn; tauto. Qed.
  Lemma before_ref_lt s (l : list seg_ref) : StronglySorted N.lt (map r_seq l) -> In s (map r_seq l) ->
    (forall r, In r (before_ref s l) <-> In r l /\ r_seq r < s) /\ StronglySorted N.lt (map r_seq (before_ref s l)).
  Proof.
    induction l as [|x l IH]; intros HS HI; [destruct HI|]. cbn [map] in *. inversion HS as [|? ? S1 S2]; subst. rewrite Forall_forall in S2.
    cbn [before_ref]. destruct (N.eqb_spec (r_seq x) s) as [E|NE].
    - split; [|constructor]. intros r. cbn. split; [tauto|]. intros [[<-|H] L]; [lia|]. specialize (S2 (r_seq r) (in_map _ _ _ H)). lia.
    - destruct HI as [HI|HI]; [congruence|]. destruct (IH S1 HI) as [I1 I2]. split.
      + intros r. cbn. rewrite I1. split; [|tauto]. intros [<-|[H L]]; [split; auto; apply S2, HI|auto].
      + cbn [map]. constructor; auto. apply Forall_forall. intros y Hy. apply in_map_iff in Hy as (r & <- & Hr). apply S2, in_map. now apply I1.
  Qed.
  Lemma sorted_filter (P : seg_ref -> bool) l : StronglySorted N.lt (map r_seq l) -> StronglySorted N.lt (map r_seq (filter P l)).
  Proof.
    induction l as [|x l IH]; cbn; auto. intros HS. inversion HS as [|? ? S1 S2]; subst. destruct (P x); cbn; auto. constructor; auto.
    rewrite Forall_forall in *. intros y Hy. apply S2. apply in_map_iff in Hy as (r & <- & Hr). apply in_map. apply filter_In in Hr. tauto.
  Qed.

  Lemma refs_after_ok ids tables refs : StronglySorted N.lt (map r_seq refs) ->
    StronglySorted N.lt (map r_seq (refs_after ids tables refs)) /\
    (forall r, In r (refs_after ids tables refs) -> In r refs) /\
    (forall q, loc_ok q refs ids -> loc_ok q (refs_after ids tables refs) ids).
  Proof.
    intros HS. unfold refs_after. destruct (all_wal_ids ids tables) as [l|] eqn:EL; [|auto].
    destruct refs as [|r0 refs0]; [auto|]. set (refs := r0 :: refs0) in *. set (kept := filter (in_list l) refs).
    assert (SK : StronglySorted N.lt (map r_seq kept)) by (apply sorted_filter; auto).
    assert (KI : forall r, In r kept <-> In r refs /\ In (r_seq r) l).
    { intros r. unfold kept. rewrite filter_In. unfold in_list. rewrite existsb_exists. split; intros [H1 H2]; split; auto.
      - destruct H2 as (x & Hx & E). apply N.eqb_eq in E. now rewrite E.
      - exists (r_seq r). split; auto. apply N.eqb_refl. }
    (* a segment before a kept one is kept *)
    assert (KEEP : forall q r, loc_ok q refs ids -> In r kept -> q <= r_seq r -> In q (map r_seq kept)).
    { intros q r HL Hr L. apply KI in Hr as [Hr1 Hr2]. pose proof (lo_refs _ _ _ HL r Hr1 L) as HQ.
      apply in_map_iff in HQ as (r' & E & Hr'). apply in_map_iff. exists r'. split; auto. apply KI. split; auto. rewrite E.
      destruct (all_ids_In _ _ _ EL _ Hr2) as (t & I & I1 & I2 & I3). apply I3. eapply (lo_ids _ _ _ HL); eauto. }
    destruct kept as [|first rest] eqn:EK.
    { split; [constructor|]. split; [intros r []|]. intros q HL. constructor; [discriminate|intros r []|apply (lo_ids _ _ _ HL)]. }
    rewrite <- EK in *. clearbody kept.
    assert (HF : In first kept) by (rewrite EK; cbn; auto).
    destruct (has_gaps refs).
    - destruct (before_ref (r_seq first) refs) as [|b0 bs] eqn:EB; [auto|]. rewrite <- EB.
      destruct (before_ref_lt (r_seq first) refs HS) as [B1 B2]; [apply in_map, KI, HF|].
      assert (HH : exists bs', before_ref (r_seq first) refs = r0 :: bs').
      { unfold refs in *. cbn [before_ref] in *. destruct (_ =? _); [discriminate|]. eauto. }
      destruct HH as (bs' & EH).
      split; [|split].
      + rewrite map_app. apply SSort_app. split; auto. split; auto. intros x y Hx Hy.
        apply in_map_iff in Hx as (r & <- & Hr). apply B1 in Hr as [_ Hr].
        assert (r_seq first <= y) by (eapply head_le; [exact SK|rewrite EK; reflexivity|auto]). lia.
      + intros r Hr. apply in_app_or in Hr as [Hr|Hr]; [now apply B1|now apply KI].
      + intros q HL. constructor; [| |apply (lo_ids _ _ _ HL)].
        * rewrite EH. cbn [app floor_of]. intros r [= <-]. apply (lo_floor _ _ _ HL). reflexivity.
        * intros r Hr L. rewrite map_app. apply in_or_app. apply in_app_or in Hr as [Hr|Hr]; [|right; eapply KEEP; eauto].
          left. apply B1 in Hr as [Hr1 Hr2]. pose proof (lo_refs _ _ _ HL r Hr1 L) as HQ.
          apply in_map_iff in HQ as (r' & E & Hr'). apply in_map_iff. exists r'. split; auto. apply B1. split; auto. lia.
    - split; auto. split; [intros r Hr; now apply KI|]. intros q HL. constructor; [| |apply (lo_ids _ _ _ HL)].
      + rewrite EK. cbn. intros r [= <-]. destruct (N.le_gt_cases (r_seq first) q) as [L|L]; auto. exfalso.
        assert (In q (map r_seq kept)) by (eapply KEEP; eauto; lia).
        assert (r_seq first <= q) by (eapply head_le; [exact SK|rewrite EK; reflexivity|auto]). lia.
      + intros r Hr L. eapply KEEP; eauto.
  Qed.

  (** Only new WAL ids that keep [q] whenever they name something later. *)
  Lemma loc_ids q refs ids ids' : loc_ok q refs ids ->
    (forall t I x, In (t, Some I) ids' -> In x I -> q <= x -> In q I) -> loc_ok q refs (ids' ++ ids).
  Proof.
    intros [H1 H2 H3] HI. constructor; auto. intros t I x Ht Hx L. apply in_app_or in Ht as [Ht|Ht]; eauto.
  Qed.
  (** References computed from live frames. *)
  Lemma loc_live cut lv (fs : files rec) q s r ids : fok fs -> In (q, (s, r)) (tagged fs) -> lv <= s ->
    (forall t I x, In (t, Some I) ids -> In x I -> q <= x -> In q I) -> loc_ok q (seg_refs cut (Some lv) fs) ids.
  Proof.
    intros HF HI HL HD. pose proof (seg_refs_live cut lv fs q s r HF HI HL) as HQ.
    pose proof (seg_refs_sorted cut (Some lv) fs (fo_segs _ HF)) as HS.
    constructor; auto. intros f Hf. destruct (seg_refs cut (Some lv) fs) as [|f0 l] eqn:E; [discriminate|]. inversion Hf; subst.
    eapply head_le; [exact HS|reflexivity|exact HQ].
  Qed.

  (** *** Recovery reads from the floor on *)
  Lemma frames_floor (w : writer rec) refs : winv w -> refs_ok (w_files w) refs ->
    exists pre tg, tagged (w_files w) = pre ++ tg /\ frames_from (floor_of refs) (w_files w) = map snd tg /\
      (forall t, In t pre -> exists r, floor_of refs = Some r /\ fst t < r_seq r).
  Proof.
    intros HW [_ HR]. destruct refs as [|r refs]; cbn [floor_of].
    - exists [], (tagged (w_files w)). split; auto. split; [cbn [frames_from]; apply flat_tagged|intros t []].
    - rewrite (frames_from_suffix (w_files w) r (wi_files _ HW)) by (apply HR; cbn; auto).
      destruct (tagged_split (w_files w) (r_seq r) (fo_segs _ (wi_files _ HW))) as (pre & E & HP).
      eexists pre, _. split; [exact E|]. split; [reflexivity|]. intros t Ht. exists r. auto.
  Qed.
  Lemma first_le (fs : files rec) r q s x : fok fs -> ref_on fs r -> In (q, (s, x)) (tagged fs) -> r_seq r <= q -> r_first r <= s.
  Proof.
    intros [F1 F2] (f & l & HI & E) Hx L. rewrite <- E. apply in_split in HI as (a & b & ->).
    rewrite tagged_app in Hx, F2. change (tagged ((r_seq r, f :: l) :: b)) with (((r_seq r, f) :: map (pair (r_seq r)) l) ++ tagged b) in *.
    rewrite map_app in F1. apply SSort_app in F1 as (_ & _ & F1).
    apply in_app_or in Hx as [Hx|Hx].
    - exfalso. apply tagged_In in Hx as (l' & H1 & _). specialize (F1 q (r_seq r) (in_map fst _ _ H1) (or_introl eq_refl)). lia.
    - rewrite map_app in F2. apply SSort_app in F2 as (_ & F2 & _). cbn [app map] in F2. inversion F2 as [|? ? _ F3]; subst.
      rewrite Forall_forall in F3. cbn [app] in Hx. destruct Hx as [Hx|Hx]; [inversion Hx; cbn; lia|].
      specialize (F3 s). cbn [snd fst] in F3. apply F3. apply (in_map (fun t : tframe => fst (snd t))) in Hx. exact Hx.
  Qed.
  (** The last frame of the active segment is the last of the log. *)
  Lemma last_tagged (w : writer rec) f : last_frame (w_cur w) = Some f -> exists pre, tagged (w_files w) = pre ++ [(w_seg w, f)].
  Proof.
    intros H. unfold w_files. rewrite tagged_app. cbn. rewrite app_nil_r.
    destruct (exists_last (l := w_cur w)) as (l & x & E); [intros E; rewrite E in H; discriminate|].
    assert (x = f) as ->.
    { rewrite E in H. clear E. unfold last_frame in H. rewrite rev_app_distr in H. cbn in H. congruence. }
    rewrite E, map_app, app_assoc. eauto.
  Qed.
End LogFacts.
