(** The memtable and its sealed segments represent a sorted list of versions. *)
From Coq Require Import List NArith Bool Sorted Permutation Lia Arith.
From Verif Require Import Base.Order Model.OMap Model.KeyTs Model.MemTable Model.Immutable
     Spec.Mvcc Proof.OMapFacts.
Import ListNotations.

Lemma skipn_cons {A} (l : list A) : forall i x rest,
  skipn i l = x :: rest -> skipn (S i) l = rest /\ nth_error l i = Some x.
Proof.
  induction l as [|a l IH]; intros [|i] x rest H; simpl in *; try discriminate.
  - inversion H; auto.
  - apply IH in H. destruct l; auto.
Qed.

Section MemFacts.
  Context {K : Type} {KO : KeyOrd K} {R : Type}.
  Variable key_of : R -> option K.
  Notation vers := ((K * N) * option R)%type.

  Inductive loc_val (m : mem K R) : (K * N) -> mloc -> option R -> Prop :=
  | LV_up b i k t r :
      fetch_row m b i = Some (r, t) -> key_of r = Some k -> loc_val m (k, t) (Up b i) (Some r)
  | LV_del b i k t :
      fetch_delete m b i = Some (k, t) -> loc_val m (k, t) (Del b i) None.

  Definition ent_val (m : mem K R) (e : (K * N) * mloc) (v : vers) : Prop :=
    fst e = fst v /\ loc_val m (fst e) (snd e) (snd v).

  Definition mem_repr (m : mem K R) (A : list vers) : Prop :=
    osorted A /\ Forall2 (ent_val m) (m_index m) A.

  Lemma mem_new_repr c : mem_repr (mem_new c) [].
  Proof. split; constructor. Qed.

  (** Storing one batch of rows / deletes into a version list. *)
  Definition ins_row (t : N) (a : list vers) (r : R) : list vers :=
    match key_of r with Some k => om_insert (k, t) (Some r) a | None => a end.
  Definition ins_rows (rows : list R) (t : N) (a : list vers) : list vers :=
    fold_left (ins_row t) rows a.
  Definition ins_del (t : N) (a : list vers) (k : option K) : list vers :=
    match k with Some k => om_insert (k, t) None a | None => a end.
  Definition ins_dels (ks : list (option K)) (t : N) (a : list vers) : list vers :=
    fold_left (ins_del t) ks a.

  Lemma Forall2_om_insert {B C} (P : (K * N) * B -> (K * N) * C -> Prop) idx A kt b c :
    (forall e v, P e v -> fst e = fst v) ->
    Forall2 P idx A -> P (kt, b) (kt, c) ->
    Forall2 P (om_insert kt b idx) (om_insert kt c A).
  Proof.
    intros HP HF HN. induction HF as [|[k1 e] [k2 v] idx A H1 HF IH]; simpl.
    - constructor; auto.
    - pose proof (HP _ _ H1) as E; simpl in E; subst k2.
      destruct (kts_cmp kt k1); repeat (constructor; auto).
  Qed.

  Lemma loc_val_mono m idx b d kt loc v :
    loc_val m kt loc v ->
    loc_val (mkMem idx (m_batches m ++ b) (m_deletes m ++ d) (m_capacity m)) kt loc v.
  Proof.
    intros H. destruct H as [bi i k t r H1 H2 | bi i k t H1]; constructor; auto.
    - unfold fetch_row in *; simpl.
      destruct (nth_error (m_batches m) bi) eqn:E; try discriminate.
      erewrite nth_error_app1; [rewrite E; exact H1 |]. apply nth_error_Some; congruence.
    - unfold fetch_delete in *; simpl.
      destruct (nth_error (m_deletes m) bi) eqn:E; try discriminate.
      erewrite nth_error_app1; [rewrite E; exact H1 |]. apply nth_error_Some; congruence.
  Qed.

  Lemma loc_val_index m idx kt loc v :
    loc_val m kt loc v <-> loc_val (mkMem idx (m_batches m) (m_deletes m) (m_capacity m)) kt loc v.
  Proof. split; intros H; inversion H; subst; constructor; auto. Qed.

  Lemma mem_repr_mono m b d A :
    mem_repr m A -> mem_repr (mkMem (m_index m) (m_batches m ++ b) (m_deletes m ++ d) (m_capacity m)) A.
  Proof.
    intros [H1 H2]; split; auto; simpl. clear H1.
    set (idx := m_index m) at 1. clearbody idx. revert idx.
    induction H2 as [|e v l A [Ha Hb] HF IH]; intros idx; constructor; auto.
    split; auto. apply loc_val_mono; auto.
  Qed.

  Lemma project_view_Some rows ks :
    project_view key_of rows = Some ks <-> map key_of rows = map Some ks.
  Proof.
    revert ks. induction rows as [|r rs IH]; intros ks; simpl.
    - split; intros H; [inversion H; reflexivity|]. destruct ks; [reflexivity|discriminate].
    - destruct (key_of r) as [k0|] eqn:E; [destruct (project_view key_of rs) as [ks0|] eqn:F|].
      + split; intros H.
        * inversion H; subst. simpl. f_equal. now apply IH.
        * destruct ks as [|k ks]; inversion H; subst. destruct (IH ks) as [_ IH2].
          specialize (IH2 H2). congruence.
      + split; intros H; [discriminate|]. destruct ks as [|k' ks]; inversion H; subst.
        destruct (IH ks) as [_ IH2]. specialize (IH2 H2). discriminate.
      + split; intros H; [discriminate|]. destruct ks as [|k' ks]; inversion H.
  Qed.

  (** The index insertion loop. *)
  Lemma index_rows_up m b rows ks ts :
    forall i rest keys A idx,
    nth_error (m_batches m) b = Some (Some (rows, repeat ts (length rows))) ->
    skipn i rows = rest ->
    map key_of rest = map Some keys ->
    osorted A ->
    Forall2 (ent_val m) idx A ->
    ks = keys ->
    osorted (ins_rows rest ts A) /\
    Forall2 (ent_val m) (index_rows (Up b) i ks (repeat ts (length rest)) idx) (ins_rows rest ts A).
  Proof.
    intros i rest. revert i ks. induction rest as [|r rest IH]; intros i ks keys A idx HB HS HK HA HF ->.
    - simpl. destruct keys; simpl; auto.
    - destruct keys as [|k keys]; [discriminate|]. simpl in HK. inversion HK as [[H1 H2]].
      assert (EQ : ins_rows (r :: rest) ts A = ins_rows rest ts (om_insert (k, ts) (Some r) A)).
      { unfold ins_rows; simpl. f_equal. unfold ins_row. rewrite H1. reflexivity. }
      rewrite EQ. simpl.
      destruct (skipn_cons _ _ _ _ HS) as [HS' Hi].
      apply IH with (keys := keys); auto.
      + apply om_insert_sorted; auto.
      + apply Forall2_om_insert; auto.
        * intros e v [Hx _]; exact Hx.
        * split; [reflexivity|]. simpl. constructor; auto.
          unfold fetch_row. rewrite HB, Hi.
          assert (Hl : i < length rows) by (apply nth_error_Some; congruence).
          rewrite nth_error_repeat; auto.
  Qed.

  Lemma index_rows_del m b keys0 ts :
    forall i rest A idx,
    nth_error (m_deletes m) b = Some (Some (keys0, repeat ts (length keys0))) ->
    skipn i keys0 = rest ->
    osorted A ->
    Forall2 (ent_val m) idx A ->
    osorted (ins_dels (map Some rest) ts A) /\
    Forall2 (ent_val m) (index_rows (Del b) i rest (repeat ts (length rest)) idx) (ins_dels (map Some rest) ts A).
  Proof.
    intros i rest. revert i. induction rest as [|k rest IH]; intros i A idx HB HS HA HF.
    - simpl. auto.
    - simpl.
      destruct (skipn_cons _ _ _ _ HS) as [HS' Hi].
      apply IH; auto.
      + apply om_insert_sorted; auto.
      + apply Forall2_om_insert; auto.
        * intros e v [Hx _]; exact Hx.
        * split; [reflexivity|]. simpl. constructor.
          unfold fetch_delete. rewrite HB, Hi.
          assert (Hl : i < length keys0) by (apply nth_error_Some; congruence).
          rewrite nth_error_repeat; auto.
  Qed.

  Lemma Forall2_ent_index m idx l A :
    Forall2 (ent_val m) l A ->
    Forall2 (ent_val (mkMem idx (m_batches m) (m_deletes m) (m_capacity m))) l A.
  Proof.
    induction 1 as [|e v l A [H1 H2] HF IH]; constructor; auto.
    split; auto. apply loc_val_index; auto.
  Qed.

  Lemma try_insert_batch_repr m rows ts A :
    mem_repr m A ->
    match try_insert_batch key_of m rows (repeat ts (length rows)) with
    | IOk m' => mem_repr m' (ins_rows rows ts A) /\ m_capacity m' = m_capacity m
                /\ Forall (fun r => key_of r <> None) rows
                /\ length (m_batches m') = S (length (m_batches m))
                /\ m_deletes m' = m_deletes m
    | IKeyErr m' => mem_repr m' A /\ m_capacity m' = m_capacity m
                    /\ Exists (fun r => key_of r = None) rows
    | IExhausted => m_capacity m <= length (m_batches m)
    end.
  Proof.
    intros HR. unfold try_insert_batch.
    destruct (Nat.leb_spec (m_capacity m) (length (m_batches m))); auto.
    destruct (project_view key_of rows) as [ks|] eqn:E.
    - apply project_view_Some in E.
      pose proof (mem_repr_mono m [Some (rows, repeat ts (length rows))] [] A HR) as [HA HF].
      rewrite app_nil_r in HF.
      set (m1 := mkMem (m_index m) (m_batches m ++ [Some (rows, repeat ts (length rows))])
                       (m_deletes m) (m_capacity m)) in *.
      destruct (index_rows_up m1 (length (m_batches m)) rows ks ts 0 rows ks A (m_index m)) as [S1 S2]; auto.
      { simpl. rewrite nth_error_app2, Nat.sub_diag by lia. reflexivity. }
      split; [split; simpl; auto|].
      + apply (Forall2_ent_index m1). exact S2.
      + split; [reflexivity|]. split; [|split]; try reflexivity.
        * rewrite Forall_forall. intros r Hr. apply (in_map key_of) in Hr.
          rewrite E in Hr. apply in_map_iff in Hr as (k & <- & _). discriminate.
        * simpl. rewrite app_length. simpl. lia.
    - split; [|split; [reflexivity|]].
      + pose proof (mem_repr_mono m [Some (rows, repeat ts (length rows))] [] A HR) as H1.
        rewrite app_nil_r in H1. exact H1.
      + clear HR. induction rows as [|r rs IH]; simpl in E; [discriminate|].
        destruct (key_of r) eqn:F; [|left; auto].
        right. apply IH. destruct (project_view key_of rs); [discriminate|auto].
  Qed.

  Lemma project_keys_Some (ks : list (option K)) keys : project_keys ks = Some keys <-> ks = map Some keys.
  Proof.
    revert keys. induction ks as [|k r IH]; intros keys; simpl.
    - split; intros H; [inversion H; reflexivity|]. destruct keys; [reflexivity|discriminate].
    - destruct k as [k0|]; [destruct (project_keys r) as [ks0|] eqn:F|].
      + split; intros H.
        * inversion H; subst. simpl. f_equal. now apply IH.
        * destruct keys as [|k' keys]; inversion H; subst.
          f_equal. f_equal. destruct (IH keys) as [_ IH2]. specialize (IH2 eq_refl). congruence.
      + split; intros H; [discriminate|]. destruct keys as [|k' keys]; inversion H; subst.
        destruct (IH keys) as [_ IH2]. specialize (IH2 eq_refl). discriminate.
      + split; intros H; [discriminate|]. destruct keys as [|k' keys]; inversion H.
  Qed.

  Lemma try_insert_delete_repr m (ks : list (option K)) ts A :
    mem_repr m A ->
    match try_insert_delete_batch m ks (repeat ts (length ks)) with
    | IOk m' => mem_repr m' (ins_dels ks ts A) /\ m_capacity m' = m_capacity m
                /\ Forall (fun k => k <> None) ks /\ m_batches m' = m_batches m
    | IKeyErr m' => mem_repr m' A /\ m_capacity m' = m_capacity m /\ Exists (fun k => k = None) ks
    | IExhausted => m_capacity m <= length (m_deletes m)
    end.
  Proof.
    intros HR. unfold try_insert_delete_batch. destruct ks as [|k0 ks0]; [simpl; auto|].
    set (ks := k0 :: ks0).
    destruct (Nat.leb_spec (m_capacity m) (length (m_deletes m))); auto.
    destruct (project_keys ks) as [keys|] eqn:E.
    - apply project_keys_Some in E.
      assert (Hl : length ks = length keys) by (rewrite E, map_length; auto). rewrite Hl.
      pose proof (mem_repr_mono m [] [Some (keys, repeat ts (length keys))] A HR) as [HA HF].
      rewrite app_nil_r in HF.
      set (m1 := mkMem (m_index m) (m_batches m)
                       (m_deletes m ++ [Some (keys, repeat ts (length keys))]) (m_capacity m)) in *.
      destruct (index_rows_del m1 (length (m_deletes m)) keys ts 0 keys A (m_index m)) as [S1 S2]; auto.
      { simpl. rewrite nth_error_app2, Nat.sub_diag by lia. reflexivity. }
      rewrite E.
      split; [split; simpl; auto|].
      + apply (Forall2_ent_index m1). exact S2.
      + split; [reflexivity|]. split; [|reflexivity].
        rewrite Forall_forall. intros k Hk. apply in_map_iff in Hk as (x & <- & _). discriminate.
    - split; [|split; [reflexivity|]].
      + pose proof (mem_repr_mono m [] [None] A HR) as H1.
        rewrite app_nil_r in H1. exact H1.
      + clear HR H. revert E. generalize ks. clear. intros ks.
        induction ks as [|k rs IH]; simpl; [discriminate|].
        destruct k; [|left; auto]. intros E.
        right. apply IH. destruct (project_keys rs); [discriminate|auto].
  Qed.

  (** *** Scans *)
  Lemma Forall2_visible {B C} (P : (K * N) * B -> (K * N) * C -> Prop) ts l A :
    (forall e v, P e v -> fst e = fst v) ->
    Forall2 P l A ->
    forall cur em, Forall2 P (visible_scan ts cur em l) (visible_scan ts cur em A).
  Proof.
    intros HP HF. induction HF as [|[[k t] e] [[k2 t2] v] l A H1 HF IH]; intros cur em; simpl; [constructor|].
    pose proof (HP _ _ H1) as E; simpl in E; inversion E; subst k2 t2.
    destruct (_ && em); auto. destruct (N.ltb ts t); auto.
  Qed.

  Lemma Forall2_filter {B C} (P : B -> C -> Prop) f g l A :
    (forall e v, P e v -> f e = g v) -> Forall2 P l A -> Forall2 P (filter f l) (filter g A).
  Proof.
    intros HP HF. induction HF as [|e v l A H1 HF IH]; simpl; [constructor|].
    rewrite (HP _ _ H1). destruct (g v); auto.
  Qed.

  Lemma mapM_materialise m l A :
    Forall2 (ent_val m) l A -> mapM (materialise m) l = Some A.
  Proof.
    induction 1 as [|[kt loc] [kt' v] l A [H1 H2] HF IH]; simpl; auto.
    simpl in *; subst kt'. rewrite IH. inversion H2; subst; unfold materialise; simpl; auto.
    rewrite H. reflexivity.
  Qed.

  Definition in_bounds {V} (b : option (bound K * bound K)) (A : list ((K * N) * V)) :=
    match b with
    | Some (lo, hi) => om_range (kts_lower lo) (kts_upper hi) A
    | None => A
    end.

  Lemma mem_scan_repr m A ts b :
    mem_repr m A -> mem_scan m ts b = Some (visible_scan ts None false (in_bounds b A)).
  Proof.
    intros [_ HF]. unfold mem_scan. apply mapM_materialise.
    apply Forall2_visible; [intros e v [H _]; exact H|].
    destruct b as [[lo hi]|]; simpl; auto.
    apply Forall2_filter; auto. intros e v [H _]. now rewrite H.
  Qed.

  (** *** Sealed segments *)
  Definition ups (A : list vers) : list (R * N) :=
    flat_map (fun v => match snd v with Some r => [(r, snd (fst v))] | None => [] end) A.
  Definition dels (A : list vers) : list (K * N) :=
    flat_map (fun v => match snd v with Some _ => [] | None => [fst v] end) A.
  Fixpoint seg_idx (i : nat) (A : list vers) : list ((K * N) * ientry) :=
    match A with
    | [] => []
    | (kt, Some _) :: r => (kt, IRow i) :: seg_idx (S i) r
    | (kt, None) :: r => (kt, IDelete) :: seg_idx i r
    end.
  Definition seg_of (A : list vers) : seg K R :=
    mkSeg (map fst (ups A)) (map (fun p => (snd p, false)) (ups A))
          (seg_idx 0 A) (map fst (dels A)) (map snd (dels A)).

  (** Rows carry their key. *)
  Definition keyed (A : list vers) : Prop :=
    Forall (fun v => match snd v with Some r => key_of r = Some (fst (fst v)) | None => True end) A.

  Lemma mem_repr_keyed m A : mem_repr m A -> keyed A.
  Proof.
    intros [_ HF]. induction HF as [|[kt loc] [kt' v] l A [H1 H2] HF IH]; constructor; auto.
    simpl in *; subst kt'. inversion H2; subst; simpl; auto.
  Qed.

  Lemma seal_collect_repr m l A :
    Forall2 (ent_val m) l A ->
    seal_collect m l = Some (mkAcc (map fst (ups A)) (map snd (ups A)) (map fst (dels A)) (map snd (dels A))
      (map (fun v => (snd (fst v), match snd v with Some _ => true | None => false end)) A)).
  Proof.
    induction 1 as [|[kt loc] [kt' v] l A [H1 H2] HF IH]; simpl; auto.
    simpl in *; subst kt'. destruct kt as [k t]. rewrite IH. inversion H2 as [b i k0 t0 r Hf Hk|b i k0 t0 Hf]; subst; rewrite Hf; simpl; reflexivity.
  Qed.

  Lemma om_insert_last {A V} {AO : KeyOrd A} (k : A) (v : V) m :
    Forall (fun e => kcmp (fst e) k = Lt) m -> om_insert k v m = m ++ [(k, v)].
  Proof.
    induction 1 as [|[k' v'] r H HF IH]; simpl; auto. simpl in H.
    rewrite (kcmp_lt_gt _ _ H), IH. reflexivity.
  Qed.

  Lemma build_index_repr A : forall i (pre : list ((K * N) * ientry)),
    keyed A -> osorted A ->
    (forall e v, In e pre -> In v A -> kcmp (fst e) (fst v) = Lt) ->
    build_index (map (fun v => (snd (fst v), match snd v with Some _ => true | None => false end)) A)
      (flat_map (fun v => match snd v with Some _ => [fst (fst v)] | None => [] end) A)
      (map fst (dels A)) i pre = Some (pre ++ seg_idx i A).
  Proof.
    induction A as [|[[k t] v] A IH]; intros i pre HK HS HP; simpl.
    - now rewrite app_nil_r.
    - inversion HK as [|? ? HK1 HK2]; subst. inversion HS as [|? ? HS1 HS2]; subst.
      rewrite Forall_forall in HS2.
      assert (HL : forall x : ientry, om_insert (k, t) x pre = pre ++ [((k, t), x)]).
      { intros x. apply om_insert_last. rewrite Forall_forall. intros e He.
        apply (HP e ((k, t), v)); simpl; auto. }
      assert (HX : forall x e w, In e (pre ++ [((k, t), x)]) -> In w A -> kcmp (fst e) (fst w) = Lt).
      { intros x e w He Hw. apply in_app_or in He as [He|[<-|[]]].
        - apply HP; simpl; auto.
        - apply (HS2 w Hw). }
      destruct v as [r|]; simpl; rewrite HL, (IH _ _ HK2 HS1 (HX _)), <- app_assoc; reflexivity.
  Qed.

  Lemma project_view_ups A :
    keyed A -> project_view key_of (map fst (ups A))
               = Some (flat_map (fun v => match snd v with Some _ => [fst (fst v)] | None => [] end) A).
  Proof.
    induction 1 as [|[[k t] v] A H HF IH]; simpl; auto.
    destruct v as [r|]; simpl in *; auto. rewrite H, IH. reflexivity.
  Qed.

  Lemma seal_repr m A :
    mem_repr m A ->
    seal key_of m = match A with [] => SNone | _ => SSealed (mem_new (m_capacity m)) (seg_of A) end.
  Proof.
    intros HR. pose proof HR as [HS HF]. unfold seal.
    pose proof (mem_repr_keyed _ _ HR) as HK.
    destruct (m_index m) as [|e l] eqn:E.
    - inversion HF; subst. reflexivity.
    - rewrite (seal_collect_repr _ _ _ HF). simpl.
      rewrite (project_view_ups A HK).
      rewrite (build_index_repr A 0 []); auto; [|intros ? ? []].
      inversion HF; subst. unfold seg_of. f_equal. f_equal.
      now rewrite map_map.
  Qed.

  Lemma ups_app A B : ups (A ++ B) = ups A ++ ups B.
  Proof. apply flat_map_app. Qed.
  Lemma dels_app A B : dels (A ++ B) = dels A ++ dels B.
  Proof. apply flat_map_app. Qed.

  (** Entries of a sealed segment, with the version each stands for. *)
  Definition ient_val (s : seg K R) (e : (K * N) * ientry) (v : vers) : Prop :=
    fst e = fst v /\
    match snd e, snd v with
    | IRow i, Some r => nth_error (s_rows s) i = Some r /\ nth_error (s_mvcc s) i = Some (snd (fst v), false)
    | IDelete, None => True
    | _, _ => False
    end.

  Lemma seg_idx_vals B : forall pre s,
    s_rows s = map fst (ups (pre ++ B)) ->
    s_mvcc s = map (fun p => (snd p, false)) (ups (pre ++ B)) ->
    Forall2 (ient_val s) (seg_idx (length (ups pre)) B) B.
  Proof.
    induction B as [|[kt v] B IH]; intros pre s H1 H2; simpl; [constructor|].
    destruct v as [r|].
    - constructor.
      + split; [reflexivity|]. simpl. rewrite H1, H2, ups_app. simpl.
        rewrite !map_app. split.
        * rewrite nth_error_app2; rewrite map_length; [|lia]. now rewrite Nat.sub_diag.
        * rewrite nth_error_app2; rewrite map_length; [|lia]. now rewrite Nat.sub_diag.
      + specialize (IH (pre ++ [(kt, Some r)]) s). rewrite (ups_app pre), app_length in IH. simpl in IH.
        rewrite Nat.add_1_r in IH. apply IH; now rewrite <- app_assoc.
    - constructor; [split; simpl; auto|].
      specialize (IH (pre ++ [(kt, None)]) s). rewrite (ups_app pre), app_length in IH. simpl in IH.
      rewrite Nat.add_0_r in IH. apply IH; now rewrite <- app_assoc.
  Qed.

  Lemma seg_of_vals A : Forall2 (ient_val (seg_of A)) (s_index (seg_of A)) A.
  Proof. apply (seg_idx_vals A []); reflexivity. Qed.

  Lemma seg_visible_repr s ts l A :
    Forall2 (ient_val s) l A ->
    forall cur em, seg_visible s ts cur em l = Some (visible_scan ts cur em A).
  Proof.
    intros HF. induction HF as [|[[k t] e] [[k2 t2] v] l A [H1 H2] HF IH]; intros cur em; simpl; auto.
    simpl in *. inversion H1; subst k2 t2.
    destruct (_ && em); auto. destruct (N.ltb ts t) eqn:E; auto.
    unfold seg_materialise; simpl. destruct e as [i|], v as [r|]; try tauto.
    - destruct H2 as [H2 H3]. rewrite H3, E, H2, IH. reflexivity.
    - rewrite IH. reflexivity.
  Qed.

  Lemma seg_scan_repr A ts b :
    seg_scan (seg_of A) ts b = Some (visible_scan ts None false (in_bounds b A)).
  Proof.
    unfold seg_scan. apply seg_visible_repr.
    pose proof (seg_of_vals A) as HF.
    destruct b as [[lo hi]|]; simpl; auto.
    apply Forall2_filter; auto. intros e v [H _]. now rewrite H.
  Qed.

  (** Membership after an insert. *)
  Lemma ins_rows_sorted rows t : forall A, osorted A -> osorted (ins_rows rows t A).
  Proof.
    induction rows as [|r rs IH]; simpl; auto. intros A H. apply IH.
    unfold ins_row. destruct (key_of r); auto. apply om_insert_sorted; auto.
  Qed.
  Lemma ins_dels_sorted (ks : list (option K)) t : forall A : list vers, osorted A -> osorted (ins_dels ks t A).
  Proof.
    induction ks as [|r rs IH]; simpl; auto. intros A H. apply IH.
    unfold ins_del. destruct r; auto. apply om_insert_sorted; auto.
  Qed.
End MemFacts.
