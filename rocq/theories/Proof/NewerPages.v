(** Leaving out rows newer than the read timestamp below the merge changes nothing. *)
From Coq Require Import List NArith Bool Arith Lia.
From Verif Require Import Base.Order Base.Sub Model.OMap Model.KeyTs Model.MemTable Model.Immutable
     Model.SsTable Model.MergeStream Model.KeyBounds Model.Package Model.DbScan Model.Db Spec.Valid.
Import ListNotations.

Section Newer.
  Context {K : Type} {KO : KeyOrd K} {R : Type}.
  Variable key_of : R -> option K.
  Notation source := (@source K R).

  (** [l'] is [l] without some exhausted streams. *)
  Inductive fewer : list source -> list source -> Prop :=
  | fewer_nil : fewer [] []
  | fewer_keep s l l' : fewer l l' -> fewer (s :: l) (s :: l')
  | fewer_drop p l l' : fewer l l' -> fewer ((p, []) :: l) l'.

  Lemma fewer_heap l l' : fewer l l' -> forall i j,
    (heap_min i l = None /\ heap_min j l' = None) \/
    (exists n n' p e, heap_min i l = Some (i + n, p, e) /\ heap_min j l' = Some (j + n', p, e) /\
       fewer (advance n l) (advance n' l')).
  Proof.
    induction 1 as [|[p es] l l' H IH|p l l' H IH]; intros i j.
    - left. auto.
    - destruct (IH (S i) (S j)) as [[E1 E2]|(n & n' & q & e & E1 & E2 & F)].
      + cbn [heap_min]. rewrite E1, E2. destruct es as [|e0 es]; [left; auto|].
        right. exists 0, 0, p, e0. rewrite !Nat.add_0_r. repeat split. cbn [advance]. now apply fewer_keep.
      + cbn [heap_min]. rewrite E1, E2. right. destruct es as [|e0 es].
        * exists (S n), (S n'), q, e. replace (i + S n) with (S i + n) by lia. replace (j + S n') with (S j + n') by lia.
          repeat split. cbn [advance]. now apply fewer_keep.
        * assert (EC : heap_cmp (i, p, e0) (S i + n, q, e) = heap_cmp (j, p, e0) (S j + n', q, e)).
          { destruct e0 as [[k t] o], e as [[k' t'] o']. unfold heap_cmp.
            destruct (kcmp k k'); auto. destruct (N.compare t' t); auto. destruct (Nat.compare p q); auto.
            replace (Nat.compare i (S i + n)) with Lt by (symmetry; apply Nat.compare_lt_iff; lia).
            symmetry. apply Nat.compare_lt_iff. lia. }
          rewrite EC. destruct (heap_cmp (j, p, e0) (S j + n', q, e)).
          -- exists 0, 0, p, e0. rewrite !Nat.add_0_r. repeat split. cbn [advance]. now apply fewer_keep.
          -- exists 0, 0, p, e0. rewrite !Nat.add_0_r. repeat split. cbn [advance]. now apply fewer_keep.
          -- exists (S n), (S n'), q, e. replace (i + S n) with (S i + n) by lia. replace (j + S n') with (S j + n') by lia.
             repeat split. cbn [advance]. now apply fewer_keep.
    - destruct (IH (S i) j) as [[E1 E2]|(n & n' & q & e & E1 & E2 & F)].
      + left. cbn [heap_min]. auto.
      + right. exists (S n), n', q, e. cbn [heap_min]. replace (i + S n) with (S i + n) by lia.
        repeat split; auto. cbn [advance]. now apply fewer_drop.
  Qed.

  Lemma fewer_run fuel : forall limit buf l l', fewer l l' ->
    merge_run fuel limit buf l = merge_run fuel limit buf l'.
  Proof.
    induction fuel as [|fuel IH]; intros limit buf l l' H;
      destruct (fewer_heap l l' H 0 0) as [[E1 E2]|(n & n' & q & e & E1 & E2 & F)];
      cbn [merge_run]; rewrite E1, E2; auto; cbn [Nat.add] in *.
    rewrite (IH limit (Some e) _ _ F), (IH limit buf _ _ F), (IH (decrement_limit limit) (Some e) _ _ F). reflexivity.
  Qed.

  Lemma fewer_len l l' : fewer l l' -> length (concat (map snd l)) = length (concat (map snd l')).
  Proof. induction 1; simpl; rewrite ?app_length; lia. Qed.

  Lemma fewer_merge limit l l' : fewer l l' -> merge_streams limit l = merge_streams limit l'.
  Proof. intros H. unfold merge_streams. rewrite (fewer_len _ _ H). now apply fewer_run. Qed.

  (** *** One table *)
  Lemma data_newer ts kept rows : drops_newer ts kept rows ->
    (forall r u, In (r, u) rows -> key_of r <> None) ->
    data_entries key_of ts kept = data_entries key_of ts rows.
  Proof.
    induction 1 as [|[r u] kept rows H IH|[r u] kept rows HT H IH]; intros HK; auto.
    - cbn [data_entries]. rewrite IH; auto. intros r' u' Hr. apply (HK r' u'). now right.
    - cbn [data_entries]. rewrite IH by (intros r' u' Hr; apply (HK r' u'); now right).
      destruct (key_of r) as [k|] eqn:E; [|exfalso; apply (HK r u); [now left|exact E]].
      cbn [snd] in HT. apply N.ltb_lt in HT. rewrite HT. destruct (data_entries key_of ts rows); auto.
  Qed.

  Lemma data_keyed ts rows : (forall r u, In (r, u) rows -> key_of r <> None) ->
    data_entries key_of ts rows <> None.
  Proof.
    induction rows as [|[r u] rows IH]; intros HK; [discriminate|]. cbn [data_entries].
    destruct (key_of r) as [k|] eqn:E; [|exfalso; apply (HK r u); [now left|exact E]].
    destruct (data_entries key_of ts rows) eqn:ED; [discriminate|].
    exfalso. apply IH; auto. intros r' u' Hr. apply (HK r' u'). now right.
  Qed.

  Lemma filter_true {A} (l : list A) : filter (fun _ => true) l = l.
  Proof. induction l; simpl; congruence. Qed.

  Lemma scan_newer ts kept rows dels : drops_newer ts kept rows ->
    (forall r u, In (r, u) rows -> key_of r <> None) ->
    sst_scan key_of (fun _ => true) kept dels ts = sst_scan key_of (fun _ => true) rows dels ts.
  Proof. intros H HK. unfold sst_scan. rewrite !filter_true. now rewrite (data_newer _ _ _ H HK). Qed.

  Lemma scan_nothing ts rows : drops_newer ts [] rows -> (forall r u, In (r, u) rows -> key_of r <> None) ->
    sst_scan key_of (fun _ => true) rows [] ts = Some [].
  Proof. intros H HK. now rewrite <- (scan_newer _ _ _ _ H HK). Qed.

  (** *** The selected tables *)
  Definition sst_sources ts (sel : list (sst K R * list (R * N))) : list (option source) :=
    map (fun tr => source_of 3 (sst_scan key_of (fun _ => true) (snd tr) (t_dels (fst tr)) ts)) sel.

  Inductive ofewer : list (option source) -> list (option source) -> Prop :=
  | of_nil : ofewer [] []
  | of_keep s l l' : ofewer l l' -> ofewer (s :: l) (s :: l')
  | of_drop p l l' : ofewer l l' -> ofewer (Some (p, []) :: l) l'.

  Lemma ofewer_app a l l' : ofewer l l' -> ofewer (a ++ l) (a ++ l').
  Proof. intros H. induction a; simpl; auto. now apply of_keep. Qed.

  Lemma ofewer_all l l' : ofewer l l' ->
    match all_some l, all_some l' with
    | Some a, Some b => fewer a b
    | None, None => True
    | _, _ => False
    end.
  Proof.
    induction 1 as [|[s|] l l' H IH|p l l' H IH]; cbn [all_some].
    - apply fewer_nil.
    - destruct (all_some l), (all_some l'); auto. now apply fewer_keep.
    - auto.
    - destruct (all_some l), (all_some l'); auto. now apply fewer_drop.
  Qed.

  Lemma select_newer prune ts ls :
    (forall t, In t ls -> drops_newer ts (prune t) (t_rows t)) ->
    (forall t r u, In t ls -> In (r, u) (t_rows t) -> key_of r <> None) ->
    ofewer (sst_sources ts (select_ssts (@t_rows K R) None ts ls)) (sst_sources ts (select_ssts prune None ts ls)).
  Proof.
    induction ls as [|t ls IH]; intros HP HK; [apply of_nil|].
    assert (HI := IH (fun x Hx => HP x (or_intror Hx)) (fun x r u Hx => HK x r u (or_intror Hx))).
    assert (HPt := HP t (or_introl eq_refl)).
    assert (HKt := fun r u => HK t r u (or_introl eq_refl)).
    unfold select_ssts in *. cbn [flat_map]. destruct (sst_kept None ts t); [|exact HI].
    unfold sst_sources in *. rewrite !map_app.
    destruct (prune t) as [|p ps] eqn:EP.
    - destruct (t_dels t) as [|dk ds] eqn:ED.
      + destruct (t_rows t) as [|a rows] eqn:ER; [exact HI|].
        cbn [map app fst snd]. rewrite ED.
        rewrite (scan_nothing ts (a :: rows) HPt HKt). cbn [source_of]. now apply of_drop.
      + destruct (t_rows t) as [|a rows] eqn:ER; cbn [map app fst snd]; rewrite ED; [now apply of_keep|].
        rewrite <- (scan_newer ts [] (a :: rows) (dk :: ds) HPt HKt). now apply of_keep.
    - destruct (t_rows t) as [|a rows] eqn:ER; [inversion HPt|].
      cbn [map app fst snd]. rewrite <- (scan_newer ts (p :: ps) (a :: rows) (t_dels t) HPt HKt). now apply of_keep.
  Qed.

  Lemma drops_sub ts (kept rows : list (R * N)) : drops_newer ts kept rows -> sublist kept rows.
  Proof. induction 1; constructor; auto. Qed.
  Lemma drops_In ts (kept rows : list (R * N)) r u : drops_newer ts kept rows -> In (r, u) rows ->
    In (r, u) kept \/ (ts < u)%N.
  Proof.
    induction 1 as [|a kept rows H IH|a kept rows HT H IH]; simpl; intros HI; auto.
    - destruct HI as [HI|HI]; auto. destruct (IH HI); auto.
    - destruct HI as [HI|HI]; auto. subst a. auto.
  Qed.
  Lemma drops_push ts prune (ls : list (list (sst K R))) :
    (forall t, In t (concat ls) -> drops_newer ts (prune t) (t_rows t)) ->
    push_ok key_of prune cp_all ts ls.
  Proof.
    intros HP. split.
    - intros t Ht. eapply drops_sub. now apply HP.
    - intros t r u k Ht Hr _. destruct (drops_In _ _ _ _ _ (HP t Ht) Hr); auto.
  Qed.

  Definition not_newer (ts : N) (t : sst K R) : list (R * N) := filter (fun p => N.leb (snd p) ts) (t_rows t).
  Lemma not_newer_drops ts t : drops_newer ts (not_newer ts t) (t_rows t).
  Proof.
    unfold not_newer. induction (t_rows t) as [|a l IH]; simpl; [constructor|].
    destruct (N.leb_spec (snd a) ts); constructor; auto.
  Qed.

  Theorem newer_pages prune txn sn limit (d : db K R) :
    (forall t, In t (concat (sn_levels sn)) -> drops_newer (sn_ts sn) (prune t) (t_rows t)) ->
    (forall t r u, In t (concat (sn_levels sn)) -> In (r, u) (t_rows t) -> key_of r <> None) ->
    scan_txn key_of prune cp_all txn sn limit d = scan_txn key_of (@t_rows K R) cp_all txn sn limit d.
  Proof.
    intros HP HK. unfold scan_txn.
    set (ov := match txn with Some (e :: r) => Some (txn_entries (sn_ts sn) (e :: r)) | _ => None end).
    set (force := match ov with Some _ => true | None => false end).
    assert (HF := select_newer prune (sn_ts sn) (concat (sn_levels sn)) HP HK).
    unfold exec_plan, build_streams, plan_scan. cbn [c_bounds c_resid c_nonsst c_push c_true c_full cp_all
      p_push p_imm p_mem p_range p_ssts p_resid p_limit p_ts negb].
    rewrite !andb_false_r. cbn [option_map].
    set (sel := select_ssts prune None (sn_ts sn) (concat (sn_levels sn))) in *.
    set (sel0 := select_ssts (@t_rows K R) None (sn_ts sn) (concat (sn_levels sn))) in *.
    replace (match sel with [] => None | _ => @None (R -> bool) end) with (@None (R -> bool)) by (destruct sel; auto).
    replace (match sel0 with [] => None | _ => @None (R -> bool) end) with (@None (R -> bool)) by (destruct sel0; auto).
    cbn [opt_pred].
    match goal with |- context [if ?b then None else None] => destruct b end.
    all: cbn [combine_and].
    all: match goal with |- match ?x with _ => _ end = match ?y with _ => _ end =>
      assert (HA : match y, x with Some a, Some b => fewer a b | None, None => True | _, _ => False end)
        by (apply ofewer_all; do 3 apply ofewer_app; exact HF);
      destruct y, x; try contradiction; auto end.
    all: symmetry; now apply fewer_merge.
  Qed.
End Newer.
