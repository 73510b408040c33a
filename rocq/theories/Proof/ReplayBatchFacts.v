(** Recovery takes every batch that a write has put into the log (C74). *)
From Coq Require Import List NArith Bool String Lia Arith.
From Verif Require Import Model.Columns Model.Frame Model.MemTable Model.Replay Spec.WalSpec Model.ReplayBatch Spec.ReplayBatchSpec
     Proof.ColumnFacts Proof.FrameFacts.
Import ListNotations.
Local Open Scope N_scope.

Lemma mapM_Forall2 {A B} (f : A -> option B) l r : mapM f l = Some r <-> Forall2 (fun a b => f a = Some b) l r.
Proof.
  revert r. induction l as [|a l IH]; intros r; simpl.
  - split; [intros [= <-]; constructor|intros H; inversion H; reflexivity].
  - split.
    + destruct (f a) eqn:E; [|discriminate]. destruct (mapM f l); [|discriminate]. intros [= <-].
      constructor; auto. now apply IH.
    + intros H. inversion H as [|? b ? r' H1 H2]; subst. rewrite H1. apply IH in H2. now rewrite H2.
Qed.
Lemma mapM_some {A B} (f : A -> option B) l : (forall a, In a l -> f a <> None) -> exists r, mapM f l = Some r.
Proof.
  induction l as [|a l IH]; intros H; simpl; eauto. destruct (f a) eqn:E; [|exfalso; apply (H a); simpl; auto].
  destruct IH as [r ->]; eauto. intros x Hx. apply H. now right.
Qed.
Lemma mapM_ext {A B} (f g : A -> option B) l : (forall a, In a l -> f a = g a) -> mapM f l = mapM g l.
Proof. induction l as [|a l IH]; intros H; simpl; auto. rewrite (H a) by (left; auto). rewrite IH; auto. intros x Hx. apply H. now right. Qed.
Lemma mapM_map {A B C} (f : B -> option C) (g : A -> B) l : mapM f (map g l) = mapM (fun a => f (g a)) l.
Proof. induction l as [|a l IH]; simpl; auto. now rewrite IH. Qed.
Lemma mapM_nth_map {A B} (f : A -> B) (l : list A) is : mapM (nth_error (map f l)) is = option_map (map f) (mapM (nth_error l) is).
Proof.
  induction is as [|i is IH]; simpl; auto. rewrite nth_error_map, IH. destruct (nth_error l i); simpl; auto.
  destruct (mapM (nth_error l) is); auto.
Qed.

Lemma list_eqb_iff {A} (eqb : A -> A -> bool) : (forall a b, eqb a b = true <-> a = b) ->
  forall l m, list_eqb eqb l m = true <-> l = m.
Proof.
  intros H. induction l as [|a l IH]; intros [|b m]; simpl; split; auto; try discriminate.
  - intros E. apply andb_true_iff in E as [E1 E2]. apply H in E1. apply IH in E2. congruence.
  - intros [= -> ->]. apply andb_true_iff. split; [now apply H|now apply IH].
Qed.

Lemma flagged_lt flag tombs : forall i x, In x (flagged flag i tombs) -> (x < i + List.length tombs)%nat.
Proof.
  induction tombs as [|b r IH]; simpl; intros i x H; [contradiction|].
  destruct (Bool.eqb b flag); [destruct H as [<-|H]; [lia|]|]; apply IH in H; lia.
Qed.
Lemma flagged_rows {A} (f : nat -> A) flag tombs : forall i,
  map f (flagged flag i tombs) = with_flag flag (map f (seq i (List.length tombs))) tombs.
Proof.
  unfold with_flag. induction tombs as [|b r IH]; simpl; intros i; auto. destruct (Bool.eqb b flag); simpl; rewrite IH; auto.
Qed.
Lemma flagged_all tombs i : flagged true i tombs = [] -> tombs = repeat false (List.length tombs).
Proof.
  revert i. induction tombs as [|b r IH]; simpl; intros i H; auto. destruct b; simpl in H; [discriminate|]. f_equal. eauto.
Qed.
Lemma with_flag_false {A} (rows : list A) : forall n, List.length rows = n ->
  with_flag false rows (repeat false n) = rows /\ with_flag true rows (repeat false n) = [].
Proof.
  unfold with_flag. induction rows as [|r rows IH]; intros [|n] H; try discriminate; simpl; auto.
  destruct (IH n) as [A1 A2]; [simpl in H; lia|]. rewrite A1, A2. auto.
Qed.

Lemma nth_repeat_in {A} (x d : A) n j : (j < n)%nat -> nth j (repeat x n) d = x.
Proof. revert j. induction n; intros [|j] H; simpl; auto; try lia. apply IHn. lia. Qed.

Section Facts.
  Context {T V : Type}.
  Variable T_eqb : T -> T -> bool.
  Hypothesis HT : forall a b, T_eqb a b = true <-> a = b.
  Notation batch := (batch (arr T V)).
  Notation column := (column (arr T V)).
  Notation valid := (batch_valid (arr T V) arr_len).
  Notation clen := (col_len (arr T V) arr_len).

  Lemma type_eqb (a b : option T) :
    match a, b with None, None => true | Some x, Some y => T_eqb x y | _, _ => false end = true <-> a = b.
  Proof.
    destruct a as [x|], b as [y|]; try (split; [discriminate|discriminate]); [|tauto].
    rewrite HT. split; congruence.
  Qed.
  Lemma field_eqb_iff a b : field_eqb T_eqb a b = true <-> a = b.
  Proof.
    destruct a as [[n u] x], b as [[m v] y]. unfold field_eqb. cbn [f_name f_nullable fst snd].
    rewrite !andb_true_iff, String.eqb_eq, eqb_true_iff, type_eqb. split; [intros [[-> ->] ->]; auto|intros [= -> -> ->]; auto].
  Qed.
  Lemma schema_eqb_iff a b : schema_eqb T_eqb a b = true <-> a = b.
  Proof.
    destruct a as [f m], b as [g n]. unfold schema_eqb. cbn [sc_fields sc_meta]. rewrite andb_true_iff.
    rewrite (list_eqb_iff _ field_eqb_iff), (list_eqb_iff (fun x y => String.eqb (fst x) (fst y) && String.eqb (snd x) (snd y))).
    - split; [intros [-> ->]; auto|intros [= -> ->]; auto].
    - intros [p q] [p' q']. cbn [fst snd]. rewrite andb_true_iff, !String.eqb_eq. split; [intros [-> ->]; auto|intros [= -> ->]; auto].
  Qed.
  Lemma schema_eqb_refl a : schema_eqb T_eqb a a = true.
  Proof. now apply schema_eqb_iff. Qed.

  Lemma take_type idx (c : column) : col_type (col_take idx c) = col_type c.
  Proof. destruct c; reflexivity. Qed.
  Lemma take_len idx (c : column) : clen (col_take idx c) = List.length idx.
  Proof. destruct c; cbn; unfold arr_len; cbn; apply map_length. Qed.
  Lemma take_null idx (c : column) n : clen c = n -> (forall i, In i idx -> (i < n)%nat) -> has_null c = false -> has_null (col_take idx c) = false.
  Proof.
    destruct c as [l|a]; cbn; auto. intros HL HI HN.
    induction idx as [|i idx IH]; cbn; auto. rewrite IH by (intros; apply HI; now right). rewrite orb_false_r.
    assert (Hi : (i < List.length l)%nat) by (subst n; apply HI; left; auto).
    destruct (nth i l None) eqn:E; auto. exfalso.
    assert (existsb (fun v : option N => match v with Some _ => false | None => true end) l = true); [|congruence].
    apply existsb_exists. exists None. split; auto. rewrite <- E. now apply nth_In.
  Qed.
  Lemma take_at idx (c : column) j i : nth_error idx j = Some i -> col_at j (col_take idx c) = col_at i c.
  Proof.
    intros H. assert (L : (j < List.length idx)%nat) by (apply nth_error_Some; congruence).
    destruct c as [l|a]; cbn [col_take col_at a_vals]; f_equal.
    - rewrite (nth_indep _ None (nth 0%nat l None)) by (now rewrite map_length).
      rewrite (map_nth (fun i => nth i l None)). apply (nth_error_nth _ _ 0%nat) in H. now rewrite H.
    - rewrite (nth_indep _ None (nth 0%nat (a_vals a) None)) by (now rewrite map_length).
      rewrite (map_nth (fun i => nth i (a_vals a) None)). apply (nth_error_nth _ _ 0%nat) in H. now rewrite H.
  Qed.

  (** A batch made of a schema and columns. *)
  Lemma try_new_schema_ok (s : schema T) (cols : list column) rows :
    cols <> [] -> map snd (sc_fields s) = map col_type cols ->
    Forall2 (fun f c => clen c = rows /\ (f_nullable (fst f) = false -> has_null c = false)) (sc_fields s) cols ->
    exists b, try_new_schema T_eqb s cols = Some b /\ valid b /\ schema_of b = s /\ map snd (b_cols b) = cols /\ b_rows b = rows /\
      b_cols b = combine (map fst (sc_fields s)) cols.
  Proof.
    intros NE HE HF. unfold try_new_schema. rewrite HE.
    rewrite (proj2 (list_eqb_iff _ type_eqb _ _) eq_refl).
    assert (HL : List.length (sc_fields s) = List.length cols) by (apply (f_equal (@List.length _)) in HE; now rewrite !map_length in HE).
    set (cs := combine (map fst (sc_fields s)) cols).
    assert (HC : Forall (fun fc : field * column => clen (snd fc) = rows /\ (f_nullable (fst fc) = false -> has_null (snd fc) = false)) cs).
    { unfold cs. clear HE HL NE. induction HF; simpl; constructor; auto. }
    assert (NC : cs <> []).
    { unfold cs. destruct cols; [congruence|]. destruct (sc_fields s); discriminate. }
    assert (E1 : map snd cs = cols).
    { unfold cs. clear - HL. revert cols HL. induction (sc_fields s) as [|f fs IH]; intros [|c cols] HL; try discriminate; simpl; auto. f_equal. apply IH. simpl in HL. lia. }
    assert (E2 : map (fun fc : field * column => (fst fc, col_type (snd fc))) cs = sc_fields s).
    { unfold cs. clear - HL HE. revert cols HL HE. induction (sc_fields s) as [|[f ty] fs IH]; intros [|c cols] HL HE; try discriminate; simpl; auto.
      simpl in HE. injection HE as -> HE. f_equal. apply IH; auto. }
    exists (mkBatch cs rows (sc_meta s)). rewrite (try_new_ok _ _ cs rows); auto.
    split; auto. split; [split; auto|]. split; [|auto]. unfold schema_of. cbn [b_cols b_meta]. rewrite E2. now destruct s.
  Qed.

  Lemma row_snd (b : batch) i : row_at b i = map (col_at i) (map snd (b_cols b)).
  Proof. unfold row_at. now rewrite map_map. Qed.

  Lemma taken_rows (cols : list column) idx (extra : list column) (b : batch) :
    map snd (b_cols b) = map (col_take idx) cols ++ extra -> b_rows b = List.length idx ->
    rows_of b = map (fun ji => map (col_at (snd ji)) cols ++ map (col_at (fst ji)) extra) (combine (seq 0 (List.length idx)) idx).
  Proof.
    intros HC HR. unfold rows_of. rewrite HR.
    assert (G : forall k l, (forall j i, nth_error l j = Some i -> nth_error idx (k + j) = Some i) ->
      map (row_at b) (seq k (List.length l)) = map (fun ji => map (col_at (snd ji)) cols ++ map (col_at (fst ji)) extra) (combine (seq k (List.length l)) l)).
    { intros k l. revert k. induction l as [|i l IH]; intros k H; simpl; auto. f_equal.
      - rewrite row_snd, HC, map_app, map_map. f_equal. apply map_ext. intros c. apply take_at. specialize (H 0%nat i eq_refl). now rewrite Nat.add_0_r in H.
      - apply IH. intros j x Hx. specialize (H (S j) x Hx). now rewrite Nat.add_succ_r in H. }
    apply (G 0%nat idx). auto.
  Qed.

  Lemma valid_cols (b : batch) : valid b -> Forall (fun fc : field * column => clen (snd fc) = b_rows b /\ (f_nullable (fst fc) = false -> has_null (snd fc) = false)) (b_cols b).
  Proof. intros H. apply H. Qed.

  Lemma take_full_ok (b : batch) idx : valid b -> (forall i, In i idx -> (i < b_rows b)%nat) ->
    exists u, take_full_batch T_eqb b idx = Some u /\ valid u /\ schema_of u = schema_of b /\ b_rows u = List.length idx /\
      rows_of u = map (row_at b) idx.
  Proof.
    intros HV HI. destruct HV as [NE HF].
    destruct (try_new_schema_ok (schema_of b) (map (fun fc => col_take idx (snd fc)) (b_cols b)) (List.length idx)) as (u & E & U1 & U2 & U3 & U4 & _).
    - destruct (b_cols b); [congruence|discriminate].
    - unfold schema_of. cbn [sc_fields]. rewrite !map_map. apply map_ext. intros fc. cbn [snd]. symmetry. apply take_type.
    - unfold schema_of. cbn [sc_fields]. clear NE. induction HF as [|fc cs [F1 F2] _ IH]; simpl; constructor; auto.
      split; [apply take_len|]. cbn [fst]. intros Hn. eapply take_null; eauto.
    - exists u. split; auto. split; auto. split; auto. split; auto.
      rewrite (taken_rows (map snd (b_cols b)) idx [] u).
      + clear. assert (G : forall l k, map (fun ji : nat * nat => map (col_at (snd ji)) (map snd (b_cols b)) ++ map (col_at (fst ji)) ([] : list column)) (combine (seq k (List.length l)) l) = map (row_at b) l).
        { induction l as [|i l IH]; intros k; simpl; auto. rewrite app_nil_r, <- row_snd. f_equal. apply IH. }
        apply G.
      + rewrite app_nil_r, map_map. exact U3.
      + exact U4.
  Qed.

  Lemma key_fields_ok (t : table T) : plain_table t -> exists fs, key_fields t = Some fs /\ fs <> [] /\ List.length fs = List.length (t_keys t) /\
    (forall f, In f fs -> f_name (fst f) <> commit_col).
  Proof.
    intros (K1 & K2 & K3). destruct (mapM_some (nth_error (sc_fields (t_schema t))) (t_keys t)) as [fs E].
    { intros k Hk. apply nth_error_Some. auto. }
    exists fs. split; [exact E|]. apply mapM_Forall2 in E. split; [|split].
    - inversion E; congruence.
    - clear - E. induction E; simpl; auto.
    - intros f Hf. apply K3. revert Hf. clear - E. induction E as [|k f' ks fs H _ IH]; simpl; [tauto|]. intros [<-|Hf]; auto. eapply nth_error_In; eauto.
  Qed.

  Definition ds_of (fs : list (field * option T)) : schema T := mkSchema (fs ++ [(mkField commit_col false, None)]) [].

  (** The commit time column of a delete batch is its last one. *)
  Lemma last_position (b : batch) fs : schema_of b = ds_of fs -> (forall f, In f fs -> f_name (fst f) <> commit_col) ->
    exists pre l, b_cols b = pre ++ [(mkField commit_col false, U64 l)] /\ List.length pre = List.length fs /\
      position commit_col (b_cols b) = Some (List.length fs) /\ nth_error (b_cols b) (List.length fs) = Some (mkField commit_col false, U64 l).
  Proof.
    intros HS HN. assert (E : map (fun fc : field * column => (fst fc, col_type (snd fc))) (b_cols b) = fs ++ [(mkField commit_col false, None)])
      by (apply (f_equal sc_fields) in HS; exact HS).
    apply map_eq_app in E as (pre & las & E0 & E1 & E2). destruct las as [|[f c] [|? ?]]; try discriminate.
    simpl in E2. injection E2 as -> E2. destruct c as [l|a]; [|discriminate].
    exists pre, l. rewrite E0. assert (L : List.length pre = List.length fs) by (rewrite <- E1; now rewrite map_length).
    split; auto. split; auto. split.
    - rewrite position_app.
      + cbn [position f_name]. rewrite String.eqb_refl. cbn. now rewrite L, Nat.add_0_r.
      + apply no_position. apply not_true_iff_false. intros X. apply existsb_exists in X as (fc & X1 & X2). apply String.eqb_eq in X2.
        apply (HN (fst fc, col_type (snd fc))); auto. rewrite <- E1. apply in_map_iff. eauto.
    - rewrite <- L. apply nth_last.
  Qed.

  Lemma build_delete_ok (t : table T) (b : batch) idx ts : plain_table t -> valid b -> schema_of b = t_schema t ->
    (forall i, In i idx -> (i < b_rows b)%nat) ->
    exists d fs, build_delete_batch T_eqb t b idx ts = Some d /\ key_fields t = Some fs /\ valid d /\ schema_of d = ds_of fs /\ b_rows d = List.length idx /\
      nth_error (b_cols d) (List.length fs) = Some (mkField commit_col false, ts_column ts (List.length idx)) /\
      mapM (key_of_row (seq 0 (List.length (t_keys t)))) (rows_of d) = mapM (fun i => key_of_row (t_keys t) (row_at b i)) idx.
  Proof.
    intros HP HV HS HI. destruct (key_fields_ok t HP) as (fs & EF & NF & LF & HN). pose proof HV as [NE HF].
    unfold build_delete_batch, delete_schema. rewrite EF.
    assert (EK : exists kcs, mapM (nth_error (b_cols b)) (t_keys t) = Some kcs /\ fs = map (fun fc : field * column => (fst fc, col_type (snd fc))) kcs).
    { unfold key_fields in EF. rewrite <- HS in EF. unfold schema_of in EF. cbn [sc_fields] in EF. rewrite mapM_nth_map in EF.
      destruct (mapM (nth_error (b_cols b)) (t_keys t)) as [kcs|]; [|discriminate]. injection EF as <-. eauto. }
    destruct EK as (kcs & EK & ->). rewrite EK.
    assert (HK : Forall (fun fc : field * column => clen (snd fc) = b_rows b /\ (f_nullable (fst fc) = false -> has_null (snd fc) = false)) kcs).
    { apply mapM_Forall2 in EK. clear - EK HF. induction EK as [|k fc ks kcs H _ IH]; constructor; auto. rewrite Forall_forall in HF. apply HF. eapply nth_error_In; eauto. }
    destruct (try_new_schema_ok (ds_of (map (fun fc : field * column => (fst fc, col_type (snd fc))) kcs))
                (map (fun fc => col_take idx (snd fc)) kcs ++ [ts_column ts (List.length idx)]) (List.length idx)) as (d & E & D1 & D2 & D3 & D4 & D5).
    - destruct kcs; discriminate.
    - unfold ds_of. cbn [sc_fields]. rewrite !map_app, !map_map. cbn [map snd]. f_equal. apply map_ext. intros fc. symmetry. apply take_type.
    - unfold ds_of. cbn [sc_fields]. apply Forall2_app.
      + clear - HK HI. induction HK as [|fc cs [F1 F2] _ IH]; simpl; constructor; auto. split; [apply take_len|]. cbn [fst]. intros Hn. eapply take_null; eauto.
      + constructor; [|constructor]. cbn [fst f_nullable]. split; [apply ts_len|]. intros _. apply ts_null.
    - exists d, (map (fun fc : field * column => (fst fc, col_type (snd fc))) kcs). split; auto. split; auto. split; auto. split; auto. split; auto. split.
      + destruct (last_position d _ D2 HN) as (pre & l & P1 & P2 & P3 & P4). rewrite P4. repeat f_equal.
        rewrite P1, map_app in D3. apply app_inj_tail in D3 as [_ D3]. cbn [snd map] in D3. exact D3.
      + rewrite (taken_rows (map snd kcs) idx [ts_column ts (List.length idx)] d); [|rewrite map_map; exact D3|exact D4].
        rewrite mapM_map.
        assert (KL : List.length kcs = List.length (t_keys t)) by (rewrite <- LF, map_length; auto).
        assert (KR : forall i, mapM (fun k => match nth_error (row_at b i) k with Some (Some v) => Some v | _ => None end) (t_keys t) =
                          mapM (fun c : cell => c) (map (col_at i) (map snd kcs))).
        { intros i. apply mapM_Forall2 in EK. clear - EK. unfold row_at. induction EK as [|k fc ks kcs H _ IH]; simpl; auto.
          rewrite nth_error_map, H. cbn [option_map]. rewrite IH. destruct (col_at i (snd fc)); reflexivity. }
        assert (KS : forall (l r : list (cell (V := V))), mapM (fun k => match nth_error (l ++ r) k with Some (Some v) => Some v | _ => None end) (seq 0 (List.length l)) =
                          mapM (fun c : cell => c) l).
        { clear. intros l r. assert (G : forall pre l, mapM (fun k => match nth_error (pre ++ l ++ r) k with Some (Some v) => Some v | _ => None end) (seq (List.length pre) (List.length l)) = mapM (fun c : cell (V := V) => c) l).
          { intros pre l0. revert pre. induction l0 as [|c l0 IH]; intros pre; simpl; auto.
            rewrite nth_error_app2, Nat.sub_diag by lia. simpl. specialize (IH (pre ++ [c])). rewrite app_length, Nat.add_1_r in IH. rewrite <- app_assoc in IH. simpl in IH.
            rewrite IH. destruct c; reflexivity. }
          apply (G [] l). }
        assert (G : forall l k, mapM (fun a : nat * nat => key_of_row (seq 0 (List.length (t_keys t))) (map (col_at (snd a)) (map snd kcs) ++ map (col_at (fst a)) ([ts_column ts (List.length idx)] : list column))) (combine (seq k (List.length l)) l)
                    = mapM (fun i => key_of_row (t_keys t) (row_at b i)) l).
        { induction l as [|i l IH]; intros k; simpl; auto. cbn [map] in IH. rewrite IH. unfold key_of_row at 1 3. rewrite KR.
          rewrite <- KL, <- (map_length snd kcs), <- (map_length (col_at i)). rewrite KS. reflexivity. }
        apply G.
  Qed.

  Lemma times_ts ts n : times_of (ts_column ts n : column) = Some (repeat ts n).
  Proof. cbn [times_of ts_column]. induction n; simpl; auto. now rewrite IHn. Qed.
  Lemma rows_len (b : batch) : List.length (rows_of b) = b_rows b.
  Proof. unfold rows_of. now rewrite map_length, seq_length. Qed.

  Lemma entries_rows (t : table T) (u : batch) ts : (forall r, In r (rows_of u) -> key_of_row (t_keys t) r <> None) ->
    exists es, put_entries t (PutRows u (ts_column ts (b_rows u))) = Some es /\ Forall2 (writes (t_keys t) ts) (rows_of u) es.
  Proof.
    intros HK. destruct (mapM_some (key_of_row (t_keys t)) (rows_of u) HK) as [ks E]. unfold put_entries. rewrite times_ts, E, repeat_length, Nat.eqb_refl.
    eexists. split; [reflexivity|]. rewrite <- rows_len. apply mapM_Forall2 in E. clear HK. induction E as [|r k rs ks H _ IH]; simpl; constructor; auto.
    unfold writes. auto.
  Qed.
  Lemma entries_dels (t : table T) (d : batch) i f ts (rs : list (list cell)) : position commit_col (b_cols d) = Some i ->
    nth_error (b_cols d) i = Some (f, ts_column ts (b_rows d)) -> List.length rs = b_rows d ->
    mapM (key_of_row (seq 0 (List.length (t_keys t)))) (rows_of d) = mapM (key_of_row (t_keys t)) rs ->
    (forall r, In r rs -> key_of_row (t_keys t) r <> None) ->
    exists es, put_entries t (PutDels d) = Some es /\ Forall2 (deletes (t_keys t) ts) rs es.
  Proof.
    intros P1 P2 HL HM HK. destruct (mapM_some _ rs HK) as [ks E]. unfold put_entries. rewrite P1, P2, HM, E, times_ts, repeat_length, Nat.eqb_refl.
    eexists. split; [reflexivity|]. rewrite <- HL. apply mapM_Forall2 in E. clear - E. induction E as [|r k rs ks H _ IH]; simpl; constructor; auto.
    unfold deletes. auto.
  Qed.

  Lemma plain_no_field (t : table T) (b : batch) name : plain_table t -> schema_of b = t_schema t ->
    name = commit_col \/ name = tombstone_col -> has_field name b = false.
  Proof.
    intros (_ & _ & H) HS HN. apply not_true_iff_false. intros X. unfold has_field in X. apply existsb_exists in X as (fc & X1 & X2). apply String.eqb_eq in X2.
    destruct (H (fst fc, col_type (snd fc))) as [A B].
    - rewrite <- HS. unfold schema_of. cbn [sc_fields]. apply in_map_iff. eauto.
    - cbn [fst] in *. destruct HN as [-> | ->]; auto.
  Qed.

  Lemma times_are_ts ts n : times_are ts (ts_column ts n : column) = true.
  Proof. cbn [times_are ts_column]. induction n; simpl; auto. now rewrite N.eqb_refl. Qed.

  Local Ltac run := repeat (progress (unfold pn_push, pn_touch, pn_remove; cbn -[replay_step N.eqb ts_column]; rewrite ?N.eqb_refl)).
  Section Log.
    Variable ipc_write : batch -> bytes.
    Variable ipc_read : bytes -> option (list batch).
    Hypothesis HI : forall b, valid b -> ipc_ok (arr T V) ipc_write ipc_read b.
    Variable t : table T.
    Hypothesis HP : plain_table t.

    Definition good_rows (b : batch) : Prop := valid b /\ schema_of b = t_schema t.
    Definition good_dels (ts : N) (d : batch) : Prop :=
      exists fs, key_fields t = Some fs /\ valid d /\ schema_of d = ds_of fs /\
        nth_error (b_cols d) (List.length fs) = Some (mkField commit_col false, ts_column ts (b_rows d)).
    Notation rb := (comes_back ipc_write ipc_read).

    Lemma rows_back id ts b : u64_ok id -> good_rows b ->
      rb (CmdRows id b (ts_column ts (b_rows b))) (EvAppend id b (match b_rows b with O => None | S _ => Some ts end) (ts_column ts (b_rows b))).
    Proof.
      intros Hid [HV HS].
      assert (F1 : has_field commit_col b = false) by (eapply plain_no_field; eauto).
      assert (F2 : has_field tombstone_col b = false) by (eapply plain_no_field; eauto).
      destruct (payload_round (arr T V) arr_len ipc_write ipc_read (CmdRows id b (ts_column ts (b_rows b)))
                  (EvAppend id b (match b_rows b with O => None | S _ => Some ts end) (ts_column ts (b_rows b)))) as (ty & p & E1 & E2 & _).
      - apply mn_rows; auto. intros w Ew. apply HI. destruct (c45 _ _ b ts HV F1 F2) as (w' & E & HW & _). rewrite E in Ew. injection Ew as <-. exact HW.
      - exists ty, p. auto.
    Qed.
    Lemma dels_back id ts d : u64_ok id -> good_dels ts d ->
      rb (CmdDelete id d) (EvDelete id d (match b_rows d with O => None | S _ => Some ts end)).
    Proof.
      intros Hid (fs & EF & HV & HS & HN). destruct (key_fields_ok t HP) as (fs' & EF' & _ & _ & HF). rewrite EF in EF'. injection EF' as <-.
      destruct (last_position d fs HS HF) as (pre & l & P1 & P2 & P3 & P4).
      destruct (payload_round (arr T V) arr_len ipc_write ipc_read (CmdDelete id d)
                  (EvDelete id d (match b_rows d with O => None | S _ => Some ts end))) as (ty & p & E1 & E2 & _).
      - eapply mn_delete; eauto.
      - exists ty, p. auto.
    Qed.
    Lemma commit_back id ts : u64_ok id -> u64_ok ts -> rb (CmdCommit id ts) (EvCommit id ts).
    Proof.
      intros H1 H2. destruct (payload_round (arr T V) arr_len ipc_write ipc_read (CmdCommit id ts) (EvCommit id ts)) as (ty & p & E1 & E2 & _).
      - now apply mn_commit.
      - exists ty, p. auto.
    Qed.
    Lemma begin_back id : u64_ok id -> rb (CmdBegin id) (EvBegin id).
    Proof.
      intros H1. destruct (payload_round (arr T V) arr_len ipc_write ipc_read (CmdBegin id) (EvBegin id)) as (ty & p & E1 & E2 & _).
      - now apply mn_begin.
      - exists ty, p. auto.
    Qed.

    Lemma rows_put b hint ts s : good_rows b -> replay_step T_eqb t (PUpsert b (ts_column ts (b_rows b)) hint) ts s = Some (s ++ [PutRows b (ts_column ts (b_rows b))]).
    Proof.
      intros [HV HS]. unfold replay_step, replay_put. rewrite (plain_no_field t b tombstone_col) by auto. cbn [andb].
      rewrite HS, schema_eqb_refl, times_are_ts. reflexivity.
    Qed.
    Lemma dels_put d hint ts s : good_dels ts d -> replay_step T_eqb t (PDelete d hint) ts s = Some (s ++ [PutDels d]).
    Proof.
      intros (fs & EF & HV & HS & HN). destruct (key_fields_ok t HP) as (fs' & EF' & _ & _ & HF). rewrite EF in EF'. injection EF' as <-.
      destruct (last_position d fs HS HF) as (pre & l & P1 & P2 & P3 & P4).
      unfold replay_step, replay_put, delete_schema. rewrite EF. fold (ds_of fs). rewrite HS, schema_eqb_refl. cbn [negb]. rewrite P3, HN, times_are_ts. reflexivity.
    Qed.

    Definition events_for (id ts : N) (u d : option batch) : list (event (arr T V)) :=
      match u with Some b => [EvAppend id b (match b_rows b with O => None | S _ => Some ts end) (ts_column ts (b_rows b))] | None => [] end ++
      match d with Some b => [EvDelete id b (match b_rows b with O => None | S _ => Some ts end)] | None => [] end ++ [EvCommit id ts].

    Lemma write_replays id ts u d : u64_ok id -> u64_ok ts -> (forall b, u = Some b -> good_rows b) -> (forall b, d = Some b -> good_dels ts b) ->
      (u <> None \/ d <> None) ->
      Forall2 rb (commands_of id ts u d) (events_for id ts u d) /\
      replay (replay_step T_eqb t) (map to_wrec (events_for id ts u d)) [] None [] = Some (puts_of ts u d, Some ts) /\
      replay (replay_step T_eqb t) (map to_wrec (EvBegin id :: events_for id ts u d)) [] None [] = Some (puts_of ts u d, Some ts).
    Proof.
      intros H1 H2 HU HD NE. unfold commands_of, events_for, puts_of.
      destruct u as [ub|], d as [db|]; [..|destruct NE; congruence].
      - split; [|split].
        + repeat constructor; [apply rows_back; auto|apply dels_back; auto|apply commit_back; auto].
        + run. 
          rewrite rows_put by auto. rewrite dels_put by auto. reflexivity.
        + run. 
          rewrite rows_put by auto. rewrite dels_put by auto. reflexivity.
      - split; [|split].
        + repeat constructor; [apply rows_back; auto|apply commit_back; auto].
        + run. rewrite rows_put by auto. reflexivity.
        + run. rewrite rows_put by auto. reflexivity.
      - split; [|split].
        + repeat constructor; [apply dels_back; auto|apply commit_back; auto].
        + run. rewrite dels_put by auto. reflexivity.
        + run. rewrite dels_put by auto. reflexivity.
    Qed.
  End Log.

  Lemma with_flag_In {A} flag (rows : list A) tombs r : In r (with_flag flag rows tombs) -> In r rows.
  Proof.
    unfold with_flag. intros H. apply in_map_iff in H as ([a b] & <- & H). apply filter_In in H as [H _]. now apply in_combine_l in H.
  Qed.

  Lemma ingest_split (t : table T) (b : batch) tombs ts : plain_table t -> valid b -> schema_of b = t_schema t -> List.length tombs = b_rows b ->
    (forall r, In r (rows_of b) -> key_of_row (t_keys t) r <> None) ->
    exists u d, ingest_batches T_eqb t b tombs ts = WOk (u, d) /\
      (forall x, u = Some x -> good_rows t x) /\ (forall x, d = Some x -> good_dels t ts x) /\
      (b_rows b <> O -> u <> None \/ d <> None) /\ (b_rows b = O -> u = None /\ d = None) /\
      exists es1 es2, all_entries t (puts_of ts u d) = Some (es1 ++ es2) /\
        Forall2 (writes (t_keys t) ts) (with_flag false (rows_of b) tombs) es1 /\
        Forall2 (deletes (t_keys t) ts) (with_flag true (rows_of b) tombs) es2.
  Proof.
    intros HP HV HS HL HK. unfold ingest_batches. rewrite HS, schema_eqb_refl, HL, Nat.eqb_refl. cbn [negb].
    unfold partition. destruct (b_rows b) as [|n] eqn:ER.
    { exists None, None. destruct tombs; [|discriminate]. split; auto. split; [discriminate|]. split; [discriminate|]. split; [congruence|]. split; auto.
      exists [], []. unfold all_entries. simpl. assert (rows_of b = []) as -> by (unfold rows_of; now rewrite ER). repeat split; constructor. }
    assert (HR : forall flag, map (row_at b) (flagged flag 0 tombs) = with_flag flag (rows_of b) tombs).
    { intros flag. rewrite flagged_rows. unfold rows_of. now rewrite HL, ER. }
    assert (HLt : forall flag i, In i (flagged flag 0 tombs) -> (i < b_rows b)%nat).
    { intros flag i Hi. apply flagged_lt in Hi. simpl in Hi. rewrite ER, <- HL. exact Hi. }
    assert (HW : forall flag r, In r (with_flag flag (rows_of b) tombs) -> key_of_row (t_keys t) r <> None).
    { intros flag r Hr. apply HK. eapply with_flag_In; eauto. }
    destruct (flagged true 0 tombs) as [|d0 dr] eqn:ED.
    - exists (Some b), None. split; auto. split; [intros x [= <-]; split; auto|]. split; [discriminate|]. split; [left; discriminate|]. split; [discriminate|].
      destruct (entries_rows t b ts HK) as (es & E1 & E2). exists es, []. unfold all_entries. unfold puts_of. cbn [app mapM]. rewrite E1. cbn [option_map List.concat].
      apply flagged_all in ED. rewrite ED. destruct (with_flag_false (rows_of b) (List.length tombs)) as [W1 W2]; [rewrite rows_len; congruence|].
      rewrite W1, W2. split; [reflexivity|]. split; auto.
    - rewrite <- ED in *. destruct (build_delete_ok t b (flagged true 0 tombs) ts HP HV HS (HLt true)) as (d & fs & D1 & D2 & D3 & D4 & D5 & D6 & D7).
      rewrite D1.
      assert (GD : good_dels t ts d) by (exists fs; rewrite D5; auto).
      destruct (key_fields_ok t HP) as (fs' & EF' & _ & _ & HF). rewrite D2 in EF'. injection EF' as <-.
      destruct (last_position d fs D4 HF) as (pre & l & P1 & P2 & P3 & P4).
      destruct (entries_dels t d (List.length fs) (mkField commit_col false) ts (with_flag true (rows_of b) tombs)) as (es2 & E3 & E4); auto.
      { now rewrite D5. }
      { rewrite <- HR, map_length. auto. }
      { rewrite D7, <- HR, mapM_map. reflexivity. }
      { apply HW. }
      destruct (flagged false 0 tombs) as [|u0 ur] eqn:EU.
      + exists None, (Some d). split; [reflexivity|]. split; [discriminate|]. split; [intros x [= <-]; auto|]. split; [right; discriminate|]. split; [discriminate|].
        exists [], es2. unfold all_entries. unfold puts_of. cbn [app mapM]. rewrite E3. cbn [option_map List.concat]. rewrite app_nil_r. split; auto. split; auto.
        rewrite <- HR, EU. constructor.
      + rewrite <- EU in *. destruct (take_full_ok b (flagged false 0 tombs) HV (HLt false)) as (u & U1 & U2 & U3 & U4 & U5).
        rewrite U1. destruct (entries_rows t u ts) as (es1 & E1 & E2).
        { intros r Hr. rewrite U5, HR in Hr. eapply HW; eauto. }
        exists (Some u), (Some d). split; [reflexivity|].
        split; [intros x [= <-]; split; auto; now rewrite U3|]. split; [intros x [= <-]; auto|]. split; [left; discriminate|]. split; [discriminate|].
        exists es1, es2. unfold all_entries. unfold puts_of. cbn [app mapM]. rewrite E1, E3. cbn [option_map List.concat]. rewrite app_nil_r. split; auto.
        rewrite U5, HR in E2. auto.
  Qed.

  Theorem ingest_replays (t : table T) (b : batch) tombs ts : plain_table t -> valid b -> schema_of b = t_schema t -> List.length tombs = b_rows b ->
    (forall r, In r (rows_of b) -> key_of_row (t_keys t) r <> None) ->
    exists u d, ingest_batches T_eqb t b tombs ts = WOk (u, d) /\
      (exists es1 es2, all_entries t (puts_of ts u d) = Some (es1 ++ es2) /\
         Forall2 (writes (t_keys t) ts) (with_flag false (rows_of b) tombs) es1 /\
         Forall2 (deletes (t_keys t) ts) (with_flag true (rows_of b) tombs) es2) /\
      (b_rows b = O -> u = None /\ d = None) /\
      (b_rows b <> O -> forall ipc_write ipc_read id,
         (forall x, valid x -> ipc_ok (arr T V) ipc_write ipc_read x) -> u64_ok id -> u64_ok ts ->
         exists events, Forall2 (comes_back ipc_write ipc_read) (commands_of id ts u d) events /\
           replay (replay_step T_eqb t) (map to_wrec events) [] None [] = Some (puts_of ts u d, Some ts)).
  Proof.
    intros HP HV HS HL HK. destruct (ingest_split t b tombs ts HP HV HS HL HK) as (u & d & E & HU & HD & NE & NZ & HE).
    exists u, d. split; auto. split; auto. split; auto. intros HR ipc_write ipc_read id HI H1 H2.
    exists (events_for id ts u d). destruct (write_replays ipc_write ipc_read HI t HP id ts u d H1 H2 HU HD (NE HR)) as (A & B & _). auto.
  Qed.

  Theorem ingest_refused (t : table T) (b : batch) tombs ts :
    (schema_of b <> t_schema t -> ingest_batches T_eqb t b tombs ts = WErr SchemaMismatch) /\
    (schema_of b = t_schema t -> List.length tombs <> b_rows b -> ingest_batches T_eqb t b tombs ts = WErr TombstoneLength).
  Proof.
    unfold ingest_batches. split.
    - intros H. destruct (schema_eqb T_eqb (t_schema t) (schema_of b)) eqn:E; auto. apply schema_eqb_iff in E. congruence.
    - intros H HL. rewrite H, schema_eqb_refl. cbn [negb]. destruct (Nat.eqb_spec (b_rows b) (List.length tombs)); auto. congruence.
  Qed.

  (** A transaction's batches, as their builder promises them. *)
  Theorem transaction_replays (t : table T) (ds : schema T) (u d : option batch) ts rows keys : plain_table t -> delete_schema t = Some ds ->
    (forall b, u = Some b -> valid b /\ schema_of b = t_schema t /\ rows_of b = rows) ->
    (forall b, d = Some b -> valid b /\ schema_of b = ds /\
       rows_of b = map (fun k : list (N + V) => map Some k ++ [Some (inl ts)]) keys /\ Forall (fun k => List.length k = List.length (t_keys t)) keys) ->
    (forall r, In r rows -> key_of_row (t_keys t) r <> None) ->
    (u = None -> rows = []) -> (d = None -> keys = []) -> (u <> None \/ d <> None) ->
    (exists es, all_entries t (puts_of ts u d) = Some (es ++ map (fun k => (k, ts, None)) keys) /\ Forall2 (writes (t_keys t) ts) rows es) /\
    (forall ipc_write ipc_read id,
       (forall x, valid x -> ipc_ok (arr T V) ipc_write ipc_read x) -> u64_ok id -> u64_ok ts ->
       exists events, Forall2 (comes_back ipc_write ipc_read) (CmdBegin id :: commands_of id ts u d) events /\
         replay (replay_step T_eqb t) (map to_wrec events) [] None [] = Some (puts_of ts u d, Some ts)).
  Proof.
    intros HP EDS HU HD HK NU ND NE.
    destruct (key_fields_ok t HP) as (fs & EF & NF & LF & HN).
    assert (EDS' : ds = ds_of fs) by (unfold delete_schema in EDS; rewrite EF in EDS; injection EDS as <-; reflexivity).
    assert (GU : forall b, u = Some b -> good_rows t b) by (intros b Hb; destruct (HU b Hb) as (A & B & _); split; auto).
    assert (GD : forall b, d = Some b -> good_dels t ts b /\ put_entries t (PutDels b) = Some (map (fun k => (k, ts, None)) keys)).
    { intros b Hb. destruct (HD b Hb) as (A & B & C & D). rewrite EDS' in B. destruct (last_position b fs B HN) as (pre & l & P1 & P2 & P3 & P4).
      assert (LR : List.length keys = b_rows b) by (rewrite <- rows_len, C, map_length; auto).
      assert (EL : U64 l = (ts_column ts (b_rows b) : column)).
      { (* each row ends with the commit time *)
        destruct A as [_ A]. rewrite P1 in A. apply Forall_app in A as [_ A]. inversion A as [|? ? [A1 _] _]; subst. cbn [snd col_len] in A1.
        unfold ts_column. f_equal. apply nth_ext with (d := None) (d' := None); [now rewrite repeat_length|].
        intros j Hj. rewrite A1 in Hj. rewrite (nth_repeat_in (Some ts) None (b_rows b) j Hj).
        assert (X : nth_error (rows_of b) j = Some (row_at b j)).
        { unfold rows_of. rewrite nth_error_map, (nth_error_nth' _ 0%nat) by (now rewrite seq_length). rewrite seq_nth by exact Hj. reflexivity. }
        rewrite C, nth_error_map in X. destruct (nth_error keys j) as [k|] eqn:EK; [|discriminate]. cbn [option_map] in X. injection X as X.
        unfold row_at in X. rewrite P1, map_app in X. apply app_inj_tail in X as [_ X]. cbn [snd col_at] in X. destruct (nth j l None); [|discriminate]. injection X as ->. reflexivity. }
      assert (G : good_dels t ts b) by (exists fs; split; auto; split; auto; split; auto; now rewrite P4, EL).
      split; auto. unfold put_entries. rewrite P3, P4, EL, times_ts, C, mapM_map, repeat_length, Nat.eqb_refl.
      assert (EM : mapM (fun a : list (N + V) => key_of_row (seq 0 (List.length (t_keys t))) (map Some a ++ [Some (inl ts)])) keys = Some keys).
      { apply mapM_Forall2. clear - D. induction D as [|k ks Hk _ IH]; constructor; auto. unfold key_of_row. rewrite <- Hk.
        assert (Q : forall pre (k : list (N + V)) r, mapM (fun i => match nth_error (map Some (pre ++ k) ++ r) i with Some (Some v) => Some v | _ => None end) (seq (List.length pre) (List.length k)) = Some k).
        { intros pre k0 r. revert pre. induction k0 as [|x k0 IHk]; intros pre; simpl; auto.
          rewrite nth_error_app1 by (rewrite map_length, app_length; simpl; lia). rewrite nth_error_map, nth_error_app2, Nat.sub_diag by lia. cbn [nth_error option_map].
          specialize (IHk (pre ++ [x])). rewrite <- app_assoc in IHk. simpl in IHk. rewrite app_length, Nat.add_1_r in IHk. rewrite IHk. reflexivity. }
        apply (Q [] k). }
      rewrite EM. f_equal. rewrite <- LR. clear. induction keys as [|k ks IH]; simpl; auto. f_equal. exact IH. }
    split.
    - assert (ER : exists es, match u with Some b => put_entries t (PutRows b (ts_column ts (b_rows b))) = Some es | None => es = [] end /\ Forall2 (writes (t_keys t) ts) rows es).
      { destruct u as [b|]; [|rewrite NU by auto; exists []; auto]. destruct (HU b eq_refl) as (A & B & C). rewrite <- C in HK |- *. destruct (entries_rows t b ts HK) as (es & E1 & E2). eauto. }
      destruct ER as (es & E1 & E2). exists es. split; auto. unfold all_entries, puts_of.
      destruct u as [ub|], d as [db|]; cbn [app mapM].
      + rewrite E1. destruct (GD db eq_refl) as [_ ->]. cbn [option_map List.concat]. now rewrite app_nil_r.
      + rewrite E1, ND by auto. reflexivity.
      + subst es. destruct (GD db eq_refl) as [_ ->]. cbn [option_map List.concat]. now rewrite app_nil_r.
      + destruct NE; congruence.
    - intros ipc_write ipc_read id HI H1 H2. exists (EvBegin id :: events_for id ts u d).
      destruct (write_replays ipc_write ipc_read HI t HP id ts u d H1 H2 GU (fun b Hb => proj1 (GD b Hb)) NE) as (A & _ & B).
      split; auto. constructor; auto. apply begin_back; auto.
  Qed.
End Facts.

(** *** Examples *)
Notation demo_arr := (arr N N).
Definition demo_schema : schema N :=
  mkSchema [(mkField "id" false, None); (mkField "city" false, Some 7); (mkField "v" true, Some 8)] [("owner", "me")]%string.
Definition demo_table : table N := mkTable demo_schema [1; 0]%nat.
Definition demo_rows : batch demo_arr :=
  mkBatch [(mkField "id" false, U64 [Some 1; Some 2; Some 3]); (mkField "city" false, Other (mkArr 7 [Some 70; Some 71; Some 72]));
           (mkField "v" true, Other (mkArr 8 [Some 10; None; None]))] 3 [("owner", "me")]%string.
Definition demo_dels : batch demo_arr :=
  mkBatch [(mkField "city" false, Other (mkArr 7 [Some 71])); (mkField "id" false, U64 [Some 2]); (mkField "_commit_ts" false, U64 [Some 9])] 1 [].
Lemma demo_plain : plain_table demo_table.
Proof.
  split; [discriminate|]. split.
  - intros k [<-|[<-|[]]]; vm_compute; repeat constructor.
  - intros f [<-|[<-|[<-|[]]]]; split; discriminate.
Qed.
Lemma demo_valid : batch_valid demo_arr arr_len demo_rows /\ schema_of demo_rows = t_schema demo_table /\
  (forall r, In r (rows_of demo_rows) -> key_of_row (t_keys demo_table) r <> None).
Proof.
  split; [split; [discriminate|repeat constructor]|]. split; [reflexivity|].
  intros r H. repeat (destruct H as [<-|H]; [discriminate|]). destruct H.
Qed.
Lemma demo_split :
  match ingest_batches N.eqb demo_table demo_rows [false; true; false] 9 with
  | WOk (Some u, Some d) => d = demo_dels /\ rows_of u = [[Some (inl 1); Some (inr 70); Some (inr 10)]; [Some (inl 3); Some (inr 72); None]] /\
      all_entries demo_table (puts_of 9 (Some u) (Some d)) =
        Some [([inr 70; inl 1], 9, Some [Some (inl 1); Some (inr 70); Some (inr 10)]); ([inr 72; inl 3], 9, Some [Some (inl 3); Some (inr 72); None]);
              ([inr 71; inl 2], 9, None)]
  | _ => False
  end.
Proof. vm_compute. repeat split. Qed.
Lemma demo_txn : batch_valid demo_arr arr_len demo_dels /\ delete_schema demo_table = Some (schema_of demo_dels) /\
  rows_of demo_dels = map (fun k => map Some k ++ [Some (inl 9)]) [[inr 71; inl 2]].
Proof. split; [split; [discriminate|repeat constructor]|]. split; reflexivity. Qed.

(** A table keyed by a column with the reserved name. *)
Definition odd_table : table N := mkTable (mkSchema [(mkField "_commit_ts" false, None); (mkField "v" true, Some 8)] []) [0]%nat.
Definition odd_rows : batch demo_arr :=
  mkBatch [(mkField "_commit_ts" false, U64 [Some 5]); (mkField "v" true, Other (mkArr 8 [None]))] 1 [].
Definition odd_dels : batch demo_arr := mkBatch [(mkField "_commit_ts" false, U64 [Some 5]); (mkField "_commit_ts" false, U64 [Some 9])] 1 [].
Lemma odd_live : batch_valid demo_arr arr_len odd_rows /\ schema_of odd_rows = t_schema odd_table /\
  ingest_batches N.eqb odd_table odd_rows [true] 9 = WOk (None, Some odd_dels) /\
  all_entries odd_table (puts_of 9 None (Some odd_dels)) = Some [([inl 5], 5, None)].
Proof. split; [split; [discriminate|repeat constructor]|]. repeat split. Qed.
Lemma odd_valid : batch_valid demo_arr arr_len odd_dels.
Proof. split; [discriminate|]. constructor; [split; [reflexivity|reflexivity]|]. constructor; [split; reflexivity|constructor]. Qed.
Lemma odd_fails ipc_write ipc_read id : (forall x, batch_valid demo_arr arr_len x -> ipc_ok demo_arr ipc_write ipc_read x) -> u64_ok id ->
  exists events, Forall2 (comes_back ipc_write ipc_read) (commands_of id 9 None (Some odd_dels)) events /\
    replay (replay_step N.eqb odd_table) (map to_wrec events) [] None [] = None.
Proof.
  intros HI H1. exists [EvDelete id odd_dels (Some 5); EvCommit id 9]. split.
  - constructor; [|constructor; [|constructor]].
    + destruct (payload_round demo_arr arr_len ipc_write ipc_read (CmdDelete id odd_dels) (EvDelete id odd_dels (Some 5))) as (ty & p & E1 & E2 & _).
      * apply (mn_delete _ _ _ _ id odd_dels 0%nat (mkField "_commit_ts" false) 5); auto. apply HI, odd_valid.
      * exists ty, p. auto.
    + apply commit_back; auto. reflexivity.
  - cbn -[replay_step N.eqb]. rewrite N.eqb_refl. reflexivity.
Qed.
Lemma odd_rows_are : rows_of odd_rows = [[Some (inl 5); None]].
Proof. vm_compute. reflexivity. Qed.
Lemma odd_refutes :
  exists (t : table N) (b : batch (arr N N)) ts k d,
    batch_valid (arr N N) arr_len b /\ schema_of b = t_schema t /\ rows_of b = [[Some (inl k); None]] /\
    ingest_batches N.eqb t b [true] ts = WOk (None, Some d) /\
    all_entries t (puts_of ts None (Some d)) = Some [([inl k], k, None)] /\ k <> ts /\
    forall ipc_write ipc_read id,
      (forall x, batch_valid (arr N N) arr_len x -> ipc_ok (arr N N) ipc_write ipc_read x) -> u64_ok id ->
      exists events, Forall2 (comes_back ipc_write ipc_read) (commands_of id ts None (Some d)) events /\
        replay (replay_step N.eqb t) (map to_wrec events) [] None [] = None.
Proof.
  exists odd_table, odd_rows, 9, 5, odd_dels. destruct odd_live as (A & B & C & D).
  split; [exact A|]. split; [exact B|]. split; [exact odd_rows_are|]. split; [exact C|]. split; [exact D|].
  split; [discriminate|]. intros w r id. apply odd_fails.
Qed.
