(** Staging calls of a transaction. *)
From Coq Require Import List Bool Arith String Lia.
From Verif Require Import Model.Stage Spec.StageSpec.
Import ListNotations.

Lemma kind_eqb_spec a b : kind_eqb a b = true <-> a = b.
Proof.
  destruct a, b; simpl; split; intros H; try discriminate; auto.
  - apply Nat.eqb_eq in H. congruence.
  - injection H as ->. apply Nat.eqb_refl.
Qed.
Lemma ctype_eqb_spec a b : ctype_eqb a b = true <-> a = b.
Proof.
  destruct a, b; simpl; split; intros H; try discriminate; auto.
  - apply Nat.eqb_eq in H. congruence.
  - injection H as ->. apply Nat.eqb_refl.
Qed.
Lemma column_eqb_spec a b : column_eqb a b = true <-> a = b.
Proof.
  destruct a as [n ty u], b as [n' ty' u']. unfold column_eqb. simpl.
  rewrite !andb_true_iff, String.eqb_eq, ctype_eqb_spec, Bool.eqb_true_iff.
  split; [intros [[-> ->] ->]; auto|intros H; injection H; auto].
Qed.
Lemma schema_eqb_spec : forall a b, schema_eqb a b = true <-> a = b.
Proof.
  induction a as [|x a IH]; intros [|y b]; simpl; split; intros H; try discriminate; auto.
  - apply andb_true_iff in H as [H1 H2]. apply column_eqb_spec in H1. apply IH in H2. congruence.
  - injection H as -> ->. apply andb_true_iff. rewrite column_eqb_spec, IH. auto.
Qed.

Section Facts.
  Context {V : Type}.
  Variable V_eqb : V -> V -> bool.
  Hypothesis V_eqb_ok : forall a b, V_eqb a b = true <-> a = b.
  Variable t : table.
  Notation row := (@row V).
  Notation keyb := (key_eqb V_eqb).
  Notation put := (put V_eqb).
  Notation get := (get V_eqb).

  Lemma key_eqb_spec : forall a b : row, keyb a b = true <-> a = b.
  Proof.
    induction a as [|x a IH]; intros [|y b]; simpl; split; intros H; try discriminate; auto.
    - apply andb_true_iff in H as [H1 H2]. apply IH in H2. subst b. f_equal.
      destruct x as [[k v]|], y as [[k' v']|]; simpl in H1; try discriminate; auto.
      apply andb_true_iff in H1 as [H1 H2]. apply kind_eqb_spec in H1. apply V_eqb_ok in H2. congruence.
    - injection H as -> ->. apply andb_true_iff. split; [|now apply IH].
      destruct y as [[k v]|]; simpl; auto. apply andb_true_iff. split; [now apply kind_eqb_spec|now apply V_eqb_ok].
  Qed.
  Lemma key_eqb_neq (a b : row) : a <> b -> keyb a b = false.
  Proof. intros H. destruct (keyb a b) eqn:E; auto. apply key_eqb_spec in E. contradiction. Qed.
  Lemma key_eqb_refl (a : row) : keyb a a = true.
  Proof. now apply key_eqb_spec. Qed.

  Lemma builds_spec : forall cs (r : row), row_builds cs r = true <-> Forall2 holds cs r.
  Proof.
    induction cs as [|c cs IH]; intros [|x r]; simpl; split; intros H; try discriminate; try (now inversion H); auto.
    - apply andb_true_iff in H as [H1 H2]. constructor; [|now apply IH].
      destruct x as [[k v]|]; simpl; auto. now apply kind_eqb_spec.
    - inversion H; subst. apply andb_true_iff. split; [|now apply IH].
      destruct x as [[k v]|]; simpl in *; auto. now apply kind_eqb_spec.
  Qed.
  Lemma no_null_spec (k : row) : no_null k = true <-> ~ In None k.
  Proof.
    unfold no_null. rewrite forallb_forall. split.
    - intros H F. apply H in F. discriminate.
    - intros H [x|] Hx; auto; contradiction.
  Qed.
  Lemma Forall2_len {A B} (R : A -> B -> Prop) l m : Forall2 R l m -> List.length l = List.length m.
  Proof. induction 1; simpl; auto. Qed.

  Lemma project_spec (r : row) :
    (valid t r -> project_key t r = inl (key_of t r)) /\ (~ valid t r -> exists e, project_key t r = inr e).
  Proof.
    unfold project_key, valid. destruct (Nat.eqb_spec (List.length r) (List.length (t_cols t))) as [L|L]; simpl.
    - destruct (row_builds (t_cols t) r) eqn:B; simpl.
      + apply builds_spec in B. destruct (no_null (key_cells t r)) eqn:N.
        * split; auto. intros F. destruct F. split; auto. intros i Hi F. apply no_null_spec in N. apply N.
          unfold key_cells. apply in_map_iff. exists i. auto.
        * split; [|eauto]. intros [_ H]. assert (N' : no_null (key_cells t r) = true); [|congruence].
          apply no_null_spec. unfold key_cells. rewrite in_map_iff. intros (i & F & Hi). exact (H i Hi F).
      + split; [|eauto]. intros [H _]. apply builds_spec in H. congruence.
    - split; [|eauto]. intros [H _]. apply Forall2_len in H. congruence.
  Qed.

  Theorem upsert_accepts (r : row) s : snd (upsert V_eqb t r s) = None <-> valid t r.
  Proof.
    unfold upsert. destruct (project_spec r) as [P1 P2]. destruct (project_key t r) as [k|e] eqn:E; simpl.
    - split; auto. intros _. destruct (row_builds (t_cols t) r) eqn:B.
      + unfold project_key in E. rewrite B in E. destruct (negb (List.length r =? _)); [discriminate|]. simpl in E.
        destruct (no_null (key_cells t r)) eqn:N; [|discriminate]. split; [now apply builds_spec|].
        intros i Hi F. apply no_null_spec in N. apply N. unfold key_cells. apply in_map_iff. exists i. auto.
      + unfold project_key in E. rewrite B in E. destruct (negb (List.length r =? _)); discriminate.
    - split; [discriminate|]. intros H. apply P1 in H. discriminate.
  Qed.
  Lemma upsert_ok (r : row) s : valid t r -> upsert V_eqb t r s = (put (key_of t r) (Some r) s, None).
  Proof. intros H. unfold upsert. destruct (project_spec r) as [P _]. now rewrite (P H). Qed.
  Theorem delete_accepts (k : row) s : snd (delete V_eqb t k s) = None <-> complete t k.
  Proof.
    unfold delete, validate_key, complete. destruct (Nat.eqb_spec (List.length k) (List.length (t_key t))); simpl.
    - destruct (no_null k) eqn:N; simpl.
      + apply no_null_spec in N. split; auto.
      + split; [discriminate|]. intros [_ H]. apply no_null_spec in H. congruence.
    - split; [discriminate|]. intros [H _]. contradiction.
  Qed.
  Lemma delete_ok (k : row) s : complete t k -> delete V_eqb t k s = (put k None s, None).
  Proof.
    intros H. pose proof (proj2 (delete_accepts k s) H) as D. unfold delete in *. destruct (validate_key t k); [discriminate|auto].
  Qed.
  Theorem refused_unchanged c s : match c with SUpsert _ | SDelete _ => True | _ => False end ->
    snd (stage V_eqb t c s) <> None -> fst (stage V_eqb t c s) = s.
  Proof.
    destruct c; simpl; try contradiction; intros _.
    - unfold upsert. destruct (project_key t r); simpl; auto. congruence.
    - unfold delete. destruct (validate_key t k); simpl; auto. congruence.
  Qed.

  (** *** The staged entries *)
  Lemma get_put k k' m (s : staged) : get (put k m s) k' = if keyb k' k then Some m else get s k'.
  Proof.
    induction s as [|[k0 m0] s IH]; simpl; auto.
    destruct (keyb k k0) eqn:E.
    - apply key_eqb_spec in E. subst k0. simpl. destruct (keyb k' k) eqn:E1; auto.
    - simpl. destruct (keyb k' k0) eqn:E1; auto. apply key_eqb_spec in E1. subst k0.
      destruct (keyb k' k) eqn:E2; auto. apply key_eqb_spec in E2. subst k'. rewrite key_eqb_refl in E. discriminate.
  Qed.
  Definition apply_ask (s : staged) (a : ask) : staged := put (ask_key t a) (ask_value a) s.
  Lemma apply_asks_last l : forall k m, last_of t l k m -> forall s,
    get (fold_left apply_ask l s) k = match m with Some x => Some x | None => get s k end.
  Proof.
    intros k m H. induction H as [k|l a k H|l a k m H H0 IH]; intros s; [reflexivity| |];
      rewrite fold_left_app; cbn [fold_left]; unfold apply_ask at 1; rewrite get_put.
    - subst k. rewrite key_eqb_refl. auto.
    - rewrite key_eqb_neq by congruence. apply IH.
  Qed.
  Lemma rows_spec : forall rs (s : staged),
    (snd (upsert_rows V_eqb t rs s) = None /\ Forall (valid t) rs /\
     fst (upsert_rows V_eqb t rs s) = fold_left apply_ask (map APut rs) s) \/
    (snd (upsert_rows V_eqb t rs s) <> None /\ exists l r rest, rs = l ++ r :: rest /\ Forall (valid t) l /\ ~ valid t r /\
       fst (upsert_rows V_eqb t rs s) = fold_left apply_ask (map APut l) s).
  Proof.
    induction rs as [|r rs IH]; intros s; [left; simpl; auto|]. cbn [upsert_rows].
    destruct (upsert V_eqb t r s) as [s' [e|]] eqn:E.
    - right. cbn [fst snd]. split; [discriminate|]. exists [], r, rs. repeat split; auto.
      + intros H. apply (upsert_accepts r s) in H. rewrite E in H. discriminate.
      + pose proof (refused_unchanged (SUpsert r) s I) as U. simpl in U. rewrite E in U. simpl in U. rewrite U by discriminate. auto.
    - assert (HV : valid t r) by (apply (upsert_accepts r s); rewrite E; auto).
      rewrite (upsert_ok r s HV) in E. injection E as <-.
      destruct (IH (put (key_of t r) (Some r) s)) as [(I1 & I2 & I3)|(I1 & l & r' & rest & I2 & I3 & I4 & I5)].
      + left. split; auto.
      + right. split; auto. exists (r :: l), r', rest. subst rs. repeat split; auto.
  Qed.
  Lemma row_read : forall cs (r q : row), List.length r = List.length cs -> row_from_batch cs r = inl q ->
    List.length q <= List.length r /\ (List.length q = List.length r -> q = r).
  Proof.
    induction cs as [|c cs IH]; intros [|x r] q L H; simpl in *; try discriminate; try (injection H as <-; auto).
    injection L as L. destruct (reserved (c_name c)).
    - destruct (IH r q L H) as [I1 I2]. split; lia.
    - destruct x as [v|]; [destruct (readable (c_type c)); [|discriminate]|];
        destruct (row_from_batch cs r) as [q'|] eqn:E; try discriminate; injection H as <-;
        destruct (IH r q' L E) as [I1 I2]; simpl; (split; [lia|intros F; f_equal; apply I2; lia]).
  Qed.
  Lemma batch_spec : forall rs (s : staged), Forall (Forall2 holds (t_cols t)) rs ->
    (snd (upsert_batch_rows V_eqb t (t_cols t) rs s) = None /\ Forall (valid t) rs /\
     fst (upsert_batch_rows V_eqb t (t_cols t) rs s) = fold_left apply_ask (map APut rs) s) \/
    (snd (upsert_batch_rows V_eqb t (t_cols t) rs s) <> None /\ exists l r rest, rs = l ++ r :: rest /\ Forall (valid t) l /\
       fst (upsert_batch_rows V_eqb t (t_cols t) rs s) = fold_left apply_ask (map APut l) s).
  Proof.
    induction rs as [|r rs IH]; intros s HR; [left; simpl; auto|]. inversion HR as [|? ? H1 H2]; subst. cbn [upsert_batch_rows].
    destruct (row_from_batch (t_cols t) r) as [q|e] eqn:EQ; [|right; split; [discriminate|]; exists [], r, rs; auto].
    destruct (upsert V_eqb t q s) as [s' [e|]] eqn:E.
    - right. cbn [fst snd]. split; [discriminate|]. exists [], r, rs. repeat split; auto.
      pose proof (refused_unchanged (SUpsert q) s I) as U. simpl in U. rewrite E in U. simpl in U. rewrite U by discriminate. auto.
    - assert (HV : valid t q) by (apply (upsert_accepts q s); rewrite E; auto).
      assert (HL : List.length r = List.length (t_cols t)) by (symmetry; eapply Forall2_len; eauto).
      assert (HL' : List.length q = List.length (t_cols t)) by (symmetry; destruct HV as [HV _]; eapply Forall2_len; eauto).
      destruct (row_read _ _ _ HL EQ) as [_ RR]. assert (q = r) by (apply RR; congruence). subst q.
      rewrite (upsert_ok r s HV) in E. injection E as <-.
      destruct (IH (put (key_of t r) (Some r) s) H2) as [(I1 & I2 & I3)|(I1 & l & r' & rest & I2 & I3 & I4)].
      + left. split; auto.
      + right. split; auto. exists (r :: l), r', rest. subst rs. repeat split; auto.
  Qed.

  (** What a call stages. *)
  Lemma stage_asks c s : real c -> exists l ok, stages t c l ok /\ (ok = true <-> snd (stage V_eqb t c s) = None) /\
    fst (stage V_eqb t c s) = fold_left apply_ask l s.
  Proof.
    intros HR. unfold stages. destruct c as [r|rs|cs rs|k]; cbn [stage asks].
    - destruct (snd (upsert V_eqb t r s)) eqn:E.
      + exists [], false. split; [split; [constructor|eexists; reflexivity]|]. split; [split; discriminate|].
        pose proof (refused_unchanged (SUpsert r) s I) as U. simpl in U. apply U. congruence.
      + pose proof (proj1 (upsert_accepts r s) E) as HV. exists [APut r], true. split; [split; auto|]. split; [split; auto|].
        rewrite (upsert_ok r s HV). reflexivity.
    - destruct (rows_spec rs s) as [(I1 & I2 & I3)|(I1 & l & r' & rest & I2 & I3 & _ & I4)].
      + exists (map APut rs), true. split; [split; auto|split; [split; auto|auto]].
        apply Forall_map. exact I2.
      + exists (map APut l), false. split; [split|split; [split; [discriminate|contradiction]|auto]].
        * apply Forall_map. exact I3.
        * exists (APut r' :: map APut rest). subst rs. now rewrite map_app.
    - unfold upsert_batch. destruct (schema_eqb cs (t_cols t)) eqn:ES.
      + apply schema_eqb_spec in ES. subst cs. simpl in HR.
        destruct (batch_spec rs s HR) as [(I1 & I2 & I3)|(I1 & l & r' & rest & I2 & I3 & I4)].
        * exists (map APut rs), true. split; [split; auto|split; [split; auto|auto]].
          apply Forall_map. exact I2.
        * exists (map APut l), false. split; [split|split; [split; [discriminate|contradiction]|auto]].
          -- apply Forall_map. exact I3.
          -- exists (APut r' :: map APut rest). subst rs. now rewrite map_app.
      + exists [], false. split; [split; [constructor|eexists; reflexivity]|]. split; [split; discriminate|reflexivity].
    - destruct (snd (delete V_eqb t k s)) eqn:E.
      + exists [], false. split; [split; [constructor|eexists; reflexivity]|]. split; [split; discriminate|].
        pose proof (refused_unchanged (SDelete k) s I) as U. simpl in U. apply U. congruence.
      + pose proof (proj1 (delete_accepts k s) E) as HV. exists [ADel k], true. split; [split; auto|]. split; [split; auto|].
        rewrite (delete_ok k s HV). reflexivity.
  Qed.
  Theorem call_stages c s : real c -> exists l ok, stages t c l ok /\ (ok = true <-> snd (stage V_eqb t c s) = None) /\
    forall k m, last_of t l k m ->
      get (fst (stage V_eqb t c s)) k = match m with Some x => Some x | None => get s k end.
  Proof.
    intros HR. destruct (stage_asks c s HR) as (l & ok & H1 & H2 & H3). exists l, ok. split; auto. split; auto.
    intros k m HL. rewrite H3. now apply apply_asks_last.
  Qed.
  Lemma key_dec (a b : row) : a = b \/ a <> b.
  Proof. destruct (keyb a b) eqn:E; [left; now apply key_eqb_spec|right; intros F; apply key_eqb_spec in F; congruence]. Qed.
  Lemma last_total (k : row) : forall l, exists m, last_of t l k m.
  Proof.
    induction l as [|a l IH] using rev_ind; [exists None; constructor|]. destruct IH as [m IH].
    destruct (key_dec (ask_key t a) k); [eexists; apply last_here; auto|exists m; apply last_before; auto].
  Qed.

  (** *** The commit *)
  Definition entry_ok (e : row * option row) : Prop :=
    match snd e with Some r => valid t r /\ fst e = key_of t r | None => complete t (fst e) end.
  Lemma put_ok k m (s : staged) : entry_ok (k, m) -> Forall entry_ok s -> Forall entry_ok (put k m s).
  Proof.
    intros HE HS. induction HS as [|[k0 m0] s H HS IH]; simpl; auto.
    destruct (keyb k k0) eqn:E; [|auto]. apply key_eqb_spec in E. subst k0. auto.
  Qed.
  Lemma put_keys k m (s : staged) : forall x, In x (map fst (put k m s)) <-> x = k \/ In x (map fst s).
  Proof.
    induction s as [|[k0 m0] s IH]; intros x; simpl; [intuition|].
    destruct (keyb k k0) eqn:E; simpl.
    - apply key_eqb_spec in E. subst k0. intuition.
    - rewrite IH. intuition.
  Qed.
  Lemma put_nodup k m (s : staged) : NoDup (map fst s) -> NoDup (map fst (put k m s)).
  Proof.
    induction s as [|[k0 m0] s IH]; simpl; intros H; [constructor; auto; constructor|].
    inversion H as [|? ? H1 H2]; subst. destruct (keyb k k0) eqn:E; simpl; [constructor; auto|].
    constructor; auto. rewrite put_keys. intros [->|F]; [rewrite key_eqb_refl in E; discriminate|auto].
  Qed.
  Lemma asks_ok l : Forall (good t) l -> forall s, Forall entry_ok s -> NoDup (map fst s) ->
    Forall entry_ok (fold_left apply_ask l s) /\ NoDup (map fst (fold_left apply_ask l s)).
  Proof.
    induction 1 as [|a l H HF IH]; intros s HS HN; simpl; auto. apply IH.
    - apply put_ok; auto. destruct a; simpl in *; [split; auto|auto].
    - now apply put_nodup.
  Qed.
  Lemma get_In (s : staged) : NoDup (map fst s) -> forall k m, In (k, m) s <-> get s k = Some m.
  Proof.
    induction s as [|[k0 m0] s IH]; simpl; intros HN k m; [split; [tauto|discriminate]|].
    inversion HN as [|? ? H1 H2]; subst. destruct (keyb k k0) eqn:E.
    - apply key_eqb_spec in E. subst k0. split.
      + intros [H|H]; [congruence|]. exfalso. apply H1. apply in_map_iff. exists (k, m). auto.
      + intros H. left. congruence.
    - rewrite <- (IH H2). split; [|auto]. intros [H|H]; auto. injection H as -> ->. rewrite key_eqb_refl in E. discriminate.
  Qed.
  Lemma stage_all_ok cs : Forall real cs ->
    Forall entry_ok (stage_all V_eqb t cs) /\ NoDup (map fst (stage_all V_eqb t cs)).
  Proof.
    unfold stage_all. assert (G : forall s, Forall entry_ok s -> NoDup (map fst s) -> Forall real cs ->
      Forall entry_ok (fold_left (fun s c => fst (stage V_eqb t c s)) cs s) /\
      NoDup (map fst (fold_left (fun s c => fst (stage V_eqb t c s)) cs s))).
    { induction cs as [|c cs IH]; intros s HS HN HR; simpl; auto. inversion HR as [|? ? R1 R2]; subst.
      destruct (stage_asks c s R1) as (l & ok & [G1 _] & _ & G3). rewrite G3.
      destruct (asks_ok l G1 s HS HN). now apply IH. }
    intros HR. apply G; auto. constructor.
  Qed.
  Lemma typed_builds (k : row) : typed t k -> delete_builds t k = true.
  Proof.
    unfold typed, delete_builds. intros H. pose proof (Forall2_len _ _ _ H) as L. apply andb_true_iff. split; [apply andb_true_iff; split; [apply Nat.eqb_eq; symmetry; exact L|]|].
    - apply no_null_spec. intros F. clear L. induction H as [|i x l m (c & v & H1 & H2 & H3) H IH]; simpl in F; [auto|].
      destruct F as [F|F]; [congruence|auto].
    - apply builds_spec. unfold key_columns. clear L. induction H as [|i x l m (c & v & H1 & H2 & H3) H IH]; simpl; constructor; auto.
      rewrite (nth_error_nth _ _ _ H1). subst x. exact H3.
  Qed.

  Theorem commits cs : Forall real cs -> (forall k, In (SDelete k) cs -> complete t k -> typed t k) ->
    exists ups dels, payload t (stage_all V_eqb t cs) = Some (ups, dels) /\
      (forall r, In r ups <-> exists k, get (stage_all V_eqb t cs) k = Some (Some r)) /\
      (forall k, In k dels <-> get (stage_all V_eqb t cs) k = Some None).
  Proof.
    intros HR HT. destruct (stage_all_ok cs HR) as [HE HN].
    assert (HD : forall k, In (k, None) (stage_all V_eqb t cs) -> In (SDelete k) cs).
    { unfold stage_all. clear HE HN HT. assert (G : forall s k, In (k, None) (fold_left (fun s c => fst (stage V_eqb t c s)) cs s) ->
         In (k, None) s \/ In (SDelete k) cs).
      { induction cs as [|c cs IH]; intros s k H; simpl in *; auto. inversion HR as [|? ? R1 R2]; subst.
        apply (IH R2) in H as [H|H]; auto.
        destruct (stage_asks c s R1) as (l & ok & [G1 G2] & _ & G3). rewrite G3 in H.
        assert (HP : forall k' m' (s0 : staged), In (k, None) (put k' m' s0) -> In (k, None) s0 \/ (k = k' /\ m' = None)).
        { intros k' m' s0. induction s0 as [|[k0 m0] s0 IH0]; simpl.
          - intros [F|[]]. injection F as <- ->. auto.
          - destruct (keyb k' k0) eqn:E; simpl.
            + apply key_eqb_spec in E. subst k0. intros [F|F]; auto. injection F as -> ->. auto.
            + intros [F|F]; auto. apply IH0 in F as [F|F]; auto. }
        assert (HA : In (k, None) s \/ In (ADel k) l).
        { clear G1 G2 G3. revert s H. induction l as [|a l IHl]; intros s H; simpl in *; auto.
          apply IHl in H as [H|H]; auto. apply HP in H as [H|[H1 H2]]; auto. destruct a; [discriminate|]. simpl in H1. subst. auto. }
        destruct HA as [HA|HA]; auto. right. left.
        assert (HA' : In (ADel k) (asks c)).
        { destruct ok; [now subst l|]. destruct G2 as [rest ->]. apply in_app_iff. auto. }
        destruct c; simpl in HA'.
        - destruct HA' as [F|[]]; discriminate.
        - apply in_map_iff in HA' as (x & F & _). discriminate.
        - apply in_map_iff in HA' as (x & F & _). discriminate.
        - destruct HA' as [F|[]]. congruence. }
      intros k H. apply G in H as [[]|H]; auto. }
    exists (upserts (stage_all V_eqb t cs)), (deletes (stage_all V_eqb t cs)).
    set (s := stage_all V_eqb t cs) in *. split; [|split].
    - unfold payload. replace (batch_builds t (upserts s)) with true; [replace (forallb (delete_builds t) (deletes s)) with true; auto|]; symmetry.
      + apply forallb_forall. intros k Hk. unfold deletes in Hk. apply in_flat_map in Hk as ([k0 [r|]] & H1 & H2); simpl in H2; try contradiction; destruct H2 as [H2|[]].
        simpl in H2. subst k0. apply typed_builds, HT; [now apply HD|]. rewrite Forall_forall in HE. apply HE in H1. exact H1.
      + unfold batch_builds. apply forallb_forall. intros r Hr. unfold upserts in Hr.
        apply in_flat_map in Hr as ([k0 [r0|]] & H1 & H2); simpl in H2; try contradiction; destruct H2 as [H2|[]]. subst r0.
        rewrite Forall_forall in HE. apply HE in H1 as [[H1 _] _]. now apply builds_spec.
    - intros r. unfold upserts. rewrite in_flat_map. split.
      + intros ([k0 [r0|]] & H1 & H2); simpl in H2; try contradiction; destruct H2 as [H2|[]]. subst r0. exists k0. now apply get_In.
      + intros [k H]. apply get_In in H; auto. exists (k, Some r). simpl. auto.
    - intros k. unfold deletes. rewrite in_flat_map. split.
      + intros ([k0 [r0|]] & H1 & H2); simpl in H2; try contradiction; destruct H2 as [H2|[]]. simpl in H2. subst k0. now apply get_In.
      + intros H. apply get_In in H; auto. exists (k, None). simpl. auto.
  Qed.

  (** *** Batches *)
  Lemma plain_spec : plain t -> Forall (fun c => reserved (c_name c) = false /\ readable (c_type c) = true) (t_cols t).
  Proof.
    intros H. apply Forall_forall. intros c Hc. destruct (H c Hc) as (H1 & H2 & H3). split.
    - unfold reserved. apply orb_false_iff. split; now apply String.eqb_neq.
    - simpl in H3. intuition; match goal with E : _ = c_type c |- _ => rewrite <- E; reflexivity end.
  Qed.
  Lemma read_same : forall cs (r : row), Forall (fun c => reserved (c_name c) = false /\ readable (c_type c) = true) cs ->
    List.length r = List.length cs -> row_from_batch cs r = inl r.
  Proof.
    induction cs as [|c cs IH]; intros [|x r] HP L; simpl in *; try discriminate; auto. inversion HP as [|? ? [P1 P2] P3]; subst.
    rewrite P1, P2, (IH r); auto. destruct x; auto.
  Qed.
  Theorem batch_as_rows rs s : plain t -> Forall (Forall2 holds (t_cols t)) rs ->
    stage V_eqb t (SBatch (t_cols t) rs) s = stage V_eqb t (SRows rs) s.
  Proof.
    intros HP HR. apply plain_spec in HP. simpl. unfold upsert_batch. replace (schema_eqb (t_cols t) (t_cols t)) with true by (symmetry; now apply schema_eqb_spec).
    revert s. induction HR as [|r rs H HR IH]; intros s; [reflexivity|]. cbn [upsert_batch_rows upsert_rows].
    rewrite (read_same _ _ HP) by (symmetry; eapply Forall2_len; eauto).
    destruct (upsert V_eqb t r s) as [s' [e|]]; auto.
  Qed.
  Theorem rows_accepts rs s : snd (stage V_eqb t (SRows rs) s) = None <-> Forall (valid t) rs.
  Proof.
    simpl. destruct (rows_spec rs s) as [(I1 & I2 & _)|(I1 & l & r & rest & I2 & I3 & I4 & _)].
    - split; auto.
    - split; [contradiction|]. intros H. subst rs. apply Forall_app in H as [_ H]. inversion H. contradiction.
  Qed.
End Facts.
