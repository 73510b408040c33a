(** Which definitions agree with a registered table. *)
From Coq Require Import List NArith Bool Arith Lia Permutation.
From Verif Require Import Model.Json Model.KeyDecl Model.Sessions Model.Manifest Model.TableDef
     Spec.JsonSpec Spec.ManifestSpec Proof.JsonFacts Proof.KeyDeclFacts Proof.CatalogFacts.
Import ListNotations.
Local Open Scope N_scope.

Lemma member_In l name x : NoDup (map fst l) -> (member name (JObj l) = Some x <-> In (name, x) l).
Proof.
  intros HN. unfold member. induction l as [|[k v] l IH]; cbn [find map fst snd In] in *.
  - split; [discriminate|intros []].
  - inversion HN as [|? ? HK HN']; subst. destruct (chars_eqb k name) eqn:E.
    + apply chars_eqb_spec in E. subst k. split; [intros H; inversion H; auto|]. intros [H|H]; [now inversion H|].
      exfalso. apply HK. apply in_map_iff. exists (name, x). auto.
    + rewrite IH by assumption. split; auto. intros [H|H]; auto. inversion H; subst.
      assert (X : chars_eqb name name = true) by now apply chars_eqb_spec. congruence.
Qed.
Lemma member_none l name : (forall x, ~ In (name, x) l) -> member name (JObj l) = None.
Proof.
  intros H. unfold member. destruct (find _ l) as [[k v]|] eqn:E; auto. apply find_some in E as [E1 E2].
  apply chars_eqb_spec in E2. cbn [fst] in E2. subst k. now apply H in E1.
Qed.

Lemma Forall2_find {A B} (R : A -> B -> Prop) l m : Forall2 R l m -> forall a, In a l -> exists b, In b m /\ R a b.
Proof. induction 1 as [|x y l m H HF IH]; intros a []; [subst; exists y; split; [now left|auto]|]. destruct (IH a H0) as (b & ? & ?). exists b. split; [now right|auto]. Qed.
Lemma Forall2_find' {A B} (R : A -> B -> Prop) l m : Forall2 R l m -> forall b, In b m -> exists a, In a l /\ R a b.
Proof. induction 1 as [|x y l m H HF IH]; intros b []; [subst; exists x; split; [now left|auto]|]. destruct (IH b H0) as (a & ? & ?). exists a. split; [now right|auto]. Qed.

Lemma same_member v w name : uniq v -> uniq w -> same v w ->
  match member name v, member name w with
  | Some a, Some b => same a b /\ uniq a /\ uniq b
  | None, None => True
  | _, _ => False
  end.
Proof.
  intros HV HW HS. destruct HS as [| | | | |l l' m HP H2]; try exact I.
  inversion HV as [| | | | |? NV FV]; subst. inversion HW as [| | | | |? NW FW]; subst.
  destruct (member name (JObj l)) as [a|] eqn:EA.
  - apply member_In in EA; auto. assert (HI : In (name, a) l') by (eapply Permutation_in; eauto).
    destruct (Forall2_find _ _ _ H2 _ HI) as ([k b] & HB & HK & HS). cbn [fst snd] in *. subst k.
    apply member_In in HB as EB; auto. rewrite EB. split; auto. rewrite Forall_forall in FV, FW.
    split; [apply (FV _ EA)|apply (FW _ HB)].
  - destruct (member name (JObj m)) as [b|] eqn:EB; auto. apply member_In in EB; auto.
    destruct (Forall2_find' _ _ _ H2 _ EB) as ([k a] & HA & HK & HS). cbn [fst snd] in *. subst k.
    assert (HI : In (name, a) l) by (eapply Permutation_in; [symmetry; exact HP|exact HA]). apply member_In in HI; auto. congruence.
Qed.

Lemma same_names v w : uniq v -> uniq w -> same v w -> field_names v = field_names w.
Proof.
  intros HV HW HS. pose proof (same_member v w str_fields HV HW HS) as H. unfold field_names.
  destruct (member str_fields v) as [a|]; destruct (member str_fields w) as [b|]; try contradiction; auto.
  destruct H as (H & UA & UB). destruct H as [| | | |l m H2|]; auto.
  inversion UA as [| | | |? FA|]; subst. inversion UB as [| | | |? FB|]; subst. clear - H2 FA FB.
  induction H2 as [|x y l m HX H2 IH]; [reflexivity|]. inversion FA; subst. inversion FB; subst. cbn [map]. f_equal; [|auto].
  pose proof (same_member x y str_name) as H. destruct (member str_name x) as [a|]; destruct (member str_name y) as [b|].
  - destruct H as (H & _); auto. destruct H; auto.
  - destruct H; auto.
  - destruct H; auto.
  - reflexivity.
Qed.

Definition no_collision (sha : chars -> chars) (a b : chars) : Prop := sha a = sha b -> a = b.

Lemma fingerprint_same sha v w : uniq v -> no_collision sha (text (canon v)) (text (canon w)) ->
  (fingerprint sha v = fingerprint sha w <-> same v w).
Proof.
  intros HU HC. unfold fingerprint. rewrite <- (canon_text v w HU). split; [exact HC|congruence].
Qed.

Theorem reopen sha es c i name t1 t2 m : NoDup (drawn es) ->
  uniq (t_schema t1) -> no_collision sha (text (canon (t_schema t1))) (text (canon (t_schema t2))) ->
  let s := mrun ckey_eqb (cexec chars_eqb) mstart es in
  registered s m -> tm_name m = name -> agrees m (table_definition sha name t1) ->
  let q := RRegister i (table_definition sha name t2) in
  let r := snd (mstep ckey_eqb (cexec chars_eqb) s (EOpen c q)) in
  (same (t_schema t1) (t_schema t2) /\ key_names t1 = key_names t2 -> r = Some (q, Returned (MOk (Some m)))) /\
  (~ (same (t_schema t1) (t_schema t2) /\ key_names t1 = key_names t2) -> r = Some (q, Returned (MErr ECatalog))).
Proof.
  intros HD HU HC s HR HN HA q r.
  destruct (c40_existing chars_eqb chars_eqb_spec es c i (table_definition sha name t2) m HD HR (eq_sym HN)) as (_ & H1 & H2).
  assert (HI : agrees m (table_definition sha name t2) <-> same (t_schema t1) (t_schema t2) /\ key_names t1 = key_names t2).
  { rewrite <- (fingerprint_same sha _ _ HU HC). destruct HA as (A1 & A2 & A3 & A4).
    unfold agrees. cbn [table_definition td_schema td_pk td_ret td_version] in *. split.
    - intros (B1 & B2 & _). split; congruence.
    - intros (B1 & B2). split; [congruence|]. split; [congruence|]. auto. }
  split; intros H; [apply H1|apply H2]; tauto.
Qed.

Lemma names_cols names : NoDup names -> forall c d, Forall (fun i => (i < length names)%nat) c -> Forall (fun i => (i < length names)%nat) d ->
  map (fun i => nth i names []) c = map (fun i => nth i names ([] : chars)) d -> c = d.
Proof.
  intros HN. induction c as [|x c IH]; intros [|y d] HC HD E; try discriminate; auto.
  inversion HC; subst. inversion HD; subst. cbn [map] in E. inversion E as [[E1 E2]]. f_equal; [|now apply IH].
  eapply NoDup_nth; eauto.
Qed.
Theorem distinct_names t1 t2 : uniq (t_schema t1) -> uniq (t_schema t2) -> same (t_schema t1) (t_schema t2) ->
  NoDup (field_names (t_schema t1)) ->
  Forall (fun i => (i < length (field_names (t_schema t1)))%nat) (t_cols t1) ->
  Forall (fun i => (i < length (field_names (t_schema t2)))%nat) (t_cols t2) ->
  key_names t1 = key_names t2 -> t_cols t1 = t_cols t2.
Proof.
  intros U1 U2 HS HN R1 R2 E. unfold key_names in E. rewrite (same_names _ _ U1 U2 HS) in *. eapply names_cols; eauto.
Qed.
