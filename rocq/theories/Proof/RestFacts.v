(** Lemmas about the background worker: a published task makes the files of its source
    level fewer and leaves the levels before it alone. *)
From Coq Require Import List NArith Bool Arith Lia Permutation Wellfounded.
From Verif Require Import Base.Order Model.SsTable Model.Version Model.Planner Model.Worker Spec.Plan Spec.RestSpec
     Proof.SstFacts Proof.VersionFacts Proof.LiveFacts Proof.PlannerFacts.
Import ListNotations.

(** *** Lexicographic order on lists of numbers. *)
Inductive lex : list nat -> list nat -> Prop :=
| lex_here a b x y : a < b -> length x = length y -> lex (a :: x) (b :: y)
| lex_later a x y : lex x y -> lex (a :: x) (a :: y).

Lemma lex_acc : forall n l, length l = n -> Acc lex l.
Proof.
  induction n as [|n IH]; intros l Hl.
  - destruct l; [|discriminate]. constructor. intros y H. inversion H.
  - destruct l as [|a x]; [discriminate|]. simpl in Hl. injection Hl as Hx.
    revert x Hx. induction a as [a IHa] using (well_founded_induction lt_wf). intros x Hx.
    pose proof (IH x Hx) as HA. revert Hx. induction HA as [x _ IHx]. intros Hx. constructor.
    intros y H. inversion H; subst.
    + apply IHa; congruence.
    + apply IHx; auto.
      assert (L : forall u v, lex u v -> length u = length v).
      { induction 1; simpl; congruence. }
      erewrite L; eauto.
Qed.

Lemma lex_app x y u v : lex x y -> length u = length v -> lex (x ++ u) (y ++ v).
Proof.
  induction 1; simpl; intros HL; [apply lex_here|apply lex_later]; auto.
  rewrite !app_length. congruence.
Qed.
Lemma lex_tail x u v : lex u v -> lex (x ++ u) (x ++ v).
Proof. induction x; simpl; auto. intros. now apply lex_later, IHx. Qed.

(** *** A published outcome. *)
Section Counts.
  Context {K : Type} {KO : KeyOrd K} {E : Type}.
  Variable eid : E -> N.
  Variable estats : E -> option (option K * option K * nat).

  Definition cnt (ls : list (list E)) (l : nat) : nat := length (nth l ls []).
  Definition lens (n : nat) (ls : list (list E)) : list nat := map (cnt ls) (seq 0 n).

  Lemma level_update_other f i : forall n (ls : list (list E)), i <> n -> nth i (level_update n f ls) [] = nth i ls [].
  Proof.
    induction i as [|i IH]; intros n ls H; destruct n as [|n], ls as [|b r]; simpl; auto; try lia.
    - now destruct i.
    - rewrite IH by lia. now destruct i.
  Qed.

  Lemma filter_le {A} (g : A -> bool) l : length (filter g l) <= length l.
  Proof. induction l as [|a l IH]; simpl; auto. destruct (g a); simpl; lia. Qed.
  Lemma filter_lt {A} (g : A -> bool) x l : In x l -> g x = false -> length (filter g l) < length l.
  Proof.
    induction l as [|a l IH]; simpl; [tauto|]. intros [->|H] G.
    - rewrite G. pose proof (filter_le g l). lia.
    - specialize (IH H G). destruct (g a); simpl; lia.
  Qed.

  Lemma removals_nth (ids : nat -> list N) : forall Ls v v',
    apply_each eid v (map (fun l => RemoveSsts l (ids l)) Ls) = Some v' ->
    forall i, (~ In i Ls -> nth i (v_levels v') [] = nth i (v_levels v) []) /\
      cnt (v_levels v') i <= cnt (v_levels v) i /\
      (In i Ls -> forall x, In x (nth i (v_levels v) []) -> In (eid x) (ids i) ->
         cnt (v_levels v') i < cnt (v_levels v) i).
  Proof.
    induction Ls as [|l Ls IH]; intros v v' H i; simpl in H.
    - injection H as <-. split; [auto|]. split; [lia|]. intros [].
    - destruct (remove_ssts eid l (ids l) (v_levels v)) as [ls|] eqn:ER; [|discriminate].
      specialize (IH _ _ H i). simpl in IH. destruct IH as (I1 & I2 & I3).
      assert (SL : l <> i -> nth i ls [] = nth i (v_levels v) []).
      { intros D. unfold remove_ssts in ER. destruct (ids l); [congruence|].
        destruct (Nat.leb _ _); [discriminate|]. injection ER as <-. apply level_update_other. auto. }
      assert (SE : l = i -> nth i ls [] = filter (fun x => negb (mem_id (eid x) (ids i))) (nth i (v_levels v) [])).
      { intros ->. unfold remove_ssts in ER. destruct (ids i) eqn:EI.
        - injection ER as <-. clear. induction (nth i (v_levels v) []); simpl; auto. f_equal; auto.
        - destruct (Nat.leb (length (v_levels v)) i) eqn:EB; [discriminate|]. injection ER as <-.
          apply Nat.leb_gt in EB. rewrite level_update_nth by auto. now rewrite Nat.eqb_refl. }
      assert (LE : cnt ls i <= cnt (v_levels v) i).
      { unfold cnt. destruct (Nat.eq_dec l i) as [->|D]; [rewrite SE by auto; apply filter_le|rewrite SL by auto; lia]. }
      split; [|split].
      + intros HN. rewrite I1 by (intros F; apply HN; simpl; auto). apply SL. intros ->. apply HN. simpl; auto.
      + lia.
      + intros HI x Hx Hid.
        destruct (Nat.eq_dec l i) as [->|D].
        * enough (cnt ls i < cnt (v_levels v) i) by lia. unfold cnt. rewrite SE by auto.
          apply (filter_lt _ x); auto. apply negb_false_iff. now apply mem_id_In.
        * destruct HI as [F|HI]; [congruence|]. unfold cnt at 2. rewrite <- SL by auto.
          apply (I3 HI x); auto. now rewrite SL.
  Qed.

  (** The edits of an outcome whose inputs are [res] and which adds to level [target]. *)
  Lemma outcome_cnt ls res outs target v :
    apply_edits eid (mkVer 0 ls [] None None) (outcome_edits eid res outs target) = Some v ->
    forall i, i <> target ->
      ((forall p, In p res -> fst p <> i) -> cnt (v_levels v) i = cnt ls i) /\
      (forall e, In (i, e) res -> In e (nth i ls []) -> cnt (v_levels v) i < cnt ls i).
  Proof.
    unfold apply_edits, outcome_edits, remove_edits. intros H i Hi.
    set (ids := fun l => map (fun p => eid (snd p)) (filter (fun p => Nat.eqb (fst p) l) res)) in *.
    assert (AE : forall es1 es2 u u2, apply_each eid u (es1 ++ es2) = Some u2 ->
              exists u1, apply_each eid u es1 = Some u1 /\ apply_each eid u1 es2 = Some u2).
    { induction es1 as [|e es1 IH]; intros es2 u u2 HA; simpl in *; [eauto|].
      destruct (apply_edit eid u e); [|discriminate]. auto. }
    destruct (apply_each eid _ _) as [u2|] eqn:EA in H; [|discriminate]. injection H as <-.
    apply AE in EA as (u1 & A1 & A2).
    assert (HV : forall u : vstate E, v_levels (normalise u) = v_levels u) by (intros u; unfold normalise; destruct (v_wal u); reflexivity).
    rewrite HV. simpl.
    assert (HT : cnt (tidy eid (v_levels u2)) i = cnt (v_levels u1) i).
    { unfold cnt. rewrite tidy_nth. rewrite <- (Permutation_length (sort_by_perm _ _)).
      destruct outs as [|o outs]; simpl in A2; [congruence|]. injection A2 as <-. simpl.
      now rewrite level_update_other. }
    rewrite HT.
    destruct (removals_nth ids _ _ _ A1 i) as (R1 & R2 & R3). simpl in R1, R2, R3. split.
    - intros HN. unfold cnt. rewrite R1; auto. rewrite nodup_In. intros F. apply in_map_iff in F as (p & F1 & F2).
      now apply (HN p).
    - intros e He Hin. apply (R3 (proj2 (nodup_In _ _ _) (in_map fst _ _ He)) e); auto.
      unfold ids. apply (in_map (fun p => eid (snd p)) _ (i, e)). apply filter_In. split; auto. apply Nat.eqb_refl.
  Qed.

  Lemma resolve_total (ls : list (list E)) ins :
    (forall l i, In (l, i) ins -> exists e, In e (nth l ls []) /\ eid e = i) ->
    exists res, resolve_inputs eid ls ins = Some res.
  Proof.
    induction ins as [|[l i] ins IH]; intros H; simpl; [eauto|].
    destruct IH as [es ->]; [intros; apply H; simpl; auto|].
    destruct (H l i (or_introl eq_refl)) as (e & He & Hid).
    destruct (nth_error ls l) as [b|] eqn:EB.
    - apply nth_error_nth with (d := []) in EB. rewrite EB in He.
      destruct (find _ b) eqn:EF; [eauto|]. exfalso.
      apply (find_none _ _ EF) in He. rewrite Hid, N.eqb_refl in He. discriminate.
    - apply nth_error_None in EB. rewrite nth_overflow in He by auto. destruct He.
  Qed.

  (** A task proposed for the levels can be run on them, whatever it writes, and then the
      files of its source level are fewer and the levels before are as they were. *)
  Lemma task_shrinks cfg ls min tk outs :
    plan_version eid estats cfg ls min = Some tk ->
    exists ins v, resolve_inputs eid ls (tk_input tk) = Some ins /\ ins <> [] /\
      apply_edits eid (mkVer 0 ls [] None None) (outcome_edits eid ins outs (tk_target tk)) = Some v /\
      lex (lens (S (length (pc_thresholds cfg))) (v_levels v)) (lens (S (length (pc_thresholds cfg))) ls).
  Proof.
    intros HP. pose proof (plan_good eid estats cfg ls min) as HG. rewrite HP in HG.
    destruct HG as (_ & srcs & nexts & HG). destruct HG as [G1 G2 G3 G4 G5 _ _ _ G9 _ _ _].
    destruct (resolve_total ls (tk_input tk)) as [ins HR].
    { intros l i. rewrite G1, in_app_iff, !in_map_iff.
      intros [(f & F1 & F2)|(f & F1 & F2)]; inversion F1; subst; eauto. }
    destruct (resolve_In eid _ _ _ HR) as [R1 R2].
    assert (exists e, In (tk_source tk, e) ins /\ In e (nth (tk_source tk) ls [])) as (e & E1 & E2).
    { destruct srcs as [|f srcs]; [congruence|]. rewrite G1 in R1. simpl in R1.
      destruct ins as [|[l e] ins]; [discriminate|]. simpl in R1. injection R1 as -> _ _. exists e. split; [left; auto|].
      rewrite Forall_forall in R2. apply (R2 (tk_source tk, e)). left; auto. }
    destruct (removals_spec eid (fun l => map (fun p => eid (snd p)) (filter (fun p => Nat.eqb (fst p) l) ins))
               (nodup Nat.eq_dec (map fst ins)) (mkVer 0 ls [] None None)) as (v1 & A1 & _).
    { intros l Hl. apply nodup_In, in_map_iff in Hl as (p & <- & Hp). rewrite Forall_forall in R2. now apply R2. }
    assert (AE : forall es1 es2 u u1, apply_each eid u es1 = Some u1 ->
              apply_each eid u (es1 ++ es2) = apply_each eid u1 es2).
    { induction es1 as [|x es1 IH]; intros es2 u u1 H; simpl in *; [congruence|].
      destruct (apply_edit eid u x); [|discriminate]. auto. }
    assert (exists v, apply_edits eid (mkVer 0 ls [] None None) (outcome_edits eid ins outs (tk_target tk)) = Some v) as [v HV].
    { unfold apply_edits, outcome_edits, remove_edits. rewrite (AE _ _ _ _ A1).
      destruct outs; simpl; eauto. }
    exists ins, v. split; [auto|]. split; [intros ->; destruct E1|]. split; [auto|].
    pose proof (outcome_cnt _ _ _ _ _ HV) as HC. rewrite G2 in HC.
    set (s := tk_source tk) in *.
    assert (HS : s <= length (pc_thresholds cfg)).
    { destruct G9 as [_ G9]. fold s in G9. destruct s as [|s']; [lia|]. destruct G9 as (lim & G9 & _).
      assert (S s' - 1 < length (pc_thresholds cfg)) by (apply nth_error_Some; congruence). lia. }
    unfold lens.
    replace (S (length (pc_thresholds cfg))) with (s + S (length (pc_thresholds cfg) - s)) by lia.
    rewrite seq_app, !map_app.
    assert (HB : map (cnt (v_levels v)) (seq 0 s) = map (cnt ls) (seq 0 s)).
    { apply map_ext_in. intros i Hi. apply in_seq in Hi. apply (HC i); [lia|]. intros p Hp.
      rewrite Forall_forall in R2. assert (In (fst p, eid (snd p)) (tk_input tk)) as HI.
      { rewrite <- R1. apply in_map_iff. eauto. }
      rewrite G1, in_app_iff, !in_map_iff in HI. destruct HI as [(f & F1 & _)|(f & F1 & _)]; inversion F1; lia. }
    rewrite HB. apply lex_tail. simpl. apply lex_here; [|now rewrite !map_length].
    apply (proj2 (HC s ltac:(lia)) e); auto.
  Qed.
End Counts.
