(** What recovery applies for an arbitrary log, identifiers reused or not. *)
From Coq Require Import List NArith Bool Lia.
From Verif Require Import Model.Replay Spec.ReplaySpec Proof.ReplayFacts.
Import ListNotations.
Local Open Scope N_scope.

Section Gen.
  Context {P S : Type}.
  Variable apply : P -> N -> S -> option S.
  Notation wrec := (wrec P).

  (** The payloads of [id] since it was last finished. *)
  Definition since_step (id : N) (acc : list P) (r : wrec) : list P :=
    match r with
    | RPay i p => if i =? id then acc ++ [p] else acc
    | RCommit i _ | RAbort i => if i =? id then [] else acc
    | _ => acc
    end.
  Definition since (id : N) (l : list wrec) : list P := fold_left (since_step id) l [].
  Fixpoint gcom (pre l : list wrec) : list (P * N) :=
    match l with
    | [] => []
    | r :: q => (match r with RCommit i t => map (fun p => (p, t)) (since i pre) | _ => [] end) ++ gcom (pre ++ [r]) q
    end.
  Fixpoint gtimes (pre l : list wrec) : list N :=
    match l with
    | [] => []
    | r :: q => (match r with RCommit i t => match since i pre with [] => [] | _ => [t] end | _ => [] end) ++ gtimes (pre ++ [r]) q
    end.

  Lemma since_snoc id l r : since id (l ++ [r]) = since_step id (since id l) r.
  Proof. unfold since. now rewrite fold_left_app. Qed.

  Lemma replay_since post : forall pre m last s,
    (forall id, match pn_get id m with Some l => l | None => [] end = since id pre) ->
    replay apply post m last s =
      match apply_all apply (gcom pre post) s with
      | Some s' => Some (s', acc_max last (gtimes pre post))
      | None => None
      end.
  Proof.
    induction post as [|r post IH]; intros pre m last s HT; [reflexivity|].
    destruct r as [id|id p|id ts|id|]; cbn [replay gcom gtimes app].
    - apply IH. intros j. rewrite get_touch, since_snoc. cbn. rewrite <- HT. destruct (N.eqb_spec j id) as [->|]; auto.
    - apply IH. intros j. rewrite get_push, since_snoc. cbn [since_step]. rewrite <- HT.
      destruct (N.eqb_spec j id) as [->|]; [now rewrite N.eqb_refl|]. destruct (N.eqb_spec id j); [congruence|auto].
    - assert (TR : forall j, match pn_get j (pn_remove id m) with Some l => l | None => [] end = since j (pre ++ [RCommit id ts])).
      { intros j. rewrite get_remove, since_snoc. cbn [since_step]. rewrite <- HT.
        destruct (N.eqb_spec j id) as [->|]; [now rewrite N.eqb_refl|]. destruct (N.eqb_spec id j); [congruence|auto]. }
      pose proof (HT id) as HG. rewrite (apply_list_app apply). rewrite <- HG.
      destruct (pn_get id m) as [[|q l]|] eqn:EG; cbn [map app].
      + cbn [apply_all]. apply IH. exact TR.
      + rewrite apply_payloads_list. cbn [map].
        destruct (apply_all apply ((q, ts) :: map (fun p => (p, ts)) l) s) as [s'|]; auto.
        rewrite (IH (pre ++ [RCommit id ts])); auto.
      + cbn [apply_all]. apply IH. intros j. rewrite <- TR, get_remove. destruct (N.eqb_spec j id) as [->|]; auto. now rewrite EG.
    - apply IH. intros j. rewrite get_remove, since_snoc. cbn [since_step]. rewrite <- HT.
      destruct (N.eqb_spec j id) as [->|]; [now rewrite N.eqb_refl|]. destruct (N.eqb_spec id j); [congruence|auto].
    - apply IH. intros j. rewrite since_snoc. cbn. apply HT.
  Qed.
  Lemma replay_all l s :
    replay apply l [] None s =
      match apply_all apply (gcom [] l) s with Some s' => Some (s', newest (gtimes [] l)) | None => None end.
  Proof. rewrite (replay_since l [] [] None s) by reflexivity. now rewrite acc_newest. Qed.

End Gen.

Section Member.
  Context {P : Type}.
  Notation wrec := (wrec P).

  (** *** Membership *)
  Definition unfinished (id : N) (b : list wrec) : Prop := Forall (fun x => finishes x <> Some id) b.

  Lemma since_In id p (l : list wrec) : In p (since id l) <-> exists a b, l = a ++ RPay id p :: b /\ unfinished id b.
  Proof.
    induction l as [|r l IH] using rev_ind.
    - cbn. split; [tauto|]. intros ([|x a] & b & E & _); discriminate.
    - rewrite since_snoc. split.
      + intros H. assert (C : In p (since id l) /\ finishes r <> Some id \/ r = RPay id p).
        { destruct r as [i|i q|i t|i|]; cbn in *; try (left; split; [exact H|discriminate]).
          - destruct (N.eqb_spec i id) as [->|]; [|left; split; auto; congruence].
            apply in_app_iff in H as [H|[->|[]]]; auto. left. split; auto. congruence.
          - destruct (N.eqb_spec i id) as [->|]; [destruct H|]. left. split; auto. congruence.
          - destruct (N.eqb_spec i id) as [->|]; [destruct H|]. left. split; auto. congruence. }
        destruct C as [[C1 C2]| ->].
        * apply IH in C1 as (a & b & -> & U). exists a, (b ++ [r]). rewrite <- app_assoc. split; auto. apply Forall_app. auto.
        * exists l, []. split; auto. constructor.
      + intros (a & b & E & U). destruct b as [|x b] using rev_ind.
        * apply app_inj_tail in E as [-> ->]. cbn. rewrite N.eqb_refl. apply in_app_iff. cbn. auto.
        * clear IHb. rewrite app_comm_cons, app_assoc in E. apply app_inj_tail in E as [E ->].
          apply Forall_app in U as [U1 U2]. inversion U2 as [|? ? U3 _]; subst x0 l0.
          assert (HI : In p (since id l)) by (apply IH; eauto).
          destruct x as [i|i q|i t|i|]; cbn in *; auto.
          -- destruct (i =? id); auto. apply in_app_iff; auto.
          -- destruct (N.eqb_spec i id); [congruence|auto].
          -- destruct (N.eqb_spec i id); [congruence|auto].
  Qed.

  Lemma gcom_app (pre l l' : list wrec) : gcom pre (l ++ l') = gcom pre l ++ gcom (pre ++ l) l'.
  Proof.
    revert pre. induction l as [|r l IH]; intros pre; cbn [gcom app].
    - now rewrite app_nil_r.
    - rewrite IH, <- app_assoc, <- app_assoc. reflexivity.
  Qed.
  Lemma gtimes_app (pre l l' : list wrec) : gtimes pre (l ++ l') = gtimes pre l ++ gtimes (pre ++ l) l'.
  Proof.
    revert pre. induction l as [|r l IH]; intros pre; cbn [gtimes app].
    - now rewrite app_nil_r.
    - rewrite IH, <- app_assoc, <- app_assoc. reflexivity.
  Qed.

  (** The payload is applied with that timestamp. *)
  Definition applied (l : list wrec) (p : P) (ts : N) : Prop :=
    exists a id b c, l = a ++ RPay id p :: b ++ RCommit id ts :: c /\ unfinished id b.

  Lemma gcom_In (l : list wrec) p ts : In (p, ts) (gcom [] l) <-> applied l p ts.
  Proof.
    induction l as [|r l IH] using rev_ind.
    - cbn. split; [tauto|]. intros ([|x a] & id & b & c & E & _); discriminate.
    - rewrite gcom_app, in_app_iff, IH. cbn [app gcom]. rewrite app_nil_r. split.
      + intros [(a & id & b & c & -> & U)|H].
        * exists a, id, b, (c ++ [r]). split; auto. rewrite <- !app_assoc, <- !app_comm_cons, <- !app_assoc. reflexivity.
        * destruct r; try destruct H. apply in_map_iff in H as (q & E & H). inversion E; subst.
          apply since_In in H as (a & b & -> & U). exists a, id, b, []. split; auto. rewrite <- app_assoc. reflexivity.
      + intros (a & id & b & c & E & U). destruct c as [|x c] using rev_ind.
        * right. rewrite app_comm_cons, app_assoc in E. apply app_inj_tail in E as [E ->].
          apply in_map_iff. exists p. split; auto. apply since_In. eauto.
        * clear IHc. left. exists a, id, b, c. split; auto.
          rewrite !app_comm_cons, !app_assoc in E. apply app_inj_tail in E as [E _]. rewrite E, <- app_assoc. reflexivity.
  Qed.
  Lemma gtimes_In (l : list wrec) ts : In ts (gtimes [] l) <-> exists p, applied l p ts.
  Proof.
    assert (G : forall pre, In ts (gtimes pre l) <-> exists p, In (p, ts) (gcom pre l)).
    { induction l as [|r l IH]; intros pre; cbn [gtimes gcom].
      - split; [intros []|intros (p & [])].
      - rewrite in_app_iff, IH. setoid_rewrite in_app_iff. split.
        + intros [H|(p & H)]; [|eauto]. destruct r; try destruct H. destruct (since id pre) as [|p q]; [destruct H|].
          destruct H as [->|[]]. exists p. left. cbn. auto.
        + intros (p & [H|H]); [left|right; eauto]. destruct r; try destruct H. apply in_map_iff in H as (q & E & H).
          inversion E; subst. destruct (since id pre); [destruct H|]. cbn. auto. }
    rewrite G. split; intros (p & H); exists p; now apply gcom_In.
  Qed.

  Lemma applied_ext pre l post p ts : applied l p ts -> applied (pre ++ l ++ post) p ts.
  Proof.
    intros (a & id & b & c & -> & U). exists (pre ++ a), id, b, (c ++ post). split; auto.
    rewrite <- !app_assoc, <- app_comm_cons, <- app_assoc, <- app_comm_cons. reflexivity.
  Qed.
  Lemma newest_ge l t m : newest l = Some m -> In t l -> t <= m.
  Proof.
    destruct l as [|x l]; [discriminate|]. cbn. intros [= <-] [->|H].
    - clear. induction l; cbn; lia.
    - induction l as [|y l IH]; [destruct H|]. cbn. destruct H as [->|H]; [lia|]. specialize (IH H). lia.
  Qed.
  Lemma newest_In l m : newest l = Some m -> In m l.
  Proof.
    destruct l as [|x l]; [discriminate|]. cbn. intros [= <-].
    assert (G : fold_right N.max x l = x \/ In (fold_right N.max x l) l).
    { induction l as [|y l IH]; cbn; auto. destruct (N.max_spec y (fold_right N.max x l)) as [[_ E]|[_ E]]; rewrite E; [|auto].
      destruct IH as [H|H]; auto. }
    destruct G as [E|H]; auto.
  Qed.
  Lemma newest_none l : newest l = None -> l = [].
  Proof. destruct l; [auto|discriminate]. Qed.
End Member.
