(** Facts about manifest sessions: commits are atomic. *)
From Coq Require Import List NArith Bool Lia.
From Verif Require Import Model.Sessions.
Import ListNotations.
Local Open Scope N_scope.

Section SessionFacts.
  Context {Key Val Req Res : Type}.
  Variable key_eqb : Key -> Key -> bool.
  Hypothesis eqb_iff : forall a b, key_eqb a b = true <-> a = b.
  Variable exec : Req -> store Key Val -> outcome Key Val Res.
  Notation mstore := (mstore Key Val Req Res).
  Notation mstep := (mstep key_eqb exec).
  Notation mrun := (mrun key_eqb exec).
  Notation kget := (kget (Val := Val) key_eqb).

  Lemma eqb_refl_k k : key_eqb k k = true. Proof. now apply eqb_iff. Qed.
  Lemma eqb_neq a b : a <> b -> key_eqb a b = false.
  Proof. intros H. destruct (key_eqb a b) eqn:E; auto. apply eqb_iff in E. tauto. Qed.

  Lemma kget_del k k' s : kget k (kdel key_eqb k' s) = if key_eqb k' k then None else kget k s.
  Proof.
    unfold kdel. induction s as [|[a v] s IH]; cbn; [now destruct (key_eqb k' k)|].
    destruct (key_eqb a k') eqn:E1; cbn.
    - apply eqb_iff in E1. subst a. rewrite IH. destruct (key_eqb k' k) eqn:E2; auto.
    - destruct (key_eqb a k) eqn:E2; [|apply IH]. apply eqb_iff in E2. subst a.
      rewrite eqb_neq; auto. intros ->. rewrite eqb_refl_k in E1. discriminate.
  Qed.
  Lemma kget_write k s w : kget k (kwrite key_eqb s w) = if key_eqb (fst w) k then snd w else kget k s.
  Proof.
    destruct w as [a [v|]]; cbn.
    - destruct (key_eqb a k) eqn:E; auto. rewrite kget_del, E. auto.
    - apply kget_del.
  Qed.
  Lemma kget_In k v s : kget k s = Some v -> In (k, v) s.
  Proof.
    induction s as [|[a u] s IH]; cbn; [discriminate|]. destruct (key_eqb a k) eqn:E; auto.
    intros H. inversion H; subst. apply eqb_iff in E. subst. auto.
  Qed.
  Lemma In_kget k v s : NoDup (map fst s) -> In (k, v) s -> kget k s = Some v.
  Proof.
    induction s as [|[a u] s IH]; cbn; [tauto|]. intros ND [H|H].
    - inversion H; subst. now rewrite eqb_refl_k.
    - inversion ND; subst. rewrite eqb_neq; auto. intros ->. apply H2. apply in_map_iff. exists (k, v). auto.
  Qed.
  Lemma kdel_keys k (s : store Key Val) : NoDup (map fst s) -> NoDup (map fst (kdel key_eqb k s)) /\ ~ In k (map fst (kdel key_eqb k s)).
  Proof.
    intros ND. split.
    - unfold kdel. induction s as [|[a u] s IH]; cbn; auto. inversion ND; subst. destruct (key_eqb a k); cbn; auto.
      constructor; auto. intros F. apply H1. apply in_map_iff in F as ([b w] & <- & F). apply filter_In in F as [F _]. apply in_map_iff. exists (b, w). auto.
    - intros F. apply in_map_iff in F as ([b w] & E & F). apply filter_In in F as [_ F]. cbn in *. subst. rewrite eqb_refl_k in F. discriminate.
  Qed.
  Lemma kwrite_keys (s : store Key Val) w : NoDup (map fst s) -> NoDup (map fst (kwrite key_eqb s w)).
  Proof.
    intros ND. destruct w as [a [v|]]; cbn; [|now apply kdel_keys]. destruct (kdel_keys a s ND). constructor; auto.
  Qed.
  Lemma kapply_keys ws (s : store Key Val) : NoDup (map fst s) -> NoDup (map fst (kapply key_eqb ws s)).
  Proof. revert s. induction ws as [|w ws IH]; intros s ND; cbn; auto. apply IH, kwrite_keys, ND. Qed.

  (** An open session that can still commit read the current store. *)
  Definition fresh_sessions (s : mstore) : Prop :=
    forall c x, In (c, x) (m_open s) -> s_tag x <= m_tag s /\ (s_tag x = m_tag s -> exec (s_req x) (m_kv s) = Staged (s_writes x) (s_res x)).
  Lemma close_In c (l : list (N * session)) e : In e (close (Key := Key) (Val := Val) (Req := Req) (Res := Res) c l) -> In e l.
  Proof. unfold close. rewrite filter_In. tauto. Qed.
  Lemma find_open_In c (s : mstore) x : find_open c s = Some x -> exists c', In (c', x) (m_open s).
  Proof.
    unfold find_open. destruct (find _ (m_open s)) as [[c' y]|] eqn:E; [|discriminate]. intros H. inversion H; subst. apply find_some in E as [E _]. eauto.
  Qed.
  Lemma fresh_start : fresh_sessions mstart. Proof. intros c x []. Qed.
  Lemma fresh_step s e : fresh_sessions s -> fresh_sessions (fst (mstep s e)).
  Proof.
    intros HI. destruct e as [c q|c|c]; cbn.
    - destruct (exec q (m_kv s)) as [r|ws r] eqn:E; cbn; intros c' x H; cbn in *.
      + apply (HI c'). now apply close_In in H.
      + destruct H as [H|H]; [inversion H; subst; cbn; split; [lia|auto]|apply close_In in H; apply (HI c' x H)].
    - destruct (find_open c s) as [x|] eqn:E; cbn; auto. destruct (N.eqb (s_tag x) (m_tag s)) eqn:E1; cbn; intros c' y H; cbn in *; apply close_In in H; destruct (HI c' y H); auto.
      split; lia.
    - intros c' x H. cbn in *. apply close_In in H. apply (HI c' x H).
  Qed.
  Lemma fresh_run es s : fresh_sessions s -> fresh_sessions (mrun s es).
  Proof. revert s. induction es as [|e es IH]; intros s H; cbn; auto. apply IH, fresh_step, H. Qed.

  (** What one event does to the store. *)
  Lemma step_cases s e : fresh_sessions s ->
    (m_kv (fst (mstep s e)) = m_kv s /\ m_tag (fst (mstep s e)) = m_tag s /\
      (snd (mstep s e) = None \/ (exists q, snd (mstep s e) = Some (q, Precondition)) \/
       exists q r, snd (mstep s e) = Some (q, Returned r) /\ exec q (m_kv s) = Ended r)) \/
    (exists c q ws r, e = ECommit c /\ snd (mstep s e) = Some (q, Returned r) /\ exec q (m_kv s) = Staged ws r /\
      m_kv (fst (mstep s e)) = kapply key_eqb ws (m_kv s) /\ m_tag (fst (mstep s e)) = m_tag s + 1).
  Proof.
    intros HI. destruct e as [c q|c|c]; cbn.
    - left. destruct (exec q (m_kv s)) as [r|ws r] eqn:E; cbn; auto. repeat split; auto. right. right. exists q, r. auto.
    - destruct (find_open c s) as [x|] eqn:E; cbn; auto. destruct (N.eqb (s_tag x) (m_tag s)) eqn:E1; cbn.
      + right. apply find_open_In in E as (c' & E). destruct (HI _ _ E) as [_ HX]. apply N.eqb_eq in E1. exists c, (s_req x), (s_writes x), (s_res x). auto.
      + left. repeat split; auto. right. left. eauto.
    - left. auto.
  Qed.

  (** Invariants of the store, with the number of commits so far. *)
  Lemma store_inv (P : store Key Val -> N -> Prop) (B : N) :
    P [] 0 -> (forall q ws r kv n, n < B -> P kv n -> exec q kv = Staged ws r -> P (kapply key_eqb ws kv) (n + 1)) ->
    forall es, N.of_nat (length es) <= B -> P (m_kv (mrun mstart es)) (m_tag (mrun mstart es)) /\ m_tag (mrun mstart es) <= N.of_nat (length es).
  Proof.
    intros H0 HS es HB.
    assert (G : forall es s, fresh_sessions s -> P (m_kv s) (m_tag s) -> m_tag s + N.of_nat (length es) <= B ->
      P (m_kv (mrun s es)) (m_tag (mrun s es)) /\ m_tag (mrun s es) <= m_tag s + N.of_nat (length es)).
    { clear es HB. induction es as [|e es IH]; intros s HF HP HB; cbn [Sessions.mrun length]; [split; [auto|lia]|].
      cbn [length] in HB. rewrite Nat2N.inj_succ in *.
      assert (HF' := fresh_step s e HF). destruct (step_cases s e HF) as [(E1 & E2 & _)|(c & q & ws & r & _ & _ & E1 & E2 & E3)].
      - destruct (IH (fst (mstep s e)) HF') as [A1 A2]; [now rewrite E1, E2|rewrite E2; lia|]. split; auto. rewrite E2 in A2. lia.
      - destruct (IH (fst (mstep s e)) HF') as [A1 A2]; [rewrite E2, E3; eapply HS; eauto; lia|rewrite E3; lia|]. split; auto. rewrite E3 in A2. lia. }
    destruct (G es mstart fresh_start H0) as [A1 A2]; [cbn; lia|]. split; auto.
  Qed.
  Lemma mrun_app es1 es2 s : mrun s (es1 ++ es2) = mrun (mrun s es1) es2.
  Proof. revert s. induction es1 as [|e es1 IH]; intros s; cbn; auto. Qed.
End SessionFacts.
