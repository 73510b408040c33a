(** Concurrent calls: commits do not deadlock. *)
From Coq Require Import List NArith Bool Arith Lia Sorted.
From Verif Require Import Base.Order Model.OMap Model.MemTable Model.Immutable Model.SsTable Model.Db
     Spec.History Model.Run Model.Sched Spec.ConcSpec Proof.OMapFacts Proof.RunFacts.
Import ListNotations.
Local Arguments kcmp : simpl never.

Section Lists.
  Context {A : Type}.
  Implicit Types l : list A.
  Lemma set_nth_length i x l : length (set_nth i x l) = length l.
  Proof. revert i. induction l as [|a l IH]; intros [|i]; simpl; auto. Qed.
  Lemma nth_set_same i x l a : nth_error l i = Some a -> nth_error (set_nth i x l) i = Some x.
  Proof. revert i. induction l as [|b l IH]; intros [|i]; simpl; try discriminate; auto. Qed.
  Lemma nth_set_other i j x l : i <> j -> nth_error (set_nth i x l) j = nth_error l j.
  Proof. revert i j. induction l as [|b l IH]; intros [|i] [|j] H; simpl; auto; congruence. Qed.
  Lemma In_others i l u : In u (others i l) <-> exists j, j <> i /\ nth_error l j = Some u.
  Proof.
    revert i. induction l as [|b l IH]; intros i.
    - simpl. split; [intros []|]. intros ([|j] & _ & H); discriminate.
    - destruct i as [|i]; cbn [others].
      + split.
        * intros H. apply In_nth_error in H as [j H]. exists (S j). auto.
        * intros ([|j] & H1 & H2); [congruence|]. simpl in H2. eapply nth_error_In; eauto.
      + simpl. rewrite IH. split.
        * intros [->|(j & H1 & H2)]; [exists 0; auto|exists (S j); auto].
        * intros ([|j] & H1 & H2); simpl in H2; [left; congruence|right; exists j; auto].
  Qed.
  Lemma In_set_nth i x l u : In u (set_nth i x l) -> u = x \/ In u (others i l).
  Proof.
    intros H. apply In_nth_error in H as [j H]. destruct (Nat.eq_dec i j) as [->|N].
    - left. destruct (nth_error l j) as [a|] eqn:E.
      + rewrite (nth_set_same _ _ _ _ E) in H. congruence.
      + assert (nth_error (set_nth j x l) j = None) by (apply nth_error_None; rewrite set_nth_length; now apply nth_error_None).
        congruence.
    - right. rewrite nth_set_other in H by auto. apply In_others. eauto.
  Qed.
End Lists.

Section Live.
  Context {K : Type} {KO : KeyOrd K} {R : Type}.
  Variable key_of : R -> option K.
  Notation cstep := (cstep key_of).
  Notation crun := (crun key_of).
  Notation call_step := (call_step key_of).
  Notation keys_of := (keys_of key_of).
  Notation parts_of := (parts_of key_of).
  Notation held := (held key_of).
  Notation holds := (holds key_of).

  Notation klt a b := (kcmp a b = Lt).

  Lemma keys_sorted w : StronglySorted (fun a b : K => kcmp a b = Lt) (keys_of w).
  Proof.
    destruct w as [rows dec|rows dec|snap ms]; simpl; try constructor.
    pose proof (stage_sorted key_of ms) as H. unfold osorted in H.
    induction H as [|a l H IH HF]; simpl; constructor; auto. now rewrite Forall_map.
  Qed.

  Lemma sorted_nth (l : list K) : StronglySorted (fun a b : K => kcmp a b = Lt) l -> forall i j a b, i < j ->
    nth_error l i = Some a -> nth_error l j = Some b -> klt a b.
  Proof.
    induction 1 as [|x l H IH HF]; intros i j a b L Hi Hj; [destruct i; discriminate|].
    destruct j as [|j]; [lia|]. simpl in Hj. destruct i as [|i]; simpl in Hi.
    - inversion Hi; subst. rewrite Forall_forall in HF. apply HF. eapply nth_error_In; eauto.
    - apply (IH i j); auto; lia.
  Qed.

  Lemma In_firstn_nth {A} n (l : list A) x : In x (firstn n l) -> exists i, i < n /\ nth_error l i = Some x.
  Proof.
    revert l. induction n as [|n IH]; intros [|a l] H; simpl in H; try contradiction.
    destruct H as [->|H]; [exists 0; split; auto; lia|]. destruct (IH _ H) as (i & L & E). exists (S i). split; auto; lia.
  Qed.

  (** The key a call waits for. *)
  Definition wants (t : thread K R) : option K :=
    match t_pc t with PLock got => nth_error (keys_of (t_call t)) got | _ => None end.

  Lemma step_none d rest t : call_step d rest t = None ->
    returned t \/ exists k, wants t = Some k /\ exists u, In u rest /\ holds k u = true.
  Proof.
    unfold Sched.call_step, returned, wants. destruct (t_pc t) as [got|n| |ts n|ts n sg|ts|ts sg|o] eqn:E; eauto.
    - destruct (nth_error _ got) as [k|] eqn:EK; [|discriminate]. destruct (existsb (holds k) rest) eqn:EH; [|discriminate].
      intros _. right. exists k. split; auto. now apply existsb_exists.
    - destruct (nth_error _ n); discriminate.
    - destruct (parts_of _); discriminate.
    - destruct (nth_error _ n) as [p|]; [|discriminate]. destruct (put_part _ _ _ _) as [m [sg|]|m|]; discriminate.
    - discriminate.
    - destruct (dec_of _); [|discriminate]. destruct (seal _ _); discriminate.
    - discriminate.
  Qed.

  Lemma holds_waiting k u k' : holds k u = true -> wants u = Some k' -> klt k k'.
  Proof.
    unfold Sched.holds, Sched.held, wants. destruct (t_pc u) as [got|n| |ts n|ts n sg|ts|ts sg|o] eqn:E; try discriminate.
    intros H1 H2. apply existsb_exists in H1 as (x & H1 & H3). apply In_firstn_nth in H1 as (i & L & Hi).
    pose proof (sorted_nth _ (keys_sorted (t_call u)) _ _ _ _ L Hi H2) as H. apply keqb_true in H3. korder.
  Qed.
  Lemma holds_alive k u : holds k u = true -> ~ returned u.
  Proof. intros H [o E]. unfold Sched.holds, Sched.held in H. rewrite E in H. discriminate. Qed.

  (** The calls waiting for a key above [k]. *)
  Definition above (k : K) (t : thread K R) : bool :=
    match wants t with Some k' => match kcmp k k' with Lt => true | _ => false end | None => false end.
  Lemma above_le k k' l : klt k k' -> length (filter (above k') l) <= length (filter (above k) l).
  Proof.
    intros H. induction l as [|t l IH]; simpl; auto.
    assert (X : above k' t = true -> above k t = true).
    { unfold above. destruct (wants t) as [x|]; auto. destruct (kcmp k' x) eqn:E; try discriminate. intros _.
      assert (kcmp k x = Lt) as -> by (korder). reflexivity. }
    destruct (above k' t) eqn:E1; [rewrite X by auto|destruct (above k t)]; simpl; lia.
  Qed.
  Lemma above_lt k k' l u : klt k k' -> In u l -> wants u = Some k' ->
    length (filter (above k') l) < length (filter (above k) l).
  Proof.
    intros H Hu Hw. induction l as [|t l IH]; [destruct Hu|]. destruct Hu as [->|Hu].
    - assert (above k' u = false) as E1 by (unfold above; now rewrite Hw, kcmp_refl).
      assert (above k u = true) as E2 by (unfold above; now rewrite Hw, H).
      simpl. rewrite E1, E2. simpl. pose proof (above_le k k' l H). lia.
    - specialize (IH Hu). simpl.
      assert (X : above k' t = true -> above k t = true).
      { unfold above. destruct (wants t) as [x|]; auto. destruct (kcmp k' x) eqn:E; try discriminate. intros _.
        assert (kcmp k x = Lt) as -> by (korder). reflexivity. }
      destruct (above k' t) eqn:E1; [rewrite X by auto|destruct (above k t)]; simpl; lia.
  Qed.

  Definition enabled (c : conc K R) (i : nat) : Prop :=
    exists t, nth_error (c_threads c) i = Some t /\ call_step (c_db c) (others i (c_threads c)) t <> None.

  Lemma some_enabled c : (exists t, In t (c_threads c) /\ ~ returned t) -> exists i, enabled c i.
  Proof.
    intros (t & Ht & HN).
    assert (HW : forall n k u, In u (c_threads c) -> wants u = Some k -> length (filter (above k) (c_threads c)) <= n ->
                 exists i, enabled c i).
    { induction n as [|n IH]; intros k u Hu Hw L; apply In_nth_error in Hu as [i Hi];
        (destruct (call_step (c_db c) (others i (c_threads c)) u) as [p|] eqn:E;
         [exists i, u; split; auto; congruence|]);
        destruct (step_none _ _ _ E) as [[o F]|(k0 & E0 & x & Hx & Hh)];
        try (unfold wants in Hw; rewrite F in Hw; discriminate);
        rewrite Hw in E0; injection E0 as <-;
        apply In_others in Hx as (j & _ & Hj).
      - destruct (call_step (c_db c) (others j (c_threads c)) x) as [p|] eqn:E2;
         [exists j, x; split; auto; congruence|].
        destruct (step_none _ _ _ E2) as [F|(k1 & E1 & _)]; [exfalso; eapply holds_alive; eauto|].
        pose proof (holds_waiting _ _ _ Hh E1) as HL. apply nth_error_In in Hj.
        pose proof (above_lt k k1 _ _ HL Hj E1). lia.
      - destruct (call_step (c_db c) (others j (c_threads c)) x) as [p|] eqn:E2;
         [exists j, x; split; auto; congruence|].
        destruct (step_none _ _ _ E2) as [F|(k1 & E1 & _)]; [exfalso; eapply holds_alive; eauto|].
        pose proof (holds_waiting _ _ _ Hh E1) as HL. apply nth_error_In in Hj.
        pose proof (above_lt k k1 _ _ HL Hj E1). eapply IH; eauto. lia. }
    pose proof Ht as Ht'. apply In_nth_error in Ht' as [i Hi].
    destruct (call_step (c_db c) (others i (c_threads c)) t) as [p|] eqn:E; [exists i, t; split; auto; congruence|].
    destruct (step_none _ _ _ E) as [F|(k & E1 & _)]; [contradiction|]. eapply HW; eauto.
  Qed.

  (** *** Every step brings the call closer to its return *)
  Definition left_of (t : thread K R) : nat :=
    let np := length (parts_of (t_call t)) in
    let nk := length (keys_of (t_call t)) in
    match t_pc t with
    | PLock got => (nk - got) + nk + 2 * np + 6
    | PCheck n => (nk - n) + 2 * np + 5
    | PAlloc => 2 * np + 4
    | PPut _ n => 2 * (np - n) + 3
    | PAdd _ n _ => 2 * (np - n) + 4
    | PSeal _ => 2
    | PAddLast _ _ => 1
    | PDone _ => 0
    end.
  Lemma step_left d rest t d' p : call_step d rest t = Some (d', p) -> left_of (mkTh (t_call t) p) < left_of t.
  Proof.
    unfold Sched.call_step, left_of. cbn [t_call t_pc].
    set (np := length (parts_of (t_call t))). set (nk := length (keys_of (t_call t))).
    destruct (t_pc t) as [got|n| |ts n|ts n sg|ts|ts sg|o] eqn:E; intros H.
    - destruct (nth_error _ got) as [k|] eqn:EK.
      + destruct (existsb _ _); [discriminate|]. injection H as <- <-.
        assert (got < nk) by (apply nth_error_Some; congruence). lia.
      + injection H as <- <-. lia.
    - destruct (nth_error _ n) as [k|] eqn:EK; injection H as <- <-; [|lia].
      assert (n < nk) by (apply nth_error_Some; congruence). destruct (key_conflict _ _ _); lia.
    - destruct (parts_of (t_call t)) eqn:EP; injection H as <- <-; lia.
    - destruct (nth_error (parts_of (t_call t)) n) as [q|] eqn:EK; [|injection H as <- <-; lia].
      assert (n < np) by (apply nth_error_Some; congruence).
      destruct (put_part _ _ _ _) as [m [sg|]|m|]; injection H as <- <-; lia.
    - injection H as <- <-. lia.
    - destruct (dec_of _); [destruct (seal _ _)|]; injection H as <- <-; lia.
    - injection H as <- <-. lia.
    - discriminate.
  Qed.

  Definition total (c : conc K R) : nat := fold_right (fun t n => left_of t + n) 0 (c_threads c).
  Lemma total_set (l : list (thread K R)) i t t' : nth_error l i = Some t -> left_of t' < left_of t ->
    fold_right (fun t n => left_of t + n) 0 (set_nth i t' l) < fold_right (fun t n => left_of t + n) 0 l.
  Proof.
    revert i. induction l as [|a l IH]; intros [|i] H L; simpl in *; try discriminate.
    - injection H as ->. lia.
    - specialize (IH i H L). lia.
  Qed.

  Lemma step_total c i : enabled c i -> total (cstep c (EStep i)) < total c.
  Proof.
    intros (t & Hi & HE). unfold total. simpl. rewrite Hi.
    destruct (call_step (c_db c) (others i (c_threads c)) t) as [[d p]|] eqn:E; [|congruence].
    simpl. eapply total_set; eauto. eapply step_left; eauto.
  Qed.
  Lemma changed_enabled c i : cstep c (EStep i) <> c -> enabled c i.
  Proof.
    simpl. intros H. destruct (nth_error (c_threads c) i) as [t|] eqn:Hi; [|congruence]. exists t. split; auto.
    destruct (call_step (c_db c) (others i (c_threads c)) t) as [[d p]|]; congruence.
  Qed.

  Lemma stuck_returned c : (forall i, cstep c (EStep i) = c) -> Forall (@returned K R) (c_threads c).
  Proof.
    intros H. apply Forall_forall. intros t Ht. destruct (t_pc t) as [got|n| |ts n|ts n sg|ts|ts sg|o] eqn:E.
    8: now exists o.
    all: exfalso; destruct (some_enabled c) as [i Hi];
      [exists t; split; auto; intros [o F]; congruence|];
      pose proof (step_total c i Hi) as L; rewrite H in L; lia.
  Qed.

  Lemma effective_bound is : forall c, effective key_of c is -> length is + total (crun c (map EStep is)) <= total c.
  Proof.
    induction is as [|i is IH]; intros c H; [simpl; lia|].
    destruct H as [H1 H2]. apply changed_enabled in H1. apply step_total in H1. apply IH in H2.
    cbn [map length]. change (crun c (EStep i :: map EStep is)) with (crun (cstep c (EStep i)) (map EStep is)). lia.
  Qed.

  Lemma all_return c : exists is, Forall (@returned K R) (c_threads (crun c (map EStep is))).
  Proof.
    assert (H : forall n c, total c <= n -> exists is, Forall (@returned K R) (c_threads (crun c (map EStep is)))).
    { clear c. induction n as [|n IH]; intros c L.
      - exists []. apply stuck_returned. intros i. destruct (nth_error (c_threads c) i) as [t|] eqn:Hi; [|simpl; now rewrite Hi].
        destruct (call_step (c_db c) (others i (c_threads c)) t) as [p|] eqn:E.
        + assert (HE : enabled c i) by (exists t; split; auto; congruence). apply step_total in HE. lia.
        + simpl. now rewrite Hi, E.
      - destruct (Forall_Exists_dec (fun t : thread K R => match t_pc t with PDone _ => True | _ => False end)
                    (fun t => match t_pc t as p return {match p with PDone _ => True | _ => False end} + {~ match p with PDone _ => True | _ => False end}
                              with PDone _ => left I | _ => right (fun x => x) end) (c_threads c)) as [H|H].
        + exists []. simpl. eapply Forall_impl; [|exact H]. intros t. unfold returned.
          destruct (t_pc t); intros Ht; try contradiction. eauto.
        + apply Exists_exists in H as (t & Ht & HN). destruct (some_enabled c) as [i Hi].
          { exists t. split; auto. intros [o E]. rewrite E in HN. auto. }
          destruct (IH (cstep c (EStep i))) as [is His]; [apply step_total in Hi; lia|]. exists (i :: is). exact His. }
    eapply H; eauto.
  Qed.
End Live.
