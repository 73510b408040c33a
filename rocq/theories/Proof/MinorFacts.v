(** Facts about automatic flushing. *)
From Coq Require Import List NArith Bool Arith Lia.
From Verif Require Import Base.Order Model.OMap Model.KeyTs Model.MemTable Model.Immutable
     Model.SsTable Model.Version Model.Compact Model.Planner Model.Db Model.DbCompact Model.DbScan Model.KeyBounds
     Spec.History Model.Run Spec.Valid Model.Minor Spec.MinorSpec
     Proof.DbFacts Proof.Refine Proof.Reads Proof.ReadProps Proof.Demo.
Import ListNotations.

Section Facts.
  Context {K : Type} {KO : KeyOrd K} {R : Type}.
  Variable key_of : R -> option K.
  Variable row_bytes : R -> nat.
  Variable del_bytes : K -> nat.
  Notation step := (step key_of row_bytes del_bytes).
  Notation run := (run key_of row_bytes del_bytes).
  Notation acall_step := (acall_step key_of row_bytes del_bytes).
  Notation acall_run := (acall_run key_of row_bytes del_bytes).
  Notation ops_ok := (ops_ok key_of row_bytes del_bytes).
  Notation calls_ok := (calls_ok key_of row_bytes del_bytes).

  (** A call is its write, followed by a flush or not. *)
  Lemma acall_ops mi s c :
    fst (acall_step mi s c) = step s (bare c) \/
    fst (acall_step mi s c) = step (step s (bare c)) (OFlush (mi_level mi)).
  Proof.
    unfold Minor.acall_step. set (s1 := step s (bare c)). destruct (bare_ok key_of s c); [|left; reflexivity].
    destruct (triggers c) as [st|]; [|left; reflexivity].
    unfold minor_trigger. destruct st; [left; destruct s1; reflexivity|].
    destruct (Nat.ltb _ _); [left; destruct s1; reflexivity|].
    right. cbn [Run.step]. destruct (flush key_of (mi_level mi) (st_db s1)) as [d ok]. reflexivity.
  Qed.

  Lemma acall_run_ops mi cs : forall s, calls_ok mi s cs ->
    exists ops, acall_run mi s cs = run s ops /\ ops_ok s ops /\ length ops <= 2 * length cs.
  Proof.
    induction cs as [|c r IH]; intros s H.
    - exists []. repeat split. simpl. lia.
    - destruct H as [H1 H2]. destruct (IH _ H2) as (ops & E1 & E2 & E3). cbn [Minor.acall_run fold_left].
      fold (acall_run mi (fst (acall_step mi s c)) r). destruct (acall_ops mi s c) as [E|E]; rewrite E in *.
      + exists (bare c :: ops). split; [exact E1|]. split; [split; auto|]. simpl. lia.
      + exists (bare c :: OFlush (mi_level mi) :: ops). split; [exact E1|]. split; [|simpl; lia].
        split; [exact H1|]. split; [exact I|exact E2].
  Qed.

  (** The reads. *)
  Lemma minor_reads mi capacity cs : 1 <= capacity -> (N.of_nat (2 * length cs) < 2 ^ 64)%N ->
    calls_ok mi (start capacity) cs ->
    let s := acall_run mi (start capacity) cs in
    exists out, read_all key_of (st_db s) = Some out /\
                lists_table key_of (final key_of (st_hist s)) (fun _ => true) out.
  Proof.
    intros H1 H2 H3 s. destruct (acall_run_ops mi cs _ H3) as (ops & E1 & E2 & E3).
    unfold s. rewrite E1. apply c02_latest; auto. lia.
  Qed.

  (** The flush succeeds in every reachable state with a sealed segment. *)
  Lemma flush_fine capacity ops level : run_hyp key_of row_bytes del_bytes capacity ops ->
    d_imm (st_db (run (start capacity) ops)) <> [] ->
    snd (flush key_of level (st_db (run (start capacity) ops))) = true.
  Proof.
    intros HH NE. destruct (run_inv key_of row_bytes del_bytes _ _ HH) as [HI _].
    destruct (iv_rep _ _ HI) as (M & Is & HR & _).
    destruct (flush_spec key_of level _ M Is HR) as (d' & Is' & ok & E & _ & _ & _ & _ & F).
    rewrite E. cbn [snd]. apply F. intros ->. apply NE. now rewrite (rp_imm _ _ _ _ HR).
  Qed.

  Lemma ops_ok_snoc o ops : forall s, ops_ok s ops /\ op_ok key_of (run s ops) o -> ops_ok s (ops ++ [o]).
  Proof.
    induction ops as [|x r IH]; intros s [H1 H2]; simpl in *; auto. destruct H1 as [A B]. split; auto.
  Qed.

  (** The answer of a call is that of its write. *)
  Lemma minor_answer th level capacity cs c : 1 <= capacity -> (N.of_nat (2 * S (length cs)) < 2 ^ 64)%N ->
    calls_ok (minor_with th level) (start capacity) (cs ++ [c]) ->
    let s := acall_run (minor_with th level) (start capacity) cs in
    snd (acall_step (minor_with th level) s c) = bare_ok key_of s c.
  Proof.
    intros H1 H2 H3 s. set (mi := minor_with th level) in *.
    assert (HS : calls_ok mi (start capacity) cs /\ op_ok key_of s (bare c)).
    { unfold s. clear - H3. revert H3. generalize (start (K:=K) (R:=R) capacity). induction cs as [|x r IH]; intros s H.
      - destruct H as [H _]. split; [exact I|exact H].
      - destruct H as [A B]. destruct (IH _ B) as [C D]. split; [split; auto|exact D]. }
    destruct HS as [HC HO]. destruct (acall_run_ops mi cs _ HC) as (ops & E1 & E2 & E3). fold s in E1.
    unfold Minor.acall_step. destruct (bare_ok key_of s c); [|reflexivity].
    destruct (triggers c) as [st|]; [|reflexivity].
    unfold minor_trigger. destruct st; [reflexivity|].
    destruct (Nat.ltb_spec (length (d_imm (st_db (step s (bare c))))) (mi_threshold mi)) as [L|L]; [reflexivity|].
    assert (F : snd (flush key_of (mi_level mi) (st_db (run (start capacity) (ops ++ [bare c])))) = true).
    { apply flush_fine.
      - split; auto. split; [rewrite app_length; simpl; lia|]. apply ops_ok_snoc. split; auto. rewrite <- E1. exact HO.
      - unfold Run.run. rewrite fold_left_app. fold (run (start capacity) ops). rewrite <- E1. cbn [fold_left].
        intros Z. rewrite Z in L. simpl in L. unfold mi, minor_with in L. simpl in L. lia. }
    unfold Run.run in F. rewrite fold_left_app in F. fold (run (start capacity) ops) in F. rewrite <- E1 in F. cbn [fold_left] in F.
    destruct (flush key_of (mi_level mi) _) as [d ok]. exact F.
  Qed.

  (** What waits after an ingest that was answered. *)
  Lemma flush_clears level (d : db K R) : snd (flush key_of level d) = true -> d_imm (fst (flush key_of level d)) = [].
  Proof. unfold flush. destruct (d_imm d); [discriminate|]. destruct (write_flush _ _ _); try discriminate. reflexivity. Qed.

  Lemma minor_bound th level s c : ingests c ->
    snd (acall_step (minor_with th level) s c) = true ->
    length (d_imm (st_db (fst (acall_step (minor_with th level) s c)))) < Nat.max th 1.
  Proof.
    intros HI. unfold Minor.acall_step. set (s1 := step s (bare c)). destruct (bare_ok key_of s c); [|discriminate].
    assert (ET : triggers c = Some false).
    { destruct c as [rows span dec st|rows span dec st|]; simpl in HI; [now subst|destruct HI as [HI ->]; destruct rows; [congruence|reflexivity]|elim HI]. }
    rewrite ET. unfold minor_trigger. cbn [minor_with mi_threshold mi_level].
    destruct (Nat.ltb_spec (length (d_imm (st_db s1))) (Nat.max th 1)) as [L|L]; [auto|].
    pose proof (flush_clears level (st_db s1)) as F. destruct (flush key_of level (st_db s1)) as [d ok]. cbn [fst snd st_db] in *.
    intros ->. rewrite F; auto. simpl. lia.
  Qed.
End Facts.

(** *** Overlapping calls *)
Lemma put_same i p q l : nth_error l i = Some q -> nth_error (put_pc i p l) i = Some p.
Proof. revert i. induction l as [|x r IH]; intros [|i] H; simpl in *; try discriminate; auto. Qed.
Lemma put_other i j p l : i <> j -> nth_error (put_pc i p l) j = nth_error l j.
Proof. revert i j. induction l as [|x r IH]; intros [|i] [|j] N; simpl; auto; congruence. Qed.
Lemma put_in i p l q : In q (put_pc i p l) -> q = p \/ In q l.
Proof. revert i. induction l as [|x r IH]; intros [|i] H; simpl in *; auto; destruct H as [H|H]; auto. destruct (IH _ H); auto. Qed.

Definition holds (p : mpc) : bool := match p with MIn | MEnough | MTaken _ => true | _ => false end.

(** Only the holder of the lock is past it; enough segments stay enough; what was captured is
    still there; nothing was found missing. *)
Record minv (th : nat) (s : minors) : Prop := {
  mv_lock : forall i p, nth_error (mc_calls s) i = Some p -> holds p = true -> mc_lock s = Some i;
  mv_enough : In MEnough (mc_calls s) -> 1 <= mc_waiting s;
  mv_taken : forall n, In (MTaken n) (mc_calls s) -> n <= mc_waiting s;
  mv_fine : ~ In (MEnd MNoSegments) (mc_calls s)
}.

Lemma nth_in {A} (l : list A) x : In x l -> exists i, nth_error l i = Some x.
Proof. apply In_nth_error. Qed.

Lemma minv_put th s i p q w lk : minv th s -> nth_error (mc_calls s) i = Some q ->
  (holds p = true -> lk = Some i) ->
  (holds q = true \/ lk = mc_lock s \/ mc_lock s = None) ->
  (p = MEnough -> 1 <= w) -> (forall n, p = MTaken n -> n <= w) -> p <> MEnd MNoSegments ->
  (holds q = true \/ w = mc_waiting s) ->
  minv th (mkMs w lk (put_pc i p (mc_calls s))).
Proof.
  intros [I1 I2 I3 I4] Hq A B D E F W.
  assert (ONE : holds q = true -> forall j p', nth_error (mc_calls s) j = Some p' -> holds p' = true -> j = i).
  { intros Q j p' H1 H2. specialize (I1 _ _ H1 H2) as X. specialize (I1 _ _ Hq Q). congruence. }
  assert (CASE : forall x, holds x = true -> In x (put_pc i p (mc_calls s)) -> x = p \/ (In x (mc_calls s) /\ holds q = false)).
  { intros x Hx Hin. destruct (nth_in _ _ Hin) as [j Hj]. destruct (Nat.eq_dec i j) as [<-|NJ].
    - rewrite (put_same _ _ _ _ Hq) in Hj. left. congruence.
    - rewrite put_other in Hj by auto. right. split; [eapply nth_error_In; eauto|].
      destruct (holds q) eqn:EQ; auto. elim NJ. symmetry. eapply ONE; eauto. }
  constructor; cbn [mc_lock mc_calls mc_waiting].
  - intros j p' H1 H2. destruct (Nat.eq_dec i j) as [<-|NJ].
    + rewrite (put_same _ _ _ _ Hq) in H1. inversion H1; subst. auto.
    + rewrite put_other in H1 by auto. destruct B as [B|B].
      * elim NJ. symmetry. eapply ONE; eauto.
      * specialize (I1 _ _ H1 H2). destruct B as [B|B]; congruence.
  - intros H. destruct (CASE MEnough eq_refl H) as [<-|[H' Q]]; auto. destruct W as [W|W]; [congruence|subst w; auto].
  - intros n H. destruct (CASE (MTaken n) eq_refl H) as [<-|[H' Q]]; auto. destruct W as [W|W]; [congruence|subst w; auto].
  - intros H. apply put_in in H as [H|H]; [congruence|auto].
Qed.

Ltac ms := solve [discriminate | intros; discriminate | left; reflexivity | right; reflexivity | right; left; reflexivity | right; right; assumption | right; congruence
  | intros; congruence | intros; lia | let H := fresh in intros ? H; inversion H; lia].

Lemma minv_step th s e : minv th s -> minv th (mevent_step th s e).
Proof.
  intros HV. pose proof HV as [I1 I2 I3 I4].
  assert (NEW : forall w, mc_waiting s <= w -> minv th (mkMs w (mc_lock s) (mc_calls s ++ [MWait]))).
  { intros w Hw. constructor; cbn [mc_lock mc_calls mc_waiting].
    - intros i p H1 H2. destruct (Nat.lt_ge_cases i (length (mc_calls s))) as [L|L].
      + rewrite nth_error_app1 in H1 by auto. eauto.
      + rewrite nth_error_app2 in H1 by auto. destruct (i - length (mc_calls s)) as [|[|k]]; simpl in H1; try discriminate. inversion H1; subst. discriminate.
    - intros H. apply in_app_iff in H as [H|[H|[]]]; [|discriminate]. specialize (I2 H). lia.
    - intros n H. apply in_app_iff in H as [H|[H|[]]]; [|discriminate]. specialize (I3 _ H). lia.
    - intros H. apply in_app_iff in H as [H|[H|[]]]; [auto|discriminate]. }
  destruct e as [| | |i ok|i]; cbn [mevent_step].
  - apply NEW. lia.
  - apply NEW. lia.
  - constructor; cbn [mc_lock mc_calls mc_waiting]; auto.
  - destruct (nth_error (mc_calls s) i) as [[| | |n|r]|] eqn:E; try exact HV.
    + destruct (mc_lock s) eqn:EL; [exact HV|]. eapply (minv_put th s i MIn MWait); eauto; try ms.
    + destruct (Nat.ltb_spec (mc_waiting s) (Nat.max th 1)) as [L|L].
      * eapply (minv_put th s i (MEnd MNothing) MIn); eauto; ms.
      * eapply (minv_put th s i MEnough MIn); eauto; try ms. 
    + assert (W : 1 <= mc_waiting s) by (apply I2; eapply nth_error_In; eauto).
      destruct (mc_waiting s) as [|m] eqn:EW; [lia|].
      eapply (minv_put th s i (MTaken (S m)) MEnough); eauto; ms.
    + destruct ok; eapply (minv_put th s i _ (MTaken n)); eauto; ms.
  - destruct (nth_error (mc_calls s) i) as [[| | |n|r]|] eqn:E; try exact HV; eapply minv_put; eauto; ms.
Qed.

Lemma minv_run th es : forall s, minv th s -> minv th (mevent_run th s es).
Proof. induction es as [|e r IH]; intros s H; simpl; auto. apply IH. now apply minv_step. Qed.
Lemma minv_start th : minv th minors_start.
Proof. constructor; simpl; try tauto. intros [|i] p; discriminate. Qed.

Lemma minor_no_race th es : ~ In (MEnd MNoSegments) (mc_calls (mevent_run th minors_start es)).
Proof. apply (mv_fine th), minv_run, minv_start. Qed.

(** Some call will look at what waits. *)
Definition due (th : nat) (s : minors) : Prop :=
  mc_waiting s < Nat.max th 1 \/ In MWait (mc_calls s) \/ In MIn (mc_calls s) \/ In MEnough (mc_calls s) \/
  In (MTaken (mc_waiting s)) (mc_calls s).

Lemma put_keeps i p q l x : nth_error l i = Some q -> q <> x -> In x l -> In x (put_pc i p l).
Proof.
  intros H N Hx. destruct (nth_in _ _ Hx) as [j Hj]. apply nth_error_In with j. rewrite put_other; auto. intros ->. congruence.
Qed.
Lemma put_now i p q l : nth_error l i = Some q -> In p (put_pc i p l).
Proof. intros H. apply nth_error_In with i. eapply put_same; eauto. Qed.

Lemma due_step th s e : minv th s -> due th s -> smooth e -> due th (mevent_step th s e).
Proof.
  intros HV HD HS. unfold due in *. destruct e as [| | |i ok|i]; cbn [mevent_step] in *; try (elim HS).
  - right. left. cbn. apply in_or_app. right. now left.
  - right. left. cbn. apply in_or_app. right. now left.
  - destruct (nth_error (mc_calls s) i) as [[| | |n|r]|] eqn:E; try exact HD.
    + destruct (mc_lock s); [exact HD|]. cbn [mc_calls mc_waiting]. right. right. left. eapply put_now; eauto.
    + destruct (Nat.ltb_spec (mc_waiting s) (Nat.max th 1)); cbn [mc_calls mc_waiting]; [now left|].
      right. right. right. left. eapply put_now; eauto.
    + assert (W : 1 <= mc_waiting s) by (apply (mv_enough _ _ HV); eapply nth_error_In; eauto).
      destruct (mc_waiting s) as [|m] eqn:EW; [lia|]. cbn [mc_calls mc_waiting]. rewrite ?EW. right. right. right. right. eapply put_now; eauto.
    + destruct ok; [|elim HS]. cbn [mc_calls mc_waiting].
      assert (L1 : mc_lock s = Some i) by (apply (mv_lock _ _ HV _ _ E eq_refl)).
      assert (ONE : forall x, holds x = true -> In x (mc_calls s) -> x = MTaken n).
      { intros x Hx Hin. destruct (nth_in _ _ Hin) as [j Hj]. specialize (mv_lock _ _ HV _ _ Hj Hx) as L2.
        rewrite L1 in L2. inversion L2; subst j. rewrite E in Hj. now inversion Hj. }
      destruct HD as [H|[H|[H|[H|H]]]].
      * left. lia.
      * right. left. eapply put_keeps; eauto. discriminate.
      * apply (ONE MIn eq_refl) in H. discriminate.
      * apply (ONE MEnough eq_refl) in H. discriminate.
      * apply (ONE (MTaken _) eq_refl) in H. inversion H; subst n. left. lia.
Qed.

Lemma minor_quiet th es : Forall smooth es -> all_ended (mevent_run th minors_start es) ->
  mc_waiting (mevent_run th minors_start es) < Nat.max th 1.
Proof.
  intros HS HA.
  assert (H : forall es s, Forall smooth es -> minv th s -> due th s -> due th (mevent_run th s es)).
  { clear. induction es as [|e r IH]; intros s HS HV HD; simpl; auto. inversion HS; subst. apply IH; auto using minv_step, due_step. }
  specialize (H es minors_start HS (minv_start th)). unfold all_ended in HA. rewrite Forall_forall in HA.
  destruct H as [H|[H|[H|[H|H]]]]; auto; [left; simpl; lia| | | |];
    destruct (HA _ H) as [r F]; discriminate.
Qed.

(** The lock is held by a call that is past it. *)
Definition held (s : minors) : Prop := forall i, mc_lock s = Some i -> exists p, nth_error (mc_calls s) i = Some p /\ holds p = true.
Lemma held_put s i p q w lk : held s -> nth_error (mc_calls s) i = Some q ->
  (lk = None \/ (lk = Some i /\ holds p = true) \/ (lk = mc_lock s /\ (holds q = holds p))) ->
  held (mkMs w lk (put_pc i p (mc_calls s))).
Proof.
  intros H E C j L. cbn [mc_lock mc_calls] in *. destruct C as [->|[(-> & P)|(-> & P)]]; [discriminate| |].
  - injection L as <-. exists p. split; auto. eapply put_same; eauto.
  - destruct (H j L) as (x & X & Y). destruct (Nat.eq_dec i j) as [<-|N].
    + exists p. split; [eapply put_same; eauto|]. rewrite <- P. congruence.
    + exists x. rewrite put_other by auto. auto.
Qed.
Lemma held_step th s e : held s -> held (mevent_step th s e).
Proof.
  intros H.
  assert (NEW : forall w, held (mkMs w (mc_lock s) (mc_calls s ++ [MWait]))).
  { intros w j L. destruct (H j L) as (x & X & Y). exists x. split; auto. cbn [mc_calls]. rewrite nth_error_app1; auto.
    apply nth_error_Some. congruence. }
  destruct e as [| | |i ok|i]; cbn [mevent_step]; auto.
  - destruct (nth_error (mc_calls s) i) as [[| | |n|r]|] eqn:E; auto.
    + destruct (mc_lock s) eqn:L; auto. eapply held_put; eauto.
    + destruct (Nat.ltb (mc_waiting s) (Nat.max th 1)); eapply held_put; eauto.
    + destruct (mc_waiting s); eapply held_put; eauto.
    + destruct ok; eapply held_put; eauto.
  - destruct (nth_error (mc_calls s) i) as [[| | |n|r]|] eqn:E; auto; eapply held_put; eauto.
Qed.
Lemma held_run th es : forall s, held s -> held (mevent_run th s es).
Proof. induction es as [|e r IH]; intros s H; simpl; auto. apply IH. now apply held_step. Qed.

Definition rank1 (p : mpc) : nat := match p with MWait => 4 | MIn => 3 | MEnough => 2 | MTaken _ => 1 | MEnd _ => 0 end.
Definition rank (l : list mpc) : nat := fold_right (fun p n => rank1 p + n) 0 l.
Lemma rank_put p q : rank1 p < rank1 q -> forall l i, nth_error l i = Some q -> rank (put_pc i p l) < rank l.
Proof.
  intros L. induction l as [|x l IH]; intros [|i] H; simpl in *; try discriminate.
  - inversion H; subst. lia.
  - specialize (IH i H). lia.
Qed.
Lemma not_ended l : Forall (fun p => exists r, p = MEnd r) l \/ exists i p, nth_error l i = Some p /\ 0 < rank1 p.
Proof.
  induction l as [|x l [IH|(i & p & H)]]; [left; constructor| |right; exists (S i), p; exact H].
  destruct x as [| | |n|r]; try (right; exists 0; eexists; split; [reflexivity|simpl; lia]).
  left. constructor; eauto.
Qed.
Lemma go_on th s : minv th s -> held s -> all_ended s \/ exists i, rank (mc_calls (mevent_step th s (MGo i true))) < rank (mc_calls s).
Proof.
  intros HV HH. destruct (not_ended (mc_calls s)) as [A|(i & p & E & P)]; [left; exact A|right].
  destruct (mc_lock s) as [j|] eqn:L.
  - destruct (HH j L) as (x & X & Y). exists j. cbn [mevent_step]. rewrite X. destruct x as [| | |n|r]; try discriminate.
    + destruct (Nat.ltb (mc_waiting s) (Nat.max th 1)); cbn [mc_calls]; refine (rank_put _ _ _ _ _ X); simpl; lia.
    + destruct (mc_waiting s); cbn [mc_calls]; refine (rank_put _ _ _ _ _ X); simpl; lia.
    + cbn [mc_calls]; refine (rank_put _ _ _ _ _ X); simpl; lia.
  - exists i. destruct p as [| | |n|r]; try (pose proof (mv_lock _ _ HV _ _ E eq_refl); congruence); [|simpl in P; lia].
    cbn [mevent_step]. rewrite E, L. cbn [mc_calls]. refine (rank_put _ _ _ _ _ E); simpl; lia.
Qed.
Lemma finishes th : forall k s, rank (mc_calls s) <= k -> minv th s -> held s ->
  exists order, all_ended (mevent_run th s (map (fun i => MGo i true) order)).
Proof.
  induction k as [|k IH]; intros s L HV HH; (destruct (go_on th s HV HH) as [A|(i & R)]; [exists []; exact A|]); [lia|].
  destruct (IH (mevent_step th s (MGo i true))) as (order & O); [lia|now apply minv_step|now apply held_step|].
  exists (i :: order). exact O.
Qed.
Lemma minor_ends th es : exists order, all_ended (mevent_run th minors_start (es ++ map (fun i => MGo i true) order)).
Proof.
  destruct (finishes th _ (mevent_run th minors_start es) (le_n _)) as (order & O).
  - apply minv_run, minv_start.
  - apply held_run. intros i H. discriminate.
  - exists order. unfold mevent_run in *. rewrite fold_left_app. exact O.
Qed.

Lemma others_keep th i n : forall es s, Forall (of_others i) es -> minv th s -> nth_error (mc_calls s) i = Some (MTaken n) ->
  nth_error (mc_calls (mevent_run th s es)) i = Some (MTaken n) /\ mc_waiting (mevent_run th s es) = mc_waiting s + seals es.
Proof.
  induction es as [|e r IH]; intros s F HV E; [simpl; auto|]. inversion F as [|? ? [D G] F']; subst.
  pose proof (mv_lock _ _ HV _ _ E eq_refl) as L.
  assert (K : nth_error (mc_calls (mevent_step th s e)) i = Some (MTaken n) /\ mc_waiting (mevent_step th s e) = mc_waiting s + seals [e]).
  { assert (I : i < length (mc_calls s)) by (apply nth_error_Some; congruence).
    destruct e as [| | |j ok|j]; cbn [mevent_step].
    - cbn. rewrite nth_error_app1 by auto. split; [auto|lia].
    - cbn. rewrite nth_error_app1 by auto. split; [auto|lia].
    - cbn. split; [auto|lia].
    - assert (N : j <> i) by (intros ->; apply (G ok); reflexivity). change (seals [MGo j ok]) with 0. rewrite Nat.add_0_r.
      destruct (nth_error (mc_calls s) j) as [p|] eqn:J; auto.
      assert (HP : holds p = false) by (destruct (holds p) eqn:Y; auto; pose proof (mv_lock _ _ HV _ _ J Y); congruence).
      destruct p; try discriminate; auto. rewrite L. auto.
    - assert (N : j <> i) by (intros ->; apply D; reflexivity). change (seals [MDrop j]) with 0. rewrite Nat.add_0_r.
      destruct (nth_error (mc_calls s) j) as [p|] eqn:J; auto.
      assert (HP : holds p = false) by (destruct (holds p) eqn:Y; auto; pose proof (mv_lock _ _ HV _ _ J Y); congruence).
      destruct p; try discriminate; auto. cbn [mc_calls mc_waiting]. rewrite put_other by auto. auto. }
  destruct K as [K1 K2]. destruct (IH _ F' (minv_step th s e HV) K1) as [I1 I2]. split; [exact I1|].
  change (mevent_run th s (e :: r)) with (mevent_run th (mevent_step th s e) r). rewrite I2, K2.
  unfold seals. cbn [filter]. destruct e; cbn [length]; lia.
Qed.
Lemma sealed_stay th es i es2 :
  nth_error (mc_calls (mevent_run th minors_start es)) i = Some MEnough -> Forall (of_others i) es2 ->
  mc_waiting (mevent_run th minors_start (es ++ MGo i true :: es2 ++ [MGo i true])) = seals es2 /\
  mc_waiting (mevent_run th minors_start (es ++ MGo i true :: es2 ++ [MGo i false])) = mc_waiting (mevent_run th minors_start es) + seals es2.
Proof.
  intros E F. assert (HV : minv th (mevent_run th minors_start es)) by (apply minv_run, minv_start).
  assert (S : forall ok, mevent_run th minors_start (es ++ MGo i true :: es2 ++ [MGo i ok])
    = mevent_step th (mevent_run th (mevent_step th (mevent_run th minors_start es) (MGo i true)) es2) (MGo i ok)).
  { intros ok. unfold mevent_run. rewrite fold_left_app. cbn [fold_left]. rewrite fold_left_app. reflexivity. }
  rewrite !S. clear S. remember (mevent_run th minors_start es) as s. clear Heqs.
  assert (W : 1 <= mc_waiting s) by (apply (mv_enough _ _ HV); eapply nth_error_In; eauto).
  assert (T : nth_error (mc_calls (mevent_step th s (MGo i true))) i = Some (MTaken (mc_waiting s)) /\
              mc_waiting (mevent_step th s (MGo i true)) = mc_waiting s).
  { cbn [mevent_step]. rewrite E. destruct (mc_waiting s) as [|m]; [lia|]. cbn [mc_calls mc_waiting]. split; auto. eapply put_same; eauto. }
  destruct T as [T1 T2]. destruct (others_keep th i _ es2 _ F (minv_step th s _ HV) T1) as [K1 K2]. rewrite T2 in K2.
  remember (mevent_run th (mevent_step th s (MGo i true)) es2) as z. clear Heqz.
  cbn [mevent_step]. rewrite K1. cbn [mc_waiting]. rewrite K2. split; lia.
Qed.

(** *** Commits *)
Definition one_commit (n : N) : acall N row := ACommit n [Put (rw n n)] None.
Definition commits (n : nat) : list (acall N row) := map (fun i => one_commit (N.of_nat i)) (seq 0 n).
Lemma commits_pile_up :
  let s := acall_run row_key row_size del_size (minor_with 1 0) (start 1) (commits 6) in
  calls_ok row_key row_size del_size (minor_with 1 0) (start 1) (commits 6) /\
  length (st_hist s) = 6 /\ length (d_imm (st_db s)) = 5 /\ d_levels (st_db s) = [].
Proof. split; [cbn; repeat split|]. split; [vm_compute; reflexivity|]. split; vm_compute; reflexivity. Qed.

(** Two ingests that seal, a write and a delete, with a threshold of two and tables on level 1. *)
Definition auto_calls : list (acall N row) :=
  [AIngest [rw 1 10; rw 2 20] None true false; AIngest [rw 1 11] None true false;
   ATomb [(rw 2 0, true); (rw 3 30, false)] None true false; ACommit 2 [Put (rw 4 40)] None].
Lemma auto_ok : calls_ok row_key row_size del_size (minor_with 2 1) (start 4) auto_calls.
Proof.
  unfold auto_calls. cbn [calls_ok bare]. repeat match goal with |- _ /\ _ => split end; try exact I; try ok_ops; try (apply separate_check; reflexivity).
Qed.
Lemma auto_result :
  let s := acall_run row_key row_size del_size (minor_with 2 1) (start 4) auto_calls in
  map (fun l => map (@t_id N row) l) (d_levels (st_db s)) = [[]; [1%N]] /\ length (d_imm (st_db s)) = 1 /\
  read_all row_key (st_db s) = Some [((1, 1), rw 1 11); ((3, 2), rw 3 30); ((4, 3), rw 4 40)]%N.
Proof. split; [|split]; vm_compute; reflexivity. Qed.

Lemma auto_shown :
  calls_ok row_key row_size del_size (minor_with 2 1) (start 4) auto_calls /\
  let s := acall_run row_key row_size del_size (minor_with 2 1) (start 4) auto_calls in
  map (fun l => map (@t_id N row) l) (d_levels (st_db s)) = [[]; [1%N]] /\ length (d_imm (st_db s)) = 1 /\
  read_all row_key (st_db s) = Some [((1, 1), rw 1 11); ((3, 2), rw 3 30); ((4, 3), rw 4 40)]%N.
Proof. split; [exact auto_ok|exact auto_result]. Qed.
Lemma commits_refute :
  exists cs, calls_ok row_key row_size del_size (minor_with 1 0) (start 1) cs /\
    let s := acall_run row_key row_size del_size (minor_with 1 0) (start 1) cs in
    length (st_hist s) = 6 /\ length (d_imm (st_db s)) = 5 /\ d_levels (st_db s) = [].
Proof. exists (commits 6). exact commits_pile_up. Qed.

(** Three writes meet at the trigger; one flushes what all have sealed, the others find nothing
    to do; a fourth segment sealed meanwhile stays. *)
Definition meeting : list mevent :=
  [MSealCall; MSealCall; MSealCall; MGo 0 true; MGo 1 true; MGo 0 true; MGo 0 true; MSealCall; MGo 2 true; MGo 0 true;
   MGo 1 true; MGo 1 true; MGo 3 true; MGo 3 true; MGo 2 true; MGo 2 true].
Lemma meeting_ends :
  Forall smooth meeting /\ all_ended (mevent_run 2 minors_start meeting) /\
  mc_calls (mevent_run 2 minors_start meeting) = [MEnd MFlushed; MEnd MNothing; MEnd MNothing; MEnd MNothing] /\
  mc_waiting (mevent_run 2 minors_start meeting) = 1.
Proof.
  split; [repeat constructor|]. split; [|split; vm_compute; reflexivity].
  unfold all_ended. vm_compute. repeat constructor; eexists; reflexivity.
Qed.
Lemma commits_unbounded th n :
  let s := mevent_run th minors_start (repeat MSealCommit n) in all_ended s /\ mc_waiting s = n.
Proof.
  assert (H : forall n s, mc_calls s = [] -> mc_calls (mevent_run th s (repeat MSealCommit n)) = [] /\
              mc_waiting (mevent_run th s (repeat MSealCommit n)) = n + mc_waiting s).
  { clear n. induction n as [|n IH]; intros s E; simpl; auto. destruct (IH (mkMs (S (mc_waiting s)) (mc_lock s) (mc_calls s)) E) as [A B].
    split; auto. rewrite B. simpl. lia. }
  destruct (H n minors_start eq_refl) as [A B]. split; [unfold all_ended; now rewrite A|rewrite B; simpl; lia].
Qed.

Definition stay_events : list mevent := [MSealCall; MSealCall; MGo 0 true; MGo 0 true].
Lemma stay_fits :
  nth_error (mc_calls (mevent_run 2 minors_start stay_events)) 0 = Some MEnough /\
  Forall (of_others 0) [MSealCall; MGo 1 true; MSealCommit; MDrop 1].
Proof. split; [reflexivity|]. repeat constructor; discriminate. Qed.
