(** Ranges read together are the ranges read one by one. *)
From Coq Require Import List NArith Bool Arith Lia Permutation Sorted.
From Verif Require Import Model.Caches.
Import ListNotations.
Local Open Scope N_scope.

Definition slice (file : bytes) (r : range) : bytes := firstn (N.to_nat (snd r - fst r)) (skipn (N.to_nat (fst r)) file).
Definition inside (file : bytes) (r : range) : bool := snd r <=? N.of_nat (length file).

Lemma insert_range_perm x l : Permutation (x :: l) (insert_range x l).
Proof.
  induction l as [|p l IH]; [reflexivity|]. cbn [insert_range]. destruct (_ <? _); [|reflexivity].
  etransitivity; [apply perm_swap|]. now constructor.
Qed.
Lemma sort_ranges_perm l : Permutation l (sort_ranges l).
Proof. induction l as [|x l IH]; [reflexivity|]. cbn [sort_ranges]. etransitivity; [|apply insert_range_perm]. now constructor. Qed.

Definition start_le (a b : nat * range) : Prop := fst (snd a) <= fst (snd b).
Lemma insert_range_sorted x l : StronglySorted start_le l -> StronglySorted start_le (insert_range x l).
Proof.
  induction 1 as [|p l HS IH HF]; cbn [insert_range]; [repeat constructor|].
  destruct (N.ltb_spec (fst (snd p)) (fst (snd x))) as [E|E].
  - constructor; auto. apply Forall_forall. intros y Hy. eapply Permutation_in in Hy; [|symmetry; apply insert_range_perm].
    destruct Hy as [<-|Hy]; [unfold start_le; lia|]. rewrite Forall_forall in HF. auto.
  - constructor; [now constructor|]. constructor; [exact E|]. eapply Forall_impl; [|exact HF]. unfold start_le. intros; lia.
Qed.
Lemma sort_ranges_sorted l : StronglySorted start_le (sort_ranges l).
Proof. induction l as [|x l IH]; [constructor|]. now apply insert_range_sorted. Qed.

(** *** The batches *)
Definition well (b : batch) : Prop :=
  Forall (fun x => b_start b <= fst (snd x) /\ snd (snd x) <= b_end b) (b_items b) /\
  (exists x, In x (b_items b) /\ b_end b = snd (snd x)).
Lemma add_range_well gap l : forall bs,
  StronglySorted start_le l -> Forall well bs -> Forall (fun b => Forall (fun x => b_start b <= fst (snd x)) l) bs ->
  let bs' := fold_left (add_range gap) l bs in
  Forall well bs' /\ flat_map b_items (rev bs') = flat_map b_items (rev bs) ++ l.
Proof.
  induction l as [|x l IH]; intros bs HS HW HB; cbn [fold_left]; cbn zeta.
  - rewrite app_nil_r. auto.
  - inversion HS as [|? ? HS' HF]; subst.
    assert (HN : Forall well (add_range gap bs x) /\ Forall (fun b => Forall (fun y => b_start b <= fst (snd y)) l) (add_range gap bs x) /\
                 flat_map b_items (rev (add_range gap bs x)) = flat_map b_items (rev bs) ++ [x]).
    { assert (HB' : Forall (fun b => Forall (fun y => b_start b <= fst (snd y)) l) bs).
      { eapply Forall_impl; [|exact HB]. intros b Hb. now inversion Hb. }
      assert (HNew : well (mkBatch (fst (snd x)) (snd (snd x)) [x]) /\ Forall (fun y => fst (snd x) <= fst (snd y)) l).
      { split; [|exact HF]. split; [constructor; [split; apply N.le_refl|constructor]|]. exists x. cbn [b_items b_end]. split; [now left|reflexivity]. }
      unfold add_range. destruct bs as [|b bs].
      - split; [constructor; [apply HNew|constructor]|]. split; [constructor; [apply HNew|constructor]|]. reflexivity.
      - destruct (fst (snd x) <=? _).
        + inversion HW as [|? ? [W1 W2] HW']; subst. inversion HB as [|? ? B1 B2]; subst. inversion HB' as [|? ? B3 B4]; subst.
          inversion B1 as [|? ? B5 B6]; subst. split; [|split].
          * constructor; auto. split; cbn [b_items b_start b_end].
            -- apply Forall_app. split; [|constructor; [split; [exact B5|lia]|constructor]]. eapply Forall_impl; [|exact W1]. cbv beta. intros; lia.
            -- destruct W2 as (y & Hy & E). destruct (N.max_spec (b_end b) (snd (snd x))) as [[_ ->]|[_ ->]].
               ++ exists x. split; auto. apply in_or_app. right. now left.
               ++ exists y. split; auto. apply in_or_app. now left.
          * constructor; auto.
          * cbn [rev]. rewrite !flat_map_app. cbn [flat_map b_items]. rewrite !app_nil_r. now rewrite app_assoc.
        + split; [constructor; [apply HNew|auto]|]. split; [constructor; [apply HNew|auto]|].
          cbn [rev]. rewrite !flat_map_app. cbn [flat_map b_items]. rewrite !app_nil_r. reflexivity. }
    destruct HN as (N1 & N2 & N3). destruct (IH _ HS' N1 N2) as [I1 I2]. split; auto. rewrite I2, N3, <- app_assoc. reflexivity.
Qed.
Lemma batches_well gap l : StronglySorted start_le l -> Forall well (batches gap l) /\ flat_map b_items (batches gap l) = l.
Proof.
  intros HS. unfold batches. destruct (add_range_well gap l [] HS (Forall_nil _) (Forall_nil _)) as [H1 H2].
  split; [now apply Forall_rev|exact H2].
Qed.

(** *** Reading them *)
Lemma skipn_skipn' {A} a b (l : list A) : skipn a (skipn b l) = skipn (b + a) l.
Proof. revert l. induction b as [|b IH]; intros l; auto. destruct l; [destruct a; reflexivity|]. cbn [skipn Nat.add]. apply IH. Qed.
Lemma firstn_skipn_firstn {A} a b n (l : list A) : (a + b <= n)%nat -> firstn b (skipn a (firstn n l)) = firstn b (skipn a l).
Proof.
  revert n l. induction a as [|a IH]; intros n l H.
  - cbn [skipn]. rewrite firstn_firstn. f_equal. lia.
  - destruct n as [|n]; [lia|]. destruct l as [|x l]; [reflexivity|]. cbn [firstn skipn]. apply IH. lia.
Qed.

Lemma cut_slice file b e r : b <= fst r -> fst r <= snd r -> snd r <= e -> e <= N.of_nat (length file) ->
  cut (slice file (b, e)) b r = ROk (slice file r).
Proof.
  intros H1 H2 H3 H4. unfold cut, slice. cbn [fst snd].
  destruct (N.ltb_spec (fst r) b); [lia|]. destruct (N.ltb_spec (snd r) (fst r)); [lia|]. cbn [orb].
  rewrite firstn_length, skipn_length.
  destruct (N.leb_spec (fst r - b + (snd r - fst r)) (N.of_nat (Nat.min (N.to_nat (e - b)) (length file - N.to_nat b)))) as [_|X]; [|lia].
  f_equal. rewrite firstn_skipn_firstn by lia. rewrite skipn_skipn'. f_equal. f_equal. lia.
Qed.

(** What is in the results after writing some of them. *)
Definition written (items : list (nat * range)) (file : bytes) (old new : list (option bytes)) : Prop :=
  length new = length old /\
  (forall i r, In (i, r) items -> nth_error new i = Some (Some (slice file r))) /\
  (forall i, ~ In i (map fst items) -> nth_error new i = nth_error old i).
Lemma set_result_spec v l : forall i, (i < length l)%nat -> exists l', set_result i v l = ROk l' /\ length l' = length l /\
  nth_error l' i = Some (Some v) /\ forall j, j <> i -> nth_error l' j = nth_error l j.
Proof.
  induction l as [|x l IH]; intros i H; cbn [length] in H; [lia|]. destruct i as [|i]; cbn [set_result].
  - exists (Some v :: l). repeat split; auto. intros [|j] Hj; [congruence|reflexivity].
  - destruct (IH i) as (l' & E & HL & HI & HJ); [lia|]. rewrite E. exists (x :: l'). split; auto. split; [cbn [length]; lia|].
    split; [exact HI|]. intros [|j] Hj; auto. apply HJ. congruence.
Qed.
Lemma fill_spec file b e items : forall results,
  Forall (fun x => b <= fst (snd x) /\ fst (snd x) <= snd (snd x) /\ snd (snd x) <= e) items -> e <= N.of_nat (length file) ->
  NoDup (map fst items) -> Forall (fun x => (fst x < length results)%nat) items ->
  exists new, fill (slice file (b, e)) b items results = ROk new /\ written items file results new.
Proof.
  induction items as [|[i r] items IH]; intros results HF HE HN HL; cbn [fill].
  - exists results. split; auto. repeat split; auto. intros i r [].
  - inversion HF as [|? ? (F1 & F2 & F3) HF']; subst. cbn [fst snd] in *. rewrite (cut_slice file b e r F1 F2 F3 HE).
    inversion HL as [|? ? L1 HL']; subst. cbn [fst] in L1. destruct (set_result_spec (slice file r) results i L1) as (l' & E & HLen & HI & HJ).
    rewrite E. inversion HN as [|? ? N1 N2]; subst. cbn [map fst] in *.
    destruct (IH l') as (new & EN & W1 & W2 & W3); auto.
    { eapply Forall_impl; [|exact HL']. cbv beta. intros; lia. }
    exists new. split; auto. split; [lia|]. split.
    + intros j q [Hq|Hq]; [|auto]. inversion Hq; subst. rewrite W3 by assumption. exact HI.
    + intros j Hj. cbn [map fst In] in Hj. rewrite W3 by tauto. apply HJ. intros ->. tauto.
Qed.

Lemma read_spec file bs : forall results, Forall well bs ->
  Forall (fun x => fst (snd x) <= snd (snd x)) (flat_map b_items bs) ->
  NoDup (map fst (flat_map b_items bs)) -> Forall (fun x => (fst x < length results)%nat) (flat_map b_items bs) ->
  if forallb (fun x => inside file (snd x)) (flat_map b_items bs)
  then exists new, read_batches file bs results = ROk new /\ written (flat_map b_items bs) file results new
  else read_batches file bs results = RFail.
Proof.
  induction bs as [|b bs IH]; intros results HW HV HN HL; cbn [read_batches flat_map forallb].
  - exists results. split; auto. repeat split; auto. intros i r [].
  - inversion HW as [|? ? [W1 W2] HW']; subst. cbn [flat_map] in HV, HN, HL. apply Forall_app in HV as [V1 V2]. apply Forall_app in HL as [L1 L2].
    rewrite map_app in HN.
    assert (HN1 : NoDup (map fst (b_items b))).
    { clear - HN. induction (map fst (b_items b)) as [|x l IH]; [constructor|]. cbn [app] in HN. inversion HN; subst. constructor; auto.
      intros X. apply H1. apply in_or_app. now left. }
    assert (HN2 : NoDup (map fst (flat_map b_items bs))).
    { clear - HN. induction (map fst (b_items b)) as [|x l IH]; auto. cbn [app] in HN. inversion HN; subst. auto. }
    assert (HD : forall i, In i (map fst (b_items b)) -> ~ In i (map fst (flat_map b_items bs))).
    { clear - HN. induction (map fst (b_items b)) as [|x l IH]; intros i []; cbn [app] in HN; inversion HN; subst; auto.
      intros X. apply H2. apply in_or_app. now right. }
    rewrite forallb_app. unfold get_bytes. cbn [snd].
    assert (HB : forallb (fun x => inside file (snd x)) (b_items b) = (b_end b <=? N.of_nat (length file))).
    { destruct (N.leb_spec (b_end b) (N.of_nat (length file))) as [E|E].
      - apply forallb_forall. intros x Hx. unfold inside. rewrite Forall_forall in W1. specialize (W1 x Hx). apply N.leb_le. lia.
      - destruct W2 as (x & Hx & EX). destruct (forallb _ (b_items b)) eqn:EB; auto. rewrite forallb_forall in EB.
        specialize (EB x Hx). unfold inside in EB. apply N.leb_le in EB. lia. }
    rewrite HB. destruct (N.leb_spec (b_end b) (N.of_nat (length file))) as [HE|HE]; cbn [andb]; [|reflexivity].
    change (firstn (N.to_nat (b_end b - fst (b_start b, b_end b))) (skipn (N.to_nat (fst (b_start b, b_end b))) file)) with (slice file (b_start b, b_end b)).
    destruct (fill_spec file (b_start b) (b_end b) (b_items b) results) as (new & EN & X1 & X2 & X3); auto.
    { apply Forall_forall. intros x Hx. rewrite Forall_forall in W1, V1. specialize (W1 x Hx). specialize (V1 x Hx). cbv beta in V1. lia. }
    rewrite EN. specialize (IH new HW' V2 HN2). rewrite X1 in IH. specialize (IH L2).
    destruct (forallb (fun x => inside file (snd x)) (flat_map b_items bs)); [|exact IH].
    destruct IH as (new' & E' & Y1 & Y2 & Y3). exists new'. split; auto. split; [lia|]. split.
    + intros i r Hi. apply in_app_or in Hi as [Hi|Hi]; [|auto]. rewrite Y3; [auto|]. apply HD. apply in_map_iff. exists (i, r). auto.
    + intros i Hi. rewrite map_app in Hi. rewrite Y3, X3; auto; intros X; apply Hi; apply in_or_app; auto.
Qed.

Lemma collect_some vs : collect (map Some vs) = ROk vs.
Proof. induction vs as [|v vs IH]; auto. cbn [map collect]. now rewrite IH. Qed.

Lemma combine_seq_nth {A} (l : list A) : forall k i x, In (i, x) (combine (seq k (length l)) l) <-> (k <= i)%nat /\ nth_error l (i - k) = Some x.
Proof.
  induction l as [|y l IH]; intros k i x; cbn [length seq combine In].
  - split; [intros []|]. intros [_ H]. destruct (i - k)%nat; discriminate.
  - rewrite IH. split.
    + intros [H|[H1 H2]]; [inversion H; subst; rewrite Nat.sub_diag; auto|]. split; [lia|].
      replace (i - k)%nat with (S (i - S k)) by lia. exact H2.
    + intros [H1 H2]. destruct (Nat.eq_dec i k) as [->|Hne].
      * rewrite Nat.sub_diag in H2. inversion H2. auto.
      * right. split; [lia|]. replace (i - k)%nat with (S (i - S k)) in H2 by lia. exact H2.
Qed.

Lemma nth_error_ext' {A} (l : list A) : forall m, (forall i, nth_error l i = nth_error m i) -> l = m.
Proof.
  induction l as [|x l IH]; intros [|y m] H; auto.
  - specialize (H 0%nat). discriminate.
  - specialize (H 0%nat). discriminate.
  - pose proof (H 0%nat) as H0. inversion H0. f_equal. apply IH. intros i. apply (H (S i)).
Qed.

Theorem ranges_together gap file rs : Forall (fun r => fst r <= snd r) rs ->
  get_byte_ranges gap file rs = if forallb (inside file) rs then ROk (map (slice file) rs) else RFail.
Proof.
  intros HV. destruct rs as [|r0 rs0]; [reflexivity|]. set (rs := r0 :: rs0) in *. unfold get_byte_ranges.
  change (match rs with [] => ROk [] | _ => ?x end) with x. fold rs.
  set (L := sort_ranges (combine (seq 0 (length rs)) rs)).
  assert (HP : Permutation (combine (seq 0 (length rs)) rs) L) by apply sort_ranges_perm.
  destruct (batches_well gap L (sort_ranges_sorted _)) as [HW HI].
  assert (HLen : length L = length rs).
  { rewrite <- (Permutation_length HP), combine_length, seq_length. lia. }
  assert (HIn : forall i r, In (i, r) L <-> nth_error rs i = Some r).
  { intros i r. transitivity (In (i, r) (combine (seq 0 (length rs)) rs)).
    - split; apply Permutation_in; [now symmetry|assumption].
    - rewrite combine_seq_nth, Nat.sub_0_r. split; [tauto|]. split; [lia|auto]. }
  assert (HND : NoDup (map fst L)).
  { eapply Permutation_NoDup; [apply Permutation_map; exact HP|].
    assert (E : map fst (combine (seq 0 (length rs)) rs) = seq 0 (length rs)).
    { clear. generalize 0%nat. induction rs as [|x rs IH]; intros k; auto. cbn [length seq combine map fst]. now rewrite IH. }
    rewrite E. apply seq_NoDup. }
  pose proof (read_spec file (batches gap L) (repeat None (length L)) HW) as HR. rewrite HI in HR.
  specialize (HR ltac:(apply Forall_forall; intros [i r] Hx; rewrite Forall_forall in HV; apply HV; apply HIn in Hx; eapply nth_error_In; eauto) HND).
  rewrite repeat_length in HR.
  specialize (HR ltac:(apply Forall_forall; intros [i r] Hx; rewrite HLen; apply HIn in Hx; cbn [fst]; apply nth_error_Some; congruence)).
  assert (HB : forallb (fun x => inside file (snd x)) L = forallb (inside file) rs).
  { apply eq_true_iff_eq. rewrite !forallb_forall. split.
    - intros H r Hr. apply In_nth_error in Hr as (i & Hi). apply HIn in Hi. apply (H _ Hi).
    - intros H [i r] Hx. apply H. apply HIn in Hx. eapply nth_error_In; eauto. }
  rewrite HB in HR. destruct (forallb (inside file) rs).
  - destruct HR as (new & E & W1 & W2 & W3). rewrite E. rewrite repeat_length in W1.
    assert (EN : new = map Some (map (slice file) rs)).
    { apply nth_error_ext'. intros i. destruct (nth_error rs i) as [r|] eqn:ER.
      - rewrite (W2 i r) by now apply HIn. rewrite map_map. rewrite (map_nth_error _ _ _ ER). reflexivity.
      - apply nth_error_None in ER. transitivity (@None (option bytes)); [apply nth_error_None; lia|symmetry; apply nth_error_None; rewrite !map_length; lia]. }
    rewrite EN. apply collect_some.
  - now rewrite HR.
Qed.
