(** Row selections as sets. *)
From Coq Require Import List Arith Bool Lia Sorting.Sorted.
From Verif Require Import Model.RowSet Spec.RowSetSpec.
Import ListNotations.

(** Row [i] is selected. *)
Fixpoint picked (s : selection) (i : nat) : bool :=
  match s with
  | [] => false
  | x :: r => if i <? sel_count x then negb (sel_skip x) else picked r (i - sel_count x)
  end.

Lemma iter_in s : forall o i, In i (iter_from o s) <-> o <= i /\ picked s (i - o) = true.
Proof.
  induction s as [|[sk n] s IH]; intros o i; cbn [iter_from picked sel_count sel_skip].
  - simpl. intuition discriminate.
  - destruct (Nat.eqb_spec n 0) as [->|Hn].
    + rewrite IH. now rewrite Nat.sub_0_r.
    + assert (E : i - (o + n) = i - o - n) by lia. destruct sk.
      * rewrite IH, E. destruct (Nat.ltb_spec (i - o) n); simpl; split; intros [A B]; first [lia | discriminate | (split; [lia|assumption])].
      * rewrite in_app_iff, in_seq, IH, E. destruct (Nat.ltb_spec (i - o) n); simpl; split.
        -- intros [A|[A B]]; split; lia || reflexivity.
        -- intros [A B]. left. lia.
        -- intros [A|[A B]]; [lia|]. split; [lia|assumption].
        -- intros [A B]. right. split; [lia|assumption].
Qed.
Lemma iter_lower s o i : In i (iter_from o s) -> o <= i.
Proof. rewrite iter_in. tauto. Qed.
Lemma iter_sorted s : forall o, StronglySorted lt (iter_from o s).
Proof.
  assert (S1 : forall n a, StronglySorted lt (seq a n)).
  { induction n; intros a; simpl; constructor; auto. apply Forall_forall. intros x. rewrite in_seq. lia. }
  assert (S2 : forall l l', StronglySorted lt l -> StronglySorted lt l' -> (forall x y, In x l -> In y l' -> x < y) -> StronglySorted lt (l ++ l')).
  { induction l; intros l' H1 H2 H3; simpl; auto. inversion H1; subst. constructor.
    - apply IHl; auto. intros; apply H3; simpl; auto.
    - apply Forall_app. split; auto. apply Forall_forall. intros y Hy. apply H3; simpl; auto. }
  induction s as [|[sk n] s IH]; intros o; cbn [iter_from sel_count sel_skip]; [constructor|].
  destruct (Nat.eqb n 0); auto. destruct sk; auto. apply S2; auto.
  intros x y Hx Hy. apply in_seq in Hx. apply iter_lower in Hy. lia.
Qed.
Lemma iter_length s : forall o, length (iter_from o s) = row_count s.
Proof.
  induction s as [|[sk n] s IH]; intros o; cbn [iter_from row_count fold_right sel_count sel_skip]; auto.
  fold (row_count s). destruct (Nat.eqb_spec n 0) as [->|Hn]; [rewrite IH; destruct sk; auto|].
  destruct sk; [apply IH|]. now rewrite app_length, seq_length, IH.
Qed.
Lemma picked_bound s i : picked s i = true -> i < implied_total s.
Proof.
  revert i; induction s as [|[sk n] s IH]; intros i; cbn [picked implied_total fold_right sel_count sel_skip]; [discriminate|].
  fold (implied_total s). destruct (Nat.ltb_spec i n); [lia|]. intros H'. apply IH in H'. lia.
Qed.

Lemma walk_ok keep fuel : (keep false false = false) -> forall l r,
  length l + length r + implied_total l + implied_total r < fuel -> implied_total l = implied_total r ->
  exists s, walk keep fuel l r = Some s /\ implied_total s = implied_total l /\
    forall i, i < implied_total l -> picked s i = keep (picked l i) (picked r i).
Proof.
  intros HK. induction fuel as [|f IH]; intros l r HF HT; [lia|]. cbn [walk].
  destruct l as [|[ska na] l'].
  - exists r. split; [reflexivity|]. split; [now symmetry|]. simpl. lia.
  - cbn [sel_count sel_skip]. destruct (Nat.eqb_spec na 0) as [->|Hna].
    + destruct (IH l' r) as (s & E1 & E2 & E3).
      * cbn [length implied_total fold_right sel_count] in HF. fold (implied_total l') in HF. lia.
      * cbn [implied_total fold_right sel_count] in HT. exact HT.
      * exists s. split; [exact E1|]. cbn [implied_total fold_right sel_count]. fold (implied_total l'). split; [exact E2|].
        intros i Hi. rewrite E3 by exact Hi. cbn [picked sel_count]. rewrite Nat.sub_0_r. reflexivity.
    + destruct r as [|[skb nb] r'].
      { cbn [implied_total fold_right sel_count] in HT. simpl in HT. lia. }
      cbn [sel_count sel_skip]. destruct (Nat.eqb_spec nb 0) as [->|Hnb].
      * destruct (IH (mkSel ska na :: l') r') as (s & E1 & E2 & E3).
        -- cbn [length implied_total fold_right sel_count] in HF |- *. fold (implied_total l') (implied_total r') in *. lia.
        -- cbn [implied_total fold_right sel_count] in HT |- *. exact HT.
        -- exists s. split; [exact E1|]. split; [exact E2|]. intros i Hi. rewrite E3 by exact Hi.
           f_equal. cbn [picked sel_count]. now rewrite Nat.sub_0_r.
      * cbn [length implied_total fold_right sel_count] in HF, HT. fold (implied_total l') (implied_total r') in *.
        destruct (Nat.ltb_spec na nb) as [Hlt|Hge].
        -- destruct (IH l' (mkSel skb (nb - na) :: r')) as (s & E1 & E2 & E3).
           { cbn [length implied_total fold_right sel_count]. fold (implied_total r'). lia. }
           { cbn [implied_total fold_right sel_count]. fold (implied_total r'). lia. }
           rewrite E1. eexists. split; [reflexivity|]. cbn [implied_total fold_right sel_count]. fold (implied_total l') (implied_total s).
           split; [lia|]. intros i Hi. cbn [picked sel_count sel_skip].
           destruct (Nat.ltb_spec i na) as [H1|H1].
           ++ destruct (Nat.ltb_spec i nb); [|lia]. now rewrite negb_involutive.
           ++ rewrite E3 by lia. cbn [picked sel_count sel_skip].
              destruct (Nat.ltb_spec (i - na) (nb - na)), (Nat.ltb_spec i nb); try lia; auto.
              now replace (i - na - (nb - na)) with (i - nb) by lia.
        -- destruct (IH (mkSel ska (na - nb) :: l') r') as (s & E1 & E2 & E3).
           { cbn [length implied_total fold_right sel_count]. fold (implied_total l'). lia. }
           { cbn [implied_total fold_right sel_count]. fold (implied_total l'). lia. }
           rewrite E1. eexists. split; [reflexivity|]. cbn [implied_total fold_right sel_count] in *. fold (implied_total l') (implied_total s) in *.
           split; [lia|]. intros i Hi. cbn [picked sel_count sel_skip].
           destruct (Nat.ltb_spec i nb) as [H1|H1].
           ++ destruct (Nat.ltb_spec i na); [|lia]. now rewrite negb_involutive.
           ++ rewrite E3 by lia. cbn [picked sel_count sel_skip].
              destruct (Nat.ltb_spec (i - nb) (na - nb)), (Nat.ltb_spec i na); try lia; auto.
              now replace (i - nb - (na - nb)) with (i - na) by lia.
Qed.


Lemma iter_spec r i : rs_ok r -> (In i (rs_iter r) <-> i < rs_total r /\ picked (rs_sel r) i = true).
Proof.
  intros H. unfold rs_iter. rewrite iter_in, Nat.sub_0_r. split.
  - intros [_ P]. split; auto. apply picked_bound in P. now rewrite H in P.
  - intros [_ P]. split; auto. lia.
Qed.

Lemma combine_spec keep a b : keep false false = false -> rs_ok a -> rs_ok b ->
  let op := fun l r => walk keep (walk_fuel l r) l r in
  (rs_total a <> rs_total b -> rs_combine op a b = None) /\
  (rs_total a = rs_total b -> exists c, rs_combine op a b = Some c /\ rs_ok c /\ rs_total c = rs_total a /\
     forall i, i < rs_total a -> picked (rs_sel c) i = keep (picked (rs_sel a) i) (picked (rs_sel b) i)).
Proof.
  intros HK Ha Hb op. unfold rs_combine. split; intros HT.
  - apply Nat.eqb_neq in HT. now rewrite HT.
  - rewrite (proj2 (Nat.eqb_eq _ _) HT). unfold op.
    destruct (walk_ok keep (walk_fuel (rs_sel a) (rs_sel b)) HK (rs_sel a) (rs_sel b)) as (s & E1 & E2 & E3).
    + unfold walk_fuel. lia.
    + unfold rs_ok in *. congruence.
    + rewrite E1. eexists. split; [reflexivity|]. unfold rs_ok in *. cbn [rs_sel rs_total]. rewrite Ha in *. auto.
Qed.

Lemma c42_sets a b : rs_ok a -> rs_ok b ->
  (rs_total a <> rs_total b -> rs_intersect a b = None /\ rs_union a b = None) /\
  (rs_total a = rs_total b -> exists c d, rs_intersect a b = Some c /\ rs_union a b = Some d /\
     rs_ok c /\ rs_ok d /\ rs_total c = rs_total a /\ rs_total d = rs_total a /\
     (forall i, In i (rs_iter c) <-> In i (rs_iter a) /\ In i (rs_iter b)) /\
     (forall i, In i (rs_iter d) <-> In i (rs_iter a) \/ In i (rs_iter b))).
Proof.
  intros Ha Hb. destruct (combine_spec andb a b eq_refl Ha Hb) as [A1 A2]. destruct (combine_spec orb a b eq_refl Ha Hb) as [B1 B2].
  split; [intros H; split; [now apply A1|now apply B1]|]. intros H.
  destruct (A2 H) as (c & C1 & C2 & C3 & C4). destruct (B2 H) as (d & D1 & D2 & D3 & D4).
  exists c, d. repeat (split; [assumption|]). split; intros i; rewrite !iter_spec by assumption; rewrite ?C3, ?D3, <- ?H; split.
  - intros [L P]. rewrite C4 in P by exact L. apply andb_prop in P. tauto.
  - intros [[L P] [_ Q]]. split; auto. rewrite C4 by exact L. now rewrite P, Q.
  - intros [L P]. rewrite D4 in P by exact L. apply orb_prop in P. tauto.
  - intros [[L P]|[L P]]; (split; auto; rewrite D4 by exact L; rewrite P; auto using orb_true_r).
Qed.

Lemma c42_iter r : rs_ok r -> StronglySorted lt (rs_iter r) /\ length (rs_iter r) = rs_len r /\
  (forall i, In i (rs_iter r) -> i < rs_total r).
Proof.
  intros H. split; [apply iter_sorted|]. split; [apply iter_length|]. intros i Hi. now apply iter_spec in Hi.
Qed.
Lemma c42_make n : (exists r, rs_all n = Some r /\ rs_ok r /\ rs_total r = n /\ forall i, In i (rs_iter r) <-> i < n) /\
  (exists r, rs_none n = Some r /\ rs_ok r /\ rs_total r = n /\ rs_iter r = []) /\
  (forall s r, rs_from_selection n s = Some r <-> implied_total s = n /\ r = mkRS n s).
Proof.
  split; [|split].
  - unfold rs_all, rs_from_ranges. destruct n as [|n].
    + eexists. split; [reflexivity|]. split; [reflexivity|]. split; [reflexivity|]. simpl. intuition lia.
    + cbn [Nat.eqb from_ranges_loop rev]. rewrite Nat.sub_0_r. cbn [Nat.eqb]. rewrite Nat.eqb_refl. eexists. split; [reflexivity|].
      split; [unfold rs_ok; simpl; lia|]. split; [reflexivity|]. intros i. unfold rs_iter. rewrite iter_in.
      cbn [rs_sel picked sel_count sel_skip negb]. rewrite !Nat.sub_0_r. destruct (Nat.ltb_spec i (S n)); simpl; intuition (lia || discriminate).
  - unfold rs_none, rs_from_ranges. cbn [from_ranges_loop]. destruct n as [|n].
    + eexists. split; [reflexivity|]. repeat split.
    + cbn [Nat.eqb Nat.ltb Nat.leb]. eexists. split; [reflexivity|]. split; [unfold rs_ok; simpl; lia|]. split; reflexivity.
  - intros s r. unfold rs_from_selection. destruct (Nat.eqb_spec (implied_total s) n); split; try easy.
    + intros E. injection E as <-. auto.
    + intros [_ ->]. reflexivity.
Qed.

Lemma sorted_nodup l : StronglySorted lt l -> NoDup l.
Proof.
  induction 1 as [|a l Hs IH Hf]; constructor; auto.
  intros Hin. rewrite Forall_forall in Hf. specialize (Hf a Hin). lia.
Qed.
Lemma c42_flags r : rs_ok r ->
  (rs_full r = true <-> forall i, i < rs_total r -> In i (rs_iter r)) /\
  (rs_empty r = true <-> rs_iter r = []).
Proof.
  intros H. destruct (c42_iter r H) as (Hs & Hl & Hb). unfold rs_full, rs_empty. rewrite !Nat.eqb_eq, <- Hl.
  pose proof (sorted_nodup _ Hs) as Hd. split; split.
  - intros E i Hi.
    assert (Hinc : incl (seq 0 (rs_total r)) (rs_iter r)).
    { apply NoDup_length_incl; [exact Hd | rewrite seq_length; lia |].
      intros j Hj. apply in_seq. specialize (Hb j Hj). lia. }
    apply Hinc, in_seq. lia.
  - intros Hall.
    assert (length (seq 0 (rs_total r)) <= length (rs_iter r)).
    { apply NoDup_incl_length; [apply seq_NoDup |]. intros j Hj. apply in_seq in Hj. apply Hall. lia. }
    assert (length (rs_iter r) <= length (seq 0 (rs_total r))).
    { apply NoDup_incl_length; [exact Hd |]. intros j Hj. apply in_seq. specialize (Hb j Hj). lia. }
    rewrite seq_length in *. lia.
  - intros E. now apply length_zero_iff_nil.
  - intros ->. reflexivity.
Qed.

(** The selection handed to the reader of a file selects the rows of the set. *)
Lemma c42_reader r : rs_ok r -> forall i,
  In i (rs_iter r) <->
  match rs_to_selection r with None => i < rs_total r | Some s => In i (rs_iter (mkRS (rs_total r) s)) end.
Proof.
  intros H i. unfold rs_to_selection. destruct (rs_full r) eqn:E; [|reflexivity].
  pose proof (proj1 (proj1 (c42_flags r H)) E) as F. destruct (c42_iter r H) as (_ & _ & Hb). split; auto.
Qed.

Lemma implied_app s s' : implied_total (s ++ s') = implied_total s + implied_total s'.
Proof. unfold implied_total. induction s as [|x s IH]; simpl; lia. Qed.
Lemma picked_app s s' i : picked (s ++ s') i = if i <? implied_total s then picked s i else picked s' (i - implied_total s).
Proof.
  revert i. induction s as [|x s IH]; intros i.
  - cbn. now rewrite Nat.sub_0_r.
  - change (implied_total (x :: s)) with (sel_count x + implied_total s). cbn [picked app].
    destruct (Nat.ltb_spec i (sel_count x)).
    + destruct (Nat.ltb_spec i (sel_count x + implied_total s)); [reflexivity|lia].
    + rewrite IH. destruct (Nat.ltb_spec (i - sel_count x) (implied_total s)), (Nat.ltb_spec i (sel_count x + implied_total s)); try lia; auto.
      f_equal. lia.
Qed.
Definition inside (i : nat) (ranges : list (nat * nat)) : Prop := exists a b, In (a, b) ranges /\ a <= i < b.
Lemma inside_cons i a b r : inside i ((a, b) :: r) <-> a <= i < b \/ inside i r.
Proof.
  unfold inside. split.
  - intros (x & y & [E|E] & H); [injection E as -> ->; auto | right; eauto].
  - intros [H|(x & y & E & H)]; [exists a, b | exists x, y]; simpl; auto.
Qed.
Lemma inside_low i from r total : ranges_ok from r total -> inside i r -> from <= i.
Proof.
  revert from. induction r as [|[a b] r IH]; intros from; cbn [ranges_ok].
  - intros _ (x & y & [] & _).
  - intros (A & B & C) H. apply inside_cons in H as [H|H]; [lia|]. specialize (IH b C H). lia.
Qed.
Lemma from_ranges_spec ranges total : forall acc last,
  implied_total acc = last -> (acc = [] \/ exists t c, acc = t ++ [mkSel false c]) -> ranges_ok last ranges total ->
  exists s, from_ranges_loop acc last ranges total = Some s /\ implied_total s = total /\
    forall i, picked s i = true <-> (picked acc i = true \/ inside i ranges).
Proof.
  induction ranges as [|[a b] r IH]; intros acc last HT HS HR; cbn [from_ranges_loop].
  - cbn [ranges_ok] in HR.
    assert (N : forall i, ~ inside i []) by (intros i (x & y & [] & _)).
    destruct (Nat.eqb_spec last total) as [E|E].
    + exists acc. split; [reflexivity|]. split; [lia|]. intros i. specialize (N i). tauto.
    + destruct (Nat.ltb_spec last total); [|lia]. eexists. split; [reflexivity|].
      rewrite implied_app. split; [cbn; lia|]. intros i. specialize (N i). rewrite picked_app, HT.
      destruct (Nat.ltb_spec i last); [tauto|]. split.
      * cbn [picked sel_count sel_skip negb]. destruct (Nat.ltb (i - last) (total - last)); discriminate.
      * intros [P|P]; [|tauto]. apply picked_bound in P. lia.
  - cbn [ranges_ok] in HR. destruct HR as (R1 & R2 & R3).
    destruct (Nat.eqb_spec (b - a) 0) as [Z|Z].
    + assert (a = b) by lia. subst b.
      destruct (IH acc last HT HS) as (s & E1 & E2 & E3).
      { clear IH. destruct r as [|[x y] r]; cbn [ranges_ok] in *; [lia|]. intuition lia. }
      exists s. split; [exact E1|]. split; [exact E2|]. intros i. rewrite E3, inside_cons. intuition lia.
    + destruct (Nat.eqb_spec a last) as [->|A].
      * destruct (rev acc) as [|x t] eqn:Er.
        -- assert (acc = []) by (rewrite <- (rev_involutive acc), Er; reflexivity). subst acc. cbn in HT. subst last.
           destruct (IH [mkSel false (b - 0)] b) as (s & E1 & E2 & E3); auto.
           { cbn. lia. } { right. exists [], (b - 0). reflexivity. }
           exists s. split; [exact E1|]. split; [exact E2|]. intros i. rewrite E3, inside_cons. cbn [picked sel_count sel_skip negb].
           destruct (Nat.ltb_spec i (b - 0)); intuition (lia || discriminate).
        -- assert (Ea : acc = rev t ++ [x]) by (rewrite <- (rev_involutive acc), Er; reflexivity).
           destruct HS as [->|(t' & c & HS)]; [discriminate|].
           rewrite HS in Ea. apply app_inj_tail in Ea as [<- <-]. subst acc. rewrite implied_app in HT. cbn in HT. cbn [sel_skip sel_count].
           destruct (IH (t' ++ [mkSel false (c + (b - last))]) b) as (s & E1 & E2 & E3); auto.
           { rewrite implied_app. cbn. lia. } { right. eauto. }
           exists s. split; [exact E1|]. split; [exact E2|]. intros i. rewrite E3, inside_cons, !picked_app.
           destruct (Nat.ltb_spec i (implied_total t')); [intuition lia|].
           cbn [picked sel_count sel_skip negb].
           destruct (Nat.ltb_spec (i - implied_total t') (c + (b - last))), (Nat.ltb_spec (i - implied_total t') c); intuition (lia || discriminate).
      * destruct (Nat.ltb_spec last a); [|lia].
        destruct (IH (acc ++ [mkSel true (a - last); mkSel false (b - a)]) b) as (s & E1 & E2 & E3); auto.
        { rewrite implied_app. cbn. lia. }
        { right. exists (acc ++ [mkSel true (a - last)]), (b - a). rewrite <- app_assoc. reflexivity. }
        exists s. split; [exact E1|]. split; [exact E2|]. intros i. rewrite E3, inside_cons, picked_app, HT.
        destruct (Nat.ltb_spec i last); [intuition lia|].
        assert (P : picked acc i = true -> False) by (intros P; apply picked_bound in P; lia).
        cbn [picked sel_count sel_skip negb].
        destruct (Nat.ltb_spec (i - last) (a - last)); [intuition (lia || discriminate)|].
        destruct (Nat.ltb_spec (i - last - (a - last)) (b - a)); intuition (lia || discriminate).
Qed.
Lemma c42_ranges total ranges : ranges_ok 0 ranges total ->
  exists r, rs_from_ranges total ranges = Some r /\ rs_ok r /\ rs_total r = total /\
    forall i, In i (rs_iter r) <-> exists a b, In (a, b) ranges /\ a <= i < b.
Proof.
  intros H. destruct (from_ranges_spec ranges total [] 0 eq_refl (or_introl eq_refl) H) as (s & E1 & E2 & E3).
  unfold rs_from_ranges. rewrite E1. eexists. split; [reflexivity|]. split; [exact E2|]. split; [reflexivity|].
  intros i. unfold rs_iter. rewrite iter_in, Nat.sub_0_r, E3. cbn [picked]. fold (inside i ranges). split.
  - intros [_ [P|P]]; [discriminate|exact P].
  - intros P. split; [lia|auto].
Qed.
