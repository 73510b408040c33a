(** The compaction merge emits, in key order, the newest version of every key of its
    inputs. *)
From Coq Require Import List NArith Bool Sorted Permutation Lia Arith.
From Verif Require Import Base.Order Base.Sub Model.OMap Model.KeyTs Model.MemTable Model.Immutable
     Model.SsTable Model.Compact Spec.Mvcc Spec.KeySet Spec.Valid
     Proof.OMapFacts Proof.MemFacts Proof.ViewFacts Proof.SstFacts Proof.MergeFacts Proof.ScanFacts Proof.HistFacts.
Import ListNotations.
Local Arguments kcmp : simpl never.

Section CompactFacts.
  Context {K : Type} {KO : KeyOrd K} {R : Type}.
  Variable key_of : R -> option K.
  Notation vers := (@vers K R).
  Notation cursor := (cursor K R).
  Notation hentry := (hentry K).

  (** *** What a cursor still has to deliver *)
  Definition bdels (b : sbatch K R) : list (K * N) := match snd b with Some x => x | None => [] end.
  Definition cur_data (c : cursor) : list (R * N) := match cu_batch c with Some b => fst b | None => [] end.
  Definition cur_dels (c : cursor) : list (K * N) := match cu_batch c with Some b => bdels b | None => [] end.
  Definition cdata (c : cursor) : list (R * N) := skipn (cu_di c) (cur_data c) ++ concat (map fst (cu_rest c)).
  Definition cdels (c : cursor) : list (K * N) := skipn (cu_xi c) (cur_dels c) ++ concat (map bdels (cu_rest c)).
  Definition batches (c : cursor) : list (sbatch K R) :=
    match cu_batch c with Some b => [b] | None => [] end ++ cu_rest c.

  (** The three shapes of stream the cursor reads completely: no deletes, only deletes, or
      at most one batch. *)
  Definition clean_stream (bs : list (sbatch K R)) : Prop :=
    (forall b, In b bs -> snd b = None) \/
    (forall b, In b bs -> fst b = []) \/
    (length bs <= 1).
  Definition nonempty_batch (b : sbatch K R) : Prop := fst b <> [] \/ bdels b <> [].

  Definition live (c : cursor) : Prop :=
    match cu_batch c with
    | Some b => cu_di c < length (fst b) \/ cu_xi c < length (bdels b)
    | None => cu_di c = 0 /\ cu_xi c = 0
    end.
  Definition keyed_row (p : R * N) : Prop := key_of (fst p) <> None.
  Record wf (c : cursor) : Prop := {
    wf_clean : clean_stream (batches c);
    wf_live : live c;
    wf_rest : Forall nonempty_batch (cu_rest c);
    wf_keyed : Forall keyed_row (cdata c)
  }.
  Definition ready (c : cursor) : Prop := cu_batch c = None -> cu_rest c = [].

  Lemma ensure_spec c : wf c ->
    wf (ensure_batch c) /\ ready (ensure_batch c) /\
    cdata (ensure_batch c) = cdata c /\ cdels (ensure_batch c) = cdels c.
  Proof.
    intros [H1 H2 H3 H4]. unfold ensure_batch. destruct (cu_batch c) as [b|] eqn:E.
    - split; [constructor; auto|]. split; auto. intros H. congruence.
    - unfold live in H2. rewrite E in H2. destruct H2 as [Hd Hx].
      destruct (cu_rest c) as [|b r] eqn:ER.
      + split; [|split; [|split]].
        * constructor; simpl; auto. left; intros ? [].
          unfold live; simpl; auto. constructor.
        * intros _; reflexivity.
        * unfold cdata, cur_data. rewrite E, ER. simpl. destruct (cu_di c); reflexivity.
        * unfold cdels, cur_dels. rewrite E, ER. simpl. destruct (cu_xi c); reflexivity.
      + assert (ED : cdata c = fst b ++ concat (map fst r)).
        { unfold cdata, cur_data. rewrite E, ER. simpl. destruct (cu_di c); reflexivity. }
        split; [|split; [|split]].
        * constructor; simpl.
          -- unfold batches in *. simpl. rewrite E, ER in H1. exact H1.
          -- unfold live; simpl. inversion H3 as [|? ? [HN|HN] _]; subst; [left|right];
               (destruct (fst b) eqn:? || destruct (bdels b) eqn:?); simpl; try congruence; try lia;
               destruct (bdels b); simpl; try congruence; lia.
          -- inversion H3; auto.
          -- unfold cdata, cur_data. simpl. rewrite <- ED. exact H4.
        * intros H; discriminate.
        * unfold cdata at 1, cur_data. simpl. symmetry. exact ED.
        * unfold cdels, cur_dels. rewrite E, ER. simpl. destruct (cu_xi c); reflexivity.
  Qed.

  Lemma skipn_nth {A} (l : list A) i x r : skipn i l = x :: r -> nth_error l i = Some x /\ skipn (S i) l = r /\ i < length l.
  Proof.
    revert i. induction l as [|a l IH]; intros [|i]; simpl; try discriminate.
    - intros [= -> ->]. repeat split. lia.
    - intros H. destruct (IH i H) as (I1 & I2 & I3). repeat split; auto. lia.
  Qed.
  Lemma nth_skipn {A} (l : list A) i x : nth_error l i = Some x -> skipn i l = x :: skipn (S i) l.
  Proof. revert i. induction l as [|a l IH]; intros [|i]; simpl; try discriminate. - intros [= ->]; auto. - apply IH. Qed.

  (** A batch in memory, with the rest empty or of the same shape. *)
  Lemma data_nth_none c b : wf c -> cu_batch c = Some b -> nth_error (fst b) (cu_di c) = None -> cdata c = [].
  Proof.
    intros [H1 H2 H3 H4] E HN. unfold batches in H1. rewrite E in H1. simpl in H1.
    unfold live in H2. rewrite E in H2. apply nth_error_None in HN.
    unfold cdata, cur_data. rewrite E. rewrite skipn_all2 by auto. simpl.
    destruct H1 as [H1|[H1|H1]].
    - exfalso. specialize (H1 b (or_introl eq_refl)). unfold bdels in H2. rewrite H1 in H2. simpl in H2. lia.
    - clear - H1. assert (forall x, In x (cu_rest c) -> fst x = []) by (intros; apply H1; simpl; auto).
      induction (cu_rest c) as [|x l IH]; simpl; auto. rewrite (H x) by (left; auto). apply IH.
      + intros y [-> | Hy]; [apply H1; left; auto|apply H; right; auto].
      + intros y Hy; apply H; right; auto.
    - destruct (cu_rest c); simpl in *; auto. lia.
  Qed.
  Lemma dels_nth_none c b : wf c -> cu_batch c = Some b -> nth_error (bdels b) (cu_xi c) = None -> cdels c = [].
  Proof.
    intros [H1 H2 H3 H4] E HN. unfold batches in H1. rewrite E in H1. simpl in H1.
    unfold live in H2. rewrite E in H2. apply nth_error_None in HN.
    unfold cdels, cur_dels. rewrite E. rewrite skipn_all2 by auto. simpl.
    destruct H1 as [H1|[H1|H1]].
    - clear - H1. assert (forall x, In x (cu_rest c) -> snd x = None) by (intros; apply H1; simpl; auto).
      induction (cu_rest c) as [|x l IH]; simpl; auto. unfold bdels at 1. rewrite (H x) by (left; auto). apply IH.
      + intros y [-> | Hy]; [apply H1; left; auto|apply H; right; auto].
      + intros y Hy; apply H; right; auto.
    - exfalso. specialize (H1 b (or_introl eq_refl)). rewrite H1 in H2. simpl in H2. lia.
    - destruct (cu_rest c); simpl in *; auto. lia.
  Qed.

  Lemma data_head c p l : wf c -> ready c -> cdata c = p :: l ->
    exists b, cu_batch c = Some b /\ nth_error (fst b) (cu_di c) = Some p /\
              l = skipn (S (cu_di c)) (fst b) ++ concat (map fst (cu_rest c)).
  Proof.
    intros HW HR E. destruct (cu_batch c) as [b|] eqn:EB.
    2:{ specialize (HR EB). unfold cdata, cur_data in E. rewrite EB, HR in E. destruct (cu_di c); discriminate. }
    exists b. split; auto. destruct (nth_error (fst b) (cu_di c)) as [q|] eqn:EN.
    - unfold cdata, cur_data in E. rewrite EB in E. rewrite (nth_skipn _ _ _ EN) in E. simpl in E. inversion E; auto.
    - rewrite (data_nth_none c b HW EB EN) in E. discriminate.
  Qed.
  Lemma dels_head c p l : wf c -> ready c -> cdels c = p :: l ->
    exists b, cu_batch c = Some b /\ nth_error (bdels b) (cu_xi c) = Some p /\
              l = skipn (S (cu_xi c)) (bdels b) ++ concat (map bdels (cu_rest c)).
  Proof.
    intros HW HR E. destruct (cu_batch c) as [b|] eqn:EB.
    2:{ specialize (HR EB). unfold cdels, cur_dels in E. rewrite EB, HR in E. destruct (cu_xi c); discriminate. }
    exists b. split; auto. destruct (nth_error (bdels b) (cu_xi c)) as [q|] eqn:EN.
    - unfold cdels, cur_dels in E. rewrite EB in E. rewrite (nth_skipn _ _ _ EN) in E. simpl in E. inversion E; auto.
    - rewrite (dels_nth_none c b HW EB EN) in E. discriminate.
  Qed.

  (** *** Advancing *)
  Lemma advance_data c p l : wf c -> ready c -> cdata c = p :: l ->
    let c' := advance KData c in
    wf c' /\ cdata c' = l /\ cdels c' = cdels c /\
    (cdels c = [] \/ (cu_batch c' = cu_batch c /\ cu_xi c' = cu_xi c)).
  Proof.
    intros HW HR E c'. destruct (data_head c p l HW HR E) as (b & EB & EN & El).
    destruct HW as [H1 H2 H3 H4]. unfold c', advance. rewrite EB. destruct b as [d x]. cbn [fst] in *.
    assert (Ex : match x with Some d0 => length d0 <=? cu_xi c | None => true end = (length (bdels (d, x)) <=? cu_xi c)).
    { unfold bdels; simpl. destruct x; auto. }
    rewrite Ex. rewrite E in H4.
    destruct ((length d <=? S (cu_di c)) && (length (bdels (d, x)) <=? cu_xi c)) eqn:ED.
    - apply andb_true_iff in ED as [D1 D2]. apply Nat.leb_le in D1, D2.
      assert (El' : l = concat (map fst (cu_rest c))).
      { rewrite El, skipn_all2 by auto. reflexivity. }
      assert (Edel : cdels c = concat (map bdels (cu_rest c))).
      { unfold cdels, cur_dels. rewrite EB, skipn_all2 by auto. reflexivity. }
      split; [|split; [|split]].
      + constructor; simpl; auto.
        * unfold batches in *. rewrite EB in H1. simpl in *. destruct H1 as [H|[H|H]]; [left; intros; apply H; simpl; auto|right; left; intros; apply H; simpl; auto|right; right; simpl in *; lia].
        * unfold live; simpl; auto.
        * unfold cdata, cur_data; simpl. rewrite <- El'. inversion H4; auto.
      + unfold cdata, cur_data; simpl. now rewrite El'.
      + rewrite Edel. reflexivity.
      + left. rewrite Edel. unfold batches in H1. rewrite EB in H1. simpl in H1.
        destruct H1 as [H|[H|H]].
        * assert (HX : forall y, In y (cu_rest c) -> bdels y = []) by (intros y Hy; unfold bdels; rewrite H by (simpl; auto); reflexivity).
          clear - HX. induction (cu_rest c) as [|y r IH]; simpl; auto. rewrite HX by (left; auto). apply IH. intros; apply HX; right; auto.
        * specialize (H (d, x) (or_introl eq_refl)). simpl in H. subst d. destruct (cu_di c); discriminate.
        * destruct (cu_rest c); simpl in *; auto. lia.
    - split; [|split; [|split]].
      + constructor; simpl; auto.
        * unfold batches in *. rewrite EB in H1. exact H1.
        * unfold live; simpl. apply andb_false_iff in ED as [D|D]; apply Nat.leb_gt in D; auto.
        * unfold cdata, cur_data; cbn [cu_batch cu_di cu_rest fst]. rewrite <- El. inversion H4; auto.
      + unfold cdata, cur_data; cbn [cu_batch cu_di cu_rest fst]. auto.
      + unfold cdels, cur_dels. simpl. rewrite EB. reflexivity.
      + right. auto.
  Qed.

  Lemma advance_dels c p l : wf c -> ready c -> cdels c = p :: l ->
    let c' := advance KDelete c in
    wf c' /\ cdels c' = l /\ cdata c' = cdata c /\
    (cdata c = [] \/ (cu_batch c' = cu_batch c /\ cu_di c' = cu_di c)).
  Proof.
    intros HW HR E c'. destruct (dels_head c p l HW HR E) as (b & EB & EN & El).
    destruct HW as [H1 H2 H3 H4]. unfold c', advance. rewrite EB. destruct b as [d x]. cbn [fst] in *.
    assert (Ex : match x with Some d0 => length d0 <=? S (cu_xi c) | None => true end = (length (bdels (d, x)) <=? S (cu_xi c))).
    { unfold bdels; simpl. destruct x; auto. }
    rewrite Ex.
    destruct ((length d <=? cu_di c) && (length (bdels (d, x)) <=? S (cu_xi c))) eqn:ED.
    - apply andb_true_iff in ED as [D1 D2]. apply Nat.leb_le in D1, D2.
      assert (El' : l = concat (map bdels (cu_rest c))).
      { rewrite El, skipn_all2 by auto. reflexivity. }
      assert (Edat : cdata c = concat (map fst (cu_rest c))).
      { unfold cdata, cur_data. rewrite EB, skipn_all2 by auto. reflexivity. }
      split; [|split; [|split]].
      + constructor; simpl; auto.
        * unfold batches in *. rewrite EB in H1. simpl in *. destruct H1 as [H|[H|H]]; [left; intros; apply H; simpl; auto|right; left; intros; apply H; simpl; auto|right; right; simpl in *; lia].
        * unfold live; simpl; auto.
        * unfold cdata, cur_data; simpl. rewrite <- Edat. auto.
      + unfold cdels, cur_dels; simpl. now rewrite El'.
      + rewrite Edat. reflexivity.
      + left. rewrite Edat. unfold batches in H1. rewrite EB in H1. simpl in H1.
        destruct H1 as [H|[H|H]].
        * specialize (H (d, x) (or_introl eq_refl)). simpl in H. subst x. unfold bdels in EN. simpl in EN. destruct (cu_xi c); discriminate.
        * assert (HX : forall y, In y (cu_rest c) -> fst y = []) by (intros y Hy; apply H; simpl; auto).
          clear - HX. induction (cu_rest c) as [|y r IH]; simpl; auto. rewrite HX by (left; auto). apply IH. intros; apply HX; right; auto.
        * destruct (cu_rest c); simpl in *; auto. lia.
    - split; [|split; [|split]].
      + constructor; simpl; auto.
        * unfold batches in *. rewrite EB in H1. exact H1.
        * unfold live; simpl. apply andb_false_iff in ED as [D|D]; apply Nat.leb_gt in D; auto.
        * unfold cdata, cur_data in *; cbn [cu_batch cu_di cu_rest fst]. rewrite EB in H4. exact H4.
      + unfold cdels, cur_dels; cbn [cu_batch cu_xi cu_rest]. auto.
      + unfold cdata, cur_data. simpl. rewrite EB. reflexivity.
      + right. auto.
  Qed.

  (** *** Uniform view over the two kinds *)
  Definition okd (kd : kind) : kind := match kd with KData => KDelete | KDelete => KData end.
  Definition dver (p : R * N) : list vers :=
    match key_of (fst p) with Some k => [((k, snd p), Some (fst p))] | None => [] end.
  Definition xver (p : K * N) : vers := (p, None).
  Definition vrem (kd : kind) (c : cursor) : list vers :=
    match kd with KData => flat_map dver (cdata c) | KDelete => map xver (cdels c) end.
  Definition idx (kd : kind) (c : cursor) : nat := match kd with KData => cu_di c | KDelete => cu_xi c end.
  Definition ent (i : nat) (kd : kind) (c : cursor) : list hentry :=
    match vrem kd c with
    | [] => []
    | v :: _ => [mkHE (vkey v) (vts v) (idx kd c) kd i (idx kd c)]
    end.
  Fixpoint dropw (skip : option K) (l : list vers) : list vers :=
    match l with
    | [] => []
    | v :: r => if skips skip (vkey v) then dropw skip r else l
    end.

  Lemma vrem_data_cons c v l : Forall keyed_row (cdata c) -> vrem KData c = v :: l ->
    exists p q, cdata c = p :: q /\ dver p = [v] /\ flat_map dver q = l.
  Proof.
    intros HK E. simpl in E. destruct (cdata c) as [|p q]; [discriminate|].
    inversion HK as [|? ? Hp Hq]; subst. simpl in E. unfold dver in E at 1. unfold keyed_row in Hp.
    exists p, q. unfold dver at 1. destruct (key_of (fst p)); [|congruence]. simpl in E. inversion E; auto.
  Qed.

  (** The head of a ready cursor is in its current batch. *)
  Definition batch_at (kd : kind) (c : cursor) (i : nat) (v : vers) : Prop :=
    match cu_batch c with
    | Some b => match kd with
                | KData => exists p, nth_error (fst b) i = Some p /\ dver p = [v]
                | KDelete => exists p, nth_error (bdels b) i = Some p /\ xver p = v
                end
    | None => False
    end.
  Lemma head_at kd c v l : wf c -> ready c -> vrem kd c = v :: l -> batch_at kd c (idx kd c) v.
  Proof.
    intros HW HR E. destruct kd.
    - destruct (vrem_data_cons c v l (wf_keyed _ HW) E) as (p & q & E1 & E2 & E3).
      destruct (data_head c p q HW HR E1) as (b & EB & EN & _). unfold batch_at. rewrite EB. eauto.
    - simpl in E. destruct (cdels c) as [|p q] eqn:EX; [discriminate|].
      destruct (dels_head c p q HW HR EX) as (b & EB & EN & _). unfold batch_at. rewrite EB. simpl in E.
      inversion E; subst. eauto.
  Qed.

  Lemma advance_spec kd c v l : wf c -> ready c -> vrem kd c = v :: l ->
    let c' := advance kd c in
    wf c' /\ vrem kd c' = l /\ vrem (okd kd) c' = vrem (okd kd) c /\
    (vrem (okd kd) c = [] \/ (cu_batch c' = cu_batch c /\ idx (okd kd) c' = idx (okd kd) c)).
  Proof.
    intros HW HR E c'. destruct kd.
    - destruct (vrem_data_cons c v l (wf_keyed _ HW) E) as (p & q & E1 & E2 & E3).
      destruct (advance_data c p q HW HR E1) as (A1 & A2 & A3 & A4). fold c' in A1, A2, A3, A4.
      simpl. rewrite A2, A3, E3. repeat split; auto; try apply A1.
      destruct A4 as [A4|A4]; auto. left. rewrite A4. reflexivity.
    - simpl in E. destruct (cdels c) as [|p q] eqn:EX; [discriminate|].
      destruct (advance_dels c p q HW HR EX) as (A1 & A2 & A3 & A4). fold c' in A1, A2, A3, A4.
      simpl. rewrite A2, A3. simpl in E. inversion E; subst. repeat split; auto; try apply A1.
      destruct A4 as [A4|A4]; auto. left. rewrite A4. reflexivity.
  Qed.

  Lemma vrem_keyed_len c : Forall keyed_row (cdata c) -> length (vrem KData c) = length (cdata c).
  Proof.
    intros H. simpl. induction H as [|p q Hp _ IH]; simpl; auto. rewrite app_length, IH.
    unfold dver, keyed_row in *. destruct (key_of (fst p)); [reflexivity|congruence].
  Qed.

  Lemma enqueue_spec kd skip i : forall fuel c heap,
    wf c -> length (vrem kd c) < fuel ->
    exists c', enqueue key_of fuel i kd skip c heap = Some (c', heap ++ ent i kd c') /\
      wf c' /\ ready c' /\ vrem kd c' = dropw skip (vrem kd c) /\ vrem (okd kd) c' = vrem (okd kd) c /\
      (vrem (okd kd) c = [] \/ cu_batch c = None \/ idx (okd kd) c' = idx (okd kd) c).
  Proof.
    induction fuel as [|fuel IH]; intros c heap HW HL; [lia|].
    cbn [enqueue]. destruct (ensure_spec c HW) as (W1 & R1 & D1 & X1).
    set (c1 := ensure_batch c) in *.
    assert (EV : forall k, vrem k c1 = vrem k c) by (intros []; simpl; congruence).
    assert (EI : cu_batch c = None \/ (cu_batch c1 = cu_batch c /\ forall k, idx k c1 = idx k c)).
    { unfold c1, ensure_batch. destruct (cu_batch c) eqn:EB; auto. }
    destruct (vrem kd c1) as [|v l] eqn:EVR.
    - assert (EE : ent i kd c1 = []) by (unfold ent; now rewrite EVR).
      assert (HRes : (match cu_batch c1 with
                      | None => Some (c1, heap)
                      | Some (data, del) =>
                          match kd with
                          | KData => match nth_error data (cu_di c1) with
                                     | None => Some (c1, heap)
                                     | Some (r, t) => match key_of r with
                                        | None => None
                                        | Some k => if skips skip k then enqueue key_of fuel i kd skip (advance kd c1) heap
                                                    else Some (c1, heap ++ [mkHE k t (cu_di c1) KData i (cu_di c1)]) end end
                          | KDelete => match del with
                                       | None => Some (c1, heap)
                                       | Some d => match nth_error d (cu_xi c1) with
                                          | None => Some (c1, heap)
                                          | Some (k, t) => if skips skip k then enqueue key_of fuel i kd skip (advance kd c1) heap
                                                           else Some (c1, heap ++ [mkHE k t (cu_xi c1) KDelete i (cu_xi c1)]) end end
                          end
                      end) = Some (c1, heap)).
      { destruct (cu_batch c1) as [[data del]|] eqn:EB; auto. destruct kd.
        - destruct (nth_error data (cu_di c1)) as [[r t]|] eqn:EN; auto. exfalso.
          simpl in EVR. pose proof (vrem_keyed_len c1 (wf_keyed _ W1)) as HLen. simpl in HLen. rewrite EVR in HLen. simpl in HLen.
          unfold cdata, cur_data in HLen. rewrite EB in HLen. cbn [fst] in HLen.
          rewrite (nth_skipn _ _ _ EN) in HLen. discriminate.
        - destruct del as [d|]; auto. destruct (nth_error d (cu_xi c1)) as [[k t]|] eqn:EN; auto. exfalso.
          simpl in EVR. apply map_eq_nil in EVR. unfold cdels, cur_dels in EVR. rewrite EB in EVR. unfold bdels at 1 in EVR. cbn [snd] in EVR.
          rewrite (nth_skipn _ _ _ EN) in EVR. discriminate. }
      exists c1. rewrite EE, app_nil_r. rewrite <- (EV kd), EVR. simpl dropw.
      split; [exact HRes|]. repeat split; auto; try apply W1.
      destruct EI as [EI|[_ EI]]; auto.
    - pose proof (head_at kd c1 v l W1 R1 EVR) as HA. unfold batch_at in HA.
      destruct (cu_batch c1) as [[data del]|] eqn:EB; [|contradiction].
      destruct (advance_spec kd c1 v l W1 R1 EVR) as (A1 & A2 & A3 & A4).
      assert (HC : (if skips skip (vkey v) then enqueue key_of fuel i kd skip (advance kd c1) heap
                    else Some (c1, heap ++ ent i kd c1)) =
                   match kd with
                          | KData => match nth_error data (cu_di c1) with
                                     | None => Some (c1, heap)
                                     | Some (r, t) => match key_of r with
                                        | None => None
                                        | Some k => if skips skip k then enqueue key_of fuel i kd skip (advance kd c1) heap
                                                    else Some (c1, heap ++ [mkHE k t (cu_di c1) KData i (cu_di c1)]) end end
                          | KDelete => match del with
                                       | None => Some (c1, heap)
                                       | Some d => match nth_error d (cu_xi c1) with
                                          | None => Some (c1, heap)
                                          | Some (k, t) => if skips skip k then enqueue key_of fuel i kd skip (advance kd c1) heap
                                                           else Some (c1, heap ++ [mkHE k t (cu_xi c1) KDelete i (cu_xi c1)]) end end
                          end).
      { destruct kd.
        - destruct HA as ([r t] & H1 & H2). cbn [fst idx] in H1. rewrite H1. unfold dver in H2. simpl in H2.
          destruct (key_of r) as [k|]; [|discriminate]. inversion H2; subst v.
          unfold ent. rewrite EVR. reflexivity.
        - destruct HA as ([k t] & H1 & H2). unfold bdels in H1. cbn [snd idx] in H1. destruct del as [d|]; [|destruct (cu_xi c1); discriminate].
          rewrite H1. unfold xver in H2. subst v. unfold ent. rewrite EVR. reflexivity. }
      rewrite <- HC. rewrite <- (EV kd), EVR. cbn [dropw].
      assert (EO : vrem (okd kd) c = [] \/ cu_batch c = None \/ idx (okd kd) c1 = idx (okd kd) c).
      { destruct EI as [EI|[_ EI]]; auto. }
      destruct (skips skip (vkey v)) eqn:ES.
      + destruct (IH (advance kd c1) heap A1) as (c' & I1 & I2 & I3 & I4 & I5 & I6).
        { rewrite A2. rewrite <- (EV kd), EVR in HL. simpl in HL. lia. }
        exists c'. split; auto. split; auto. split; auto. rewrite A2 in I4. split; auto.
        rewrite I5, A3, EV. split; auto.
        destruct EO as [EO|[EO|EO]]; auto.
        destruct A4 as [A4|[A4 A5]]; [left; rewrite <- EV; exact A4|].
        destruct I6 as [I6|[I6|I6]].
        * left. rewrite <- EV, <- A3. exact I6.
        * congruence.
        * right; right. congruence.
      + exists c1. auto 10.
  Qed.

  (** One candidate of a group: advance its cursor and refill the heap. *)
  Lemma step_spec kd k i fuel c heap v l :
    wf c -> ready c -> vrem kd c = v :: l -> length (vrem kd c) <= fuel ->
    exists c', enqueue key_of fuel i kd (Some k) (advance kd c) heap = Some (c', heap ++ ent i kd c') /\
      wf c' /\ ready c' /\ vrem kd c' = dropw (Some k) l /\ vrem (okd kd) c' = vrem (okd kd) c /\
      (forall j, ent j (okd kd) c' = ent j (okd kd) c).
  Proof.
    intros HW HR E HL. destruct (advance_spec kd c v l HW HR E) as (A1 & A2 & A3 & A4).
    pose proof (head_at kd c v l HW HR E) as HA.
    destruct (enqueue_spec kd (Some k) i fuel (advance kd c) heap A1) as (c' & I1 & I2 & I3 & I4 & I5 & I6).
    { rewrite A2. rewrite E in HL. simpl in HL. lia. }
    exists c'. rewrite A2 in I4. split; auto. split; auto. split; auto. split; auto.
    assert (EV : vrem (okd kd) c' = vrem (okd kd) c) by congruence. split; auto.
    intros j. unfold ent. rewrite EV. destruct (vrem (okd kd) c) as [|w r] eqn:EW; auto.
    destruct A4 as [A4|[A4 A5]]; [discriminate|].
    destruct I6 as [I6|[I6|I6]].
    - rewrite A3 in I6. discriminate.
    - unfold batch_at in HA. rewrite A4 in I6. rewrite I6 in HA. contradiction.
    - rewrite I6, A5. reflexivity.
  Qed.

  (** *** The heap *)
  Definition wle (e m : hentry) : Prop :=
    kcmp (h_key m) (h_key e) = Lt \/ (kcmp (h_key m) (h_key e) = Eq /\ (h_ts e <= h_ts m)%N).
  Lemma wle_refl e : wle e e.
  Proof. right. split; [apply kcmp_refl|lia]. Qed.
  Lemma wle_trans a b c : wle a b -> wle b c -> wle a c.
  Proof.
    unfold wle. intros [H1|[H1 H2]] [H3|[H3 H4]].
    - left; korder. - left; korder. - left; korder. - right. split; [korder|lia].
  Qed.
  Lemma h_cmp_gt x e : h_cmp x e = Gt -> wle e x.
  Proof.
    unfold h_cmp, wle. destruct (kcmp (h_key x) (h_key e)) eqn:E; intros H; auto; try discriminate.
    right. split; auto. destruct (N.compare (h_ts x) (h_ts e)) eqn:F; try discriminate.
    - apply N.compare_eq in F. lia.
    - apply N.compare_gt_iff in F. lia.
  Qed.
  Lemma h_cmp_ngt x e : h_cmp x e <> Gt -> wle x e.
  Proof.
    unfold h_cmp, wle. destruct (kcmp (h_key x) (h_key e)) eqn:E; intros H; try congruence.
    - right. split; [korder|]. destruct (N.compare (h_ts x) (h_ts e)) eqn:F; unfold N.le; rewrite F; congruence.
    - left. now apply kcmp_gt_lt.
  Qed.
  Lemma heap_max_spec l : forall x, In (heap_max x l) (x :: l) /\ forall e, In e (x :: l) -> wle e (heap_max x l).
  Proof.
    induction l as [|y l IH]; intros x; simpl.
    - split; auto. intros e [<-|[]]. apply wle_refl.
    - set (z := match h_cmp y x with Gt => y | _ => x end).
      assert (Hz : (z = x \/ z = y) /\ wle x z /\ wle y z).
      { unfold z. destruct (h_cmp y x) eqn:E.
        - repeat split; auto using wle_refl. apply h_cmp_ngt. congruence.
        - repeat split; auto using wle_refl. apply h_cmp_ngt. congruence.
        - repeat split; auto using wle_refl. now apply h_cmp_gt. }
      destruct (IH z) as [I1 I2]. destruct Hz as (Hz1 & Hz2 & Hz3). split.
      + destruct I1 as [I1|I1]; auto. rewrite <- I1. destruct Hz1 as [-> | ->]; auto.
      + intros e [<-|[<-|He]].
        * eapply wle_trans; eauto. apply I2. left; auto.
        * eapply wle_trans; eauto. apply I2. left; auto.
        * apply I2. right; auto.
  Qed.

  Lemma filter_le {A} (f : A -> bool) l : length (filter f l) <= length l.
  Proof. induction l as [|x l IH]; simpl; auto. destruct (f x); simpl; lia. Qed.

  (** At most one entry per source and kind. *)
  Definition slot_unique (h : list hentry) : Prop :=
    forall e e', In e h -> In e' h -> same_slot e e' = true -> e = e'.
  Lemma same_slot_refl (e : hentry) : same_slot e e = true.
  Proof. unfold same_slot. rewrite Nat.eqb_refl. destruct (h_kind e); reflexivity. Qed.
  Lemma same_slot_iff (a b : hentry) : same_slot a b = true <-> h_src a = h_src b /\ h_kind a = h_kind b.
  Proof.
    unfold same_slot. rewrite andb_true_iff, Nat.eqb_eq. destruct (h_kind a), (h_kind b); simpl; intuition congruence.
  Qed.

  Lemma heap_pop_spec h : slot_unique h ->
    match heap_pop h with
    | None => h = []
    | Some (m, h') => In m h /\ (forall e, In e h -> wle e m) /\ (forall e, In e h' <-> In e h /\ same_slot e m = false)
                      /\ length h' < length h /\ slot_unique h'
    end.
  Proof.
    intros HU. destruct h as [|x r]; [reflexivity|]. unfold heap_pop. cbv zeta.
    destruct (heap_max_spec r x) as [H1 H2]. set (m := heap_max x r) in *.
    assert (HF : forall e, In e (filter (fun e => negb (same_slot e m)) (x :: r)) <-> In e (x :: r) /\ same_slot e m = false).
    { intros e. rewrite filter_In, negb_true_iff. tauto. }
    split; auto. split; auto. split; [exact HF|]. split.
    - assert (HL : forall l, In m l -> length (filter (fun e => negb (same_slot e m)) l) < length l).
      { clear. induction l as [|y l IH]; [contradiction|]. intros [->|Hm].
        - simpl. rewrite same_slot_refl. simpl. pose proof (filter_le (fun e => negb (same_slot e m)) l). lia.
        - simpl. specialize (IH Hm). destruct (negb (same_slot y m)); simpl; lia. }
      apply (HL (x :: r) H1).
    - intros e e' He He'. apply HU; apply HF; auto.
  Qed.

  Lemma pop_group_spec k : forall fuel h, slot_unique h -> length h <= fuel ->
    (forall e, In e h -> kcmp k (h_key e) <> Gt) ->
    let '(g, h') := pop_group fuel k h in
    (forall e, In e h <-> In e g \/ In e h') /\
    (forall e, In e g -> kcmp (h_key e) k = Eq) /\
    (forall e, In e h' -> kcmp k (h_key e) = Lt) /\
    ForallOrdPairs (fun a b => same_slot a b = false) g /\
    (forall a b, In a g -> In b h' -> same_slot a b = false) /\ slot_unique h'.
  Proof.
    induction fuel as [|fuel IH]; intros h HU HL HK.
    - destruct h; [|simpl in HL; lia]. simpl. repeat split; try tauto; try constructor; try contradiction.
    - cbn [pop_group]. pose proof (heap_pop_spec h HU) as HP. destruct (heap_pop h) as [[m h']|].
      + destruct HP as (P1 & P2 & P3 & P4 & P5). destruct (keqb (h_key m) k) eqn:EK.
        * specialize (IH h' P5 ltac:(lia)). destruct (pop_group fuel k h') as [g h''].
          destruct IH as (I1 & I2 & I3 & I4 & I5 & I6).
          { intros e He. apply HK. apply P3 in He. apply He. }
          split; [|split; [|split; [|split; [|split]]]]; auto.
          -- intros e. split.
             ++ intros He. destruct (same_slot e m) eqn:ES.
                ** left. left. symmetry. apply HU; auto.
                ** assert (In e h') as He' by (apply P3; auto). apply I1 in He'. simpl. tauto.
             ++ intros [[<-|He]|He]; auto; apply P3; apply I1; auto.
          -- intros e [<-|He]; auto. now apply keqb_true.
          -- constructor; auto. apply Forall_forall. intros e He.
             assert (In e h') as He' by (apply I1; auto). apply P3 in He' as [_ He'].
             destruct (same_slot m e) eqn:ES; auto. apply same_slot_iff in ES.
             assert (same_slot e m = true) by (apply same_slot_iff; intuition). congruence.
          -- intros a b [<-|Ha] Hb; auto. assert (In b h') as Hb' by (apply I1; auto). apply P3 in Hb' as [_ Hb'].
             destruct (same_slot m b) eqn:ES; auto. apply same_slot_iff in ES.
             assert (same_slot b m = true) by (apply same_slot_iff; intuition). congruence.
        * repeat split; try tauto; try constructor; try contradiction; auto.
          -- intros [[]|]; auto.
          -- intros e He. specialize (P2 e He). specialize (HK m P1). apply keqb_false in EK. unfold wle in P2.
             destruct (kcmp k (h_key m)) eqn:F; try congruence.
             ++ exfalso. apply EK. korder.
             ++ destruct P2 as [P2|[P2 _]]; korder.
      + subst h. repeat split; try tauto; try constructor; try contradiction.
  Qed.

  (** *** Cursor lists *)
  Definition entry (cs : list cursor) (i : nat) (kd : kind) : list hentry :=
    match nth_error cs i with Some c => ent i kd c | None => [] end.
  Definition rem (cs : list cursor) (i : nat) (kd : kind) : list vers :=
    match nth_error cs i with Some c => vrem kd c | None => [] end.
  Definition cs_ok (efuel : nat) (cs : list cursor) : Prop :=
    Forall (fun c => wf c /\ ready c /\ forall kd, length (vrem kd c) <= efuel) cs.

  Lemma set_nth_same {A} n (a : A) l : n < length l -> nth_error (set_nth n a l) n = Some a.
  Proof. revert n. induction l as [|x l IH]; intros [|n] H; simpl in *; try lia; auto. apply IH. lia. Qed.
  Lemma set_nth_other {A} n m (a : A) l : n <> m -> nth_error (set_nth n a l) m = nth_error l m.
  Proof. revert n m. induction l as [|x l IH]; intros [|n] [|m] H; simpl; auto; try congruence. Qed.
  Lemma set_nth_length {A} n (a : A) l : length (set_nth n a l) = length l.
  Proof. revert n. induction l as [|x l IH]; intros [|n]; simpl; auto. Qed.
  Lemma set_nth_Forall {A} (P : A -> Prop) n a l : Forall P l -> P a -> Forall P (set_nth n a l).
  Proof. intros H Ha. revert n. induction H; intros [|n]; simpl; auto. Qed.

  Lemma entry_slot cs i kd e : In e (entry cs i kd) -> h_src e = i /\ h_kind e = kd.
  Proof.
    unfold entry, ent. destruct (nth_error cs i); [|contradiction]. destruct (vrem kd c); [contradiction|].
    intros [<-|[]]; auto.
  Qed.
  Lemma entry_unique cs i kd e e' : In e (entry cs i kd) -> In e' (entry cs i kd) -> e = e'.
  Proof.
    unfold entry, ent. destruct (nth_error cs i); [|contradiction]. destruct (vrem kd c); [contradiction|].
    intros [<-|[]] [<-|[]]; auto.
  Qed.

  Lemma dropw_length skip l : length (dropw skip l) <= length l.
  Proof. induction l; simpl; auto. destruct (skips _ _); simpl; lia. Qed.

  Lemma refill_spec k efuel : forall g cs heap,
    cs_ok efuel cs ->
    (forall e, In e heap <-> exists i kd, In e (entry cs i kd) /\ forall x, In x g -> ~ (h_src x = i /\ h_kind x = kd)) ->
    (forall x, In x g -> In x (entry cs (h_src x) (h_kind x))) ->
    ForallOrdPairs (fun a b => same_slot a b = false) g ->
    exists cs' heap', refill key_of efuel g k cs heap = Some (cs', heap') /\
      cs_ok efuel cs' /\ length cs' = length cs /\
      (forall e, In e heap' <-> exists i kd, In e (entry cs' i kd)) /\
      (forall i kd, (exists x, In x g /\ h_src x = i /\ h_kind x = kd /\ rem cs' i kd = dropw (Some k) (tl (rem cs i kd)))
                    \/ ((forall x, In x g -> ~ (h_src x = i /\ h_kind x = kd)) /\ rem cs' i kd = rem cs i kd
                        /\ entry cs' i kd = entry cs i kd)).
  Proof.
    induction g as [|x g IH]; intros cs heap HC HH HE HP.
    - exists cs, heap. simpl. split; auto. split; auto. split; auto. split.
      + intros e. rewrite HH. split; intros (i & kd & H); exists i, kd; [apply H|]. split; auto.
      + intros i kd. right. auto.
    - cbn [refill]. pose proof (HE x (or_introl eq_refl)) as Hx. unfold entry in Hx.
      destruct (nth_error cs (h_src x)) as [c|] eqn:EC; [|contradiction].
      pose proof HC as HC'. unfold cs_ok in HC'. rewrite Forall_forall in HC'.
      destruct (HC' c (nth_error_In _ _ EC)) as (Hwf & Hrd & Hlen).
      destruct (vrem (h_kind x) c) as [|v l] eqn:EV; [unfold ent in Hx; rewrite EV in Hx; contradiction|].
      destruct (step_spec (h_kind x) k (h_src x) efuel c heap v l Hwf Hrd EV (Hlen _)) as (c' & S1 & S2 & S3 & S4 & S5 & S6).
      rewrite S1. set (cs1 := set_nth (h_src x) c' cs).
      assert (HLT : h_src x < length cs) by (apply nth_error_Some; congruence).
      assert (E1 : nth_error cs1 (h_src x) = Some c') by (apply set_nth_same; auto).
      assert (E2 : forall j, j <> h_src x -> nth_error cs1 j = nth_error cs j) by (intros j Hj; apply set_nth_other; auto).
      assert (Hok : forall kd, kd <> h_kind x -> kd = okd (h_kind x)) by (intros [] ; destruct (h_kind x); simpl; congruence).
      assert (Hent : forall i kd, ~ (h_src x = i /\ h_kind x = kd) -> entry cs1 i kd = entry cs i kd).
      { intros i kd HN. unfold entry. destruct (Nat.eq_dec i (h_src x)) as [->|Hi].
        - rewrite E1, EC. assert (kd <> h_kind x) as Hkd by (intros ->; apply HN; auto). rewrite (Hok kd Hkd). apply S6.
        - now rewrite E2. }
      assert (Hrem : forall i kd, ~ (h_src x = i /\ h_kind x = kd) -> rem cs1 i kd = rem cs i kd).
      { intros i kd HN. unfold rem. destruct (Nat.eq_dec i (h_src x)) as [->|Hi].
        - rewrite E1, EC. assert (kd <> h_kind x) as Hkd by (intros ->; apply HN; auto). rewrite (Hok kd Hkd). exact S5.
        - now rewrite E2. }
      inversion HP as [|? ? HP1 HP2]; subst. rewrite Forall_forall in HP1.
      assert (HPx : forall y, In y g -> ~ (h_src y = h_src x /\ h_kind y = h_kind x)).
      { intros y Hy [Ha Hb]. specialize (HP1 y Hy). assert (same_slot x y = true) by (apply same_slot_iff; auto). congruence. }
      destruct (IH cs1 (heap ++ ent (h_src x) (h_kind x) c')) as (cs' & heap' & I1 & I2 & I3 & I4 & I5); auto.
      + apply set_nth_Forall; auto. split; auto. split; auto.
        intros kd. destruct (kind_eqb kd (h_kind x)) eqn:EKD.
        * assert (kd = h_kind x) as -> by (destruct kd, (h_kind x); simpl in *; congruence).
          rewrite S4. pose proof (dropw_length (Some k) l). pose proof (Hlen (h_kind x)) as HL. rewrite EV in HL. simpl in HL. lia.
        * assert (kd <> h_kind x) as Hkd by (intros ->; destruct (h_kind x); discriminate).
          rewrite (Hok kd Hkd), S5. apply Hlen.
      + intros e. rewrite in_app_iff, HH. split.
        * intros [(i & kd & H1 & H2)|H].
          -- exists i, kd. split; [|intros y Hy; apply H2; right; auto].
             rewrite Hent; auto. apply H2. left; auto.
          -- exists (h_src x), (h_kind x). split; [unfold entry; rewrite E1; exact H|].
             intros y Hy [Ha Hb]. apply (HPx y Hy); auto.
        * intros (i & kd & H1 & H2).
          destruct (Nat.eq_dec i (h_src x)) as [->|Hi].
          -- destruct (kind_eqb kd (h_kind x)) eqn:EKD.
             ++ assert (kd = h_kind x) as -> by (destruct kd, (h_kind x); simpl in *; congruence).
                right. unfold entry in H1. rewrite E1 in H1. exact H1.
             ++ left. exists (h_src x), kd.
                assert (HN : ~ (h_src x = h_src x /\ h_kind x = kd)) by (intros [_ <-]; destruct (h_kind x); discriminate).
                rewrite Hent in H1 by auto. split; auto. intros y [<-|Hy]; auto.
          -- left. exists i, kd. assert (HN : ~ (h_src x = i /\ h_kind x = kd)) by (intros [? _]; congruence).
             rewrite Hent in H1 by auto. split; auto. intros y [<-|Hy]; auto.
      + intros y Hy. rewrite Hent.
        * apply HE. right; auto.
        * intros [Ha Hb]. apply (HPx y Hy). auto.
      + exists cs', heap'. split; auto. split; auto. split; [rewrite I3; apply set_nth_length|]. split; auto.
        intros i kd. destruct (I5 i kd) as [(y & Y1 & Y2 & Y3 & Y4)|(Y1 & Y2 & Y3)].
        * left. exists y. split; [right; auto|]. split; auto. split; auto. rewrite Y4, Hrem; auto.
          intros [Ha Hb]. apply (HPx y Y1). split; congruence.
        * destruct (Nat.eq_dec i (h_src x)) as [->|Hi]; [destruct (kind_eqb kd (h_kind x)) eqn:EKD|].
          -- assert (kd = h_kind x) as -> by (destruct kd, (h_kind x); simpl in *; congruence).
             left. exists x. split; [left; auto|]. split; auto. split; auto. rewrite Y2.
             unfold rem. rewrite E1, EC, EV, S4. reflexivity.
          -- assert (HN : ~ (h_src x = h_src x /\ h_kind x = kd)) by (intros [_ <-]; destruct (h_kind x); discriminate).
             right. split; [intros y [<-|Hy]; auto|]. rewrite Y2, Y3, Hrem, Hent; auto.
          -- assert (HN : ~ (h_src x = i /\ h_kind x = kd)) by (intros [? _]; congruence).
             right. split; [intros y [<-|Hy]; auto|]. rewrite Y2, Y3, Hrem, Hent; auto.
  Qed.
End CompactFacts.
