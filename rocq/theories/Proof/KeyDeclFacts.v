(** The key columns found from the metadata of a schema. *)
From Coq Require Import List NArith Bool Arith Lia Permutation Sorted.
From Verif Require Import Model.Json Model.KeyDecl Spec.KeyDeclSpec.
Import ListNotations.
Local Open Scope N_scope.

(** *** Trimming *)
Lemma drop_all f a m : Forall (fun c => f c = true) a -> drop_while f (a ++ m) = drop_while f m.
Proof. induction 1 as [|c a H HF IH]; auto. cbn [app drop_while]. now rewrite H. Qed.
Lemma drop_stop f c m : f c = false -> drop_while f (c :: m) = c :: m.
Proof. intros H. cbn [drop_while]. now rewrite H. Qed.
Lemma drop_split f s : exists a, s = a ++ drop_while f s /\ Forall (fun c => f c = true) a.
Proof.
  induction s as [|c s (a & IH & HA)]; [exists []; auto|]. cbn [drop_while]. destruct (f c) eqn:E.
  - exists (c :: a). split; [cbn [app]; now rewrite <- IH|constructor; auto].
  - exists []. auto.
Qed.

Lemma white_space c : In c white <-> is_space c = true.
Proof.
  split.
  - intros H. assert (X : forallb is_space white = true) by (vm_compute; reflexivity). rewrite forallb_forall in X. auto.
  - unfold is_space. rewrite !orb_true_iff, !andb_true_iff, !N.leb_le, !N.eqb_eq. unfold white. cbn [In]. lia.
Qed.
Lemma whites a : Forall (fun c => In c white) a <-> Forall (fun c => is_space c = true) a.
Proof. rewrite !Forall_forall. split; intros H c Hc; apply white_space; auto. Qed.
Lemma consent_words : consent = truthy_words.
Proof. vm_compute. reflexivity. Qed.

Definition edges (f : N -> bool) (m : chars) : Prop :=
  exists x l y r, m = x :: l /\ m = r ++ [y] /\ f x = false /\ f y = false.

Lemma trim_exact f a m b : Forall (fun c => f c = true) a -> Forall (fun c => f c = true) b -> edges f m ->
  trim_by f (a ++ m ++ b) = m.
Proof.
  intros HA HB (x & l & y & r & E1 & E2 & Fx & Fy). unfold trim_by. rewrite drop_all by assumption.
  rewrite E1 at 1. cbn [app]. rewrite drop_stop by assumption.
  change (x :: l ++ b) with ((x :: l) ++ b). rewrite <- E1, rev_app_distr, drop_all.
  - rewrite E2, rev_app_distr. cbn [rev app]. rewrite drop_stop by assumption.
    change (y :: rev r) with ([y] ++ rev r). now rewrite rev_app_distr, rev_involutive.
  - apply Forall_rev. exact HB.
Qed.

Lemma trim_split f s : exists a b, s = a ++ trim_by f s ++ b /\
  Forall (fun c => f c = true) a /\ Forall (fun c => f c = true) b.
Proof.
  destruct (drop_split f s) as (a & E & HA). destruct (drop_split f (rev (drop_while f s))) as (b & E' & HB).
  exists a, (rev b). split; [|split; [exact HA|now apply Forall_rev]]. unfold trim_by.
  rewrite <- rev_app_distr, <- E', rev_involutive. exact E.
Qed.

Lemma edges_first_last f x m y : f x = false -> f y = false -> edges f (x :: m ++ [y]).
Proof. intros H1 H2. exists x, (m ++ [y]), y, (x :: m). auto. Qed.
Lemma edges_one f x : f x = false -> edges f [x].
Proof. intros H. exists x, [], x, []. auto. Qed.
Lemma edges_all f m : m <> [] -> Forall (fun c => f c = false) m -> edges f m.
Proof.
  intros HN HF. destruct m as [|x l]; [congruence|]. destruct (exists_last HN) as (r & y & E).
  exists x, l, y, r. repeat split; auto.
  - now inversion HF.
  - rewrite E in HF. apply Forall_app in HF as [_ HF]. now inversion HF.
Qed.

(** *** Numbers *)
Definition digit_step (a c : N) : N := a * 10 + (c - 48).
Lemma fold_grows s : forall acc, acc <= fold_left digit_step s acc.
Proof. induction s as [|c s IH]; intros acc; cbn [fold_left]; [lia|]. specialize (IH (digit_step acc c)). unfold digit_step in *. lia. Qed.
Lemma digits_spec s : forall acc n, digits_value acc s = Some n <->
  Forall (fun c => 48 <= c <= 57) s /\ n = fold_left digit_step s acc /\ (s = [] \/ n < 2 ^ 32).
Proof.
  induction s as [|c s IH]; intros acc n; cbn [digits_value fold_left].
  - split; [intros H; inversion H; subst; auto|]. intros (_ & -> & _). reflexivity.
  - destruct ((48 <=? c) && (c <=? 57)) eqn:ED.
    + apply andb_prop in ED as [D1 D2]. apply N.leb_le in D1, D2. fold (digit_step acc c).
      destruct (N.ltb_spec (digit_step acc c) (2 ^ 32)) as [HL|HL].
      * rewrite IH. split.
        -- intros (A & B & C). split; [constructor; auto|]. split; auto. right. destruct C as [->|C]; auto.
           cbn [fold_left] in B. now subst n.
        -- intros (A & B & C). inversion A; subst. split; auto. split; auto. right. destruct C as [C|C]; [discriminate|exact C].
      * split; [discriminate|]. intros (A & B & C). destruct C as [C|C]; [discriminate|].
        pose proof (fold_grows s (digit_step acc c)). subst n. lia.
    + split; [discriminate|]. intros (A & _). inversion A as [|? ? [D1 D2] ?]; subst.
      apply N.leb_le in D1, D2. now rewrite D1, D2 in ED.
Qed.

Lemma parse_other c r : c <> 43 -> parse_u32 (c :: r) = digits_value 0 (c :: r).
Proof.
  intros H. unfold parse_u32. destruct c as [|p]; [reflexivity|].
  do 6 (destruct p as [p|p|]; try reflexivity). congruence.
Qed.
Lemma parse_plus r : parse_u32 (43 :: r) = match r with [] => None | _ => digits_value 0 r end.
Proof. destruct r; reflexivity. Qed.

Lemma parse_spec s n : parse_u32 s = Some n <->
  exists plus ds, s = plus ++ ds /\ (plus = [] \/ plus = [43]) /\ decimal ds n /\ n < 2 ^ 32.
Proof.
  split.
  - destruct s as [|c r]; [discriminate|]. destruct (N.eq_dec c 43) as [->|HC].
    + rewrite parse_plus. destruct r as [|d r]; [discriminate|]. intros H. apply digits_spec in H as (A & B & C).
      exists [43], (d :: r). split; auto. split; auto. destruct C as [C|C]; [discriminate|].
      split; auto. split; [discriminate|]. auto.
    + rewrite parse_other by assumption. intros H. apply digits_spec in H as (A & B & C).
      exists [], (c :: r). split; auto. split; auto. destruct C as [C|C]; [discriminate|].
      split; auto. split; [discriminate|]. auto.
  - intros (plus & ds & -> & HP & (HN & HD & HV) & HL).
    assert (E : digits_value 0 ds = Some n) by (apply digits_spec; auto).
    destruct HP as [->| ->].
    + cbn [app]. destruct ds as [|c r]; [congruence|]. rewrite parse_other; auto. intros ->.
      inversion HD as [|? ? [X _] ?]; subst. lia.
    + cbn [app]. rewrite parse_plus. destruct ds; [congruence|exact E].
Qed.

(** *** Words *)
Lemma chars_eqb_spec a : forall b, chars_eqb a b = true <-> a = b.
Proof.
  induction a as [|x a IH]; intros [|y b]; cbn [chars_eqb]; try (split; congruence).
  rewrite andb_true_iff, N.eqb_eq, IH. split; [intros [-> ->]; auto|]. intros H. inversion H; auto.
Qed.
Lemma truthy_spec s : is_truthy s = true <-> In s truthy_words.
Proof.
  unfold is_truthy. rewrite existsb_exists. split.
  - intros (w & H & E). apply chars_eqb_spec in E. now subst w.
  - intros H. exists s. split; auto. now apply chars_eqb_spec.
Qed.
Lemma word_facts w : In w truthy_words -> edges is_space w /\ parse_u32 w = None.
Proof.
  intros H. assert (HF : forallb (fun w => forallb (fun c => negb (is_space c)) w &&
     match w with [] => false | _ => true end &&
     match parse_u32 w with None => true | _ => false end) truthy_words = true) by (vm_compute; reflexivity).
  rewrite forallb_forall in HF. specialize (HF w H). apply andb_prop in HF as [HF H3]. apply andb_prop in HF as [H1 H2].
  split.
  - apply edges_all; [destruct w; discriminate|]. apply Forall_forall. intros c Hc. rewrite forallb_forall in H1.
    specialize (H1 c Hc). now apply negb_true_iff in H1.
  - destruct (parse_u32 w); [discriminate|reflexivity].
Qed.

(** *** Markers *)
Lemma number_edges plus ds n : plus = [] \/ plus = [43] -> decimal ds n -> edges is_space (plus ++ ds).
Proof.
  intros HP (HN & HD & _). apply edges_all.
  - destruct HP as [-> | ->]; [exact HN|discriminate].
  - assert (HS : forall c, 43 <= c <= 57 -> is_space c = false).
    { intros c Hc. assert (HX : existsb (N.eqb c) [43; 44; 45; 46; 47; 48; 49; 50; 51; 52; 53; 54; 55; 56; 57] = true).
      { apply existsb_exists. exists c. split; [|apply N.eqb_refl]. cbn [In]. lia. }
      apply existsb_exists in HX as (d & Hd & E). apply N.eqb_eq in E. subst d.
      cbn [In] in Hd. repeat (destruct Hd as [<-|Hd]; [vm_compute; reflexivity|]). destruct Hd. }
    apply Forall_app. split.
    + destruct HP as [-> | ->]; repeat constructor.
    + eapply Forall_impl; [|exact HD]. intros c Hc. cbv beta in Hc. apply HS. lia.
Qed.

Lemma mark_spec f o : mark_of f = Some o <-> exists v, f_mark f = Some v /\ marks_as v o.
Proof.
  unfold mark_of. destruct (f_mark f) as [v|]; [|split; [discriminate|intros (v & H & _); discriminate]].
  split.
  - intros H. exists v. split; auto. destruct (trim_split is_space v) as (a & b & E & HA & HB). fold (trim v) in E.
    destruct (parse_u32 (trim v)) as [n|] eqn:EP.
    + inversion H; subst o. apply parse_spec in EP as (plus & ds & ET & HP & HD & HL).
      rewrite E, ET, <- app_assoc. apply as_number; auto; now apply whites.
    + destruct (is_truthy (trim v)) eqn:EW; [|discriminate]. inversion H; subst o. apply truthy_spec in EW.
      rewrite E. rewrite <- consent_words in EW. apply as_word; auto; now apply whites.
  - intros (w & E & H). inversion E; subst w. destruct H as [a plus ds b n HA HB HP HD HL|a w b HA HB HW]; apply whites in HA, HB.
    + assert (ET : trim (a ++ plus ++ ds ++ b) = plus ++ ds).
      { unfold trim. rewrite (app_assoc plus). apply trim_exact; auto. eapply number_edges; eauto. }
      rewrite ET. replace (parse_u32 (plus ++ ds)) with (Some n); auto. symmetry. apply parse_spec. eauto 8.
    + rewrite consent_words in HW. destruct (word_facts w HW) as [HE HN]. unfold trim. rewrite trim_exact by auto. rewrite HN.
      apply truthy_spec in HW. now rewrite HW.
Qed.

Lemma marks_from_spec l : forall i o j, In (o, j) (marks_from i l) <->
  exists k f, j = (i + k)%nat /\ nth_error l k = Some f /\ mark_of f = Some o.
Proof.
  induction l as [|f l IH]; intros i o j; cbn [marks_from].
  - split; [intros []|]. intros (k & f & _ & H & _). destruct k; discriminate.
  - split.
    + intros H. destruct (mark_of f) as [o'|] eqn:EM.
      * destruct H as [H|H].
        -- inversion H; subst. exists 0%nat, f. split; [lia|]. auto.
        -- apply IH in H as (k & g & -> & H1 & H2). exists (S k), g. split; [lia|]. auto.
      * apply IH in H as (k & g & -> & H1 & H2). exists (S k), g. split; [lia|]. auto.
    + intros (k & g & -> & H1 & H2). destruct k as [|k].
      * inversion H1; subst g. rewrite H2. left. f_equal. lia.
      * assert (HI : In (o, (i + S k)%nat) (marks_from (S i) l)).
        { apply IH. exists k, g. split; [lia|]. auto. }
        destruct (mark_of f); auto. now right.
Qed.
Lemma marks_spec s o i : In (o, i) (marks s) <-> marked s i o.
Proof.
  unfold marks, marked. rewrite marks_from_spec. split.
  - intros (k & f & -> & H1 & H2). apply mark_spec in H2 as (v & H2 & H3). exists f, v. auto.
  - intros (f & v & H1 & H2 & H3). exists i, f. repeat split; auto. apply mark_spec. eauto.
Qed.
Lemma marks_sorted l : forall i, StronglySorted (fun a b => (snd a < snd b)%nat) (marks_from i l).
Proof.
  induction l as [|f l IH]; intros i; cbn [marks_from]; [constructor|].
  destruct (mark_of f) as [o|]; auto. constructor; auto. apply Forall_forall. intros [o' j] H.
  apply marks_from_spec in H as (k & g & -> & _). cbn [snd]. lia.
Qed.

Definition mark_lt (a b : N * nat) : Prop := fst a < fst b \/ (fst a = fst b /\ (snd a < snd b)%nat).
Lemma insert_mark_In m l x : In x (insert_mark m l) <-> x = m \/ In x l.
Proof.
  induction l as [|p l IH]; cbn [insert_mark]; [cbn [In]; intuition|].
  destruct (fst p <? fst m); cbn [In]; rewrite ?IH; intuition.
Qed.
Lemma insert_mark_sorted m l : StronglySorted mark_lt l -> Forall (fun x => (snd m < snd x)%nat) l ->
  StronglySorted mark_lt (insert_mark m l).
Proof.
  induction 1 as [|p l HS IH HF]; intros HM; cbn [insert_mark]; [repeat constructor|].
  inversion HM as [|? ? Hp Hl]; subst. destruct (N.ltb_spec (fst p) (fst m)) as [E|E].
  - constructor; [now apply IH|]. apply Forall_forall. intros x Hx. apply insert_mark_In in Hx as [->|Hx].
    + now left.
    + rewrite Forall_forall in HF. now apply HF.
  - constructor; [now constructor|]. apply Forall_forall. intros x [->|Hx].
    + unfold mark_lt. lia.
    + rewrite Forall_forall in HF, Hl. specialize (HF x Hx). specialize (Hl x Hx). unfold mark_lt in *. lia.
Qed.
Lemma sort_marks_In l x : In x (sort_marks l) <-> In x l.
Proof. induction l as [|m l IH]; [tauto|]. change (sort_marks (m :: l)) with (insert_mark m (sort_marks l)). rewrite insert_mark_In, IH. cbn [In]. intuition. Qed.
Lemma sort_marks_sorted l : StronglySorted (fun a b => (snd a < snd b)%nat) l -> StronglySorted mark_lt (sort_marks l).
Proof.
  induction 1 as [|m l HS IH HF]; [constructor|].
  change (sort_marks (m :: l)) with (insert_mark m (sort_marks l)). apply insert_mark_sorted; auto.
  apply Forall_forall. intros x Hx. apply (proj1 (sort_marks_In l x)) in Hx. rewrite Forall_forall in HF. now apply HF.
Qed.

Lemma sorted_nth {A} (P : A -> A -> Prop) l : StronglySorted P l -> forall a b x y, (a < b)%nat ->
  nth_error l a = Some x -> nth_error l b = Some y -> P x y.
Proof.
  induction 1 as [|z l HS IH HF]; intros a b x y Hab Ha Hb; [destruct a; discriminate|].
  destruct b as [|b]; [lia|]. destruct a as [|a].
  - inversion Ha; subst. rewrite Forall_forall in HF. apply HF. eapply nth_error_In; eauto.
  - cbn [nth_error] in *. apply (IH a b x y); auto. lia.
Qed.

(** *** Fields by name *)
Lemma find_from_spec name l : forall i j, find_from i name l = Some j <->
  exists k f, j = (i + k)%nat /\ nth_error l k = Some f /\ f_name f = name /\
    (forall m g, (m < k)%nat -> nth_error l m = Some g -> f_name g <> name).
Proof.
  induction l as [|f l IH]; intros i j; cbn [find_from].
  - split; [discriminate|]. intros (k & f & _ & H & _). destruct k; discriminate.
  - destruct (chars_eqb (f_name f) name) eqn:E.
    + apply chars_eqb_spec in E. split.
      * intros H. inversion H; subst j. exists 0%nat, f. split; [lia|]. repeat split; auto. intros m g Hm. lia.
      * intros (k & g & -> & H1 & H2 & H3). destruct k as [|k]; [f_equal; lia|]. exfalso.
        apply (H3 0%nat f); auto. lia.
    + assert (HN : f_name f <> name).
      { intros X. apply chars_eqb_spec in X. congruence. }
      rewrite IH. split.
      * intros (k & g & -> & H1 & H2 & H3). exists (S k), g. split; [lia|]. repeat split; auto.
        intros [|m] h Hm Hh; [inversion Hh; subst; exact HN|]. apply (H3 m h); auto. lia.
      * intros (k & g & -> & H1 & H2 & H3). destruct k as [|k].
        -- cbn [nth_error] in H1. inversion H1; subst g. congruence.
        -- exists k, g. split; [lia|]. repeat split; auto. intros m h Hm Hh. apply (H3 (S m) h); auto. lia.
Qed.
Lemma find_spec s name i : find_field s name = Some i <-> called s name i.
Proof.
  unfold find_field, called. rewrite find_from_spec. split.
  - intros (k & f & -> & H1 & H2 & H3). split; [exists f; auto|exact H3].
  - intros ((f & H1 & H2) & H3). exists i, f. auto.
Qed.
Lemma find_all_spec s names : forall cols, find_all s names = Some cols <-> Forall2 (called s) names cols.
Proof.
  induction names as [|n names IH]; intros cols; cbn [find_all].
  - split; [intros H; inversion H; constructor|]. intros H. now inversion H.
  - split.
    + destruct (find_field s n) as [i|] eqn:E1; [|discriminate]. destruct (find_all s names) as [l|] eqn:E2; [|discriminate].
      intros H. inversion H; subst. constructor; [now apply find_spec|]. now apply IH.
    + intros H. inversion H as [|? i ? l H1 H2]; subst. apply find_spec in H1. apply IH in H2. now rewrite H1, H2.
Qed.

Lemma projection_spec s cols c : projection_for_columns s cols = Some c <->
  cols <> [] /\ c = cols /\ Forall (supported s) cols.
Proof.
  assert (HB : forall l, forallb (fun i => match nth_error (s_fields s) i with Some f => f_supported f | None => false end) l = true
                         <-> Forall (supported s) l).
  { intros l. rewrite forallb_forall, Forall_forall. split; intros H i Hi; specialize (H i Hi).
    - unfold supported. destruct (nth_error (s_fields s) i) as [f|]; [|discriminate]. eauto.
    - destruct H as (f & -> & H). exact H. }
  unfold projection_for_columns. destruct cols as [|x cols]; [split; [discriminate|intros [H _]; congruence]|].
  specialize (HB (x :: cols)). destruct (forallb _ (x :: cols)).
  - split; [intros H; inversion H; subst; repeat split; [discriminate|now apply HB]|]. intros (_ & -> & _). reflexivity.
  - split; [discriminate|]. intros (_ & _ & H). apply HB in H. discriminate.
Qed.

Lemma key_col_spec s i c : from_key_col s i = Some c <-> c = [i] /\ supported s i.
Proof.
  unfold from_key_col. destruct (Nat.leb_spec (length (s_fields s)) i) as [H|H].
  - split; [discriminate|]. intros (_ & f & E & _). apply nth_error_None in H. congruence.
  - rewrite projection_spec. split.
    + intros (_ & -> & HF). inversion HF; auto.
    + intros (-> & HS). repeat split; auto. discriminate.
Qed.

(** *** From the markers *)
Definition ordinals (ms : list (option N * nat)) : list (N * nat) :=
  flat_map (fun m => match fst m with Some o => [(o, snd m)] | None => [] end) ms.
Lemma ordinals_In ms o i : In (o, i) (ordinals ms) <-> In (Some o, i) ms.
Proof.
  unfold ordinals. rewrite in_flat_map. split.
  - intros ([[n|] j] & H & E); cbn [fst snd] in E; [|destruct E]. destruct E as [E|[]]. now inversion E; subst.
  - intros H. exists (Some o, i). split; auto. cbn [fst snd]. now left.
Qed.
Lemma ordinals_sorted ms : StronglySorted (fun a b => (snd a < snd b)%nat) ms ->
  StronglySorted (fun a b => (snd a < snd b)%nat) (ordinals ms).
Proof.
  induction 1 as [|[o i] l HS IH HF]; [constructor|]. cbn [ordinals flat_map fst snd]. fold (ordinals l).
  destruct o as [n|]; [|exact IH]. cbn [app]. constructor; auto. apply Forall_forall. intros [m j] Hj.
  apply ordinals_In in Hj. rewrite Forall_forall in HF. apply (HF _ Hj).
Qed.

Definition all_placed (s : dschema) : Prop := forall i o, marked s i o -> o <> None.
Definition one_marked (s : dschema) : Prop := exists i, (exists o, marked s i o) /\ forall j o, marked s j o -> j = i.

(** The three cases of [from_metadata]. *)
Lemma from_metadata_cases s :
  (marks s = [] /\ (forall i o, ~ marked s i o)) \/
  (exists o i, marks s = [(o, i)] /\ marked s i o /\ (forall j p, marked s j p -> j = i)) \/
  (exists a b l, marks s = a :: b :: l /\ snd a <> snd b /\
     marked s (snd a) (fst a) /\ marked s (snd b) (fst b)).
Proof.
  pose proof (fun o i => marks_spec s o i) as HM. pose proof (marks_sorted (s_fields s) 0) as HS. fold (marks s) in HS.
  destruct (marks s) as [|[o i] [|[p j] l]] eqn:E.
  - left. split; auto. intros i o H. apply HM in H. destruct H.
  - right. left. exists o, i. split; auto. split; [apply HM; now left|].
    intros j p H. apply HM in H. destruct H as [H|[]]. now inversion H.
  - right. right. exists (o, i), (p, j), l. split; auto. cbn [fst snd]. split.
    + inversion HS as [|? ? ? HF]; subst. inversion HF; subst. cbn [snd] in *. lia.
    + split; apply HM; [now left|right; now left].
Qed.

Lemma from_many s a b l : marks s = a :: b :: l ->
  from_metadata s = if existsb (fun m => match fst m with None => true | Some _ => false end) (marks s) then None
                    else projection_for_columns s (map snd (sort_marks (ordinals (marks s)))).
Proof. intros E. unfold from_metadata. rewrite E. destruct a. reflexivity. Qed.

Lemma not_placed s : existsb (fun m : option N * nat => match fst m with None => true | Some _ => false end) (marks s) = false <-> all_placed s.
Proof.
  split.
  - intros H i o HI ->. apply marks_spec in HI.
    assert (X : existsb (fun m : option N * nat => match fst m with None => true | Some _ => false end) (marks s) = true).
    { apply existsb_exists. exists (None, i). auto. }
    congruence.
  - intros H. destruct (existsb _ (marks s)) eqn:E; auto. apply existsb_exists in E as ([[n|] i] & HI & E); [discriminate|].
    apply marks_spec in HI. now apply H in HI.
Qed.

Lemma many_cols s cols : all_placed s -> cols = map snd (sort_marks (ordinals (marks s))) ->
  NoDup cols /\ (forall i, In i cols <-> exists o, marked s i o) /\
  (forall x y i j, (x < y)%nat -> nth_error cols x = Some i -> nth_error cols y = Some j ->
     exists m n, marked s i (Some m) /\ marked s j (Some n) /\ (m < n \/ (m = n /\ (i < j)%nat))).
Proof.
  intros HP ->.
  assert (HS : StronglySorted mark_lt (sort_marks (ordinals (marks s)))).
  { apply sort_marks_sorted, ordinals_sorted, marks_sorted. }
  assert (HI : forall o i, In (o, i) (sort_marks (ordinals (marks s))) <-> marked s i (Some o)).
  { intros o i. now rewrite sort_marks_In, ordinals_In, marks_spec. }
  assert (HU : forall i o p, marked s i o -> marked s i p -> o = p).
  { intros i o p (f & v & A1 & A2 & A3) (g & w & B1 & B2 & B3). assert (E : f = g) by congruence. subst g.
    assert (X : mark_of f = Some o) by (apply mark_spec; eauto). assert (Y : mark_of f = Some p) by (apply mark_spec; eauto).
    congruence. }
  set (L := sort_marks (ordinals (marks s))) in *.
  assert (HO : forall x y i j, (x < y)%nat -> nth_error (map snd L) x = Some i -> nth_error (map snd L) y = Some j ->
     exists m n, marked s i (Some m) /\ marked s j (Some n) /\ (m < n \/ (m = n /\ (i < j)%nat))).
  { intros x y i j Hxy Hx Hy. rewrite nth_error_map in Hx, Hy.
    destruct (nth_error L x) as [[m i']|] eqn:EX; [|discriminate]. destruct (nth_error L y) as [[n j']|] eqn:EY; [|discriminate].
    cbn [option_map snd] in *. inversion Hx; inversion Hy; subst. exists m, n.
    split; [apply HI; eapply nth_error_In; eauto|]. split; [apply HI; eapply nth_error_In; eauto|].
    exact (sorted_nth _ _ HS x y _ _ Hxy EX EY). }
  split; [|split; [|exact HO]].
  - apply NoDup_nth_error. intros x y Hx Hxy. destruct (Nat.lt_trichotomy x y) as [H|[H|H]]; auto; exfalso.
    + destruct (nth_error (map snd L) x) as [i|] eqn:E; [|apply nth_error_None in E; lia].
      destruct (HO x y i i H E (eq_sym Hxy)) as (m & n & H1 & H2 & H3). pose proof (HU _ _ _ H1 H2) as X. inversion X. lia.
    + destruct (nth_error (map snd L) x) as [i|] eqn:E; [|apply nth_error_None in E; lia].
      destruct (HO y x i i H (eq_sym Hxy) E) as (m & n & H1 & H2 & H3). pose proof (HU _ _ _ H1 H2) as X. inversion X. lia.
  - intros i. rewrite in_map_iff. split.
    + intros ([o j] & E & H). cbn [snd] in E. subst j. exists (Some o). now apply HI.
    + intros ([o|] & H); [|now apply HP in H]. exists (o, i). split; auto. now apply HI.
Qed.

Theorem marked_columns s cols : (exists i o, marked s i o) ->
  (from_metadata s = Some cols <->
   NoDup cols /\ (forall i, In i cols <-> exists o, marked s i o) /\ (one_marked s \/ all_placed s) /\
   (forall i, In i cols -> supported s i) /\
   (forall x y i j, (x < y)%nat -> nth_error cols x = Some i -> nth_error cols y = Some j ->
      exists m n, marked s i (Some m) /\ marked s j (Some n) /\ (m < n \/ (m = n /\ (i < j)%nat)))).
Proof.
  intros (i0 & o0 & H0). destruct (from_metadata_cases s) as [[_ H]|[(o & i & E & HM & HU)|(a & b & l & E & HD & HA & HB)]].
  - now apply H in H0.
  - unfold from_metadata. rewrite E, key_col_spec. split.
    + intros (-> & HS). split; [repeat constructor; intros []|]. split; [|split; [|split]].
      * intros j. cbn [In]. split; [intros [<-|[]]; eauto|]. intros (p & Hp). left. symmetry. eauto.
      * left. exists i. split; eauto.
      * intros j [<-|[]]. exact HS.
      * intros [|x] [|y] j k Hxy Hx Hy; try lia; cbn [nth_error] in *; destruct y; discriminate.
    + intros (HN & HI & _ & HS & _).
      assert (Hi : In i cols) by (apply HI; eauto).
      assert (HO : forall j, In j cols -> j = i).
      { intros j Hj. apply HI in Hj as (p & Hp). eauto. }
      split; [|auto]. destruct cols as [|x cols]; [destruct Hi|]. rewrite (HO x (or_introl eq_refl)).
      destruct cols as [|y cols]; auto. exfalso. inversion HN as [|? ? HX]; subst. apply HX.
      left. rewrite (HO x (or_introl eq_refl)). apply HO. right. now left.
  - rewrite (from_many s a b l E). destruct (existsb _ (marks s)) eqn:EP.
    + split; [discriminate|]. intros (_ & _ & [HO|HO] & _).
      * exfalso. destruct HO as (k & _ & HK). apply HD. rewrite (HK _ _ HA), (HK _ _ HB). auto.
      * apply not_placed in HO. congruence.
    + apply not_placed in EP. rewrite projection_spec. destruct (many_cols s _ EP eq_refl) as (M1 & M2 & M3).
      set (C := map snd (sort_marks (ordinals (marks s)))) in *. split.
      * intros (_ & -> & HS). split; [exact M1|]. split; [exact M2|]. split; [now right|].
        split; [intros j Hj; rewrite Forall_forall in HS; now apply HS|exact M3].
      * intros (N1 & N2 & _ & N4 & N5). 
        assert (EC : cols = C).
        { assert (HSo : forall l, NoDup l -> (forall x y i j, (x < y)%nat -> nth_error l x = Some i -> nth_error l y = Some j ->
              exists m n, marked s i (Some m) /\ marked s j (Some n) /\ (m < n \/ (m = n /\ (i < j)%nat))) ->
              StronglySorted (fun i j => exists m n, marked s i (Some m) /\ marked s j (Some n) /\ (m < n \/ (m = n /\ (i < j)%nat))) l).
          { clear. induction l as [|z l IH]; intros HN H; constructor.
            - inversion HN; subst. apply IH; auto. intros x y i j Hxy Hx Hy. apply (H (S x) (S y) i j); auto. lia.
            - apply Forall_forall. intros w Hw. apply In_nth_error in Hw as (y & Hy). apply (H 0%nat (S y) z w); auto. lia. }
          assert (HU : forall i o p, marked s i o -> marked s i p -> o = p).
          { intros i o p (f & v & A1 & A2 & A3) (g & w & B1 & B2 & B3). assert (X : f = g) by congruence. subst g.
            assert (X : mark_of f = Some o) by (apply mark_spec; eauto). assert (Y : mark_of f = Some p) by (apply mark_spec; eauto).
            congruence. }
          pose proof (HSo cols N1 N5) as S1. pose proof (HSo C M1 M3) as S2.
          assert (HI : forall i, In i cols <-> In i C) by (intros i; now rewrite N2, M2).
          clear - S1 S2 HI HU. clearbody C. revert C S2 HI. induction S1 as [|x l S1 IH F1]; intros C S2 HI.
          - destruct C as [|y C]; auto. exfalso. apply (HI y). now left.
          - destruct S2 as [|y C S2 F2]; [exfalso; apply (HI x); now left|].
            assert (EXY : x = y).
            { destruct (proj1 (HI x) (or_introl eq_refl)) as [E|Hx]; auto.
              destruct (proj2 (HI y) (or_introl eq_refl)) as [E|Hy]; auto. exfalso.
              rewrite Forall_forall in F1, F2. destruct (F1 y Hy) as (m & n & A & B & D). destruct (F2 x Hx) as (m' & n' & A' & B' & D').
              pose proof (HU _ _ _ A B') as X1. pose proof (HU _ _ _ B A') as X2. inversion X1; inversion X2; subst. lia. }
            subst y. f_equal. apply IH; auto. intros i.
            assert (NX : forall L, Forall (fun j => exists m n, marked s x (Some m) /\ marked s j (Some n) /\ (m < n \/ (m = n /\ (x < j)%nat))) L -> ~ In x L).
            { intros L HL HX. rewrite Forall_forall in HL. destruct (HL x HX) as (m & n & A & B & D).
              pose proof (HU _ _ _ A B) as X1. inversion X1; subst. lia. }
            specialize (HI i). cbn [In] in HI. pose proof (NX l F1). pose proof (NX C F2).
            split; intros Hi; [destruct (proj1 HI (or_intror Hi)) as [<-|]|destruct (proj2 HI (or_intror Hi)) as [<-|]]; auto; contradiction. }
        subst cols. split.
        -- intros X. assert (HX : In (snd a) C) by (apply M2; eauto). rewrite X in HX. destruct HX.
        -- split; auto. apply Forall_forall. exact N4.
Qed.

(** *** From the list of names *)
Lemma plain_escape n : forallb plain_char n = true -> escape n = n.
Proof.
  induction n as [|c n IH]; [reflexivity|]. cbn [forallb]. intros H. apply andb_prop in H as [HC H].
  unfold escape in *. cbn [flat_map]. rewrite (IH H). unfold plain_char in HC.
  apply andb_prop in HC as [HC H92]. apply andb_prop in HC as [HC H44]. apply andb_prop in HC as [H32 H34].
  apply negb_true_iff, N.eqb_neq in H92, H34. apply N.leb_le in H32. unfold escape_char.
  destruct (N.eqb_spec c 34); [congruence|]. destruct (N.eqb_spec c 92); [congruence|].
  repeat match goal with |- context [c =? ?n] => destruct (N.eqb_spec c n); [lia|] end.
  destruct (N.ltb_spec c 32); [lia|]. reflexivity.
Qed.

Fixpoint joined (first : bool) (names : list chars) : chars :=
  match names with
  | [] => []
  | n :: r => (if first then [] else [44]) ++ (34 :: n ++ [34]) ++ joined false r
  end.
Lemma names_joined names : Forall plain names -> names_text names = 91 :: joined true names ++ [93].
Proof.
  intros H. unfold names_text. cbn [text]. f_equal. generalize true as first. induction H as [|n names [_ HP] HF IH]; intros first; [reflexivity|].
  cbn [map joined]. rewrite IH. cbn [text]. unfold quoted. rewrite (plain_escape n HP).
  rewrite <- !app_assoc. cbn [app]. rewrite <- !app_assoc. reflexivity.
Qed.

Lemma joined_commas names : forall first, joined first names =
  (if first then [] else match names with [] => [] | _ => [44] end) ++ with_commas (map (fun n => [34] ++ n ++ [34]) names).
Proof.
  induction names as [|n [|m r] IH]; intros first; [destruct first; reflexivity|destruct first; cbn [joined map with_commas]; now rewrite app_nil_r|].
  change (with_commas (map (fun n => [34] ++ n ++ [34]) (n :: m :: r)))
    with (([34] ++ n ++ [34]) ++ [44] ++ with_commas (map (fun n => [34] ++ n ++ [34]) (m :: r))).
  change (joined first (n :: m :: r)) with ((if first then [] else [44]) ++ (34 :: n ++ [34]) ++ joined false (m :: r)).
  rewrite (IH false). reflexivity.
Qed.
Lemma names_listed names : Forall plain names -> names_text names = names_list names.
Proof. intros H. rewrite names_joined by assumption. rewrite joined_commas. reflexivity. Qed.

Lemma split_skip a s : forall p, Forall (fun c => c <> 44) a -> split_from p (a ++ s) = split_from (p ++ a) s.
Proof.
  induction a as [|c a IH]; intros p H; [now rewrite app_nil_r|]. inversion H; subst. cbn [app split_from].
  destruct (N.eqb_spec c 44); [congruence|]. rewrite IH by assumption. now rewrite <- app_assoc.
Qed.
Lemma plain_no_comma n : plain n -> Forall (fun c => c <> 44) (34 :: n ++ [34]).
Proof.
  intros [_ H]. constructor; [lia|]. apply Forall_app. split; [|repeat constructor; lia].
  apply Forall_forall. intros c Hc ->. rewrite forallb_forall in H. specialize (H _ Hc). vm_compute in H. discriminate.
Qed.
Lemma split_joined names : Forall plain names -> forall p, split_from p (joined false names) = p :: map (fun n => 34 :: n ++ [34]) names.
Proof.
  induction 1 as [|n names HP HF IH]; intros p; [reflexivity|].
  change (joined false (n :: names)) with (44 :: (34 :: n ++ [34]) ++ joined false names).
  cbn [split_from]. change (44 =? 44) with true. cbn [map].
  rewrite (split_skip (34 :: n ++ [34])) by now apply plain_no_comma. rewrite IH. reflexivity.
Qed.

Lemma unquote n : plain n -> trim_quotes (trim (34 :: n ++ [34])) = n.
Proof.
  intros [HN HP]. assert (E : trim (34 :: n ++ [34]) = 34 :: n ++ [34]).
  { unfold trim. pose proof (trim_exact is_space [] (34 :: n ++ [34]) []) as X. rewrite app_nil_r in X. cbn [app] in X.
    apply X; auto. now apply edges_first_last. }
  rewrite E. unfold trim_quotes. pose proof (trim_exact (fun c => c =? 34) [34] n [34]) as X. cbn [app] in X.
  apply X; [repeat constructor|repeat constructor|]. apply edges_all; auto.
  apply Forall_forall. intros c Hc. rewrite forallb_forall in HP. specialize (HP c Hc). unfold plain_char in HP.
  apply andb_prop in HP as [HP _]. apply andb_prop in HP as [HP _]. apply andb_prop in HP as [_ HP]. now apply negb_true_iff in HP.
Qed.

Lemma parse_names names : Forall plain names -> parse_names_list (names_text names) = names.
Proof.
  intros H. rewrite names_joined by assumption. unfold parse_names_list.
  assert (E : trim (91 :: joined true names ++ [93]) = 91 :: joined true names ++ [93]).
  { unfold trim. pose proof (trim_exact is_space [] (91 :: joined true names ++ [93]) []) as X. rewrite app_nil_r in X. cbn [app] in X.
    apply X; auto. now apply edges_first_last. }
  rewrite E. clear E. cbn zeta. rewrite rev_app_distr. cbn [rev app]. rewrite rev_involutive.
  destruct H as [|n names HP HF]; [reflexivity|].
  change (joined true (n :: names)) with ((34 :: n ++ [34]) ++ joined false names). unfold split_commas.
  rewrite split_skip by now apply plain_no_comma. rewrite split_joined by assumption. cbn [app].
  change ((34 :: n ++ [34]) :: map (fun n => 34 :: n ++ [34]) names) with (map (fun n => 34 :: n ++ [34]) (n :: names)).
  assert (HA : Forall plain (n :: names)) by (constructor; auto). clear HP HF.
  induction HA as [|m l HP HF IH]; [reflexivity|]. cbn [map filter]. rewrite (unquote m HP), IH.
  destruct HP as [HN _]. destruct m; [congruence|reflexivity].
Qed.

Theorem named_columns s names cols : (forall i o, ~ marked s i o) -> s_keys s = Some (names_list names) -> Forall plain names ->
  (from_metadata s = Some cols <-> names <> [] /\ Forall2 (called s) names cols /\ Forall (supported s) cols).
Proof.
  intros HM HK HP. unfold from_metadata. destruct (marks s) as [|[o i] ms] eqn:EM.
  2: { exfalso. apply (HM i o). apply marks_spec. rewrite EM. now left. }
  rewrite HK, <- names_listed, (parse_names names HP) by assumption. destruct names as [|n [|m names]].
  - split; [discriminate|]. intros [H _]. congruence.
  - unfold from_key_name. split.
    + destruct (find_field s n) as [i|] eqn:EF; [|discriminate]. rewrite key_col_spec. intros [-> HS].
      apply find_spec in EF. split; [discriminate|]. auto.
    + intros (_ & H & HS). inversion H as [|? i ? l H1 H2]; subst. inversion H2; subst.
      apply find_spec in H1. rewrite H1. apply key_col_spec. inversion HS; auto.
  - split.
    + destruct (find_all s (n :: m :: names)) as [l|] eqn:EF; [|discriminate]. rewrite projection_spec. intros (_ & -> & HS).
      apply find_all_spec in EF. split; [discriminate|]. auto.
    + intros (_ & H & HS). apply find_all_spec in H as EF. rewrite EF. apply projection_spec. repeat split; auto.
      inversion H; subst. discriminate.
Qed.

Theorem undeclared s : (forall i o, ~ marked s i o) -> s_keys s = None -> from_metadata s = None.
Proof.
  intros HM HK. unfold from_metadata. destruct (marks s) as [|[o i] ms] eqn:EM; [now rewrite HK|].
  exfalso. apply (HM i o). apply marks_spec. rewrite EM. now left.
Qed.

Lemma quoted_edges m n name : bare name -> edges is_space (repeat 34 m ++ name ++ repeat 34 n).
Proof.
  intros (x & l & y & r & E1 & E2 & X & Y & _). unfold edges.
  assert (H : exists h t, repeat 34 m ++ name ++ repeat 34 n = h :: t /\ is_space h = false).
  { destruct m as [|m]; cbn [repeat app].
    - rewrite E1. cbn [app]. do 2 eexists. split; [reflexivity|]. destruct (is_space x) eqn:W; auto. now apply white_space in W.
    - do 2 eexists. split; reflexivity. }
  assert (H' : exists t h, repeat 34 m ++ name ++ repeat 34 n = t ++ [h] /\ is_space h = false).
  { destruct n as [|n].
    - cbn [repeat]. rewrite app_nil_r, E2, app_assoc. do 2 eexists. split; [reflexivity|]. destruct (is_space y) eqn:W; auto. now apply white_space in W.
    - change (repeat 34 (S n)) with (34 :: repeat 34 n). rewrite repeat_cons, !app_assoc. do 2 eexists. split; reflexivity. }
  destruct H as (h & t & A & B), H' as (t' & h' & C & D). exists h, t, h', t'. auto.
Qed.
Lemma Forall_repeat {A} (P : A -> Prop) x n : P x -> Forall P (repeat x n).
Proof. intros H. induction n; cbn [repeat]; constructor; auto. Qed.

Lemma parse_one t name : names_one t name -> parse_names_list t = [name].
Proof.
  intros (a & m & n & b & -> & HA & HB & HN & HL). unfold parse_names_list, trim.
  rewrite trim_exact by (try apply whites; auto using quoted_edges). cbn zeta.
  assert (Q : trim_quotes (repeat 34 m ++ name ++ repeat 34 n) = name).
  { unfold trim_quotes. apply trim_exact; try (now apply Forall_repeat). destruct HN as (x & l & y & r & E1 & E2 & _ & _ & X & Y).
    exists x, l, y, r. repeat split; auto; now apply N.eqb_neq. }
  destruct (repeat 34 m ++ name ++ repeat 34 n) as [|c rest]; [now rewrite Q|].
  destruct (N.eq_dec c 91) as [->|NC].
  - destruct (rev rest) as [|d inner] eqn:ER; [now rewrite Q|].
    destruct (N.eq_dec d 93) as [->|ND].
    + exfalso. apply HL. exists (rev inner). rewrite <- (rev_involutive rest), ER. reflexivity.
    + rewrite Q. destruct d as [|d]; [reflexivity|]. do 7 (destruct d as [d|d|]; try reflexivity). congruence.
  - rewrite Q. destruct c as [|c]; [reflexivity|]. do 7 (destruct c as [c|c|]; try reflexivity). congruence.
Qed.

Theorem one_column s t name cols : (forall i o, ~ marked s i o) -> s_keys s = Some t -> names_one t name ->
  (from_metadata s = Some cols <-> exists i, cols = [i] /\ called s name i /\ supported s i).
Proof.
  intros HM HK HP. unfold from_metadata. destruct (marks s) as [|[o i] ms] eqn:EM.
  2: { exfalso. apply (HM i o). apply marks_spec. rewrite EM. now left. }
  rewrite HK, (parse_one t name HP). unfold from_key_name. split.
  - destruct (find_field s name) as [i|] eqn:EF; [|discriminate]. rewrite key_col_spec. intros [-> HS].
    apply find_spec in EF. inversion HS; subst. eauto.
  - intros (i & -> & H & HS). apply find_spec in H. rewrite H. apply key_col_spec. auto.
Qed.

(** *** What the builder builds *)
Lemma called_keys s k name i : called (mkSchema (s_fields s) k) name i <-> called s name i.
Proof. reflexivity. Qed.

Theorem builder_columns s names w s' cols : builder s names w = Some (s', cols) <->
  names <> [] /\ Forall2 (called s) names cols /\ Forall (supported s) cols /\
  s' = (if w then mkSchema (s_fields s) (Some (names_text names)) else s).
Proof.
  unfold builder. destruct names as [|n names]; [split; [discriminate|intros [H _]; congruence]|].
  assert (HS : forall t l, s_fields t = s_fields s -> (Forall (supported t) l <-> Forall (supported s) l)).
  { intros t l E. unfold supported. now rewrite E. }
  set (t := if w then mkSchema (s_fields s) (Some (names_text (n :: names))) else s).
  assert (ET : s_fields t = s_fields s) by (unfold t; destruct w; reflexivity).
  split.
  - destruct (find_all s (n :: names)) as [l|] eqn:EF; [|discriminate].
    destruct (projection_for_columns t l) as [c|] eqn:EP; [|discriminate]. intros H. inversion H; subst.
    apply projection_spec in EP as (_ & -> & HF). apply find_all_spec in EF. apply (HS t l ET) in HF.
    split; [discriminate|]. auto.
  - intros (_ & HF & HU & ->). apply find_all_spec in HF as EF. rewrite EF.
    assert (EP : projection_for_columns t cols = Some cols).
    { apply projection_spec. split; [inversion HF; discriminate|]. split; auto. now apply (HS t cols ET). }
    rewrite EP. reflexivity.
Qed.

Theorem builder_text s names s' cols : builder s names true = Some (s', cols) -> Forall plain names ->
  s_keys s' = Some (names_list names).
Proof. intros HB HP. apply builder_columns in HB as (_ & _ & _ & ->). cbn [s_keys]. now rewrite names_listed. Qed.
Theorem builder_key s names w s' cols : builder s names w = Some (s', cols) ->
  names <> [] /\ Forall2 (called s) names cols /\ Forall (supported s) cols /\ s_fields s' = s_fields s /\
  (w = false -> s' = s) /\ (w = true -> Forall plain names -> s_keys s' = Some (names_list names)).
Proof.
  intros HB. apply builder_columns in HB as HX. destruct HX as (HN & HF & HS & E). repeat split; auto.
  - subst s'. now destruct w.
  - intros ->. exact E.
  - intros -> HP. eapply builder_text; eauto.
Qed.
Theorem builder_refuses s names w : builder s names w = None <->
  ~ (names <> [] /\ exists cols, Forall2 (called s) names cols /\ Forall (supported s) cols).
Proof.
  split.
  - intros HB (HN & cols & HF & HS).
    assert (X : builder s names w = Some (if w then mkSchema (s_fields s) (Some (names_text names)) else s, cols)).
    { apply builder_columns. auto. }
    congruence.
  - intros H. destruct (builder s names w) as [[s' cols]|] eqn:E; auto. exfalso. apply H.
    apply builder_columns in E as (HN & HF & HS & _). eauto.
Qed.

Theorem round_trip s names s' cols : builder s names true = Some (s', cols) ->
  (forall i o, ~ marked s i o) -> Forall plain names -> from_metadata s' = Some cols.
Proof.
  intros HB HM HP. apply builder_columns in HB as (HN & HF & HS & ->). apply (named_columns _ names); auto. cbn [s_keys]. now rewrite names_listed.
Qed.
