(** Proofs about the names of files. *)
From Coq Require Import List NArith ZArith Bool Lia Sorting.Permutation Sorting.Sorted.
From Verif Require Import Model.WalNames Spec.NameSpec.
Import ListNotations.
Local Open Scope N_scope.

(** *** Digits *)
Definition digit (c : N) : Prop := 48 <= c /\ c <= 57.
Fixpoint val (acc : N) (s : name) : N := match s with [] => acc | c :: r => val (acc * 10 + (c - 48)) r end.

Lemma val_app : forall a acc b, val acc (a ++ b) = val (val acc a) b.
Proof. induction a; intros; cbn; auto. Qed.
Lemma val_ge : forall s acc, acc <= val acc s.
Proof. induction s; intros; cbn; [lia|]. eapply N.le_trans; [|apply IHs]. lia. Qed.
Lemma val_mono : forall s a b, a < b -> val a s < val b s.
Proof. induction s; intros; cbn; [lia|]. apply IHs. lia. Qed.

Lemma digits_length : forall w n, length (digits w n) = w.
Proof. induction w; intros; [reflexivity|]. cbn [digits]. rewrite app_length, IHw. cbn [length]. apply PeanoNat.Nat.add_1_r. Qed.
Lemma digits_digit : forall w n, Forall digit (digits w n).
Proof.
  induction w; intros; cbn [digits]; [constructor|]. apply Forall_app. split; [apply IHw|]. constructor; [|constructor].
  assert (n mod 10 < 10) by (apply N.mod_lt; discriminate). unfold digit. remember (n mod 10) as m. lia.
Qed.
Lemma pow10_S : forall w, 10 ^ N.of_nat (S w) = 10 * 10 ^ N.of_nat w.
Proof. intros. rewrite Nat2N.inj_succ, N.pow_succ_r'. reflexivity. Qed.
Lemma dm : forall n, n = 10 * (n / 10) + n mod 10 /\ n mod 10 < 10.
Proof. intros n. split; [apply N.div_mod; discriminate|apply N.mod_lt; discriminate]. Qed.
Lemma val_digits : forall w n, n < 10 ^ N.of_nat w -> val 0 (digits w n) = n.
Proof.
  induction w; intros n H; [cbn in *; lia|]. rewrite pow10_S in H. cbn [digits]. rewrite val_app.
  rewrite IHw by (apply N.div_lt_upper_bound; lia). cbn [val].
  destruct (dm n) as [E _]. generalize dependent (n / 10). generalize (n mod 10). intros. lia.
Qed.
Lemma digits_val : forall s, Forall digit s -> digits (length s) (val 0 s) = s.
Proof.
  induction s using rev_ind; intros H; [reflexivity|]. apply Forall_app in H. destruct H as [H1 H2]. inversion H2; subst.
  rewrite app_length, Nat.add_comm. cbn [length Nat.add digits]. rewrite val_app. cbn [val]. unfold digit in H3.
  assert (D : (val 0 s * 10 + (x - 48)) / 10 = val 0 s) by (symmetry; apply N.div_unique with (x - 48); lia).
  assert (M : (val 0 s * 10 + (x - 48)) mod 10 = x - 48) by (symmetry; apply N.mod_unique with (val 0 s); lia).
  rewrite D, M, (IHs H1). do 2 f_equal. lia.
Qed.
Lemma val_bound : forall s, Forall digit s -> val 0 s < 10 ^ N.of_nat (length s).
Proof.
  induction s using rev_ind; intros H; [cbn; lia|]. apply Forall_app in H. destruct H as [H1 H2]. inversion H2; subst.
  rewrite app_length, Nat.add_comm. cbn [length Nat.add]. rewrite pow10_S, val_app. cbn [val]. unfold digit in H3. specialize (IHs H1). lia.
Qed.

Lemma parse_digits_ok : forall s acc, Forall digit s -> val acc s < 2 ^ 64 -> parse_digits acc s = Some (val acc s).
Proof.
  induction s; intros acc H B; [reflexivity|]. inversion H; subst. cbn [parse_digits val] in *. unfold digit in H2.
  destruct (N.leb_spec 48 a); [|lia]. destruct (N.leb_spec a 57); [|lia]. cbn [andb].
  pose proof (val_ge s (acc * 10 + (a - 48))).
  destruct (N.ltb_spec (acc * 10 + (a - 48)) (2 ^ 64)); [|lia]. apply IHs; auto.
Qed.
Lemma parse_digits_some : forall s acc n, acc < 2 ^ 64 -> parse_digits acc s = Some n -> Forall digit s /\ val acc s = n /\ n < 2 ^ 64.
Proof.
  induction s; intros acc n A H; cbn [parse_digits] in H; [injection H as <-; auto|].
  destruct (N.leb_spec 48 a); [|discriminate]. destruct (N.leb_spec a 57); [|discriminate]. cbn [andb] in H.
  destruct (N.ltb_spec (acc * 10 + (a - 48)) (2 ^ 64)); [|discriminate].
  destruct (IHs _ _ H2 H) as (F & V & B). repeat split; auto. constructor; auto. split; auto.
Qed.
Lemma parse_u64_digit : forall c r, c <> 43 -> parse_u64 (c :: r) = parse_digits 0 (c :: r).
Proof.
  intros c r H. destruct c as [|p]; [reflexivity|].
  do 6 (try (destruct p as [p|p|]; try reflexivity)). exfalso. apply H. reflexivity.
Qed.

(** *** Prefixes *)
Lemma strip_prefix_iff : forall p s r, strip_prefix p s = Some r <-> s = p ++ r.
Proof.
  induction p; intros s r; cbn; [split; congruence|]. destruct s as [|y s]; [split; discriminate|].
  destruct (N.eqb_spec a y).
  - subst. rewrite IHp. split; congruence.
  - split; [discriminate|]. intros H. injection H as E _. congruence.
Qed.
Lemma strip_suffix_iff : forall p s r, strip_suffix p s = Some r <-> s = r ++ p.
Proof.
  intros p s r. unfold strip_suffix. split; intros H.
  - destruct (strip_prefix (rev p) (rev s)) as [x|] eqn:E; [|discriminate]. cbn in H. injection H as <-.
    apply strip_prefix_iff in E. rewrite <- (rev_involutive s), E, rev_app_distr, rev_involutive. reflexivity.
  - subst s. rewrite rev_app_distr. rewrite (proj2 (strip_prefix_iff (rev p) (rev p ++ rev r) (rev r)) eq_refl).
    cbn. rewrite rev_involutive. reflexivity.
Qed.
Lemma sequence_iff : forall s n, segment_sequence s = Some n <-> exists d, s = n_wal ++ d ++ n_tonwal /\ length d = 20%nat /\ parse_u64 d = Some n.
Proof.
  intros s n. unfold segment_sequence. split.
  - destruct (strip_prefix n_wal s) as [r|] eqn:A; [|discriminate]. apply strip_prefix_iff in A.
    destruct (strip_suffix n_tonwal r) as [d|] eqn:B; [|discriminate]. apply strip_suffix_iff in B.
    destruct (Nat.eqb_spec (length d) 20); [|discriminate]. intros P. exists d. subst. auto.
  - intros (d & E & L & P). rewrite (proj2 (strip_prefix_iff n_wal s (d ++ n_tonwal)) E).
    rewrite (proj2 (strip_suffix_iff n_tonwal (d ++ n_tonwal) d) eq_refl). rewrite L. cbn [Nat.eqb]. exact P.
Qed.

Lemma u64_20 : forall n, u64 n -> n < 10 ^ N.of_nat 20.
Proof. intros n H. unfold u64 in H. assert (2 ^ 64 < 10 ^ N.of_nat 20) by reflexivity. lia. Qed.

Lemma name_round : forall n, u64 n -> segment_sequence (segment_name n) = Some n.
Proof.
  intros n H. apply sequence_iff. exists (digits 20 n). split; [reflexivity|]. split; [apply digits_length|].
  pose proof (digits_digit 20 n) as D. pose proof (val_digits 20 n (u64_20 n H)) as V. pose proof (digits_length 20 n) as L.
  destruct (digits 20 n) as [|c r]; [discriminate|]. inversion D; subst. rewrite parse_u64_digit by (unfold digit in *; lia).
  rewrite parse_digits_ok; auto; rewrite V; auto.
Qed.
Lemma name_inj : forall a b, u64 a -> u64 b -> segment_name a = segment_name b -> a = b.
Proof. intros a b A B E. apply name_round in A, B. rewrite E in A. congruence. Qed.

Lemma name_back : forall s n, segment_sequence s = Some n -> ~ (exists r, s = n_wal ++ 43 :: r) -> s = segment_name n /\ u64 n.
Proof.
  intros s n H P. apply sequence_iff in H. destruct H as (d & E & L & V). subst s. destruct d as [|c r]; [discriminate|].
  destruct (N.eq_dec c 43) as [->|C]; [exfalso; apply P; exists (r ++ n_tonwal); reflexivity|]. rewrite parse_u64_digit in V by auto.
  apply parse_digits_some in V; [|reflexivity]. destruct V as (F & V & B). split; [|exact B].
  unfold segment_name. rewrite <- V. rewrite <- (digits_val (c :: r) F) at 1. rewrite L. reflexivity.
Qed.

(** *** Order *)
Lemma before_app : forall p a b, before a b -> before (p ++ a) (p ++ b).
Proof. induction p; intros; cbn; auto. apply before_rest; auto. Qed.
Lemma before_more : forall a b, before a b -> length a = length b -> forall x y, before (a ++ x) (b ++ y).
Proof.
  induction 1; intros L u v; cbn in *.
  - apply before_byte; auto.
  - apply before_rest. apply IHbefore. lia.
  - discriminate.
Qed.
Lemma digits_before : forall w a b, b < 10 ^ N.of_nat w -> a < b -> before (digits w a) (digits w b).
Proof.
  induction w; intros a b B H; [change (b < 1) in B; lia|]. rewrite pow10_S in B. cbn [digits].
  destruct (dm a) as [A1 A2]. destruct (dm b) as [B1 B2].
  set (qa := a / 10) in *. set (qb := b / 10) in *. set (ra := a mod 10) in *. set (rb := b mod 10) in *.
  clearbody qa qb ra rb. destruct (N.lt_trichotomy qa qb) as [D|[D|D]]; [| |lia].
  - apply before_more; [apply IHw; [lia|auto]|]. rewrite !digits_length. reflexivity.
  - rewrite D. apply before_app. apply before_byte. lia.
Qed.
Lemma name_before : forall a b, u64 b -> a < b -> before (segment_name a) (segment_name b).
Proof.
  intros a b B H. unfold segment_name. apply before_app. apply before_more; [apply digits_before; auto; apply u64_20; auto|].
  rewrite !digits_length. reflexivity.
Qed.

(** *** Listing *)
Local Opaque segment_name segment_sequence digits.
Lemma name_eqb_iff : forall a b, name_eqb a b = true <-> a = b.
Proof. intros. unfold name_eqb. destruct (list_eq_dec N.eq_dec a b); split; congruence. Qed.
Lemma path_eqb_iff : forall a b, path_eqb a b = true <-> a = b.
Proof.
  intros [d n] [d' n']. unfold path_eqb. cbn [p_dir p_name]. rewrite andb_true_iff, name_eqb_iff.
  destruct (list_eq_dec (list_eq_dec N.eq_dec) d d') as [->|E]; split.
  - intros (_ & ->). reflexivity.
  - intros H. injection H as ->. auto.
  - intros (H & _). discriminate.
  - intros H. injection H as H _. congruence.
Qed.
Lemma starts_iff : forall r d, starts r d = true <-> exists more, d = r ++ more.
Proof.
  induction r; intros d; cbn; [split; eauto|]. destruct d as [|y d]; [split; [discriminate|intros (m & H); discriminate]|].
  rewrite andb_true_iff, name_eqb_iff, IHr. split.
  - intros (-> & m & ->). eauto.
  - intros (m & H). injection H as -> ->. eauto.
Qed.

Lemma describe_in : forall l n p, In (n, p) (describe l) <-> In p l /\ segment_sequence (p_name p) = Some n.
Proof.
  intros l n p. unfold describe. rewrite in_flat_map. split.
  - intros (q & I & H). destruct (segment_sequence (p_name q)) eqn:E; [|destruct H]. destruct H as [H|[]]. injection H as <- <-. auto.
  - intros (I & E). exists p. split; auto. rewrite E. left. reflexivity.
Qed.
Lemma insert_in : forall x l y, In y (insert_seq x l) <-> y = x \/ In y l.
Proof.
  induction l; intros y; cbn; [intuition|]. destruct (fst x <=? fst a); cbn; [intuition|]. rewrite IHl. intuition.
Qed.
Lemma sort_in : forall l y, In y (sort_seq l) <-> In y l.
Proof. induction l; intros y; cbn; [tauto|]. rewrite insert_in, IHl. intuition. Qed.
Definition seq_le (a b : N * path) : Prop := fst a <= fst b.
Lemma insert_sorted : forall x l, StronglySorted seq_le l -> StronglySorted seq_le (insert_seq x l).
Proof.
  induction l; intros S; cbn; [repeat constructor|]. inversion S; subst. destruct (N.leb_spec (fst x) (fst a)).
  - constructor; auto. constructor; auto. eapply Forall_impl; [|exact H2]. unfold seq_le. intros. lia.
  - constructor; auto. rewrite Forall_forall in *. intros y I. apply insert_in in I. destruct I as [->|I]; [unfold seq_le; lia|auto].
Qed.
Lemma sort_sorted : forall l, StronglySorted seq_le (sort_seq l).
Proof. induction l; cbn; [constructor|]. apply insert_sorted; auto. Qed.

Lemma dedup_in : forall l y, In y (dedup l) <-> In y l.
Proof.
  induction l as [|x l IH]; intros y; cbn; [tauto|]. specialize (IH). destruct (dedup l) as [|z r] eqn:E.
  - cbn in *. rewrite <- IH. tauto.
  - destruct ((fst x =? fst z) && path_eqb (snd x) (snd z)) eqn:B; [|cbn in *; rewrite <- IH; tauto].
    apply andb_true_iff in B. destruct B as [B1 B2]. apply N.eqb_eq in B1. apply path_eqb_iff in B2.
    assert (x = z) by (destruct x, z; cbn in *; congruence). subst z. rewrite <- IH. cbn. tauto.
Qed.
Lemma dedup_sorted : forall f l, (forall e, In e l -> snd e = f (fst e)) -> StronglySorted seq_le l -> StronglySorted N.lt (map fst (dedup l)).
Proof.
  induction l as [|x l IH]; intros F S; cbn; [constructor|]. inversion S; subst.
  assert (IH' := IH (fun e I => F e (or_intror I)) H1). clear IH.
  assert (G : forall y, In y (dedup l) -> fst x <= fst y /\ snd y = f (fst y)).
  { intros y I. rewrite dedup_in in I. rewrite Forall_forall in H2. split; [apply (H2 y I)|apply F; right; exact I]. }
  destruct (dedup l) as [|z r]; [cbn; repeat constructor|].
  destruct ((fst x =? fst z) && path_eqb (snd x) (snd z)) eqn:B.
  - apply andb_true_iff in B. destruct B as [B1 B2]. apply N.eqb_eq in B1. cbn in *. rewrite B1. exact IH'.
  - assert (L : fst x < fst z).
    { destruct (G z (or_introl eq_refl)) as [G1 G2]. destruct (N.eq_dec (fst x) (fst z)) as [E|]; [|lia].
      exfalso. apply andb_false_iff in B. destruct B as [B|B]; [apply N.eqb_neq in B; auto|].
      assert (snd x = snd z) by (rewrite G2, (F x (or_introl eq_refl)), E; reflexivity).
      apply path_eqb_iff in H. congruence. }
    cbn [map] in *. constructor; auto. inversion IH'; subst. constructor; auto.
    eapply Forall_impl; [|eassumption]. cbn. intros. lia.
Qed.

Lemma foreign_none : forall p, foreign p -> segment_sequence (p_name p) = None.
Proof.
  intros p F. destruct (segment_sequence (p_name p)) eqn:E; auto. apply sequence_iff in E. destruct E as (d & E & L & _).
  exfalso. exact (F d L E).
Qed.

(** What a listing of files [here] ~ files of [ns] and foreign ones describes *)
Lemma describe_files : forall root ns here, Forall u64 ns ->
  (forall p, In p here -> In p (files_of root ns) \/ foreign p) -> (forall p, In p (files_of root ns) -> In p here) ->
  (forall n p, In (n, p) (describe here) <-> In n ns /\ p = mkPath root (segment_name n)).
Proof.
  intros root ns here U A B n p. rewrite Forall_forall in U. rewrite describe_in. split.
  - intros (I & E). destruct (A p I) as [J|J].
    + apply in_map_iff in J. destruct J as (m & <- & J). cbn [p_name] in E. rewrite name_round in E by auto. injection E as <-. auto.
    + rewrite (foreign_none p J) in E. discriminate.
  - intros (I & ->). split; [apply B; apply in_map_iff; eauto|]. cbn [p_name]. apply name_round. auto.
Qed.

Lemma lists_of : forall root l ns, (forall n p, In (n, p) l <-> In n ns /\ p = mkPath root (segment_name n)) -> lists root (dedup (sort_seq l)) ns.
Proof.
  intros root l ns H. split; [|split].
  - apply dedup_sorted with (f := fun n => mkPath root (segment_name n)); [|apply sort_sorted].
    intros [n p] I. rewrite sort_in, H in I. cbn. apply I.
  - intros n. rewrite in_map_iff. split.
    + intros ([m p] & <- & I). rewrite dedup_in, sort_in, H in I. apply I.
    + intros I. exists (n, mkPath root (segment_name n)). split; auto. rewrite dedup_in, sort_in, H. auto.
  - intros n p I. rewrite dedup_in, sort_in, H in I. apply I.
Qed.

Lemma perm_files : forall root ns others here, Forall foreign others -> Permutation here (files_of root ns ++ others) ->
  (forall p, In p here -> In p (files_of root ns) \/ foreign p) /\ (forall p, In p (files_of root ns) -> In p here).
Proof.
  intros root ns others here F P. rewrite Forall_forall in F. split; intros p I.
  - apply (Permutation_in _ P), in_app_or in I. destruct I; auto.
  - apply (Permutation_in _ (Permutation_sym P)). apply in_or_app. auto.
Qed.

Lemma list_plain : forall s3 root ns others here all hint, Forall u64 ns -> Forall foreign others ->
  Permutation here (files_of root ns ++ others) ->
  (s3 = false \/ hint = None \/ exists n, hint = Some n /\ In n ns) ->
  lists root (list_segments s3 root hint here all) ns.
Proof.
  intros s3 root ns others here all hint U F P C. destruct (perm_files _ _ _ _ F P) as [A B].
  pose proof (describe_files root ns here U A B) as D. unfold list_segments.
  assert (E : forall n, In n ns -> existsb (fun e => fst e =? n) (describe here) = true).
  { intros n I. apply existsb_exists. exists (n, mkPath root (segment_name n)). split; [apply D; auto|apply N.eqb_refl]. }
  assert (M : match hint with
              | Some n => if s3 && negb (existsb (fun e => fst e =? n) (describe here))
                          then describe (filter (fun p => starts root (p_dir p)) all) else []
              | None => [] end = []).
  { destruct C as [->|[->|(n & -> & I)]]; [destruct hint; reflexivity|reflexivity|]. rewrite (E n I), andb_false_r. reflexivity. }
  rewrite M, app_nil_r. apply lists_of. exact D.
Qed.
Lemma list_fallback : forall root ns shown others here others' away all n, Forall u64 ns -> incl shown ns ->
  Forall foreign others -> Permutation here (files_of root shown ++ others) -> ~ In n shown ->
  Forall foreign others' -> Forall (elsewhere root) away -> Permutation all (files_of root ns ++ others' ++ away) ->
  lists root (list_segments true root (Some n) here all) ns.
Proof.
  intros root ns shown others here others' away all n U I F P N F' W Q.
  assert (U' : Forall u64 shown) by (rewrite Forall_forall in *; auto).
  destruct (perm_files _ _ _ _ F P) as [A B]. pose proof (describe_files root shown here U' A B) as D.
  unfold list_segments.
  assert (E : existsb (fun e => fst e =? n) (describe here) = false).
  { destruct (existsb _ _) eqn:E; auto. apply existsb_exists in E. destruct E as ([m p] & J & K). apply N.eqb_eq in K. cbn in K. subst m.
    apply D in J. tauto. }
  rewrite E. cbn [negb andb]. apply lists_of.
  assert (D' : forall m p, In (m, p) (describe (filter (fun p => starts root (p_dir p)) all)) <-> In m ns /\ p = mkPath root (segment_name m)).
  { apply describe_files; auto.
    - intros p J. apply filter_In in J. destruct J as [J K]. apply starts_iff in K. destruct K as (more & K).
      apply (Permutation_in _ Q), in_app_or in J. destruct J as [J|J]; auto. apply in_app_or in J.
      rewrite Forall_forall in F', W. destruct J as [J|J]; auto. exfalso. exact (W p J more K).
    - intros p J. apply filter_In. split.
      + apply (Permutation_in _ (Permutation_sym Q)). apply in_or_app. auto.
      + apply in_map_iff in J. destruct J as (m & <- & _). cbn. apply starts_iff. exists []. rewrite app_nil_r. reflexivity. }
  intros m p. rewrite in_app_iff, D, D'. split; [intros [[J ->]|J]; auto|]. auto.
Qed.

Lemma sorted_filter : forall l f, StronglySorted N.lt l -> StronglySorted N.lt (filter f l).
Proof.
  induction l; intros f S; cbn; [constructor|]. inversion S; subst. destruct (f a); auto. constructor; auto.
  rewrite Forall_forall in *. intros x I. apply filter_In in I. apply H2. apply I.
Qed.
Lemma prune_files : forall root ns others here floor, Forall u64 ns -> Forall foreign others ->
  Permutation here (files_of root ns ++ others) ->
  (forall p, In p (prune_below floor root here) <-> exists n, In n ns /\ n < floor /\ p = mkPath root (segment_name n)) /\
  NoDup (prune_below floor root here).
Proof.
  intros root ns others here floor U F P. unfold prune_below. destruct (N.eqb_spec floor 0).
  { split; [|constructor]. intros p. split; [intros []|]. intros (n & _ & H & _). lia. }
  pose proof (list_plain false root ns others here [] None U F P (or_introl eq_refl)) as (S & I & L).
  remember (list_segments false root None here []) as l. clear Heql. split.
  - intros p. rewrite in_map_iff. split.
    + intros ([m q] & <- & J). apply filter_In in J. destruct J as [J K]. apply N.ltb_lt in K. cbn in *. exists m. split; [|split; auto].
      apply I. apply in_map_iff. exists (m, q). auto.
    + intros (m & J & K & ->). apply I, in_map_iff in J. destruct J as ([m' q] & <- & J). cbn in *. exists (m', q). split; [apply L; auto|].
      apply filter_In. split; auto. apply N.ltb_lt. auto.
  - assert (G : forall e, In e (filter (fun e => fst e <? floor) l) -> In (fst e) ns /\ snd e = mkPath root (segment_name (fst e))).
    { intros [m q] J. apply filter_In in J. destruct J as [J _]. split; [apply I; apply in_map_iff; eauto|apply L; auto]. }
    assert (S' : StronglySorted N.lt (map fst (filter (fun e => fst e <? floor) l))).
    { clear - S. induction l as [|x l IH]; cbn; [constructor|]. cbn in S. inversion S; subst. destruct (fst x <? floor); auto. cbn. constructor; auto.
      rewrite Forall_forall in *. intros y J. apply H2. apply in_map_iff in J. destruct J as (e & <- & J). apply filter_In in J. apply in_map. apply J. }
    remember (filter (fun e => fst e <? floor) l) as k. clear - U G S'. rewrite Forall_forall in U.
    induction k as [|x k IH]; cbn; [constructor|]. cbn in S'. inversion S'; subst. constructor; [|apply IH; auto; intros; apply G; right; auto].
    intros J. apply in_map_iff in J. destruct J as (y & E & J).
    destruct (G x (or_introl eq_refl)) as [G1 G2]. destruct (G y (or_intror J)) as [G3 G4].
    rewrite G2, G4 in E. apply (f_equal p_name) in E. cbn [p_name] in E. rewrite Forall_forall in H2. specialize (H2 (fst y) (in_map fst _ _ J)).
    assert (fst y = fst x) by (apply name_inj; [apply U; exact G3|apply U; exact G1|exact E]). lia.
Qed.

(** *** A file with a plus sign *)
Definition plus_name (n : N) : name := n_wal ++ 43 :: digits 19 n ++ n_tonwal.
Lemma plus_read : forall n, n < 10 ^ 19 -> segment_sequence (plus_name n) = Some n.
Proof.
  intros n H. apply sequence_iff. exists (43 :: digits 19 n). split; [reflexivity|]. split; [cbn [length]; rewrite digits_length; reflexivity|].
  pose proof (digits_digit 19 n) as D. pose proof (val_digits 19 n H) as V. pose proof (digits_length 19 n) as L.
  destruct (digits 19 n) as [|c r]; [discriminate|]. change (parse_digits 0 (c :: r) = Some n).
  assert (10 ^ 19 < 2 ^ 64) by reflexivity. rewrite parse_digits_ok; auto; rewrite V; auto. eapply N.lt_trans; eauto.
Qed.
Lemma plus_not : forall n m, plus_name n <> segment_name m.
Proof.
  intros n m E. unfold plus_name in E. Local Transparent segment_name. unfold segment_name in E. Local Opaque segment_name.
  apply app_inv_head in E. pose proof (digits_digit 20 m) as D. pose proof (digits_length 20 m) as L.
  destruct (digits 20 m) as [|c r]; [discriminate|]. cbn in E. injection E as E _. inversion D; subst. unfold digit in *. lia.
Qed.
Lemma plus_exists : exists s n, segment_sequence s = Some n /\ s <> segment_name n.
Proof. exists (plus_name 7), 7. split; [apply plus_read; reflexivity|apply plus_not]. Qed.
Lemma plus_twice : forall root n, n < 10 ^ 19 ->
  list_segments false root None [mkPath root (plus_name n); mkPath root (segment_name n)] []
    = [(n, mkPath root (plus_name n)); (n, mkPath root (segment_name n))].
Proof.
  intros root n H. assert (U : u64 n) by (unfold u64; assert (10 ^ 19 < 2 ^ 64) by reflexivity; lia).
  unfold list_segments, describe. cbn [flat_map p_name app]. rewrite plus_read, name_round by auto.
  cbn [app sort_seq fold_right insert_seq fst]. rewrite N.leb_refl. cbn [dedup fst snd].
  destruct (path_eqb (mkPath root (plus_name n)) (mkPath root (segment_name n))) eqn:E; [|rewrite andb_false_r; reflexivity].
  apply path_eqb_iff in E. apply (f_equal p_name) in E. cbn [p_name] in E. exfalso. exact (plus_not n n E).
Qed.

(** *** A listing that shows the expected segment and not another *)
Lemma gap : forall root a b, u64 a -> u64 b -> a < b ->
  list_segments true root (Some b) (files_of root [b]) (files_of root [a; b]) = [(b, mkPath root (segment_name b))].
Proof.
  intros root a b A B H. unfold list_segments, describe, files_of. cbn [map flat_map p_name app]. rewrite (name_round b B).
  cbn [app existsb fst]. rewrite N.eqb_refl. reflexivity.
Qed.

(** *** Tables *)
Lemma decimal_inj : forall a b, u64 a -> u64 b -> decimal a = decimal b -> a = b.
Proof.
  assert (Z : forall k s acc, (length s <= k)%nat -> acc = 0 -> val acc (strip_zeros s) = val acc s).
  { induction k; intros s acc L E.
    - destruct s; [reflexivity|cbn in L; lia].
    - destruct s as [|c r]; [reflexivity|]. destruct (N.eq_dec c 48) as [->|C].
      + destruct r as [|x r]; [reflexivity|]. change (val acc (strip_zeros (x :: r)) = val (acc * 10 + 0) (x :: r)).
        replace (acc * 10 + 0) with acc by lia. apply IHk; auto. cbn in *. lia.
      + destruct c as [|p]; [reflexivity|]. do 6 (try (destruct p as [p|p|]; try reflexivity)). exfalso. apply C. reflexivity. }
  intros a b A B E. unfold decimal in E. apply (f_equal (val 0)) in E. rewrite !(Z 20%nat) in E by (rewrite ?digits_length; auto).
  rewrite !val_digits in E by (apply u64_20; auto). exact E.
Qed.
Lemma digits_inj : forall a b x, u64 a -> u64 b -> digits 20 a ++ x = digits 20 b ++ x -> a = b.
Proof.
  intros a b x A B E. apply app_inv_tail in E. apply (f_equal (val 0)) in E. rewrite !val_digits in E by (apply u64_20; auto). exact E.
Qed.
Lemma tables_apart : forall root l i l' i', u64 l -> u64 i -> u64 l' -> u64 i' ->
  (fst (table_paths root l i) = fst (table_paths root l' i') -> l = l' /\ i = i') /\
  (snd (table_paths root l i) = snd (table_paths root l' i') -> l = l' /\ i = i') /\
  fst (table_paths root l i) <> snd (table_paths root l' i').
Proof.
  intros root l i l' i' L I L' I'. unfold table_paths, level_dir. cbn [fst snd].
  assert (D : root ++ [76 :: decimal l] = root ++ [76 :: decimal l'] -> l = l').
  { intros E. apply app_inv_head in E. injection E as E. apply decimal_inj; auto. }
  split; [|split].
  - intros E. split; [apply D; exact (f_equal p_dir E)|]. apply (digits_inj i i' n_parquet I I'). exact (f_equal p_name E).
  - intros E. split; [apply D; exact (f_equal p_dir E)|]. apply (digits_inj i i' n_delete I I'). exact (f_equal p_name E).
  - intros E. apply (f_equal (fun p => length (p_name p))) in E. cbn [p_name] in E. rewrite !app_length, !digits_length in E. discriminate.
Qed.
Lemma end_apart : forall a b x y d, a ++ x = n_wal ++ d ++ y -> rev x <> [] -> hd 0 (rev x) <> hd 0 (rev y) -> rev y <> [] -> b = a -> False.
Proof.
  intros a b x y d E X H Y _. apply (f_equal (@rev N)) in E. rewrite !rev_app_distr in E.
  destruct (rev x); [congruence|]. destruct (rev y); [congruence|]. cbn in *. congruence.
Qed.
Lemma tables_foreign : forall root l i, foreign (fst (table_paths root l i)) /\ foreign (snd (table_paths root l i)).
Proof.
  intros root l i. split; intros d _ E; unfold table_paths in E; cbn [fst snd p_name] in E;
    (eapply end_apart; [exact E| | | |reflexivity]; cbn; discriminate).
Qed.
Lemma state_foreign : forall root, foreign (mkPath root n_state).
Proof. intros root d _ E. cbn [p_name] in E. apply (end_apart [] [] n_state n_tonwal d) in E; auto; cbn; discriminate. Qed.

(** *** An example *)
Definition n_root : list name := [[100; 98]; [119; 97; 108]].
Definition n_here : list path :=
  [mkPath n_root n_state; mkPath n_root (segment_name 12); mkPath n_root (segment_name 9); mkPath n_root (segment_name (2 ^ 64 - 1))].
Lemma n_here_fits : Forall u64 [9; 12; 2 ^ 64 - 1] /\ Forall foreign [mkPath n_root n_state] /\
  Permutation n_here (files_of n_root [9; 12; 2 ^ 64 - 1] ++ [mkPath n_root n_state]) /\
  list_segments false n_root None n_here []
    = [(9, mkPath n_root (segment_name 9)); (12, mkPath n_root (segment_name 12)); (2 ^ 64 - 1, mkPath n_root (segment_name (2 ^ 64 - 1)))].
Proof.
  split; [repeat constructor|]. split; [repeat constructor; apply state_foreign|]. split; [|vm_compute; reflexivity].
  unfold n_here, files_of. cbn [map app].
  eapply perm_trans; [|apply (Permutation_app_comm [mkPath n_root n_state] [_; _; _])].
  cbn [app]. apply perm_skip. apply perm_swap.
Qed.
Lemma only_fits : segment_sequence (segment_name 18446744073709551615) = Some 18446744073709551615 /\
  ~ (exists r, segment_name 18446744073709551615 = n_wal ++ 43 :: r).
Proof.
  split; [apply name_round; reflexivity|]. intros (r & E). vm_compute in E. discriminate.
Qed.
Lemma fallback_fits :
  Forall u64 [3; 4; 5] /\ incl [3] [3; 4; 5] /\ ~ In 5 [3] /\ Forall (elsewhere n_root) [mkPath [[100; 98]; [115; 115; 116]] (segment_name 8)] /\
  list_segments true n_root (Some 5) (files_of n_root [3])
    (mkPath [[100; 98]; [115; 115; 116]] (segment_name 8) :: files_of n_root [5; 4; 3])
    = [(3, mkPath n_root (segment_name 3)); (4, mkPath n_root (segment_name 4)); (5, mkPath n_root (segment_name 5))].
Proof.
  split; [repeat constructor|]. split; [intros x [<-|[]]; cbn; auto|]. split; [intros [E|[]]; discriminate|].
  split; [|vm_compute; reflexivity]. constructor; [|constructor]. intros more E. cbn in E. discriminate.
Qed.
