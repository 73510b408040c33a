(** Bounded caches, and calls that share one. *)
From Coq Require Import List NArith Bool Arith Lia Permutation.
From Verif Require Import Model.Caches Spec.CacheSpec Proof.RangeFacts.
Import ListNotations.

Section CacheLemmas.
  Context {K V : Type}.
  Variable keqb : K -> K -> bool.
  Hypothesis keq : forall a b, keqb a b = true <-> a = b.
  Notation lookup := (lookup (V := V) keqb).
  Notation remove := (remove (V := V) keqb).
  Notation store := (store (V := V) keqb).

  Lemma keq_refl k : keqb k k = true.
  Proof. now apply keq. Qed.
  Lemma lookup_remove k j m : lookup j (remove k m) = if keqb k j then None else lookup j m.
  Proof.
    unfold Caches.remove. induction m as [|[i v] m IH]; cbn [filter Caches.lookup fst]; [now destruct (keqb k j)|].
    destruct (keqb i k) eqn:E1; cbn [negb].
    - apply keq in E1. subst i. rewrite IH. destruct (keqb k j); auto.
    - cbn [Caches.lookup]. destruct (keqb i j) eqn:E2; auto. apply keq in E2. subst i.
      destruct (keqb k j) eqn:E3; auto. apply keq in E3. subst j. rewrite keq_refl in E1. discriminate.
  Qed.
  Lemma lookup_store k v j m : lookup j (store k v m) = if keqb k j then Some v else lookup j m.
  Proof. unfold Caches.store. cbn [Caches.lookup]. rewrite lookup_remove. destruct (keqb k j); auto. Qed.
  Lemma lookup_In k v m : NoDup (map fst m) -> (lookup k m = Some v <-> In (k, v) m).
  Proof.
    induction m as [|[i w] m IH]; intros HN; cbn [Caches.lookup]; [split; [discriminate|intros []]|].
    inversion HN as [|? ? HI HN']; subst. cbn [fst] in HI. destruct (keqb i k) eqn:E.
    - apply keq in E. subst i. split; [intros H; inversion H; now left|]. intros [H|H]; [now inversion H|].
      exfalso. apply HI. apply in_map_iff. exists (k, v). auto.
    - rewrite IH by assumption. split; [now right|]. intros [H|H]; auto. inversion H; subst. rewrite keq_refl in E. discriminate.
  Qed.
  Lemma lookup_none k m : lookup k m = None <-> ~ In k (map fst m).
  Proof.
    induction m as [|[i w] m IH]; cbn [Caches.lookup map In]; [split; auto|]. destruct (keqb i k) eqn:E; cbn [fst].
    - apply keq in E. subst i. split; [discriminate|]. intros H. exfalso. apply H. now left.
    - rewrite IH. split; [|tauto]. intros H [->|X]; [rewrite keq_refl in E; discriminate|tauto].
  Qed.
  Lemma remove_keys k m : map fst (remove k m) = filter (fun j => negb (keqb j k)) (map fst m).
  Proof. unfold Caches.remove. induction m as [|[i w] m IH]; auto. cbn [map filter fst]. destruct (keqb i k); cbn [negb map fst]; now rewrite <- IH. Qed.
  Lemma remove_NoDup k m : NoDup (map fst m) -> NoDup (map fst (remove k m)).
  Proof. rewrite remove_keys. apply NoDup_filter. Qed.
  Lemma store_NoDup k v m : NoDup (map fst m) -> NoDup (map fst (store k v m)).
  Proof.
    intros H. unfold Caches.store. cbn [map fst]. constructor; [|now apply remove_NoDup].
    rewrite remove_keys. intros X. apply filter_In in X as [_ X]. now rewrite keq_refl in X.
  Qed.
  Lemma remove_absent k m : ~ In k (map fst m) -> remove k m = m.
  Proof.
    unfold Caches.remove. induction m as [|[i w] m IH]; auto. cbn [map fst In filter]. intros H.
    destruct (keqb i k) eqn:E; [apply keq in E; subst; tauto|]. cbn [negb]. f_equal. tauto.
  Qed.

  (** The queue lists the keys of the map, each once. *)
  Definition sound (c : cache K V) : Prop :=
    NoDup (c_order c) /\ NoDup (map fst (c_map c)) /\ (forall k, In k (c_order c) <-> In k (map fst (c_map c))) /\
    1 <= c_max c.
  Definition bounded (c : cache K V) : Prop := length (c_map c) <= c_max c.

  Lemma new_sound n : sound (cache_new n) /\ bounded (cache_new n).
  Proof. unfold sound, bounded, cache_new. cbn. repeat split; try constructor; try tauto; lia. Qed.

  Lemma evict_sound max order : forall m, 1 <= max -> NoDup order -> NoDup (map fst m) ->
    (forall k, In k order <-> In k (map fst m)) ->
    exists c, evict keqb max order m = Some c /\ sound c /\ bounded c /\ c_max c = max /\
      (forall k v, lookup k (c_map c) = Some v -> lookup k m = Some v).
  Proof.
    induction order as [|k order IH]; intros m HM HO HN HI; cbn [evict].
    - assert (E : m = []). { destruct m as [|[j v] m]; auto. exfalso. apply (HI j). now left. }
      subst m. cbn [length Nat.leb]. eexists. split; [reflexivity|]. unfold sound, bounded. cbn. repeat split; auto; try constructor; lia.
    - destruct (Nat.leb_spec (length m) max) as [HL|HL].
      + eexists. split; [reflexivity|]. unfold sound, bounded. cbn [c_order c_map c_max]. auto 10.
      + inversion HO as [|? ? HK HO']; subst. destruct (IH (remove k m)) as (c & E & S1 & S2 & S3 & S4); auto.
        * now apply remove_NoDup.
        * intros j. rewrite remove_keys, filter_In. specialize (HI j). cbn [In] in HI. split.
          -- intros Hj. split; [apply HI; auto|]. apply negb_true_iff. destruct (keqb j k) eqn:EJ; auto. apply keq in EJ. subst j. contradiction.
          -- intros [Hj EJ]. apply HI in Hj as [->|Hj]; auto. now rewrite keq_refl in EJ.
        * exists c. repeat split; auto; try apply S1. intros j v Hj. apply S4 in Hj. rewrite lookup_remove in Hj.
          destruct (keqb k j); [discriminate|exact Hj].
  Qed.

  Lemma insert_sound k v c : sound c -> bounded c ->
    exists c', cache_insert keqb k v c = Some c' /\ sound c' /\ bounded c' /\ c_max c' = c_max c /\
      (forall j w, cache_get keqb j c' = Some w -> (j = k /\ w = v) \/ (j <> k /\ cache_get keqb j c = Some w)).
  Proof.
    intros (S1 & S2 & S3 & S4) HB. unfold cache_insert, cache_get. destruct (lookup k (c_map c)) as [old|] eqn:EL.
    - eexists. split; [reflexivity|].
      assert (HK : In k (map fst (c_map c))).
      { destruct (lookup_none k (c_map c)) as [_ HX]. destruct (in_dec (fun a b => match bool_dec (keqb a b) true with left e => left (proj1 (keq a b) e) | right n => right (fun e => n (proj2 (keq a b) e)) end) k (map fst (c_map c))); auto.
        rewrite HX in EL by assumption. discriminate. }
      assert (HP : Permutation (map fst (store k v (c_map c))) (map fst (c_map c))).
      { apply NoDup_Permutation; auto using store_NoDup. intros j. unfold Caches.store. cbn [map fst In]. rewrite remove_keys, filter_In. split.
        - intros [<-|[H _]]; auto.
        - intros H. destruct (keqb j k) eqn:E; [apply keq in E; auto|]. right. split; auto. }
      split; [|split; [|split]].
      + unfold sound. cbn [c_order c_map c_max]. split; [auto|]. split; [auto using store_NoDup|]. split; auto.
        intros j. rewrite S3. split; intros H; [eapply Permutation_in; [symmetry; exact HP|exact H]|eapply Permutation_in; eauto].
      + unfold bounded in *. cbn [c_map c_max]. apply Permutation_length in HP. rewrite !map_length in HP. lia.
      + reflexivity.
      + cbn [c_map]. intros j w. rewrite lookup_store. destruct (keqb k j) eqn:E.
        * apply keq in E. subst j. intros H. inversion H. auto.
        * intros H. right. split; auto. intros ->. rewrite keq_refl in E. discriminate.
    - apply lookup_none in EL.
      destruct (evict_sound (c_max c) (c_order c ++ [k]) (store k v (c_map c))) as (c' & E & T1 & T2 & T3 & T4); auto using store_NoDup.
      + apply (Permutation_NoDup (Permutation_cons_append (c_order c) k)). constructor; auto. rewrite S3. exact EL.
      + intros j. rewrite in_app_iff. unfold Caches.store. cbn [map fst In]. rewrite remove_absent by assumption. rewrite S3. tauto.
      + exists c'. repeat split; auto; try apply T1. intros j w Hj. apply T4 in Hj. rewrite lookup_store in Hj. destruct (keqb k j) eqn:EJ.
        * apply keq in EJ. subst j. inversion Hj. auto.
        * right. split; auto. intros ->. rewrite keq_refl in EJ. discriminate.
  Qed.
  Lemma insert_present k v c c' : sound c -> bounded c -> cache_insert keqb k v c = Some c' -> cache_get keqb k c' = Some v.
  Proof.
    intros (S1 & S2 & S3 & S4) HB. unfold cache_insert, cache_get. destruct (lookup k (c_map c)) as [old|] eqn:EL.
    - intros H. inversion H. cbn [c_map]. rewrite lookup_store. now rewrite keq_refl.
    - apply lookup_none in EL.
      assert (HL : length (store k v (c_map c)) = Datatypes.S (length (c_map c))) by (unfold Caches.store; now rewrite remove_absent).
      unfold bounded in HB. destruct (c_order c) as [|h o] eqn:EO; cbn [app evict].
      + destruct (c_map c) as [|[j w] m] eqn:EM; [|exfalso; apply (S3 j); now left].
        cbn [length] in HL. rewrite HL. replace (Nat.leb 1 (c_max c)) with true by (symmetry; now apply Nat.leb_le).
        intros H. inversion H. cbn [c_map]. rewrite lookup_store. now rewrite keq_refl.
      + assert (HH : In h (map fst (c_map c))) by (apply S3; now left).
        destruct (Nat.leb (length (store k v (c_map c))) (c_max c)).
        * intros H. inversion H. cbn [c_map]. rewrite lookup_store. now rewrite keq_refl.
        * assert (HR : length (remove h (store k v (c_map c))) <= c_max c).
          { cut (Datatypes.S (length (remove h (store k v (c_map c)))) <= length (store k v (c_map c))); [lia|].
            rewrite <- (map_length fst), <- (map_length fst (store k v (c_map c))).
            change (Datatypes.S (length (map fst (remove h (store k v (c_map c)))))) with (length (h :: map fst (remove h (store k v (c_map c))))).
            apply NoDup_incl_length.
            - constructor; [|now apply remove_NoDup, store_NoDup]. rewrite remove_keys. intros X. apply filter_In in X as [_ X]. now rewrite keq_refl in X.
            - intros j [<-|Hj]; [unfold Caches.store; rewrite remove_absent by assumption; now right|]. rewrite remove_keys in Hj. now apply filter_In in Hj. }
          apply Nat.leb_le in HR.
          assert (EV : evict keqb (c_max c) (o ++ [k]) (remove h (store k v (c_map c))) = Some (mkCache (c_max c) (o ++ [k]) (remove h (store k v (c_map c))))).
          { destruct (o ++ [k]); cbn [evict]; now rewrite HR. }
          rewrite EV. intros H. assert (HC : mkCache (c_max c) (o ++ [k]) (remove h (store k v (c_map c))) = c') by congruence. rewrite <- HC. cbn [c_map]. rewrite lookup_remove, lookup_store, keq_refl.
          destruct (keqb h k) eqn:E; auto. apply keq in E. subst h. contradiction.
  Qed.

  (** Insertions one after another. *)
  Definition inserts (l : list (K * V)) (o : option (cache K V)) : option (cache K V) :=
    fold_left (fun o p => match o with Some c => cache_insert keqb (fst p) (snd p) c | None => None end) l o.
  Lemma inserts_sound n l : exists c, inserts l (Some (cache_new n)) = Some c /\ sound c /\ bounded c /\ c_max c = Nat.max n 1 /\
    (forall k v, cache_get keqb k c = Some v -> exists l1 l2, l = l1 ++ (k, v) :: l2 /\ forall w, ~ In (k, w) l2) /\
    (forall l' k v, l = l' ++ [(k, v)] -> cache_get keqb k c = Some v).
  Proof.
    induction l as [|[k v] l IH] using rev_ind.
    - exists (cache_new n). destruct (new_sound n). split; [reflexivity|]. split; auto. split; auto. split; [reflexivity|].
      split; [discriminate|]. intros l' k v E. destruct l'; discriminate.
    - unfold inserts in *. rewrite fold_left_app. destruct IH as (c & E & H1 & H2 & H3 & H4 & _). rewrite E. cbn [fold_left fst snd].
      destruct (insert_sound k v c H1 H2) as (c' & E' & T1 & T2 & T3 & T4). rewrite E'. exists c'.
      split; auto. split; auto. split; auto. split; [congruence|]. split.
      + intros j w Hw. apply T4 in Hw as [[-> ->]|[HJ Hw]]; [exists l, []; auto|].
        apply H4 in Hw as (l1 & l2 & -> & HN). exists l1, (l2 ++ [(k, v)]). rewrite <- app_assoc. split; auto.
        intros x Hx. apply in_app_or in Hx as [Hx|[Hx|[]]]; [exact (HN _ Hx)|]. inversion Hx; congruence.
      + intros l' j w EQ. apply app_inj_tail in EQ as [_ EQ]. inversion EQ; subst. exact (insert_present _ _ c c' H1 H2 E').
  Qed.
End CacheLemmas.

(** *** Calls sharing a cache *)
Section CallLemmas.
  Context {S Q V P : Type}.
  Variable seqb : S -> S -> bool.
  Variable qeqb : Q -> Q -> bool.
  Hypothesis seq_ok : forall a b, seqb a b = true <-> a = b.
  Hypothesis qeq_ok : forall a b, qeqb a b = true <-> a = b.
  Variable where_is : S -> Q -> option P.
  Variable fetch : S -> list P -> option (list (option V)).
  (** The value at a place of a file, if there is one there. *)
  Variable value_at : S -> P -> option V.
  Variable legal : S -> P -> Prop.
  Hypothesis where_legal : forall f q p, where_is f q = Some p -> legal f p.
  Hypothesis fetch_ok : forall f ps vs, Forall (legal f) ps -> fetch f ps = Some vs -> vs = map (value_at f) ps.
  (** When a read of several places succeeds. *)
  Variable readable : S -> P -> Prop.
  Hypothesis fetch_some : forall f ps, ps <> [] -> Forall (legal f) ps -> Forall (readable f) ps -> fetch f ps <> None.

  Notation keqb := (ckey_eqb seqb qeqb).
  Lemma ckeq a b : keqb a b = true <-> a = b.
  Proof.
    unfold ckey_eqb. rewrite andb_true_iff, seq_ok, qeq_ok. destruct a, b. cbn. split; [intros [-> ->]; auto|]. intros H. inversion H. auto.
  Qed.
  Definition right (f : S) (q : Q) (v : V) : Prop := exists p, where_is f q = Some p /\ value_at f p = Some v.

  Definition good_cache (c : cache (S * Q) V) : Prop :=
    sound c /\ bounded c /\ forall f q v, cache_get keqb (f, q) c = Some v -> right f q v.
  Lemma good_insert f q v c : good_cache c -> right f q v ->
    exists c', cache_insert keqb (f, q) v c = Some c' /\ good_cache c' /\ c_max c' = c_max c.
  Proof.
    intros (H1 & H2 & H3) HR. destruct (insert_sound keqb ckeq (f, q) v c H1 H2) as (c' & E & S1 & S2 & S3 & S4).
    exists c'. split; auto. split; auto. split; auto. split; auto. intros g r w Hw. apply S4 in Hw as [[E1 ->]|[_ Hw]]; [|auto].
    inversion E1; subst. exact HR.
  Qed.

  (** What a stage of a call knows. *)
  Definition found_ok (f : S) (qs : list Q) (found : list (Q * V)) : Prop :=
    NoDup (map fst found) /\ forall q v, In (q, v) found -> In q qs /\ right f q v.
  Definition misses_ok (f : S) (qs : list Q) (misses : list (Q * P)) : Prop :=
    forall q p, In (q, p) misses -> In q qs /\ where_is f q = Some p.
  (** Every request is accounted for: it is still to do, found, missing, or without a place. *)
  Definition stage_ok (f : S) (qs : list Q) (g : stage Q V P) : Prop :=
    match g with
    | Looking todo found misses =>
        found_ok f qs found /\ misses_ok f qs misses /\ incl todo qs /\
        (forall q v, In q qs -> right f q v -> In q todo \/ In (q, v) found \/ exists p, In (q, p) misses)
    | Reading found misses =>
        misses <> [] /\ found_ok f qs found /\ misses_ok f qs misses /\
        (forall q v, In q qs -> right f q v -> In (q, v) found \/ exists p, In (q, p) misses)
    | Inserting todo found =>
        found_ok f qs found /\ (forall q v, In (q, v) todo -> In q qs /\ right f q v) /\
        (forall q v, In q qs -> right f q v -> In (q, v) found \/ In (q, v) todo)
    end.
  Definition answer_ok (a : answer S Q V) : Prop :=
    NoDup (map fst (an_values a)) /\
    (forall q v, In (q, v) (an_values a) -> In q (an_requests a) /\ right (an_file a) q v) /\
    (an_fault a = false -> (forall q p, In q (an_requests a) -> where_is (an_file a) q = Some p -> readable (an_file a) p) ->
     forall q v, In q (an_requests a) -> right (an_file a) q v -> In (q, v) (an_values a)).

  Lemma right_fun f q v w : right f q v -> right f q w -> v = w.
  Proof. intros (p & E1 & E2) (p' & E3 & E4). congruence. Qed.
  Lemma store_In q (v : V) m j w : In (j, w) (store qeqb q v m) -> (j = q /\ w = v) \/ In (j, w) m.
  Proof. unfold store. intros [H|H]; [inversion H; auto|]. right. unfold remove in H. now apply filter_In in H. Qed.
  Lemma store_keep q (v : V) m j w : In (j, w) m -> (j = q -> w = v) -> In (j, w) (store qeqb q v m).
  Proof.
    intros H HV. unfold store. destruct (qeqb j q) eqn:E.
    - apply qeq_ok in E. left. rewrite E, HV; auto.
    - right. unfold remove. apply filter_In. cbn [fst]. now rewrite E.
  Qed.
  Lemma found_store f qs found q v : found_ok f qs found -> In q qs -> right f q v -> found_ok f qs (store qeqb q v found).
  Proof.
    intros [H1 H2] HQ HR. split; [now apply store_NoDup|]. intros j w Hj. apply store_In in Hj as [[-> ->]|Hj]; auto.
  Qed.

  Lemma stage_step f qs g c : good_cache c -> stage_ok f qs g ->
    exists c' r, call_step seqb qeqb where_is fetch f g c = (Some c', r) /\ good_cache c' /\ c_max c' = c_max c /\
      match r with
      | inl g' => stage_ok f qs g'
      | inr vs => answer_ok (mkAnswer 0 f qs vs false)
      end.
  Proof.
    intros HC HG. destruct g as [[|q todo] found misses|found misses|[|[q v] todo] found]; cbn [call_step stage_ok] in *.
    - destruct HG as (F & M & _ & A). destruct misses as [|m misses].
      + eexists _, _. split; [reflexivity|]. split; [auto|]. split; [auto|]. split; [apply F|]. split; [apply F|].
        cbn [an_values an_requests an_file]. intros _ _ q v Hq Hr. destruct (A q v Hq Hr) as [[]|[H|(p & [])]]. exact H.
      + eexists _, _. split; [reflexivity|]. split; [auto|]. split; [auto|]. split; [discriminate|]. split; [exact F|]. split; [exact M|].
        intros q v Hq Hr. destruct (A q v Hq Hr) as [[]|H]. exact H.
    - destruct HG as (F & M & I & A).
      assert (IQ : In q qs) by (apply I; now left). assert (IT : incl todo qs) by (intros x Hx; apply I; now right).
      destruct (cache_get keqb (f, q) c) as [v|] eqn:EG.
      + assert (HR : right f q v) by now apply HC. eexists _, _. split; [reflexivity|]. split; auto. split; auto.
        split; [now apply found_store|]. split; auto. split; auto. intros j w Hj Hw.
        destruct (A j w Hj Hw) as [[<-|H]|[H|H]]; auto.
        * right. left. pose proof (right_fun _ _ _ _ HR Hw). subst w. left. reflexivity.
        * right. left. apply store_keep; auto. intros ->. eapply right_fun; eauto.
      + destruct (where_is f q) as [p|] eqn:EW; (eexists _, _; split; [reflexivity|]; split; [auto|]; split; [auto|]; split; [auto|]; split; [|split; [auto|]]).
        * intros j r Hj. apply in_app_or in Hj as [Hj|[Hj|[]]]; [auto|]. inversion Hj; subst. auto.
        * intros j w Hj Hw. destruct (A j w Hj Hw) as [[<-|H]|[H|(r & H)]]; auto.
          -- right. right. exists p. apply in_or_app. right. now left.
          -- right. right. exists r. apply in_or_app. now left.
        * exact M.
        * intros j w Hj Hw. destruct (A j w Hj Hw) as [[<-|H]|[H|H]]; auto. destruct Hw as (r & Hr & _). congruence.
    - destruct HG as (NE & F & M & A).
      assert (HL : Forall (legal f) (map snd misses)).
      { apply Forall_forall. intros p Hp. apply in_map_iff in Hp as ([q p'] & E & Hp). cbn [snd] in E. subst p'. apply M in Hp as [_ Hp]. eauto. }
      destruct (fetch f (map snd misses)) as [vs|] eqn:EF.
      + apply fetch_ok in EF; auto. subst vs. eexists _, _. split; [reflexivity|]. split; auto. split; auto.
        assert (HI : forall q v, In (q, v) (flat_map (fun p => match snd p with Some v => [(fst p, v)] | None => [] end)
            (combine (map fst misses) (map (value_at f) (map snd misses)))) <-> exists p, In (q, p) misses /\ value_at f p = Some v).
        { intros q v. clear. induction misses as [|[j p] l IH]; cbn [map combine flat_map fst snd]; [split; [intros []|intros (p & [] & _)]|].
          rewrite in_app_iff, IH. split.
          - intros [H|(r & H & E)]; [|exists r; split; [now right|auto]]. destruct (value_at f p) as [x|] eqn:E; [|destruct H].
            destruct H as [H|[]]. inversion H; subst. exists p. split; [now left|auto].
          - intros (r & [H|H] & E); [inversion H; subst; rewrite E; left; now left|]. right. eauto. }
        split; [exact F|]. split.
        * intros q v H. apply HI in H as (p & Hp & E). apply M in Hp as [H1 H2]. split; auto. exists p. auto.
        * intros q v Hq Hr. destruct (A q v Hq Hr) as [H|(p & Hp)]; auto. right. apply HI. exists p. split; auto.
          apply M in Hp as [_ Hp]. destruct Hr as (p' & E1 & E2). congruence.
      + eexists _, _. split; [reflexivity|]. split; auto. split; auto. unfold answer_ok. cbn [an_values an_requests an_file]. split; [apply F|]. split; [apply F|].
        intros _ HR. exfalso. revert EF. apply fetch_some; auto; [destruct misses; [congruence|discriminate]|]. apply Forall_forall. intros p Hp.
        apply in_map_iff in Hp as ([q p'] & E & Hp). cbn [snd] in E. subst p'. apply M in Hp as [H1 H2]. eauto.
    - destruct HG as (F & M & A). eexists _, _. split; [reflexivity|]. split; auto. split; auto.
      unfold answer_ok. cbn [an_values an_requests an_file]. split; [apply F|]. split; [apply F|]. intros _ _ q v Hq Hr. destruct (A q v Hq Hr) as [H|[]]. exact H.
    - destruct HG as (F & M & A). destruct (M q v (or_introl eq_refl)) as [HQ HR].
      destruct (good_insert f q v c HC HR) as (c' & E & G & X). rewrite E. eexists _, _. split; [reflexivity|]. split; auto. split; auto.
      split; [now apply found_store|]. split; [intros j w Hj; apply M; now right|]. intros j w Hj Hw.
      destruct (A j w Hj Hw) as [H|[H|H]]; auto.
      + left. apply store_keep; auto. intros ->. eapply right_fun; eauto.
      + inversion H; subst. left. now left.
  Qed.

  Definition good (n : nat) (s : shared S Q V P) : Prop :=
    good_cache (sh_cache s) /\ c_max (sh_cache s) = n /\
    Forall (fun p => stage_ok (cl_file (snd p)) (cl_requests (snd p)) (cl_stage (snd p))) (sh_calls s).
  Lemma find_call_In c l (p : call S Q V P) : find_call c l = Some p -> In (c, p) l.
  Proof.
    induction l as [|[d x] l IH]; cbn [find_call]; [discriminate|]. destruct (Nat.eqb_spec d c); [|intros H; right; auto].
    intros H. inversion H; subst. now left.
  Qed.
  Lemma drop_Forall (R : nat * call S Q V P -> Prop) c l : Forall R l -> Forall R (drop_call c l).
  Proof. intros H. unfold drop_call. apply Forall_forall. intros x Hx. apply filter_In in Hx as [Hx _]. rewrite Forall_forall in H. auto. Qed.

  Lemma step_good n s e : good n s ->
    exists s' a, cstep seqb qeqb where_is fetch s e = (Some s', a) /\ good n s' /\
      match a with Some x => answer_ok x | None => True end.
  Proof.
    intros (HC & HM & HF). destruct e as [c f qs|c|c|c]; cbn [cstep].
    - destruct (find_call c (sh_calls s)); (eexists _, _; split; [reflexivity|]; split; [|exact I]); [split; [exact HC|split; [exact HM|exact HF]]|].
      split; [exact HC|]. split; [exact HM|]. cbn [sh_calls]. constructor; auto. cbn [snd cl_file cl_requests cl_stage stage_ok].
      split; [split; [constructor|intros q v []]|]. split; [intros q p []|]. split; [apply incl_refl|]. auto.
    - destruct (find_call c (sh_calls s)) as [p|] eqn:EC; [|eexists _, _; split; [reflexivity|]; split; [split; [exact HC|split; [exact HM|exact HF]]|exact I]].
      apply find_call_In in EC. pose proof HF as HF'. rewrite Forall_forall in HF. specialize (HF _ EC). cbn [snd] in HF.
      destruct (stage_step _ _ _ _ HC HF) as (c' & r & E & G & X & R). rewrite E. destruct r as [g|vs].
      + eexists _, _. split; [reflexivity|]. split; [|exact I]. split; [exact G|]. split; [cbn [sh_cache]; congruence|]. cbn [sh_calls].
        constructor; [exact R|]. now apply drop_Forall.
      + eexists _, _. split; [reflexivity|]. split; [|exact R]. split; [exact G|]. split; [cbn [sh_cache]; congruence|]. cbn [sh_calls].
        now apply drop_Forall.
    - destruct (find_call c (sh_calls s)) as [[f qs [t fd ms|fd ms|t fd]]|] eqn:EC;
        try (eexists _, _; split; [reflexivity|]; split; [split; [exact HC|split; [exact HM|exact HF]]|exact I]).
      eexists _, _. split; [reflexivity|]. split; [split; [exact HC|split; [exact HM|now apply drop_Forall]]|].
      apply find_call_In in EC. rewrite Forall_forall in HF. specialize (HF _ EC). cbn [snd cl_file cl_requests cl_stage stage_ok] in HF.
      unfold answer_ok. cbn [an_values an_requests an_file an_fault]. split; [apply HF|]. split; [apply HF|]. discriminate.
    - eexists _, _. split; [reflexivity|]. split; [|exact I]. split; [exact HC|]. split; [exact HM|]. cbn [sh_calls]. now apply drop_Forall.
  Qed.

  Theorem run_good n es : forall s, good n s ->
    exists s' l, crun seqb qeqb where_is fetch s es = Some (s', l) /\ good n s' /\ Forall answer_ok l.
  Proof.
    induction es as [|e es IH]; intros s HG; cbn [crun]; [eauto|].
    destruct (step_good n s e HG) as (s1 & a & E & G1 & A). rewrite E. destruct (IH s1 G1) as (s2 & l & E2 & G2 & L). rewrite E2.
    eexists _, _. split; [reflexivity|]. split; auto. destruct a; auto.
  Qed.
  Lemma cold_good n : good (Nat.max n 1) (cold n).
  Proof.
    destruct (new_sound (K := S * Q) (V := V) n) as [H1 H2]. split; [|split; [reflexivity|constructor]].
    split; auto. split; auto. intros f q v H. discriminate.
  Qed.
End CallLemmas.

(** *** Bloom filters *)
Local Open Scope N_scope.
Lemma slice_part file r w : fst r <= snd r -> (part file (fst r) (snd r) w <-> inside file r = true /\ w = slice file r).
Proof.
  intros H. unfold part, inside, slice. rewrite N.leb_le. split.
  - intros (pre & post & -> & E1 & E2 & _). rewrite !app_length. split; [lia|].
    rewrite skipn_app. replace (N.to_nat (fst r) - length pre)%nat with 0%nat by lia. rewrite skipn_all2 by lia. cbn [app skipn].
    rewrite firstn_app. replace (N.to_nat (snd r - fst r) - length w)%nat with 0%nat by lia. rewrite firstn_O, app_nil_r.
    symmetry. apply firstn_all2. lia.
  - intros [H1 ->]. exists (firstn (N.to_nat (fst r)) file), (skipn (N.to_nat (snd r - fst r)) (skipn (N.to_nat (fst r)) file)).
    rewrite !firstn_skipn. split; auto. rewrite !firstn_length, skipn_length. lia.
Qed.
Lemma part_fun file s e w w' : part file s e w -> part file s e w' -> w = w'.
Proof.
  intros H H'. assert (s <= e) by (destruct H as (? & ? & _ & _ & _ & L); exact L).
  apply (slice_part file (s, e)) in H; auto. apply (slice_part file (s, e)) in H'; auto. destruct H, H'. congruence.
Qed.
Theorem ranges_spec gap file rs : Forall (fun r => fst r <= snd r) rs ->
  (Forall (fun r => snd r <= N.of_nat (length file)) rs ->
   exists ws, get_byte_ranges gap file rs = ROk ws /\ Forall2 (fun r w => part file (fst r) (snd r) w) rs ws) /\
  (Exists (fun r => N.of_nat (length file) < snd r) rs -> get_byte_ranges gap file rs = RFail).
Proof.
  intros HL. rewrite ranges_together by assumption. split.
  - intros HF. exists (map (slice file) rs). replace (forallb (inside file) rs) with true.
    + split; auto. induction HL; inversion HF; subst; constructor; auto. apply slice_part; auto. split; auto. now apply N.leb_le.
    + symmetry. apply forallb_forall. rewrite Forall_forall in HF. intros r Hr. now apply N.leb_le, HF.
  - intros HX. replace (forallb (inside file) rs) with false; auto. symmetry. apply not_true_is_false. intros H.
    rewrite forallb_forall in H. apply Exists_exists in HX as (r & Hr & HX). apply H in Hr. apply N.leb_le in Hr. lia.
Qed.

Section Filters.
  Context {S Q F : Type}.
  Variable seqb : S -> S -> bool.
  Variable qeqb : Q -> Q -> bool.
  Hypothesis seq_ok : forall a b, seqb a b = true <-> a = b.
  Hypothesis qeq_ok : forall a b, qeqb a b = true <-> a = b.
  Variable decode : bytes -> option F.
  Variable contents : S -> bytes.
  Variable ranges : S -> Q -> option range.
  Hypothesis ranges_ok : forall f q s e, ranges f q = Some (s, e) -> s <= e.

  Definition filter_at (f : S) (r : range) : option F := if inside (contents f) r then decode (slice (contents f) r) else None.
  Lemma right_stored f q v : right ranges filter_at f q v <-> stored decode contents ranges f q v.
  Proof.
    unfold right, stored, filter_at. split.
    - intros ([s e] & E & H). destruct (inside (contents f) (s, e)) eqn:EI; [|discriminate]. pose proof (ranges_ok _ _ _ _ E).
      exists s, e, (slice (contents f) (s, e)). split; auto. split; auto. apply (slice_part _ (s, e)); auto.
    - intros (s & e & w & E & HP & HD). exists (s, e). split; auto. pose proof (ranges_ok _ _ _ _ E).
      apply (slice_part _ (s, e)) in HP as [H1 ->]; auto. now rewrite H1.
  Qed.
  Theorem filter_runs n es :
    exists s l, crun seqb qeqb ranges (fetch_filters decode contents) (cold n) es = Some (s, l) /\
      (length (c_map (sh_cache s)) <= Nat.max n 1)%nat /\
      forall a, In a l ->
        NoDup (map fst (an_values a)) /\
        (forall q v, In (q, v) (an_values a) -> In q (an_requests a) /\ stored decode contents ranges (an_file a) q v) /\
        (an_fault a = false ->
         (forall q s e, In q (an_requests a) -> ranges (an_file a) q = Some (s, e) -> e <= N.of_nat (length (contents (an_file a)))) ->
         forall q v, In q (an_requests a) -> stored decode contents ranges (an_file a) q v -> In (q, v) (an_values a)).
  Proof.
    destruct (run_good seqb qeqb seq_ok qeq_ok ranges (fetch_filters decode contents) filter_at (fun _ r => fst r <= snd r))
      with (readable := fun f r => inside (contents f) r = true) (n := Nat.max n 1) (es := es) (s := @cold S Q F range n)
      as (s & l & E & G & A).
    - intros f q [s e] H. eauto.
    - intros f ps vs HL. unfold fetch_filters. rewrite ranges_together by assumption.
      destruct (forallb (inside (contents f)) ps) eqn:EF; [|discriminate]. intros H. inversion H. rewrite map_map.
      apply map_ext_in. intros r Hr. unfold filter_at. rewrite forallb_forall in EF. now rewrite EF.
    - intros f ps _ HL HR. unfold fetch_filters. rewrite ranges_together by assumption.
      replace (forallb (inside (contents f)) ps) with true; [discriminate|]. symmetry. apply forallb_forall. now apply Forall_forall.
    - apply cold_good.
    - exists s, l. split; auto. destruct G as ((_ & B & _) & M & _). split; [unfold bounded in B; congruence|].
      rewrite Forall_forall in A. intros a Ha. destruct (A a Ha) as (A1 & A2 & A3). split; auto. split.
      + intros q v H. apply A2 in H as [H1 H2]. split; auto. now apply right_stored.
      + intros H1 H2 q v H3 H4. apply A3; auto; [|now apply right_stored]. intros j [x y] Hj Hr. apply N.leb_le. cbn [snd]. eauto.
  Qed.
End Filters.

(** *** File metadata *)
Section Metadata.
  Context {S V : Type}.
  Variable seqb : S -> S -> bool.
  Hypothesis seq_ok : forall a b, seqb a b = true <-> a = b.
  Variable load : S -> option V.
  Theorem metadata_runs n es :
    exists s l, crun seqb (fun _ _ => true) (fun _ (_ : unit) => Some tt) (fetch_metadata load) (cold n) es = Some (s, l) /\
      (length (c_map (sh_cache s)) <= Nat.max n 1)%nat /\
      forall a, In a l ->
        (forall u v, In (u, v) (an_values a) -> load (an_file a) = Some v) /\
        (an_fault a = false -> forall v, an_requests a <> [] -> load (an_file a) = Some v -> In (tt, v) (an_values a)).
  Proof.
    destruct (run_good (S := S) (Q := unit) (V := V) (P := unit) seqb (fun _ _ => true) seq_ok) with (where_is := fun (_ : S) (_ : unit) => Some tt)
      (fetch := fetch_metadata load) (value_at := fun f (_ : unit) => load f) (legal := fun (_ : S) (_ : unit) => True)
      (readable := fun f (_ : unit) => load f <> None) (n := Nat.max n 1) (es := es) (s := @cold S unit V unit n)
      as (s & l & E & G & A).
    - intros [] []. tauto.
    - auto.
    - intros f ps vs _. unfold fetch_metadata. destruct (load f); [|discriminate]. intros H1. now inversion H1.
    - intros f ps HN _ HR. unfold fetch_metadata. destruct ps as [|p ps]; [congruence|]. inversion HR as [|? ? HP _]. destruct (load f); [discriminate|congruence].
    - apply cold_good.
    - exists s, l. split; auto. destruct G as ((_ & B & _) & M & _). split; [unfold bounded in B; congruence|].
      rewrite Forall_forall in A. intros a Ha. destruct (A a Ha) as (A1 & A2 & A3). split.
      + intros u v Hv. apply A2 in Hv as [_ (p & _ & Hv)]. exact Hv.
      + intros H1 v H2 H3. apply A3; auto; [congruence| |exists tt; auto]. destruct (an_requests a) as [|[] ?]; [congruence|now left].
  Qed.
End Metadata.

(** *** A cache by itself *)
Theorem cache_claim (K V : Type) (keqb : K -> K -> bool) : (forall a b, keqb a b = true <-> a = b) ->
  forall (n : nat) (l : list (K * V)),
    exists c, fold_left (fun o p => match o with Some c => cache_insert keqb (fst p) (snd p) c | None => None end) l
                        (Some (cache_new n)) = Some c /\
      (length (c_map c) <= Nat.max n 1)%nat /\
      (forall k v, cache_get keqb k c = Some v -> exists l1 l2, l = l1 ++ (k, v) :: l2 /\ forall w, ~ In (k, w) l2) /\
      (forall l' k v, l = l' ++ [(k, v)] -> cache_get keqb k c = Some v).
Proof.
  intros HK n l. destruct (inserts_sound keqb HK n l) as (c & E & _ & B & M & H1 & H2).
  exists c. split; [exact E|]. split; [unfold bounded in B; congruence|]. auto.
Qed.
