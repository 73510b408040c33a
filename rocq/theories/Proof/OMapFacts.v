(** Facts about ordered maps and sorted lists. *)
From Coq Require Import List NArith Bool Sorted Permutation Lia.
From Verif Require Import Base.Order Model.OMap.
Import ListNotations.

Lemma StronglySorted_app {A} (P : A -> A -> Prop) l1 l2 :
  StronglySorted P (l1 ++ l2) <->
  StronglySorted P l1 /\ StronglySorted P l2 /\ (forall a b, In a l1 -> In b l2 -> P a b).
Proof.
  induction l1 as [|x l1 IH]; simpl.
  - split; [intros H; repeat split; auto; [constructor | intros ? ? []] | intros (_ & H & _); auto].
  - split.
    + intros H. inversion H as [|? ? H1 H2]; subst. apply IH in H1 as (A1 & A2 & A3).
      rewrite Forall_app in H2. destruct H2 as [B1 B2].
      repeat split; auto.
      * constructor; auto.
      * intros a b [<-|Ha] Hb; auto. rewrite Forall_forall in B2; auto.
    + intros (H1 & H2 & H3). inversion H1 as [|? ? C1 C2]; subst. constructor.
      * apply IH. repeat split; auto.
      * rewrite Forall_app. split; auto. rewrite Forall_forall; auto.
Qed.

Lemma StronglySorted_filter {A} (P : A -> A -> Prop) f l :
  StronglySorted P l -> StronglySorted P (filter f l).
Proof.
  induction 1 as [|a l H IH HF]; simpl; [constructor|].
  destruct (f a); auto. constructor; auto.
  rewrite Forall_forall in *. intros x Hx. apply filter_In in Hx. apply HF, Hx.
Qed.

Lemma StronglySorted_map {A B} (P : B -> B -> Prop) (f : A -> B) l :
  StronglySorted P (map f l) <-> StronglySorted (fun a b => P (f a) (f b)) l.
Proof.
  induction l as [|a l IH]; simpl; split; intro H; try constructor; inversion H as [|? ? H1 H2]; subst.
  - apply IH, H1.
  - rewrite Forall_forall in *. intros x Hx. apply H2, in_map, Hx.
  - apply IH, H1.
  - rewrite Forall_forall in *. intros x Hx. apply in_map_iff in Hx as (y & <- & Hy). auto.
Qed.

Lemma StronglySorted_impl {A} (P Q : A -> A -> Prop) l :
  (forall a b, In a l -> In b l -> P a b -> Q a b) -> StronglySorted P l -> StronglySorted Q l.
Proof.
  intros HI H. induction H as [|a l H IH HF]; constructor.
  - apply IH. intros; apply HI; simpl; auto.
  - rewrite Forall_forall in *. intros x Hx. apply HI; simpl; auto.
Qed.

Section OMapFacts.
  Context {A : Type} {AO : KeyOrd A} {V : Type}.
  Implicit Types m : list (A * V).

  Definition osorted m : Prop := StronglySorted (fun a b => kcmp (fst a) (fst b) = Lt) m.

  Lemma om_insert_In k v m e :
    In e (om_insert k v m) -> e = (k, v) \/ (In e m).
  Proof.
    induction m as [|[k' v'] r IH]; simpl.
    - intros [<-|[]]; auto.
    - destruct (kcmp k k') eqn:E; simpl; intros H.
      + destruct H as [<-|H]; auto.
      + destruct H as [<-|[<-|H]]; auto.
      + destruct H as [<-|H]; auto. apply IH in H as [->|H]; auto.
  Qed.

  Lemma om_insert_here k v m : In (k, v) (om_insert k v m).
  Proof.
    induction m as [|[k' v'] r IH]; simpl; auto.
    destruct (kcmp k k'); simpl; auto.
  Qed.

  Lemma om_insert_keep k v m e : In e m -> kcmp k (fst e) <> Eq -> In e (om_insert k v m).
  Proof.
    induction m as [|[k' v'] r IH]; simpl; auto.
    intros [<-|H] HN; simpl in *.
    - destruct (kcmp k k'); simpl; auto; congruence.
    - destruct (kcmp k k') eqn:E; simpl; auto.
  Qed.

  Lemma om_insert_sorted k v m : osorted m -> osorted (om_insert k v m).
  Proof.
    intros H. induction H as [|[k' v'] r H IH HF]; simpl.
    - repeat constructor.
    - destruct (kcmp k k') eqn:E.
      + constructor; auto. rewrite Forall_forall in *. intros x Hx. specialize (HF x Hx). simpl in *. korder.
      + constructor; [constructor; auto|]. constructor; [exact E|].
        rewrite Forall_forall in *. intros x Hx. specialize (HF x Hx). simpl in *. korder.
      + constructor; [exact IH|]. rewrite Forall_forall in *. intros x Hx.
        apply om_insert_In in Hx as [->|Hx]; simpl in *; [apply kcmp_gt_lt, E | auto].
  Qed.

  (** In a sorted map, an entry with a key equal to the inserted one is gone. *)
  Lemma om_insert_replaced k v m e :
    osorted m -> In e (om_insert k v m) -> kcmp k (fst e) = Eq -> e = (k, v).
  Proof.
    intros H. induction H as [|[k' v'] r H IH HF]; simpl.
    - intros [<-|[]]; auto.
    - rewrite Forall_forall in HF. destruct (kcmp k k') eqn:E; simpl; intros [<-|HI] HE; auto.
      + specialize (HF e HI). simpl in *. exfalso. korder.
      + destruct HI as [<-|HI]; simpl in *; [congruence|].
        specialize (HF e HI). simpl in *. exfalso. korder.
      + simpl in *. congruence.
  Qed.

  Lemma om_insert_iff k v m e :
    osorted m ->
    (In e (om_insert k v m) <-> e = (k, v) \/ (In e m /\ kcmp k (fst e) <> Eq)).
  Proof.
    intros H. split.
    - intros HI. destruct (kcmp k (fst e)) eqn:E.
      + left. eapply om_insert_replaced; eauto.
      + apply om_insert_In in HI as [->|HI]; auto. right; split; congruence.
      + apply om_insert_In in HI as [->|HI]; auto. right; split; congruence.
    - intros [->|[HI HN]]; [apply om_insert_here | apply om_insert_keep; auto].
  Qed.

  Lemma osorted_unique m e e' :
    osorted m -> In e m -> In e' m -> kcmp (fst e) (fst e') = Eq -> e = e'.
  Proof.
    intros H. induction H as [|x r H IH HF]; simpl; [tauto|].
    rewrite Forall_forall in HF.
    intros [<-|H1] [<-|H2] HE; auto.
    - specialize (HF _ H2). exfalso; simpl in *; korder.
    - specialize (HF _ H1). exfalso; simpl in *; korder.
  Qed.

  Lemma om_range_sorted lo hi m : osorted m -> osorted (om_range lo hi m).
  Proof. apply StronglySorted_filter. Qed.

  Lemma om_range_In lo hi m e :
    In e (om_range lo hi m) <-> In e m /\ above lo (fst e) = true /\ below hi (fst e) = true.
  Proof. unfold om_range. rewrite filter_In, andb_true_iff. tauto. Qed.
End OMapFacts.

(** Mapping the values commutes with insertion and ranges. *)
Lemma om_insert_map {A} {AO : KeyOrd A} {V W} (f : A * V -> W) k v (m : list (A * V)) :
  map (fun e => (fst e, f e)) (om_insert k v m)
  = om_insert k (f (k, v)) (map (fun e => (fst e, f e)) m).
Proof.
  induction m as [|[k' v'] r IH]; simpl; auto.
  destruct (kcmp k k'); simpl; auto. now rewrite IH.
Qed.
