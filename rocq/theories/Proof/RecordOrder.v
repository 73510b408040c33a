(** A catalog whose tables are listed in another order reads as the same catalog. *)
From Coq Require Import List NArith Bool Sorted Permutation Lia String.
From Verif Require Import Model.Key Model.UnionKey Model.Records Spec.RecordSpec Proof.RecordFacts Proof.RecordWit.
Import ListNotations.
Local Open Scope N_scope.

Section Order.
  Implicit Types l : list (N * chars).
  Lemma insert_perm i s : forall l, ~ In i (map fst l) -> Permutation (map_insert i s l) ((i, s) :: l).
  Proof.
    induction l as [|[j t] l IH]; intros H; cbn [map_insert]; [reflexivity|]. cbn [map fst In] in H.
    destruct (i <? j); [reflexivity|]. destruct (N.eqb_spec i j); [exfalso; apply H; auto|]. rewrite IH by auto. apply perm_swap.
  Qed.
  Lemma insert_sorted i s : forall l, ~ In i (map fst l) -> StronglySorted N.lt (map fst l) -> StronglySorted N.lt (map fst (map_insert i s l)).
  Proof.
    induction l as [|[j t] l IH]; intros H HS; cbn [map_insert]; [repeat constructor|]. cbn [map fst In] in *. inversion HS as [|? ? A B]; subst.
    destruct (N.ltb_spec i j) as [L|L].
    - cbn [map fst]. constructor; auto. constructor; auto. rewrite Forall_forall in *. intros x Hx. specialize (B x Hx). lia.
    - destruct (N.eqb_spec i j); [exfalso; apply H; auto|]. cbn [map fst]. constructor; [apply IH; auto|].
      apply Forall_forall. intros x Hx. rewrite (Permutation_map fst (insert_perm i s l ltac:(auto))) in Hx. destruct Hx as [<-|Hx]; [cbn; lia|].
      rewrite Forall_forall in B. auto.
  Qed.
  Lemma insert_all_any : forall es acc, StronglySorted N.lt (map fst acc) -> NoDup (map fst (acc ++ es)) ->
    let r := fold_left (fun a p => map_insert (fst p) (snd p) a) es acc in
    StronglySorted N.lt (map fst r) /\ Permutation r (acc ++ es).
  Proof.
    induction es as [|[i s] es IH]; intros acc HS HN; cbn [fold_left].
    - rewrite app_nil_r. auto.
    - assert (HI : ~ In i (map fst acc)).
      { rewrite map_app in HN. cbn [map fst] in HN. apply NoDup_remove_2 in HN. intros F. apply HN, in_or_app. auto. }
      cbn [fst snd]. pose proof (insert_perm i s acc HI) as HP.
      assert (HQ : Permutation (map_insert i s acc ++ es) (acc ++ (i, s) :: es)).
      { rewrite HP. cbn [List.app]. apply Permutation_middle. }
      destruct (IH (map_insert i s acc)) as [I1 I2].
      + now apply insert_sorted.
      + eapply Permutation_NoDup; [apply Permutation_map; symmetry; exact HQ|exact HN].
      + split; auto. now rewrite I2.
  Qed.
  Lemma sorted_perm_eq : forall a b : list (N * chars), StronglySorted N.lt (map fst a) -> StronglySorted N.lt (map fst b) -> Permutation a b -> a = b.
  Proof.
    induction a as [|[i s] a IH]; intros b HA HB HP; [now apply Permutation_nil in HP|].
    destruct b as [|[j t] b]; [apply Permutation_sym, Permutation_nil in HP; discriminate|]. cbn [map fst] in *.
    inversion HA as [|? ? A1 A2]; inversion HB as [|? ? B1 B2]; subst. rewrite Forall_forall in A2, B2.
    assert (E : (i, s) = (j, t)).
    { assert (X : In (i, s) ((j, t) :: b)) by (eapply Permutation_in; [exact HP|now left]).
      assert (Y : In (j, t) ((i, s) :: a)) by (eapply Permutation_in; [symmetry; exact HP|now left]).
      destruct X as [X|X]; auto. destruct Y as [Y|Y]; auto. apply (in_map fst) in X, Y. apply B2 in X. apply A2 in Y. cbn in *. lia. }
    injection E as <- <-. f_equal. apply IH; auto. now apply Permutation_cons_inv in HP.
  Qed.

  Theorem catalog_any_order c es : catalog_fits c -> Permutation es (c_tables c) -> d_catalog (e_catalog (mkRC es (c_ordinal c))) = Some c.
  Proof.
    destruct c as [ts o]. intros (A & B & C) HP. cbn [c_tables c_ordinal] in *. unfold d_catalog, e_catalog. cbn [c_tables c_ordinal].
    mem. cbn [members bind].
    assert (A' : Forall u128 (map fst es)) by (eapply Permutation_Forall; [apply Permutation_map; symmetry; exact HP|exact A]).
    assert (T : traverse d_named
                  (map (fun p => (e_ulid (fst p), VObj [(lit "logical_table_name", VStr (snd p))])) es) = Some es).
    { clear - A'. induction es as [|[i s] es IH]; [reflexivity|]. cbn [map fst snd] in A'. inversion A'; subst. cbn [map traverse]. unfold d_named at 1. cbn [fst snd].
      rewrite ulid_back by assumption. cbn [bind members]. mem. cbn [d_str bind]. now rewrite IH. }
    rewrite T. cbn [bind]. rewrite u_back by exact C. cbn [bind].
    destruct (insert_all_any es []) as [S1 S2]; [constructor| |].
    - cbn [List.app]. eapply Permutation_NoDup; [apply Permutation_map; symmetry; exact HP|]. clear - B.
      induction B as [|x l H IH HF]; constructor; auto. intros F. rewrite Forall_forall in HF. apply HF in F. lia.
    - cbn [List.app] in S2. repeat f_equal. apply sorted_perm_eq; auto. now rewrite S2.
  Qed.
End Order.

Lemma demo_order : catalog_fits demo_catalog /\ Permutation (rev (c_tables demo_catalog)) (c_tables demo_catalog) /\ rev (c_tables demo_catalog) <> c_tables demo_catalog.
Proof. split; [exact (proj1 demo_cat_fits)|]. split; [symmetry; apply Permutation_rev|discriminate]. Qed.
