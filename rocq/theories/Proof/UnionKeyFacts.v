(** Keys with union cells. *)
From Coq Require Import List NArith ZArith Bool.
From Verif Require Import Base.Lex Model.Key Model.UnionKey.
Import ListNotations.
Local Open Scope N_scope.

Lemma union_keys_collapse : forall t v t' v',
  ukeys_cmp [UUnion t v] [UUnion t' v'] = Eq /\ ukeys_equal [UUnion t v] [UUnion t' v'] = false.
Proof. intros. split; reflexivity. Qed.

Lemma union_refuted : exists a b : ukey, a <> b /\ ukeys_cmp a b = Eq /\ ukeys_equal a b = false /\ ukeys_equal a a = false.
Proof.
  exists [UUnion 0 (CI64 1)], [UUnion 0 (CI64 2)]. split; [discriminate|]. repeat split; reflexivity.
Qed.

(** Without union cells the functions are those of [Model.Key]. *)
Lemma plain_keys a : forall b, ukeys_cmp (map UPlain a) (map UPlain b) = keys_cmp a b /\
  ukeys_equal (map UPlain a) (map UPlain b) = keys_equal a b.
Proof.
  unfold ukeys_cmp, keys_cmp. induction a as [|x a IH]; intros [|y b]; try (split; reflexivity). cbn [map lex ukeys_equal keys_equal ucells_cmp ucells_equal].
  destruct (IH b) as [H1 H2]. rewrite H2. split; auto. destruct (cells_cmp x y); auto.
Qed.

(** Keys that are equal hold no union value. *)
Lemma equal_plain a : forall b, ukeys_equal a b = true ->
  exists p q, a = map UPlain p /\ b = map UPlain q /\ keys_equal p q = true.
Proof.
  induction a as [|x a IH]; intros [|y b]; cbn [ukeys_equal]; intros H; try discriminate.
  - exists [], []. repeat split.
  - apply andb_prop in H as [H1 H2]. destruct (IH b H2) as (p & q & -> & -> & E).
    destruct x as [x|]; [|discriminate]. destruct y as [y|]; [|discriminate].
    exists (x :: p), (y :: q). repeat split. cbn [ucells_equal] in H1. cbn [keys_equal]. now rewrite H1, E.
Qed.
Lemma plain_hash k : ukey_hash (map UPlain k) = key_hash k.
Proof. unfold ukey_hash, key_hash. induction k as [|x k IH]; [reflexivity|]. cbn [map flat_map ucell_hash]. now rewrite IH. Qed.
Lemma union_hash t v t' v' : ukey_hash [UUnion t v] = ukey_hash [UUnion t' v'].
Proof. reflexivity. Qed.
Lemma union_hashing :
  (forall a b, ukeys_equal a b = true -> exists p q, a = map UPlain p /\ b = map UPlain q /\ keys_equal p q = true) /\
  (forall k, ukey_hash (map UPlain k) = key_hash k) /\
  (forall t v t' v', ukey_hash [UUnion t v] = ukey_hash [UUnion t' v']).
Proof. exact (conj equal_plain (conj plain_hash union_hash)). Qed.
