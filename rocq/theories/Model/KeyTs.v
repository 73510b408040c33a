(** Composite (key, commit timestamp) index keys: src/key/ts.rs. *)
From Coq Require Import List NArith Bool Lia.
From Verif Require Import Base.Order Model.OMap.
Import ListNotations.

(** [Timestamp::MIN] / [Timestamp::MAX]: src/mvcc/mod.rs:22-24 *)
Definition ts_min : N := 0%N.
Definition ts_max : N := (2 ^ 64 - 1)%N.

Section KeyTs.
  Context {K : Type} {KO : KeyOrd K}.

  (** [Ord for KeyTsViewRaw] and [Ord for KeyTsOwned]: key ascending, then
      timestamp descending.  src/key/ts.rs:62-69 and 113-120. *)
  Definition kts_cmp (a b : K * N) : comparison :=
    match kcmp (fst a) (fst b) with
    | Eq => N.compare (snd b) (snd a)
    | c => c
    end.

  Lemma kts_opp a b : kts_cmp b a = CompOpp (kts_cmp a b).
  Proof.
    unfold kts_cmp. rewrite (kcmp_opp (fst a) (fst b)).
    destruct (kcmp (fst a) (fst b)); simpl; auto.
    apply N.compare_antisym.
  Qed.

  Lemma kts_trans c a b d : kts_cmp a b = c -> kts_cmp b d = c -> kts_cmp a d = c.
  Proof.
    destruct a as [x s], b as [y t], d as [z u]. unfold kts_cmp; simpl. intros H1 H2.
    destruct (kcmp x y) eqn:E1; destruct (kcmp y z) eqn:E2; subst c; try congruence.
    - rewrite (kcmp_trans _ _ _ _ E1 E2).
      destruct (N.compare t s) eqn:A; rewrite ?N.compare_eq_iff, ?N.compare_lt_iff, ?N.compare_gt_iff in *; lia.
    - rewrite (kcmp_eq_l _ _ z E1), E2. congruence.
    - rewrite (kcmp_eq_l _ _ z E1), E2. congruence.
    - rewrite <- (kcmp_eq_r _ _ x E2), E1. reflexivity.
    - rewrite (kcmp_trans _ _ _ _ E1 E2). reflexivity.
    - rewrite <- (kcmp_eq_r _ _ x E2), E1. reflexivity.
    - rewrite (kcmp_trans _ _ _ _ E1 E2). reflexivity.
  Qed.

  Global Instance kts_ord : KeyOrd (K * N) :=
    {| kcmp := kts_cmp; kcmp_opp := kts_opp; kcmp_trans := kts_trans |}.

  (** [lower_bound_for_mutable] (src/inmem/mutable/memtable.rs:914-920) and
      [lower_bound_for_immutable] (src/inmem/immutable/memtable.rs:248-271). *)
  Definition kts_lower (b : bound K) : bound (K * N) :=
    match b with
    | Included k => Included (k, ts_max)
    | Excluded k => Excluded (k, ts_min)
    | Unbounded => Unbounded
    end.

  (** [upper_bound_for_mutable] (src/inmem/mutable/memtable.rs:922-928) and
      [upper_bound_for_immutable] (src/inmem/immutable/memtable.rs:273-296). *)
  Definition kts_upper (b : bound K) : bound (K * N) :=
    match b with
    | Included k => Included (k, ts_min)
    | Excluded k => Excluded (k, ts_max)
    | Unbounded => Unbounded
    end.

  Section Visible.
    Context {A : Type}.

    (** The MVCC iterator shared by [DynRowScan::next]
        (src/inmem/mutable/memtable.rs:985-1034) and [ImmutableVisibleScan::next]
        (src/inmem/immutable/memtable.rs:360-416): walk the index entries
        in order; for each key emit the first entry with timestamp
        [<= read_ts] and skip the rest of the key.  The list is the sequence of
        items successive calls of [next] return. *)
    Fixpoint visible_scan (read_ts : N) (cur : option K) (emitted : bool)
             (l : list ((K * N) * A)) : list ((K * N) * A) :=
      match l with
      | [] => []
      | ((k, t), a) :: r =>
          let same := match cur with Some c => keqb c k | None => false end in
          if same && emitted then visible_scan read_ts cur emitted r
          else
            let cur' := if same then cur else Some k in
            if N.ltb read_ts t then visible_scan read_ts cur' false r
            else ((k, t), a) :: visible_scan read_ts cur' true r
      end.
  End Visible.
End KeyTs.
