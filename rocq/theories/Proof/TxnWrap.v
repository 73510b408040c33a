(** The lemmas the transaction properties are closed with. *)
From Coq Require Import List NArith Bool Arith Lia.
From Verif Require Import Base.Order Model.OMap Model.KeyTs Model.MemTable Model.Immutable Model.SsTable
     Model.KeyBounds Model.DbScan Model.Compact Model.Planner Model.Db Model.DbCompact Model.Txn
     Spec.Mvcc Spec.History Spec.KeySet Model.Run Spec.Valid
     Proof.ViewFacts Proof.KeyBoundsFacts Proof.Reads Proof.TxnFacts Proof.TxnProps.
Import ListNotations.

Lemma built_range_ok (K : Type) (KO : KeyOrd K) (b : kbounds K) lo hi : kb_built b -> kb_range b = Some (lo, hi) ->
    (forall k, kb_in b k = true <-> within lo hi k) /\
    range_panics (kts_lower lo) (kts_upper hi) = false.
Proof.
  intros HB HR. split; [|eapply built_no_panic; eauto].
  intros k. assert (HE : kb_empty b = false) by (unfold kb_range in HR; destruct (kb_empty b); [discriminate|auto]).
  rewrite <- (kb_range_in b k HE), HR. apply key_in_within.
Qed.

Section S.
  Context (K : Type) (KO : KeyOrd K) (R : Type) (key_of : R -> option K).
  Context (row_bytes : R -> nat) (del_bytes : K -> nat) (capacity : nat).

  Lemma c21_fresh ops calls : 1 <= capacity -> (N.of_nat (length ops) < 2 ^ 64)%N ->
    ops_ok key_of row_bytes del_bytes (start capacity) ops ->
    let s := run key_of row_bytes del_bytes (start capacity) ops in
    let sn := begin_snapshot (st_db s) in
    exists out,
      scan_txn key_of (@t_rows K R) (@cp_all K R) (Some (stage key_of calls)) sn None (st_db s) = Some out /\
      lists_table key_of (fold_left (apply_mut key_of (sn_ts sn)) calls (final key_of (st_hist s))) (fun _ => true) out.
  Proof. intros H1 H2 H3. apply txn_scan_fresh. split; auto. Qed.

  Lemma c21_older ops ts calls : 1 <= capacity -> (N.of_nat (length ops) < 2 ^ 64)%N ->
    ops_ok key_of row_bytes del_bytes (start capacity) ops ->
    let s := run key_of row_bytes del_bytes (start capacity) ops in
    Forall (seg_safe ts) (d_imm (st_db s)) -> (st_horizon s <= ts)%N ->
    exists out,
      scan_txn key_of (@t_rows K R) (@cp_all K R) (Some (stage key_of calls)) (mkSnap ts (d_levels (st_db s))) None (st_db s) = Some out /\
      lists_table key_of (fold_left (apply_mut key_of ts) calls (as_of key_of (st_hist s) ts)) (fun _ => true) out.
  Proof. intros H1 H2 H3. apply txn_scan_run. split; auto. Qed.

  Lemma c22_get ops ts calls k : 1 <= capacity -> (N.of_nat (length ops) < 2 ^ 64)%N ->
    ops_ok key_of row_bytes del_bytes (start capacity) ops ->
    let s := run key_of row_bytes del_bytes (start capacity) ops in
    Forall (seg_safe ts) (d_imm (st_db s)) -> (st_horizon s <= ts)%N ->
    (forall t, In t (concat (d_levels (st_db s))) -> ~ sst_holds key_of ts k t) ->
    length (filter (holdsb ts k) (layer_keys (st_db s))) <= 1 ->
    exists out,
      scan_txn key_of (@t_rows K R) (@cp_all K R) (Some (stage key_of calls)) (mkSnap ts (d_levels (st_db s))) None (st_db s) = Some out /\
      txn_get ts (stage key_of calls) k (st_db s) = Some (option_map snd (find (fun e => keqb (fst (fst e)) k) out)).
  Proof. intros H1 H2 H3. apply txn_get_run. split; auto. Qed.

  Lemma c23_conflict ops1 ops2 calls span : 1 <= capacity -> (N.of_nat (length (ops1 ++ ops2)) < 2 ^ 64)%N ->
    ops_ok key_of row_bytes del_bytes (start capacity) (ops1 ++ ops2) ->
    let s1 := run key_of row_bytes del_bytes (start capacity) ops1 in
    let s2 := run key_of row_bytes del_bytes s1 ops2 in
    let sn := begin_snapshot (st_db s1) in
    (forall o level, In o ops2 -> o <> OFlush level) ->
    (1 <= d_clock (st_db s1))%N ->
    exists later, st_hist s2 = st_hist s1 ++ later /\
      (commit key_of (sn_ts sn) (stage key_of calls) span (st_db s2) = (st_db s2, CConflict) <->
       exists c u k, In c later /\ In u calls /\ mut_key key_of u = Some k /\ writes_key key_of k c) /\
      (snd (commit key_of (sn_ts sn) (stage key_of calls) span (st_db s2)) = COk ->
       forall c u k, In c later -> In u calls -> mut_key key_of u = Some k -> ~ writes_key key_of k c).
  Proof.
    intros H1 H2 H3 s1 s2 sn H4 H5. apply (conflict_run key_of row_bytes del_bytes capacity ops1 ops2); auto; [split; auto|].
    apply Forall_forall. intros o Ho. destruct o as [| | |level|]; simpl; auto. now elim (H4 _ level Ho).
  Qed.

  Lemma c38_range ops ts lo hi : 1 <= capacity -> (N.of_nat (length ops) < 2 ^ 64)%N ->
    ops_ok key_of row_bytes del_bytes (start capacity) ops ->
    let d := st_db (run key_of row_bytes del_bytes (start capacity) ops) in
    (exists full part,
       mem_scan (d_mem d) ts None = Some full /\ mem_scan (d_mem d) ts (Some (lo, hi)) = Some part /\
       ascending vkey full /\ ascending vkey part /\
       forall v, In v part <-> In v full /\ within lo hi (vkey v)) /\
    (forall g, In g (d_imm d) -> exists full part,
       seg_scan g ts None = Some full /\ seg_scan g ts (Some (lo, hi)) = Some part /\
       ascending vkey full /\ ascending vkey part /\
       forall v, In v part <-> In v full /\ within lo hi (vkey v)).
  Proof. intros H1 H2 H3. apply range_scan_layers. split; auto. Qed.

  Lemma c39_prune ops ts kb : 1 <= capacity -> (N.of_nat (length ops) < 2 ^ 64)%N ->
    ops_ok key_of row_bytes del_bytes (start capacity) ops ->
    let d := st_db (run key_of row_bytes del_bytes (start capacity) ops) in
    Forall (seg_safe ts) (d_imm d) ->
    forall i g, nth_error (d_imm d) i = Some g -> ~ In i (prune_segments (option_map kb_overlaps kb) ts (d_imm d)) ->
    exists vs, seg_scan g ts None = Some vs /\
      forall v, In v vs -> exists b, kb = Some b /\ kb_in b (vkey v) = false.
  Proof. intros H1 H2 H3. apply pruned_segments. split; auto. Qed.
End S.
