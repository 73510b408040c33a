(** The files of the log and of the tables are told apart by their names (C79). *)
From Coq Require Import List NArith Bool Sorting.Permutation.
From Verif Require Import Model.WalNames Spec.NameSpec Proof.NameFacts.
Import ListNotations.
Local Open Scope N_scope.

(** *** C79: names and numbers. *)
(** Every number of a segment is read back from the name the segment gets, and the names are
    sorted as the numbers. *)
Theorem C79_name : forall n, u64 n -> segment_sequence (segment_name n) = Some n.
Proof. exact name_round. Qed.
Print Assumptions C79_name.
Theorem C79_sorted : forall a b, u64 b -> a < b -> before (segment_name a) (segment_name b).
Proof. exact name_before. Qed.
Print Assumptions C79_sorted.
(** Only names the log gives are taken for segments, if there is no plus sign after the dash
    (refuted below). *)
Theorem C79_only_partial : forall s n, segment_sequence s = Some n -> ~ (exists r, s = n_wal ++ 43 :: r) ->
  s = segment_name n /\ u64 n.
Proof. exact name_back. Qed.
Print Assumptions C79_only_partial.
Example C79_only_applies : segment_sequence (segment_name 18446744073709551615) = Some 18446744073709551615 /\
  ~ (exists r, segment_name 18446744073709551615 = n_wal ++ 43 :: r).
Proof. exact only_fits. Qed.
Theorem C79_only_refuted : exists s n, segment_sequence s = Some n /\ s <> segment_name n.
Proof. exact plus_exists. Qed.
Print Assumptions C79_only_refuted.
(** Beside the file it copies such a file is a second segment of the same number: it is replayed
    too. *)
Theorem C79_twice_refuted : forall root n, n < 10 ^ 19 ->
  list_segments false root None [mkPath root (plus_name n); mkPath root (segment_name n)] []
    = [(n, mkPath root (plus_name n)); (n, mkPath root (segment_name n))].
Proof. exact plus_twice. Qed.
Print Assumptions C79_twice_refuted.

(** *** C79: the listing. *)
(** In whatever order the directory is listed, and whatever other files are in it, the segments
    found are those that were written, each once, in the order of their numbers: as
    [Model.WalScan] takes a directory to be. *)
Theorem C79_list : forall s3 root ns others here all hint, Forall u64 ns -> Forall foreign others ->
  Permutation here (files_of root ns ++ others) ->
  (s3 = false \/ hint = None \/ exists n, hint = Some n /\ In n ns) ->
  lists root (list_segments s3 root hint here all) ns.
Proof. exact list_plain. Qed.
Print Assumptions C79_list.
Example C79_list_applies : Forall u64 [9; 12; 2 ^ 64 - 1] /\ Forall foreign [mkPath n_root n_state] /\
  Permutation n_here (files_of n_root [9; 12; 2 ^ 64 - 1] ++ [mkPath n_root n_state]) /\
  list_segments false n_root None n_here []
    = [(9, mkPath n_root (segment_name 9)); (12, mkPath n_root (segment_name 12)); (2 ^ 64 - 1, mkPath n_root (segment_name (2 ^ 64 - 1)))].
Proof. exact n_here_fits. Qed.
(** In an object store whose listing of the directory is behind, and does not show the segment
    the state file names, the listing of the whole store is used too. *)
Theorem C79_fallback : forall root ns shown others here others' away all n, Forall u64 ns -> incl shown ns ->
  Forall foreign others -> Permutation here (files_of root shown ++ others) -> ~ In n shown ->
  Forall foreign others' -> Forall (elsewhere root) away -> Permutation all (files_of root ns ++ others' ++ away) ->
  lists root (list_segments true root (Some n) here all) ns.
Proof. exact list_fallback. Qed.
Print Assumptions C79_fallback.
Example C79_fallback_applies :
  Forall u64 [3; 4; 5] /\ incl [3] [3; 4; 5] /\ ~ In 5 [3] /\ Forall (elsewhere n_root) [mkPath [[100; 98]; [115; 115; 116]] (segment_name 8)] /\
  list_segments true n_root (Some 5) (files_of n_root [3])
    (mkPath [[100; 98]; [115; 115; 116]] (segment_name 8) :: files_of n_root [5; 4; 3])
    = [(3, mkPath n_root (segment_name 3)); (4, mkPath n_root (segment_name 4)); (5, mkPath n_root (segment_name 5))].
Proof. exact fallback_fits. Qed.
(** If it shows that segment and misses an earlier one, the earlier one stays unseen. *)
Theorem C79_gap_refuted : forall root a b, u64 a -> u64 b -> a < b ->
  list_segments true root (Some b) (files_of root [b]) (files_of root [a; b]) = [(b, mkPath root (segment_name b))].
Proof. exact gap. Qed.
Print Assumptions C79_gap_refuted.
(** Removing old segments removes the files of the segments below the floor, each once, and no
    other file. *)
Theorem C79_prune : forall root ns others here floor, Forall u64 ns -> Forall foreign others ->
  Permutation here (files_of root ns ++ others) ->
  (forall p, In p (prune_below floor root here) <-> exists n, In n ns /\ n < floor /\ p = mkPath root (segment_name n)) /\
  NoDup (prune_below floor root here).
Proof. exact prune_files. Qed.
Print Assumptions C79_prune.

(** *** C79: other files. *)
(** Tables of different levels or with different identifiers have different files, the file of
    rows is never a file of deletions, and no table's file and no state file is taken for a
    segment. *)
Theorem C79_tables : forall root l i l' i', u64 l -> u64 i -> u64 l' -> u64 i' ->
  (fst (table_paths root l i) = fst (table_paths root l' i') -> l = l' /\ i = i') /\
  (snd (table_paths root l i) = snd (table_paths root l' i') -> l = l' /\ i = i') /\
  fst (table_paths root l i) <> snd (table_paths root l' i').
Proof. exact tables_apart. Qed.
Print Assumptions C79_tables.
Theorem C79_foreign : forall root l i, foreign (fst (table_paths root l i)) /\ foreign (snd (table_paths root l i)).
Proof. exact tables_foreign. Qed.
Print Assumptions C79_foreign.
Theorem C79_state : forall root, foreign (mkPath root n_state).
Proof. exact state_foreign. Qed.
Print Assumptions C79_state.
