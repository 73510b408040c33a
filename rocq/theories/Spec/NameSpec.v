(** What is expected of the names of the log's and the tables' files. *)
From Coq Require Import List NArith Bool Sorting.Sorted.
From Verif Require Import Model.WalNames.
Import ListNotations.
Local Open Scope N_scope.

(** A number the database uses. *)
Definition u64 (n : N) : Prop := n < 2 ^ 64.

(** The files of a log with the segments [ns] in the directory [root]. *)
Definition files_of (root : list name) (ns : list N) : list path := map (fun n => mkPath root (segment_name n)) ns.
(** Files that are not of the log: their names do not have the form of a segment's: "wal-", twenty
    bytes, ".tonwal". *)
Definition foreign (p : path) : Prop := forall d, length d = 20%nat -> p_name p <> n_wal ++ d ++ n_tonwal.
(** Files in other directories. *)
Definition elsewhere (root : list name) (p : path) : Prop := forall more, p_dir p <> root ++ more.

(** Names compared byte by byte, as directory listings are sorted. *)
Inductive before : name -> name -> Prop :=
| before_byte x y a b : x < y -> before (x :: a) (y :: b)
| before_rest x a b : before a b -> before (x :: a) (x :: b)
| before_end y b : before [] (y :: b).

(** [l] lists the segments [ns]: all, no other, each once, in the order of their numbers. *)
Definition lists (root : list name) (l : list (N * path)) (ns : list N) : Prop :=
  StronglySorted N.lt (map fst l) /\ (forall n, In n (map fst l) <-> In n ns) /\
  (forall n p, In (n, p) l -> p = mkPath root (segment_name n)).
