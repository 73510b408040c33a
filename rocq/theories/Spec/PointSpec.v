(** What a stop of the machine leaves of the log, and opening it again. *)
From Coq Require Import List NArith Sorted.
From Verif Require Import Model.WalSync Spec.SyncSpec.
Import ListNotations.

(** Recovery reads the files in order; of each a number of frames is left, and it ends in the
    middle of a frame or not; recovery stops at a half frame. *)
Fixpoint read_files (fs : list sfile) (left : list (nat * bool)) : list (N * N) :=
  match fs, left with
  | f :: fs', (k, half) :: r => firstn k (f_frames f) ++ (if half then [] else read_files fs' r)
  | _, _ => []
  end.
(** Nothing is missing in the middle. *)
Definition initial_part (found all : list (N * N)) : Prop := exists n, found = firstn n all.
(** The writes of the log are in the order of their numbers. *)
Definition in_order (l : list (N * N)) : Prop := StronglySorted (fun a b => (fst a < fst b)%N) l.
