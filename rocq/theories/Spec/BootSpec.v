(** Opening the log for writing. *)
From Coq Require Import List NArith.
From Verif Require Import Model.Columns Model.Frame Model.WalScan Spec.WalSpec Model.WalBoot.
Import ListNotations.
Local Open Scope N_scope.

(** The first and last frame of a segment. *)
Definition bounds_of (s : N) (l : list wframe) : option seg_ref :=
  match l with [] => None | f :: _ => Some (mkRef s (wf_seq f) (wf_seq (List.last l f))) end.
Definition all_bounds (segs : list (N * list wframe)) : list seg_ref :=
  flat_map (fun x => match bounds_of (fst x) (snd x) with Some b => [b] | None => [] end) segs.
(** What the state file says about a segment that exists is right. *)
Definition honest (segs : list (N * list wframe)) (st : option wal_state) : Prop :=
  forall w r l, st = Some w -> In r (st_sealed w) -> In (r_seq r, l) segs -> l <> [] -> bounds_of (r_seq r) l = Some r.
(** Frames the repair looks into (C15). *)
Definition long_enough (f : wframe) : Prop :=
  match wf_type f with TxnAppend | TxnCommit => (8 <= length (wf_payload f))%nat | _ => True end.
(** A closed segment [q] of which only the first [k] bytes are left, in the middle of a frame,
    between others. *)
Definition torn_inside (a : list (N * list wframe)) (q : N) (l : list wframe) (k : nat) (later : wal_dir) : wal_dir :=
  dir_of a ++ (q, firstn k (log_bytes l)) :: later.
