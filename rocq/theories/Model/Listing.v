(** What [DB::list_versions] tells about each version (src/db/mod.rs).  Definitions only.

    Simplifications: a file size may be any number (a [usize] in the code). *)
From Coq Require Import List NArith Bool.
From Verif Require Import Model.Version Model.Sessions Model.Manifest.
Import ListNotations.

(** [Version]: src/db/mod.rs:85-95 *)
Record report := mkRep { rp_ts : N; rp_ssts : nat; rp_bytes : N; rp_levels : nat }.

(** [u64::MAX] *)
Definition max64 : N := 2 ^ 64 - 1.
(** [saturating_add] on [u64], the second number converted by [u64::try_from(..).unwrap_or(u64::MAX)]:
    src/db/mod.rs:915-917 *)
Definition add_bytes (acc b : N) : N := N.min max64 (acc + N.min max64 b).

Section Listing.
  Context {E : Type}.
  Variable eid : E -> N.
  (** [SstEntry::stats] then [bytes]: src/manifest/domain.rs:452-454; [None]: no statistics. *)
  Variable ebytes : E -> option N.

  Definition with_bytes (e : E) : list N := match ebytes e with Some b => [b] | None => [] end.
  (** The closure of [DB::list_versions]: src/db/mod.rs:909-925 *)
  Definition report_of (v : vstate E) : report :=
    mkRep (v_ts v)
          (fold_left (fun n (level : list E) => n + length level) (v_levels v) 0)
          (fold_left add_bytes (flat_map with_bytes (concat (v_levels v))) 0%N)
          (length (filter (fun level : list E => negb (match level with [] => true | _ => false end)) (v_levels v))).
  (** [DB::list_versions]: src/db/mod.rs:901-927 *)
  Definition db_list_versions (t : N) (limit : nat) (s : store vkey (vval E)) : mres (list report) :=
    match list_versions t limit s with
    | MErr e => MErr e
    | MOk l => MOk (map report_of l)
    end.
End Listing.
