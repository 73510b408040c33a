(** L0 backpressure and publish backoff: src/db/mod.rs:130-212, 939-1067,
    src/db/builder.rs:1349-1525, src/compaction/driver.rs:296-310.  Definitions only.
    A [Duration] is a number of nanoseconds. *)
From Coq Require Import List NArith Bool.
Import ListNotations.
Local Open Scope N_scope.

(** [L0Stats]: src/db/mod.rs:127-131 *)
Record l0_stats := mkL0 { l0_files : N; l0_bytes : option N }.

(** [L0BackpressureConfig]: src/db/builder.rs:1349-1370 *)
Record bp_config := mkBp {
  bp_slow_files : N; bp_stop_files : N; bp_slow_bytes : option N; bp_stop_bytes : option N;
  bp_slow_delay : N; bp_stop_delay : N
}.
Definition ms (n : N) : N := n * 1000000.
(** src/db/builder.rs:1359-1370 *)
Definition bp_default : bp_config := mkBp 16 32 None None (ms 25) (ms 200).

(** src/db/builder.rs:1374-1384 *)
Definition bp_new (slow stop : N) : bp_config :=
  let slow := N.max slow 1 in
  mkBp slow (N.max stop slow) (bp_slow_bytes bp_default) (bp_stop_bytes bp_default)
       (bp_slow_delay bp_default) (bp_stop_delay bp_default).

(** The builder methods: src/db/builder.rs:1386-1424 *)
Inductive bp_call := CSlowDelay (d : N) | CStopDelay (d : N) | CSlowBytes (b : N) | CStopBytes (b : N).
Definition bp_apply (c : bp_config) (f : bp_call) : bp_config :=
  match f with
  | CSlowDelay d =>
      if d =? 0 then c
      else mkBp (bp_slow_files c) (bp_stop_files c) (bp_slow_bytes c) (bp_stop_bytes c) d (bp_stop_delay c)
  | CStopDelay d =>
      if d =? 0 then c
      else mkBp (bp_slow_files c) (bp_stop_files c) (bp_slow_bytes c) (bp_stop_bytes c) (bp_slow_delay c) d
  | CSlowBytes b =>
      mkBp (bp_slow_files c) (bp_stop_files c) (Some (N.max b 1))
           (match bp_stop_bytes c with Some s => Some (N.max s (N.max b 1)) | None => None end)
           (bp_slow_delay c) (bp_stop_delay c)
  | CStopBytes b =>
      let b := N.max b 1 in
      mkBp (bp_slow_files c) (bp_stop_files c) (bp_slow_bytes c)
           (match bp_slow_bytes c with Some s => Some (N.max b s) | None => Some b end)
           (bp_slow_delay c) (bp_stop_delay c)
  end.
(** Every configuration the public API can make. *)
Definition bp_build (init : option (N * N)) (calls : list bp_call) : bp_config :=
  fold_left bp_apply calls (match init with Some (a, b) => bp_new a b | None => bp_default end).

(** [BackpressureDecision]: src/db/mod.rs:184-189 *)
Inductive bp_decision := Proceed | Slowdown (delay : N) | Stall (delay : N).

Definition over (limit total : option N) : bool :=
  match limit, total with Some l, Some t => l <=? t | _, _ => false end.
(** [L0BackpressureConfig::decision]: src/db/mod.rs:191-212 *)
Definition bp_decide (c : bp_config) (s : l0_stats) : bp_decision :=
  if (bp_stop_files c <=? l0_files s) || over (bp_stop_bytes c) (l0_bytes s) then Stall (bp_stop_delay c)
  else if (bp_slow_files c <=? l0_files s) || over (bp_slow_bytes c) (l0_bytes s) then Slowdown (bp_slow_delay c)
  else Proceed.

Definition usize_max : N := 2 ^ 64 - 1.
(** [l0_stats_from_manifest]: src/db/mod.rs:939-967; the argument is level 0 of the latest
    version, a file as the size in its statistics, if it has any. *)
Definition l0_from_manifest (level0 : list (option N)) : l0_stats :=
  mkL0 (N.of_nat (length level0))
       (fold_left (fun acc f => match acc, f with Some a, Some b => Some (N.min (a + b) usize_max) | _, _ => None end)
                  level0 (Some 0)).

(** [apply_l0_backpressure]: src/db/mod.rs:1018-1067.  The statistics seen by the first
    check and by the rechecks; returns the delays slept and the statistics not consumed;
    [None]: still stalled when the list ends. *)
Fixpoint bp_stalled (c : bp_config) (rest : list l0_stats) : option (list N * list l0_stats) :=
  match rest with
  | [] => None
  | s :: r =>
      match bp_decide c s with
      | Stall _ =>
          match bp_stalled c r with
          | Some (ds, r') => Some (bp_stop_delay c :: ds, r')
          | None => None
          end
      | Slowdown d => Some ([d], r)
      | Proceed => Some ([], r)
      end
  end.
Definition bp_wait (c : bp_config) (seen : list l0_stats) : option (list N * list l0_stats) :=
  match seen with
  | [] => None
  | s :: r =>
      match bp_decide c s with
      | Proceed => Some ([], r)
      | Slowdown d => Some ([d], r)
      | Stall d => match bp_stalled c r with Some (ds, r') => Some (d :: ds, r') | None => None end
      end
  end.

(** *** Backoff *)
Definition duration_max : N := (2 ^ 64 - 1) * 1000000000 + 999999999.
(** [CasBackoffConfig]: src/db/builder.rs:1484-1525 *)
Record backoff := mkBackoff { bo_base : N; bo_max : N }.
Definition backoff_default : backoff := mkBackoff (ms 50) (ms 1000).
Definition backoff_new (base max : N) : backoff :=
  let base := if base =? 0 then ms 1 else base in
  mkBackoff base (if max <? base then base else max).

(** [cas_backoff_delay]: src/compaction/driver.rs:296-310 *)
Definition double_sat (d : N) : N := N.min (d * 2) duration_max.
Definition cas_backoff_delay (c : backoff) (attempt : nat) : N :=
  match attempt with
  | O => 0
  | S n =>
      let d := Nat.iter n double_sat (bo_base c) in
      if bo_max c <? d then bo_max c else d
  end.
