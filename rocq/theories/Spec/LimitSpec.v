(** When a configured limit is reached, in words the user knows. *)
From Coq Require Import List NArith Sorted.
From Verif Require Import Base.Order Model.Policy Model.Backpressure Model.Metrics.
Import ListNotations.
Local Open Scope N_scope.

(** A memtable with these statistics has reached a limit of the policy. *)
Inductive reached (s : mem_stats) : policy -> Prop :=
| re_bytes l : l <= ms_key_bytes s + ms_entries s * ms_overhead s -> reached s (BytesThreshold l)
| re_rows l n : ms_open_rows s = Some n -> l <= n -> reached s (OpenRowsThreshold l)
| re_batches l n : ms_batches s = Some n -> l <= n -> reached s (BatchesThreshold l)
| re_time l n : ms_since_seal s = Some n -> l <= n -> reached s (TimeElapsed l)
| re_any ps p : In p ps -> reached s p -> reached s (AnyOf ps).

(** [q] is [p] or one of the policies that [p] is composed of. *)
Inductive part_of (q : policy) : policy -> Prop :=
| pa_self : part_of q q
| pa_any ps p : In p ps -> part_of q p -> part_of q (AnyOf ps).
(** The reason given for a seal: a limit of the policy, and the number that reached it. *)
Definition explains (s : mem_stats) (p : policy) (r : reason) : Prop :=
  match r with
  | RBytes n l => n = ms_key_bytes s + ms_entries s * ms_overhead s /\ l <= n /\ part_of (BytesThreshold l) p
  | RRows n l => ms_open_rows s = Some n /\ l <= n /\ part_of (OpenRowsThreshold l) p
  | RBatches n l => ms_batches s = Some n /\ l <= n /\ part_of (BatchesThreshold l) p
  | RTime n l => ms_since_seal s = Some n /\ l <= n /\ part_of (TimeElapsed l) p
  end.

(** The keys [ks] are exactly the different keys among [all], each once, in order. *)
Definition lists_keys {K} `{KeyOrd K} (all ks : list K) : Prop :=
  StronglySorted (fun a b => kcmp a b = Lt) ks /\
  (forall k, In k ks -> In k all) /\
  (forall k, In k all -> exists k', In k' ks /\ kcmp k' k = Eq).

(** A number is at or above an optional limit; an unknown number is at no limit. *)
Definition at_limit (limit total : option N) : Prop :=
  exists l t, limit = Some l /\ total = Some t /\ l <= t.
Definition at_stop (c : bp_config) (s : l0_stats) : Prop :=
  bp_stop_files c <= l0_files s \/ at_limit (bp_stop_bytes c) (l0_bytes s).
Definition at_slow (c : bp_config) (s : l0_stats) : Prop :=
  bp_slow_files c <= l0_files s \/ at_limit (bp_slow_bytes c) (l0_bytes s).
(** How strongly a decision holds ingest back. *)
Definition severity (d : bp_decision) : N := match d with Proceed => 0 | Slowdown _ => 1 | Stall _ => 2 end.

(** Rows and deletes written since the memtable was last sealed, and rows and deletes whose
    timestamp fits in 64 bits. *)
Definition tally (a : N) (e : mseen) : N :=
  match e with MWrote n => a + N.of_nat n | MRefused => a | MSealed => 0 end.
Definition wrote_since (t : list mseen) : N := fold_left tally t 0.
Definition call_fits {K R} (c : mcall K R) : Prop :=
  match c with MRows _ t | MDels _ t => t <= 18446744073709551615 | MSealNow => True end.
