(** Seal policies: src/inmem/policy.rs, and their evaluation after a write:
    src/db/wal.rs:191-200.  Definitions only.  Counters are unbounded numbers. *)
From Coq Require Import List NArith Bool.
From Verif Require Import Base.Order Model.OMap Model.KeyTs Model.MemTable Model.Immutable Model.Db.
Import ListNotations.
Local Open Scope N_scope.

(** [MemStats]: src/inmem/policy.rs:14-36 (the fields the policies read). *)
Record mem_stats := mkStats {
  ms_entries : N; ms_key_bytes : N; ms_overhead : N;
  ms_open_rows : option N; ms_batches : option N; ms_since_seal : option N
}.

(** [SealReason], [SealDecision]: src/inmem/policy.rs:38-66 *)
Inductive reason :=
| RBytes (approx limit : N) | RRows (count limit : N) | RBatches (count limit : N) | RTime (elapsed limit : N).
Inductive decision := NoOp | SealIt (r : reason).

(** The public policies: src/inmem/policy.rs:80-86, 111-190, 193-217.  A user-defined
    policy is not modelled. *)
Inductive policy :=
| NeverSeal
| BytesThreshold (limit : N)
| OpenRowsThreshold (rows : N)
| BatchesThreshold (batches : N)
| TimeElapsed (min_interval : N)
| AnyOf (inner : list policy).

(** [evaluate]: src/inmem/policy.rs:82-86, 118-130, 139-150, 159-170, 179-191, 206-217 *)
Fixpoint evaluate (p : policy) (s : mem_stats) : decision :=
  match p with
  | NeverSeal => NoOp
  | BytesThreshold l =>
      let a := ms_key_bytes s + ms_entries s * ms_overhead s in
      if l <=? a then SealIt (RBytes a l) else NoOp
  | OpenRowsThreshold l =>
      match ms_open_rows s with Some c => if l <=? c then SealIt (RRows c l) else NoOp | None => NoOp end
  | BatchesThreshold l =>
      match ms_batches s with Some c => if l <=? c then SealIt (RBatches c l) else NoOp | None => NoOp end
  | TimeElapsed l =>
      match ms_since_seal s with Some e => if l <=? e then SealIt (RTime e l) else NoOp | None => NoOp end
  | AnyOf ps =>
      (fix any (ps : list policy) : decision :=
         match ps with
         | [] => NoOp
         | q :: r => match evaluate q s with SealIt x => SealIt x | NoOp => any r end
         end) ps
  end.

(** [default_policy]: src/inmem/policy.rs:88-109, times in milliseconds *)
Definition default_policy : policy :=
  AnyOf [BytesThreshold (64 * 1024 * 1024); TimeElapsed 30000; OpenRowsThreshold 16384; BatchesThreshold 64].

Section Stats.
  Context {K : Type} {KO : KeyOrd K} {R : Type}.
  Variable key_of : R -> option K.
  Variable key_bytes : K -> N.

  (** The distinct keys of an index, in order. *)
  Fixpoint distinct_keys (prev : option K) (idx : list ((K * N) * mloc)) : list K :=
    match idx with
    | [] => []
    | e :: r =>
        let k := fst (fst e) in
        match prev with
        | Some p => if keqb p k then distinct_keys (Some k) r else k :: distinct_keys (Some k) r
        | None => k :: distinct_keys (Some k) r
        end
    end.

  (** [DynMemInner::build_stats]: src/inmem/mutable/memtable.rs:510-525 with the counters
      of src/inmem/mutable/metrics.rs (entries and key bytes count the first write of each
      key since the last seal: src/inmem/mutable/memtable.rs:169-180); here they are
      computed from the index; [Model.Metrics] has the counters.  The overhead is 32 (memtable.rs:135). *)
  Definition build_stats (m : mem K R) (since : option N) : mem_stats :=
    let ks := distinct_keys None (m_index m) in
    mkStats (N.of_nat (length ks)) (fold_right (fun k a => key_bytes k + a) 0 ks) 32
            None (Some (N.of_nat (length (m_batches m) + length (m_deletes m)))) since.

  Definition seals (x : decision) : bool := match x with SealIt _ => true | NoOp => false end.

  (** [maybe_seal_after_insert]: src/db/wal.rs:191-200.  [since]: the time since the last
      seal, none before the first one. *)
  Definition policy_seal (p : policy) (since : option N) (d : db K R) : db K R * bool :=
    maybe_seal key_of (seals (evaluate p (build_stats (d_mem d) since))) d.

  (** [ingest] with a policy: src/db/mod.rs:766-807; [since] as seen by the policy. *)
  Definition ingest_policy (p : policy) (since : option N) (rows : list R) (span : option frame_range) (d : db K R)
    : db K R * bool :=
    seq2 (put_rows key_of rows (d_clock d) (observe_range span (tick d))) (policy_seal p since).

  (** The time of the last seal ([SealState::last_seal_at]) is kept beside the database:
      src/db/wal.rs:133-155, 191-194.  [now] is the time of the call, which is taken to be
      the same for both seals of one call. *)
  Definition note_seal (now : N) (before after : db K R) (last : option N) : option N :=
    if Nat.eqb (length (d_imm before)) (length (d_imm after)) then last else Some now.
  Definition ingest_at (p : policy) (now : N) (rows : list R) (span : option frame_range) (t : db K R * option N)
    : (db K R * option N) * bool :=
    let '(d, last) := t in
    let '(d1, ok) := put_rows key_of rows (d_clock d) (observe_range span (tick d)) in
    let last1 := note_seal now d d1 last in
    if ok then
      let '(d2, ok2) := policy_seal p (option_map (fun l => now - l) last1) d1 in
      ((d2, note_seal now d1 d2 last1), ok2)
    else ((d1, last1), false).
End Stats.
