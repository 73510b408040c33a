(** The counters of the memtable and the statistics built from them: src/inmem/mutable/metrics.rs,
    src/inmem/mutable/memtable.rs:140-289, 292-442 (reset), 510-525.  Definitions only.
    Counters are unbounded numbers (64 bits in the code). *)
From Coq Require Import List NArith Bool.
From Verif Require Import Base.Order Model.OMap Model.KeyTs Model.MemTable Model.Immutable Model.Policy.
Import ListNotations.
Local Open Scope N_scope.

(** [MutableMemTableMetrics]: src/inmem/mutable/metrics.rs:3-10; the overhead is fixed to 32
    (src/inmem/mutable/memtable.rs:135). *)
Record counters := mkCt { ct_entries : N; ct_inserts : N; ct_replaces : N; ct_key_bytes : N }.
(** [new], [reset_counters]: src/inmem/mutable/metrics.rs:22-30, 53-58 *)
Definition ct_zero : counters := mkCt 0 0 0 0.
(** [record_write]: src/inmem/mutable/metrics.rs:32-41 *)
Definition record_write (has_existing : bool) (size : N) (c : counters) : counters :=
  if has_existing then mkCt (ct_entries c) (ct_inserts c + 1) (ct_replaces c + 1) (ct_key_bytes c)
  else mkCt (ct_entries c + 1) (ct_inserts c + 1) (ct_replaces c) (ct_key_bytes c + size).

Section Metrics.
  Context {K : Type} {KO : KeyOrd K} {R : Type}.
  Variable key_of : R -> option K.
  Variable key_bytes : K -> N.

  (** A memtable with its counters. *)
  Definition cmem := (mem K R * counters)%type.
  Definition cm_new (capacity : nat) : cmem := (mem_new capacity, ct_zero).

  (** [index.range(..).next().is_some()]: src/inmem/mutable/memtable.rs:172-179, 267-274 *)
  Definition has_existing (k : K) (idx : list ((K * N) * mloc)) : bool :=
    match om_range (Included (k, ts_max)) (Included (k, ts_min)) idx with [] => false | _ => true end.

  (** The insertion loops with their counters: src/inmem/mutable/memtable.rs:169-188, 264-286 *)
  Fixpoint index_counted (mk : nat -> mloc) (i : nat) (keys : list K) (tss : list N)
           (s : list ((K * N) * mloc) * counters) : list ((K * N) * mloc) * counters :=
    match keys, tss with
    | k :: ks, t :: ts =>
        index_counted mk (S i) ks ts
          (om_insert (k, t) (mk i) (fst s), record_write (has_existing k (fst s)) (key_bytes k) (snd s))
    | _, _ => s
    end.

  Inductive cinsert := CIOk (m : cmem) | CIKeyErr (m : cmem) | CIExhausted.

  (** [try_insert_batch]: src/inmem/mutable/memtable.rs:140-190 *)
  Definition try_rows (rows : list R) (tss : list N) (s : cmem) : cinsert :=
    let '(m, c) := s in
    let b := length (m_batches m) in
    if Nat.leb (m_capacity m) b then CIExhausted
    else
      let bs := m_batches m ++ [Some (rows, tss)] in
      match project_view key_of rows with
      | None => CIKeyErr (mkMem (m_index m) bs (m_deletes m) (m_capacity m), c)
      | Some keys =>
          let '(idx, c') := index_counted (Up b) 0 keys tss (m_index m, c) in
          CIOk (mkMem idx bs (m_deletes m) (m_capacity m), c')
      end.

  (** [try_insert_delete_batch]: src/inmem/mutable/memtable.rs:193-289 *)
  Definition try_dels (ks : list (option K)) (tss : list N) (s : cmem) : cinsert :=
    let '(m, c) := s in
    match ks with
    | [] => CIOk s
    | _ =>
        let b := length (m_deletes m) in
        if Nat.leb (m_capacity m) b then CIExhausted
        else
          match project_keys ks with
          | None => CIKeyErr (mkMem (m_index m) (m_batches m) (m_deletes m ++ [None]) (m_capacity m), c)
          | Some keys =>
              let '(idx, c') := index_counted (Del b) 0 keys tss (m_index m, c) in
              CIOk (mkMem idx (m_batches m) (m_deletes m ++ [Some (keys, tss)]) (m_capacity m), c')
          end
    end.

  (** What is seen of a call: so many rows or keys were written, or refused with an error; the
      memtable was sealed. *)
  Inductive mseen := MWrote (n : nat) | MRefused | MSealed.

  (** [seal]: an empty index is left as it is, with its counters and its slots
      (src/inmem/mutable/memtable.rs:297-299); [None]: an error, after which the callers below keep
      the old state (in the code the index is already taken; reachable memtables always seal). *)
  Definition seal_counted (s : cmem) : option (cmem * list mseen) :=
    match seal key_of (fst s) with
    | SNone => Some (s, [])
    | SErr => None
    | SSealed m _ => Some ((m, ct_zero), [MSealed])
    end.

  (** [insert_batch], [insert_delete_batch]: src/inmem/mutable/memtable.rs:647-743 *)
  Definition insert_counted (n : nat) (try : cmem -> cinsert) (s : cmem) : cmem * list mseen :=
    match try s with
    | CIOk s' => (s', [MWrote n])
    | CIKeyErr s' => (s', [MRefused])
    | CIExhausted =>
        match seal_counted s with
        | None => (s, [MRefused])
        | Some (s0, seen) =>
            match try s0 with
            | CIOk s' => (s', seen ++ [MWrote n])
            | CIKeyErr s' => (s', seen ++ [MRefused])
            | CIExhausted => (s0, seen ++ [MRefused])
            end
        end
    end.

  (** The calls on a memtable; [seal_now]: src/inmem/mutable/memtable.rs:748-751 *)
  Inductive mcall := MRows (rows : list R) (ts : N) | MDels (ks : list (option K)) (ts : N) | MSealNow.
  Definition mcall_step (s : cmem) (c : mcall) : cmem * list mseen :=
    match c with
    | MRows rows ts => insert_counted (length rows) (try_rows rows (repeat ts (length rows))) s
    | MDels ks ts => insert_counted (length ks) (try_dels ks (repeat ts (length ks))) s
    | MSealNow => match seal_counted s with None => (s, [MRefused]) | Some r => r end
    end.
  Fixpoint mcall_run (s : cmem) (cs : list mcall) : cmem * list mseen :=
    match cs with
    | [] => (s, [])
    | c :: r => let '(s1, t1) := mcall_step s c in let '(s2, t2) := mcall_run s1 r in (s2, t1 ++ t2)
    end.

  (** [build_stats]: src/inmem/mutable/memtable.rs:510-525 *)
  Definition counted_stats (s : cmem) (since : option N) : mem_stats :=
    mkStats (ct_entries (snd s)) (ct_key_bytes (snd s)) 32 None
            (Some (N.of_nat (length (m_batches (fst s)) + length (m_deletes (fst s))))) since.
End Metrics.
Arguments cmem K R : clear implicits.
Arguments mcall K R : clear implicits.
