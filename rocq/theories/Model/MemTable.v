(** Mutable memtable: src/inmem/mutable/memtable.rs ([DynMemInner], [DynMem]).
    Definitions only.

    Simplifications: a [RecordBatch] is a list of rows; [key_of] is the primary key
    projection of a row ([None] if a key column is null, in which case
    [KeyProjection::project_view], src/extractor/extractors.rs:111-137, fails for the
    whole batch).  Statistics counters are not modelled here. *)
From Coq Require Import List NArith Bool.
From Verif Require Import Base.Order Model.OMap Model.KeyTs.
Import ListNotations.

(** [DynMutation<BatchRowLoc, DeleteRowLoc>]: src/inmem/mutable/memtable.rs:77-99 *)
Inductive mloc := Up (batch_idx row_idx : nat) | Del (batch_idx row_idx : nat).

Section Mem.
  Context {K : Type} {KO : KeyOrd K} {R : Type}.
  Variable key_of : R -> option K.

  (** [DynMemInner]: src/inmem/mutable/memtable.rs:105-121.  A slot is [Some] once
      written; the cursor is the number of reserved slots, i.e. the length. *)
  Record mem := mkMem {
    m_index : list ((K * N) * mloc);
    m_batches : list (option (list R * list N));
    m_deletes : list (option (list K * list N));
    m_capacity : nat
  }.

  (** [DynMemInner::new]: src/inmem/mutable/memtable.rs:124-137 *)
  Definition mem_new (capacity : nat) : mem := mkMem [] [] [] capacity.

  (** [KeyProjection::project_view]: src/extractor/extractors.rs:111-137; fails if any
      key is null. *)
  Fixpoint project_view (rows : list R) : option (list K) :=
    match rows with
    | [] => Some []
    | r :: rs =>
        match key_of r, project_view rs with
        | Some k, Some ks => Some (k :: ks)
        | _, _ => None
        end
    end.

  (** The index insertion loop of [try_insert_batch]
      (src/inmem/mutable/memtable.rs:169-188): row [i] of the batch in slot [b]. *)
  Fixpoint index_rows (mk : nat -> mloc) (i : nat) (keys : list K) (tss : list N)
           (idx : list ((K * N) * mloc)) : list ((K * N) * mloc) :=
    match keys, tss with
    | k :: ks, t :: ts => index_rows mk (S i) ks ts (om_insert (k, t) (mk i) idx)
    | _, _ => idx
    end.

  (** Result of an insert attempt: [IExhausted] is the code's [Err(())],
      [IKeyErr m] is [Ok(Err e)] with the state left behind. *)
  Inductive insert_result :=
  | IOk (m : mem)
  | IKeyErr (m : mem)
  | IExhausted.

  (** [try_insert_batch]: src/inmem/mutable/memtable.rs:140-190 *)
  Definition try_insert_batch (m : mem) (rows : list R) (tss : list N) : insert_result :=
    let b := length (m_batches m) in
    if Nat.leb (m_capacity m) b then IExhausted
    else
      let m1 := mkMem (m_index m) (m_batches m ++ [Some (rows, tss)]) (m_deletes m) (m_capacity m) in
      match project_view rows with
      | None => IKeyErr m1
      | Some keys =>
          IOk (mkMem (index_rows (Up b) 0 keys tss (m_index m))
                     (m_batches m1) (m_deletes m1) (m_capacity m1))
      end.

  (** The keys of a delete batch; [None] = a null key. *)
  Fixpoint project_keys (ks : list (option K)) : option (list K) :=
    match ks with
    | [] => Some []
    | k :: r => match k, project_keys r with Some x, Some xs => Some (x :: xs) | _, _ => None end
    end.

  (** [try_insert_delete_batch]: src/inmem/mutable/memtable.rs:193-289.  The batch is the
      key column(s) plus its commit timestamp column.  On a key error the slot stays
      reserved but unset. *)
  Definition try_insert_delete_batch (m : mem) (ks : list (option K)) (tss : list N) : insert_result :=
    match ks with
    | [] => IOk m
    | _ =>
        let b := length (m_deletes m) in
        if Nat.leb (m_capacity m) b then IExhausted
        else
          match project_keys ks with
          | None => IKeyErr (mkMem (m_index m) (m_batches m) (m_deletes m ++ [None]) (m_capacity m))
          | Some keys =>
              IOk (mkMem (index_rows (Del b) 0 keys tss (m_index m))
                         (m_batches m) (m_deletes m ++ [Some (keys, tss)]) (m_capacity m))
          end
    end.

  (** Row, key and timestamp stored at a location ([batch_slots[i].get().expect(..)],
      src/inmem/mutable/memtable.rs:331-357, 1013-1025); [None] is the panic. *)
  Definition fetch_row (m : mem) (b i : nat) : option (R * N) :=
    match nth_error (m_batches m) b with
    | Some (Some (rows, tss)) =>
        match nth_error rows i, nth_error tss i with
        | Some r, Some t => Some (r, t)
        | _, _ => None
        end
    | _ => None
    end.
  Definition fetch_delete (m : mem) (b i : nat) : option (K * N) :=
    match nth_error (m_deletes m) b with
    | Some (Some (keys, tss)) =>
        match nth_error keys i, nth_error tss i with
        | Some k, Some t => Some (k, t)
        | _, _ => None
        end
    | _ => None
    end.

  (** Entries a memtable scan yields: [DynRowScanEntry]
      (src/inmem/mutable/memtable.rs:942-945): [Some row] or a tombstone ([None]). *)
  Definition vers := ((K * N) * option R)%type.

  (** Materialise one visible index entry: src/inmem/mutable/memtable.rs:1006-1031 *)
  Definition materialise (m : mem) (e : (K * N) * mloc) : option vers :=
    match snd e with
    | Del _ _ => Some (fst e, None)
    | Up b i => match fetch_row m b i with Some (r, _) => Some (fst e, Some r) | None => None end
    end.

  Fixpoint mapM {A B} (f : A -> option B) (l : list A) : option (list B) :=
    match l with
    | [] => Some []
    | a :: r => match f a, mapM f r with Some b, Some bs => Some (b :: bs) | _, _ => None end
    end.

  (** [scan_visible_with_bounds] driven to the end:
      src/inmem/mutable/memtable.rs:466-496 with [DynRowScan::next] 985-1034.
      [None] is a panic.  Whole rows; column projection is in [Model.Project]. *)
  Definition mem_scan (m : mem) (read_ts : N) (bounds : option (bound K * bound K))
    : option (list vers) :=
    let cursor := match bounds with
                  | Some (lo, hi) => om_range (kts_lower lo) (kts_upper hi) (m_index m)
                  | None => m_index m
                  end in
    mapM (materialise m) (visible_scan read_ts None false cursor).

  (** [has_conflict]: src/inmem/mutable/memtable.rs:499-507 *)
  Definition mem_has_conflict (m : mem) (key : K) (snapshot_ts : N) : bool :=
    match om_range (Included (key, ts_max)) (Included (key, ts_min)) (m_index m) with
    | e :: _ => N.ltb snapshot_ts (snd (fst e))
    | [] => false
    end.

  (** [key_bounds]: src/inmem/mutable/memtable.rs:527-539 *)
  Definition mem_key_bounds (m : mem) : option K * option K :=
    (match m_index m with e :: _ => Some (fst (fst e)) | [] => None end,
     match rev (m_index m) with e :: _ => Some (fst (fst e)) | [] => None end).

  (** Fold of the running minimum and maximum used by both [commit_ts_bounds]:
      src/inmem/mutable/memtable.rs:541-556, src/inmem/immutable/memtable.rs:150-164 *)
  Definition ts_bounds (l : list N) : option (N * N) :=
    match l with
    | [] => None
    | t :: r =>
        Some (fold_left (fun mm t => (if N.ltb t (fst mm) then t else fst mm,
                                      if N.ltb (snd mm) t then t else snd mm)) r (t, t))
    end.

  (** [DynMemInner::commit_ts_bounds]: src/inmem/mutable/memtable.rs:541-556 *)
  Definition mem_commit_ts_bounds (m : mem) : option (N * N) :=
    ts_bounds (map (fun e => snd (fst e)) (m_index m)).

  (** [row_count]: src/inmem/mutable/memtable.rs:558-560 *)
  Definition mem_row_count (m : mem) : nat := length (m_index m).
End Mem.
Arguments mem K R : clear implicits.
Arguments insert_result K R : clear implicits.
