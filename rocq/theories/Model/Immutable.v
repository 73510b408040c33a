(** Immutable segments and sealing: src/inmem/immutable/memtable.rs,
    [DynMemInner::seal] in src/inmem/mutable/memtable.rs, and
    [prune_segments] in src/inmem/immutable/mod.rs.  Definitions only. *)
From Coq Require Import List NArith Bool.
From Verif Require Import Base.Order Model.OMap Model.KeyTs Model.MemTable.
Import ListNotations.

(** [ImmutableIndexEntry]: src/inmem/immutable/memtable.rs:25-29 *)
Inductive ientry := IRow (row : nat) | IDelete.

Section Imm.
  Context {K : Type} {KO : KeyOrd K} {R : Type}.
  Variable key_of : R -> option K.

  (** [ImmutableMemTable] with its [MvccColumns] and [DeleteSidecar]:
      src/inmem/immutable/memtable.rs:17-35, 500-503.  The tombstone column is
      the second component of [s_mvcc]. *)
  Record seg := mkSeg {
    s_rows : list R;
    s_mvcc : list (N * bool);
    s_index : list ((K * N) * ientry);
    s_del_keys : list K;
    s_del_ts : list N
  }.

  (** First pass of [seal] over the index in order
      (src/inmem/mutable/memtable.rs:329-358): collect the row slices, their commit
      timestamps, the deleted keys, theirs, and the kind of each entry.
      [None] is the panic on an uninitialised slot. *)
  Record seal_acc := mkAcc {
    a_rows : list R; a_ts : list N;
    a_dkeys : list K; a_dts : list N;
    a_kinds : list (N * bool)              (* true = upsert *)
  }.
  Fixpoint seal_collect (m : mem K R) (l : list ((K * N) * mloc)) : option seal_acc :=
    match l with
    | [] => Some (mkAcc [] [] [] [] [])
    | ((k, t), loc) :: r =>
        match seal_collect m r with
        | None => None
        | Some acc =>
            match loc with
            | Up b i =>
                match fetch_row m b i with
                | Some (row, ct) =>
                    Some (mkAcc (row :: a_rows acc) (ct :: a_ts acc)
                                (a_dkeys acc) (a_dts acc) ((t, true) :: a_kinds acc))
                | None => None
                end
            | Del b i =>
                match fetch_delete m b i with
                | Some (dk, ct) =>
                    Some (mkAcc (a_rows acc) (a_ts acc)
                                (dk :: a_dkeys acc) (ct :: a_dts acc) ((t, false) :: a_kinds acc))
                | None => None
                end
            end
        end
    end.

  (** Second pass of [seal] (src/inmem/mutable/memtable.rs:409-434): rebuild the
      composite index from the keys re-projected from the stored rows.
      [None] is the [expect] on a missing key row. *)
  Fixpoint build_index (kinds : list (N * bool)) (ukeys dkeys : list K) (urow : nat)
           (idx : list ((K * N) * ientry)) : option (list ((K * N) * ientry)) :=
    match kinds with
    | [] => Some idx
    | (t, true) :: r =>
        match ukeys with
        | k :: ks => build_index r ks dkeys (S urow) (om_insert (k, t) (IRow urow) idx)
        | [] => None
        end
    | (t, false) :: r =>
        match dkeys with
        | k :: ks => build_index r ukeys ks urow (om_insert (k, t) IDelete idx)
        | [] => None
        end
    end.

  (** Outcome of [seal]: [SNone] = nothing to seal ([Ok(None)]), [SErr] = an error or
      panic, [SSealed m s] = the reset memtable and the new segment. *)
  Inductive seal_result :=
  | SNone
  | SErr
  | SSealed (m : mem K R) (s : seg).

  (** [DynMemInner::seal]: src/inmem/mutable/memtable.rs:292-442 (with
      [bundle_mvcc_sidecar], src/inmem/immutable/memtable.rs:183-203: all stored rows
      get tombstone = false). *)
  Definition seal (m : mem K R) : seal_result :=
    match m_index m with
    | [] => SNone
    | _ =>
        match seal_collect m (m_index m) with
        | None => SErr
        | Some acc =>
            match project_view key_of (a_rows acc) with
            | None => SErr
            | Some ukeys =>
                match build_index (a_kinds acc) ukeys (a_dkeys acc) 0 [] with
                | None => SErr
                | Some idx =>
                    SSealed (mem_new (m_capacity m))
                            (mkSeg (a_rows acc) (map (fun t => (t, false)) (a_ts acc))
                                   idx (a_dkeys acc) (a_dts acc))
                end
            end
        end
    end.

  (** Outcome of an insert with auto-seal. [MKeyErr m]: error with the state left behind
      (a segment sealed on the way is dropped, exactly as [Ok(Err(e)) => Err(e)] does). *)
  Inductive minsert_result :=
  | MOk (m : mem K R) (sealed : option seg)
  | MKeyErr (m : mem K R)
  | MFail.

  Definition after_seal (m : mem K R) (retry : mem K R -> insert_result K R) : minsert_result :=
    match seal m with
    | SErr => MFail
    | SNone =>
        match retry m with
        | IOk m' => MOk m' None | IKeyErr m' => MKeyErr m' | IExhausted => MFail
        end
    | SSealed m0 s =>
        match retry m0 with
        | IOk m' => MOk m' (Some s) | IKeyErr m' => MKeyErr m' | IExhausted => MFail
        end
    end.

  (** [DynMem::insert_batch] / [insert_batch_with_mvcc]:
      src/inmem/mutable/memtable.rs:647-711 (schema validation is done by the callers of
      the model; all rows get the one commit timestamp). *)
  Definition mem_insert_batch (m : mem K R) (rows : list R) (ts : N) : minsert_result :=
    let tss := repeat ts (length rows) in
    match try_insert_batch key_of m rows tss with
    | IOk m' => MOk m' None
    | IKeyErr m' => MKeyErr m'
    | IExhausted => after_seal m (fun m0 => try_insert_batch key_of m0 rows tss)
    end.

  (** [DynMem::insert_delete_batch]: src/inmem/mutable/memtable.rs:716-743 *)
  Definition mem_insert_deletes (m : mem K R) (ks : list (option K)) (ts : N) : minsert_result :=
    let tss := repeat ts (length ks) in
    match try_insert_delete_batch m ks tss with
    | IOk m' => MOk m' None
    | IKeyErr m' => MKeyErr m'
    | IExhausted => after_seal m (fun m0 => try_insert_delete_batch m0 ks tss)
    end.

  (** Materialise one visible entry of a segment ([ImmutableVisibleScan::next],
      src/inmem/immutable/memtable.rs:385-413).  The re-check of the row's own
      commit timestamp (389-391) is in [seg_scan]'s filter: [Some None'] = skip. *)
  Inductive imat := IEmit (v : (K * N) * option R) | ISkip.
  Definition seg_materialise (s : seg) (read_ts : N) (e : (K * N) * ientry) : option imat :=
    match snd e with
    | IDelete => Some (IEmit (fst e, None))
    | IRow i =>
        match nth_error (s_mvcc s) i with
        | None => None
        | Some (ct, tomb) =>
            if N.ltb read_ts ct then Some ISkip
            else if tomb then Some (IEmit (fst e, None))
            else match nth_error (s_rows s) i with
                 | Some r => Some (IEmit (fst e, Some r))
                 | None => None
                 end
        end
    end.

  (** [ImmutableVisibleScan::next] driven over a cursor
      (src/inmem/immutable/memtable.rs:360-416).  A skip leaves [emitted_for_key]
      false, so the loop looks at the next version of the key. *)
  Fixpoint seg_visible (s : seg) (read_ts : N) (cur : option K) (emitted : bool)
           (l : list ((K * N) * ientry)) : option (list ((K * N) * option R)) :=
    match l with
    | [] => Some []
    | ((k, t), a) :: r =>
        let same := match cur with Some c => keqb c k | None => false end in
        if same && emitted then seg_visible s read_ts cur emitted r
        else
          let cur' := if same then cur else Some k in
          if N.ltb read_ts t then seg_visible s read_ts cur' false r
          else match seg_materialise s read_ts ((k, t), a) with
               | None => None
               | Some ISkip => seg_visible s read_ts cur' false r
               | Some (IEmit v) =>
                   match seg_visible s read_ts cur' true r with
                   | Some vs => Some (v :: vs)
                   | None => None
                   end
               end
    end.

  (** [scan_visible] / [scan_visible_in_range]:
      src/inmem/immutable/memtable.rs:171-180, 317-356 *)
  Definition seg_scan (s : seg) (read_ts : N) (bounds : option (bound K * bound K))
    : option (list ((K * N) * option R)) :=
    let cursor := match bounds with
                  | Some (lo, hi) => om_range (kts_lower lo) (kts_upper hi) (s_index s)
                  | None => s_index s
                  end in
    seg_visible s read_ts None false cursor.

  (** [ImmutableMemTable::has_conflict]: src/inmem/immutable/memtable.rs:119-125 *)
  Definition seg_has_conflict (s : seg) (key : K) (snapshot_ts : N) : bool :=
    existsb (fun e => N.ltb snapshot_ts (snd (fst e)))
            (om_range (Included (key, ts_max)) (Included (key, ts_min)) (s_index s)).

  (** [entry_count], [min_key], [max_key]: src/inmem/immutable/memtable.rs:131-144 *)
  Definition seg_entry_count (s : seg) : nat := length (s_index s).
  Definition seg_min_key (s : seg) : option K :=
    match s_index s with e :: _ => Some (fst (fst e)) | [] => None end.
  Definition seg_max_key (s : seg) : option K :=
    match rev (s_index s) with e :: _ => Some (fst (fst e)) | [] => None end.

  (** [ImmutableMemTable::commit_ts_bounds]: src/inmem/immutable/memtable.rs:150-164.
      Note: only the timestamps of stored rows, not of deletes. *)
  Definition seg_commit_ts_bounds (s : seg) : option (N * N) := ts_bounds (map fst (s_mvcc s)).

  (** [prune_segments]: src/inmem/immutable/mod.rs:11-39.  [overlaps] is
      [KeyBounds::overlaps] of the optional key bounds. *)
  Definition seg_kept (overlaps : option (K -> K -> bool)) (read_ts : N) (s : seg) : bool :=
    if Nat.eqb (seg_entry_count s) 0 then false
    else
      let ts_ok := match seg_commit_ts_bounds s with
                   | Some (mn, _) => negb (N.ltb read_ts mn)
                   | None => true
                   end in
      match overlaps with
      | None => ts_ok
      | Some ov =>
          match seg_min_key s, seg_max_key s with
          | Some a, Some b => if ov a b then ts_ok else false
          | _, _ => true
          end
      end.
  Fixpoint prune_from (i : nat) (overlaps : option (K -> K -> bool)) (read_ts : N)
           (segs : list seg) : list nat :=
    match segs with
    | [] => []
    | s :: r =>
        if seg_kept overlaps read_ts s then i :: prune_from (S i) overlaps read_ts r
        else prune_from (S i) overlaps read_ts r
    end.
  Definition prune_segments := prune_from 0.
End Imm.
Arguments seg K R : clear implicits.
Arguments seal_result K R : clear implicits.
Arguments minsert_result K R : clear implicits.
