(** Major compaction: the K-way merge of src/ondisk/merge.rs, the reader stream it
    consumes (src/ondisk/sstable.rs) and the writer of its outputs.  Definitions only.

    Simplifications: a data or delete file is read as the batches [chunk_data]/[chunk_dels]
    returns for it (the Parquet reader's batches); the iteration budget is off (its default,
    [usize::MAX]); the user schema has no column called [_sequence], so the sequence of
    a row is its index in its batch; row indices stay below 2^32; I/O errors are not
    modelled; the size of a row in memory is the parameter [row_bytes]/[del_bytes]. *)
From Coq Require Import List NArith Bool.
From Verif Require Import Base.Order Model.OMap Model.KeyTs Model.MemTable Model.Immutable Model.SsTable.
Import ListNotations.

Section Compact.
  Context {K : Type} {KO : KeyOrd K} {R : Type}.
  Variable key_of : R -> option K.

  (** [SsTableStreamBatch]: src/ondisk/merge.rs:37-42 *)
  Definition sbatch := (list (R * N) * option (list (K * N)))%type.

  (** [SsTableReader::into_stream] (src/ondisk/sstable.rs:1255-1304): the i-th data batch
      is paired with the i-th delete batch; the shorter side is padded. *)
  Fixpoint zip_stream (ds : list (list (R * N))) (xs : list (list (K * N))) : list sbatch :=
    match ds with
    | [] => map (fun x => ([], Some x)) xs
    | d :: ds' =>
        match xs with
        | [] => (d, None) :: zip_stream ds' []
        | x :: xs' => (d, Some x) :: zip_stream ds' xs'
        end
    end.

  (** [RowKind]: src/ondisk/merge.rs:82-86 *)
  Inductive kind := KData | KDelete.

  (** [HeapEntry]: src/ondisk/merge.rs:88-96 *)
  Record hentry := mkHE {
    h_key : K; h_ts : N; h_seq : nat; h_kind : kind; h_src : nat; h_row : nat
  }.

  (** [HeapEntry::cmp]: src/ondisk/merge.rs:111-131; the heap pops the greatest. *)
  Definition h_cmp (a b : hentry) : comparison :=
    match kcmp (h_key a) (h_key b) with
    | Lt => Gt
    | Gt => Lt
    | Eq =>
        match N.compare (h_ts a) (h_ts b) with
        | Eq =>
            match Nat.compare (h_seq a) (h_seq b) with
            | Eq => match h_kind a, h_kind b with
                    | KDelete, KData => Gt
                    | KData, KDelete => Lt
                    | _, _ => Eq
                    end
            | c => c
            end
        | c => c
        end
    end.

  (** [BinaryHeap::pop]: a greatest element.  Entries that compare equal come from
      different sources and hold the same key, timestamp and sequence; the model takes the
      one pushed first. *)
  Fixpoint heap_max (e : hentry) (l : list hentry) : hentry :=
    match l with
    | [] => e
    | x :: r => heap_max (match h_cmp x e with Gt => x | _ => e end) r
    end.
  Definition kind_eqb (a b : kind) : bool :=
    match a, b with KData, KData | KDelete, KDelete => true | _, _ => false end.
  (** Source and kind identify a heap entry: each source has at most one of each kind. *)
  Definition same_slot (a b : hentry) : bool :=
    Nat.eqb (h_src a) (h_src b) && kind_eqb (h_kind a) (h_kind b).
  Definition heap_pop (l : list hentry) : option (hentry * list hentry) :=
    match l with
    | [] => None
    | x :: r => let m := heap_max x r in Some (m, filter (fun e => negb (same_slot e m)) l)
    end.

  (** [SourceCursor]: src/ondisk/merge.rs:138-145; [cu_rest] is the unread stream. *)
  Record cursor := mkCur {
    cu_rest : list sbatch;
    cu_batch : option sbatch;
    cu_di : nat;
    cu_xi : nat
  }.

  (** [ensure_batch]: src/ondisk/merge.rs:163-170 *)
  Definition ensure_batch (c : cursor) : cursor :=
    match cu_batch c with
    | Some _ => c
    | None =>
        match cu_rest c with
        | [] => mkCur [] None 0 0
        | b :: r => mkCur r (Some b) 0 0
        end
    end.

  (** [advance]: src/ondisk/merge.rs:243-262 *)
  Definition advance (kd : kind) (c : cursor) : cursor :=
    let di := match kd with KData => S (cu_di c) | KDelete => cu_di c end in
    let xi := match kd with KData => cu_xi c | KDelete => S (cu_xi c) end in
    match cu_batch c with
    | None => mkCur (cu_rest c) None di xi
    | Some (data, del) =>
        if Nat.leb (length data) di
           && match del with Some d => Nat.leb (length d) xi | None => true end
        then mkCur (cu_rest c) None 0 0
        else mkCur (cu_rest c) (cu_batch c) di xi
    end.

  Definition skips (skip : option K) (k : K) : bool :=
    match skip with Some s => keqb s k | None => false end.

  (** [enqueue]: src/ondisk/merge.rs:172-241.  [None]: a key error, or the fuel ran out. *)
  Fixpoint enqueue (fuel : nat) (src : nat) (kd : kind) (skip : option K) (c : cursor)
           (heap : list hentry) : option (cursor * list hentry) :=
    match fuel with
    | O => None
    | S fuel =>
        let c := ensure_batch c in
        match cu_batch c with
        | None => Some (c, heap)
        | Some (data, del) =>
            match kd with
            | KData =>
                match nth_error data (cu_di c) with
                | None => Some (c, heap)
                | Some (r, t) =>
                    match key_of r with
                    | None => None
                    | Some k =>
                        if skips skip k then enqueue fuel src kd skip (advance kd c) heap
                        else Some (c, heap ++ [mkHE k t (cu_di c) KData src (cu_di c)])
                    end
                end
            | KDelete =>
                match del with
                | None => Some (c, heap)
                | Some d =>
                    match nth_error d (cu_xi c) with
                    | None => Some (c, heap)
                    | Some (k, t) =>
                        if skips skip k then enqueue fuel src kd skip (advance kd c) heap
                        else Some (c, heap ++ [mkHE k t (cu_xi c) KDelete src (cu_xi c)])
                    end
                end
            end
        end
    end.

  (** [OutputState]: src/ondisk/merge.rs:291-303.  Its own key and timestamp bounds are
      never read and are left out. *)
  Record ostate := mkOut {
    o_batches : list (list (R * N) * list (K * N));
    o_data : list (R * N);
    o_dels : list (K * N);
    o_rows : nat;
    o_tombs : nat;
    o_bytes : nat
  }.
  Definition o_new : ostate := mkOut [] [] [] 0 0 0.

  Variable row_bytes : R -> nat.
  Variable del_bytes : K -> nat.

  (** [append_data] with [push_data]: src/ondisk/merge.rs:264-273, 323-328 *)
  Definition append_data (c : cursor) (i : nat) (o : ostate) : ostate :=
    match cu_batch c with
    | None => o
    | Some (data, _) =>
        match nth_error data i with
        | None => o
        | Some p => mkOut (o_batches o) (o_data o ++ [p]) (o_dels o) (S (o_rows o)) (o_tombs o)
                          (o_bytes o + row_bytes (fst p))
        end
    end.
  (** [append_delete] with [push_delete]: src/ondisk/merge.rs:275-288, 330-335 *)
  Definition append_delete (c : cursor) (i : nat) (o : ostate) : ostate :=
    match cu_batch c with
    | Some (_, Some d) =>
        match nth_error d i with
        | None => o
        | Some p => mkOut (o_batches o) (o_data o) (o_dels o ++ [p]) (o_rows o) (S (o_tombs o))
                          (o_bytes o + del_bytes (fst p))
        end
    | _ => o
    end.

  (** [flush_chunk]: src/ondisk/merge.rs:363-395 *)
  Definition flush_chunk (o : ostate) : ostate :=
    match o_data o, o_dels o with
    | [], [] => o
    | d, x => mkOut (o_batches o ++ [(d, x)]) [] [] (o_rows o) (o_tombs o) (o_bytes o)
    end.
  (** [should_flush_chunk] (359-361); [pending_rows] counts both parts. *)
  Definition maybe_flush_chunk (chunk_rows : nat) (o : ostate) : ostate :=
    if Nat.leb chunk_rows (length (o_data o) + length (o_dels o)) then flush_chunk o else o.

  (** [exceeds_caps]: src/ondisk/merge.rs:405-409 *)
  Definition exceeds_caps (max_rows max_bytes : option nat) (o : ostate) : bool :=
    match max_rows with Some c => Nat.leb c (o_rows o) | None => false end
    || match max_bytes with Some c => Nat.leb c (o_bytes o) | None => false end.

  (** [has_pending]: src/ondisk/merge.rs:397-403 *)
  Definition has_pending (o : ostate) : bool :=
    match o_batches o, o_data o, o_dels o with
    | [], [], [] => Nat.ltb 0 (o_rows o) || Nat.ltb 0 (o_tombs o)
    | _, _, _ => true
    end.

  (** [stage_stream_batch]: src/ondisk/sstable.rs:581-651.  [None]: a row without key. *)
  Definition stage_stream_batch (st : stats (K := K)) (b : list (R * N) * list (K * N)) : option stats :=
    let '(data, del) := b in
    match data, del with
    | [], [] => Some st
    | _, _ =>
        let st1 := match data with
                   | [] => Some st
                   | (r0, _) :: _ =>
                       match key_of r0, key_of (fst (last data (r0, 0%N))) with
                       | Some a, Some z => Some (update_key_bounds st a z)
                       | _, _ => None
                       end
                   end in
        match st1 with
        | None => None
        | Some st1 =>
            let st2 := match del with
                       | [] => st1
                       | (k0, t0) :: _ => update_key_bounds st1 k0 (fst (last del (k0, t0)))
                       end in
            let st3 := match ts_bounds (map snd data ++ map snd del) with
                       | Some (mn, mx) => update_commit_bounds st2 mn mx
                       | None => st2
                       end in
            Some (mkStats (st_min_key st3) (st_max_key st3) (st_min_ts st3) (st_max_ts st3)
                          (S (st_segments st3)))
        end
    end.
  Fixpoint stage_batches (st : stats (K := K)) (l : list (list (R * N) * list (K * N))) : option stats :=
    match l with
    | [] => Some st
    | b :: r => match stage_stream_batch st b with Some st' => stage_batches st' r | None => None end
    end.

  (** [OutputState::finish]: src/ondisk/merge.rs:411-438 with [ParquetTableWriter::finish]
      (src/ondisk/sstable.rs:653-689; no normalisation: nothing was staged as an
      immutable segment). *)
  Definition o_finish (id : N) (o : ostate) : option (sst K R) :=
    let o := flush_chunk o in
    match stage_batches stats_new (o_batches o) with
    | None => None
    | Some st =>
        if Nat.eqb (st_segments st) 0 then None
        else Some (mkSst id (concat (map fst (o_batches o))) (concat (map snd (o_batches o)))
                         (st_min_key st) (st_max_key st) (st_min_ts st) (st_max_ts st))
    end.

  Fixpoint set_nth {A} (n : nat) (a : A) (l : list A) : list A :=
    match l, n with
    | [], _ => []
    | _ :: r, O => a :: r
    | x :: r, S n => x :: set_nth n a r
    end.

  (** Pop the entries with the winner's key: src/ondisk/merge.rs:727-734 *)
  Fixpoint pop_group (fuel : nat) (k : K) (heap : list hentry) : list hentry * list hentry :=
    match fuel with
    | O => ([], heap)
    | S fuel =>
        match heap_pop heap with
        | None => ([], heap)
        | Some (e, heap') =>
            if keqb (h_key e) k then
              let '(g, h) := pop_group fuel k heap' in (e :: g, h)
            else ([], heap)
        end
    end.

  (** Advance and refill after a group: src/ondisk/merge.rs:751-756 *)
  Fixpoint refill (fuel : nat) (group : list hentry) (k : K) (cs : list cursor) (heap : list hentry)
    : option (list cursor * list hentry) :=
    match group with
    | [] => Some (cs, heap)
    | e :: g =>
        match nth_error cs (h_src e) with
        | None => None
        | Some c =>
            match enqueue fuel (h_src e) (h_kind e) (Some k) (advance (h_kind e) c) heap with
            | None => None
            | Some (c', heap') => refill fuel g k (set_nth (h_src e) c' cs) heap'
            end
        end
    end.

  Record mconf := mkConf { mc_rows : option nat; mc_bytes : option nat; mc_chunk : nat }.

  (** The merge loop: src/ondisk/merge.rs:718-801.  [id] is the descriptor of the current
      output, [next] the shared id allocator.  Returns the outputs and the allocator. *)
  Fixpoint merge_loop (fuel efuel : nat) (cf : mconf) (heap : list hentry) (cs : list cursor)
           (o : ostate) (outs : list (sst K R)) (id next : N) : option (list (sst K R) * N) :=
    match fuel with
    | O => None
    | S fuel =>
        match heap_pop heap with
        | None =>
            if has_pending o then
              match o_finish id o with
              | Some t => Some (outs ++ [t], next)
              | None => None
              end
            else match outs with [] => None | _ => Some (outs, next) end
        | Some (w, heap1) =>
            let '(g, heap2) := pop_group (length heap1) (h_key w) heap1 in
            let o1 := match nth_error cs (h_src w) with
                      | None => o
                      | Some c => match h_kind w with
                                  | KData => append_data c (h_row w) o
                                  | KDelete => append_delete c (h_row w) o
                                  end
                      end in
            match refill efuel (w :: g) (h_key w) cs heap2 with
            | None => None
            | Some (cs', heap3) =>
                let o2 := maybe_flush_chunk (Nat.max 1 (mc_chunk cf)) o1 in
                if exceeds_caps (mc_rows cf) (mc_bytes cf) o2 then
                  match o_finish id o2 with
                  | None => None
                  | Some t => merge_loop fuel efuel cf heap3 cs' o_new (outs ++ [t]) next (next + 1)
                  end
                else merge_loop fuel efuel cf heap3 cs' o2 outs id next
            end
        end
    end.

  Fixpoint init_cursors (efuel : nat) (i : nat) (cs : list cursor) (heap : list hentry)
    : option (list cursor * list hentry) :=
    match cs with
    | [] => Some ([], heap)
    | c :: r =>
        match enqueue efuel i KData None c heap with
        | None => None
        | Some (c1, h1) =>
            match enqueue efuel i KDelete None c1 h1 with
            | None => None
            | Some (c2, h2) =>
                match init_cursors efuel (S i) r h2 with
                | None => None
                | Some (cs', h) => Some (c2 :: cs', h)
                end
            end
        end
    end.

  Definition batch_rows (b : sbatch) : nat :=
    length (fst b) + match snd b with Some d => length d | None => 0 end.
  Definition total_rows (streams : list (list sbatch)) : nat :=
    list_sum (map (fun s => list_sum (map (fun b => S (batch_rows b)) s)) streams).

  (** [execute_inner] (src/ondisk/merge.rs:669-801) as called by
      [LocalCompactionExecutor::execute] (src/compaction/executor.rs:295-369): the first
      output's id and the further ones come from the shared allocator [next]. *)
  Definition merge_exec (cf : mconf) (streams : list (list sbatch)) (next : N)
    : option (list (sst K R) * N) :=
    let n := S (S (total_rows streams)) in
    let cs := map (fun s => ensure_batch (mkCur s None 0 0)) streams in
    match init_cursors n 0 cs [] with
    | None => None
    | Some (cs', heap) =>
        match heap with
        | [] => None
        | _ => merge_loop n n cf heap cs' o_new [] next (next + 1)
        end
    end.
End Compact.
Arguments sbatch K R : clear implicits.
Arguments cursor K R : clear implicits.
Arguments hentry K : clear implicits.
Arguments ostate K R : clear implicits.
