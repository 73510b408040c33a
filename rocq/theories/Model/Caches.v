(** Reading byte ranges together, the bounded caches of file metadata and bloom filters, and the
    calls that use them: src/ondisk/bloom.rs, src/ondisk/metadata.rs, src/db/scan.rs:62-93.
    Definitions only. *)
From Coq Require Import List NArith Bool Arith.
Import ListNotations.
Local Open Scope N_scope.

(** *** Byte ranges *)

(** [Range<u64>]: start and end. *)
Notation range := (N * N)%type (only parsing).
Definition bytes := list N.
(** The answer of a read; [RPanic]: arithmetic or slicing out of bounds. *)
Inductive rd (A : Type) := ROk (a : A) | RFail | RPanic.
Arguments ROk {A}. Arguments RFail {A}. Arguments RPanic {A}.

(** [AsyncReader::get_bytes] (fusio-parquet): the bytes of the file in the range; an error if the
    file is shorter. *)
Definition get_bytes (file : bytes) (r : range) : rd bytes :=
  if snd r <=? N.of_nat (length file)
  then ROk (firstn (N.to_nat (snd r - fst r)) (skipn (N.to_nat (fst r)) file))
  else RFail.

(** [sort_by_key(|(_, range)| range.start)], stable. *)
Fixpoint insert_range (x : nat * range) (l : list (nat * range)) : list (nat * range) :=
  match l with
  | [] => [x]
  | p :: r => if fst (snd p) <? fst (snd x) then p :: insert_range x r else x :: l
  end.
Fixpoint sort_ranges (l : list (nat * range)) : list (nat * range) :=
  match l with [] => [] | x :: r => insert_range x (sort_ranges r) end.

Definition u64_max : N := 2 ^ 64 - 1.
Definition sat_add (a b : N) : N := N.min (a + b) u64_max.

(** [Batch]: src/ondisk/bloom.rs:119-123.  The last batch comes first in the list. *)
Record batch := mkBatch { b_start : N; b_end : N; b_items : list (nat * range) }.
Definition add_range (gap : N) (bs : list batch) (x : nat * range) : list batch :=
  let new := mkBatch (fst (snd x)) (snd (snd x)) [x] in
  match bs with
  | b :: r => if fst (snd x) <=? sat_add (b_end b) gap
              then mkBatch (b_start b) (N.max (b_end b) (snd (snd x))) (b_items b ++ [x]) :: r
              else new :: bs
  | [] => [new]
  end.
Definition batches (gap : N) (l : list (nat * range)) : list batch := rev (fold_left (add_range gap) l []).

(** [buffer.slice(offset..offset + len)] with the two subtractions before it. *)
Definition cut (buffer : bytes) (start : N) (r : range) : rd bytes :=
  if (fst r <? start) || (snd r <? fst r) then RPanic
  else let off := fst r - start in
       let len := snd r - fst r in
       if off + len <=? N.of_nat (length buffer) then ROk (firstn (N.to_nat len) (skipn (N.to_nat off) buffer))
       else RPanic.

Fixpoint set_result (i : nat) (v : bytes) (l : list (option bytes)) : rd (list (option bytes)) :=
  match l, i with
  | [], _ => RPanic
  | _ :: r, O => ROk (Some v :: r)
  | x :: r, S j => match set_result j v r with ROk r' => ROk (x :: r') | RFail => RFail | RPanic => RPanic end
  end.
Fixpoint fill (buffer : bytes) (start : N) (items : list (nat * range)) (results : list (option bytes)) : rd (list (option bytes)) :=
  match items with
  | [] => ROk results
  | (i, r) :: rest =>
      match cut buffer start r with
      | ROk v => match set_result i v results with
                 | ROk results' => fill buffer start rest results'
                 | RFail => RFail | RPanic => RPanic
                 end
      | RFail => RFail | RPanic => RPanic
      end
  end.
Fixpoint read_batches (file : bytes) (bs : list batch) (results : list (option bytes)) : rd (list (option bytes)) :=
  match bs with
  | [] => ROk results
  | b :: rest =>
      match get_bytes file (b_start b, b_end b) with
      | ROk buffer => match fill buffer (b_start b) (b_items b) results with
                      | ROk results' => read_batches file rest results'
                      | RFail => RFail | RPanic => RPanic
                      end
      | RFail => RFail | RPanic => RPanic
      end
  end.
Fixpoint collect (l : list (option bytes)) : rd (list bytes) :=
  match l with
  | [] => ROk []
  | Some v :: r => match collect r with ROk vs => ROk (v :: vs) | RFail => RFail | RPanic => RPanic end
  | None :: _ => RFail
  end.

(** [BatchedAsyncReader::get_byte_ranges]: src/ondisk/bloom.rs:107-164 *)
Definition get_byte_ranges (gap : N) (file : bytes) (ranges : list range) : rd (list bytes) :=
  match ranges with
  | [] => ROk []
  | _ => let indexed := sort_ranges (combine (seq 0 (length ranges)) ranges) in
         match read_batches file (batches gap indexed) (repeat None (length indexed)) with
         | ROk results => collect results
         | RFail => RFail | RPanic => RPanic
         end
  end.

(** *** The caches *)
Section Cache.
  Context {K V : Type}.
  Variable keqb : K -> K -> bool.

  (** [BloomFilterCache], [ParquetMetadataCache]: src/ondisk/bloom.rs:35-40,
      src/ondisk/metadata.rs:15-20 *)
  Record cache := mkCache { c_max : nat; c_order : list K; c_map : list (K * V) }.
  Definition cache_new (n : nat) : cache := mkCache (Nat.max n 1) [] [].

  Fixpoint lookup (k : K) (m : list (K * V)) : option V :=
    match m with [] => None | (j, v) :: r => if keqb j k then Some v else lookup k r end.
  (** [HashMap::insert], [HashMap::remove] *)
  Definition remove (k : K) (m : list (K * V)) : list (K * V) := filter (fun p => negb (keqb (fst p) k)) m.
  Definition store (k : K) (v : V) (m : list (K * V)) : list (K * V) := (k, v) :: remove k m.

  Definition cache_get (k : K) (c : cache) : option V := lookup k (c_map c).

  (** The loop of [insert]; [None]: it runs forever, which is so when the map is too large and
      the queue is empty.  Every other round takes one key from the queue. *)
  Fixpoint evict (max : nat) (order : list K) (m : list (K * V)) : option cache :=
    if Nat.leb (length m) max then Some (mkCache max order m)
    else match order with
         | [] => None
         | k :: r => evict max r (remove k m)
         end.
  (** [insert]: src/ondisk/bloom.rs:59-75, src/ondisk/metadata.rs:40-55 *)
  Definition cache_insert (k : K) (v : V) (c : cache) : option cache :=
    match lookup k (c_map c) with
    | Some _ => Some (mkCache (c_max c) (c_order c) (store k v (c_map c)))
    | None => evict (c_max c) (c_order c ++ [k]) (store k v (c_map c))
    end.
End Cache.
Arguments cache K V : clear implicits.

(** *** The calls *)
Section Calls.
  (** [S]: files; [Q]: what is asked of a file, a row group and a column; [V]: values; [P]:
      places in a file.  [where_is]: the place of a value, known without reading; [fetch]:
      reads the places together, [None] if that fails. *)
  Context {S Q V P : Type}.
  Variable seqb : S -> S -> bool.
  Variable qeqb : Q -> Q -> bool.
  Variable where_is : S -> Q -> option P.
  Variable fetch : S -> list P -> option (list (option V)).

  (** [BloomCacheKey], [CacheKey] *)
  Definition ckey_eqb (a b : S * Q) : bool := seqb (fst a) (fst b) && qeqb (snd a) (snd b).

  (** A call for several values of one file, [bloom_filters_batch]: src/ondisk/bloom.rs:249-291.
      Each lookup and each insertion locks the cache; other calls run in between.  The calls for
      one value, [bloom_filter] (234-247) and [parquet_metadata_cached]
      (src/db/scan.rs:62-93), are the same with one request; they answer nothing where a call
      for several answers an empty map. *)
  Inductive stage :=
  | Looking (todo : list Q) (found : list (Q * V)) (misses : list (Q * P))
  | Reading (found : list (Q * V)) (misses : list (Q * P))
  | Inserting (todo : list (Q * V)) (found : list (Q * V)).
  Record call := mkCall { cl_file : S; cl_requests : list Q; cl_stage : stage }.

  (** The state: the cache and the calls under way. *)
  Record shared := mkShared { sh_cache : cache (S * Q) V; sh_calls : list (nat * call) }.

  (** [Begin]: a call starts; [Step]: it goes on; [Fault]: its read fails for a reason of the
      storage's; [Drop]: its caller gives it up. *)
  Inductive cev := Begin (c : nat) (f : S) (requests : list Q) | Step (c : nat) | Fault (c : nat) | Drop (c : nat).
  Fixpoint find_call (c : nat) (l : list (nat * call)) : option call :=
    match l with [] => None | (d, p) :: r => if Nat.eqb d c then Some p else find_call c r end.
  Definition drop_call (c : nat) (l : list (nat * call)) : list (nat * call) := filter (fun p => negb (Nat.eqb (fst p) c)) l.

  (** One step of a call: the cache after it ([None]: stuck), and the next stage or the answer. *)
  Definition call_step (f : S) (p : stage) (c : cache (S * Q) V) : option (cache (S * Q) V) * (stage + list (Q * V)) :=
    match p with
    | Looking (q :: todo) found misses =>
        match cache_get ckey_eqb (f, q) c with
        | Some v => (Some c, inl (Looking todo (store qeqb q v found) misses))
        | None => match where_is f q with
                  | Some r => (Some c, inl (Looking todo found (misses ++ [(q, r)])))
                  | None => (Some c, inl (Looking todo found misses))
                  end
        end
    | Looking [] found misses =>
        match misses with
        | [] => (Some c, inr found)
        | _ => (Some c, inl (Reading found misses))
        end
    | Reading found misses =>
        match fetch f (map snd misses) with
        | None => (Some c, inr found)
        | Some vs =>
            (Some c, inl (Inserting (flat_map (fun p => match snd p with Some v => [(fst p, v)] | None => [] end)
                                              (combine (map fst misses) vs)) found))
        end
    | Inserting ((q, v) :: todo) found => (cache_insert ckey_eqb (f, q) v c, inl (Inserting todo (store qeqb q v found)))
    | Inserting [] found => (Some c, inr found)
    end.

  (** An answer: the caller, the file, what was asked, the values, and whether the storage failed
      the read. *)
  Record answer := mkAnswer { an_caller : nat; an_file : S; an_requests : list Q; an_values : list (Q * V); an_fault : bool }.
  Definition cstep (s : shared) (e : cev) : option shared * option answer :=
    match e with
    | Begin c f requests =>
        match find_call c (sh_calls s) with
        | Some _ => (Some s, None)
        | None => (Some (mkShared (sh_cache s) ((c, mkCall f requests (Looking requests [] [])) :: sh_calls s)), None)
        end
    | Drop c => (Some (mkShared (sh_cache s) (drop_call c (sh_calls s))), None)
    | Fault c =>
        match find_call c (sh_calls s) with
        | Some (mkCall f requests (Reading found _)) =>
            (Some (mkShared (sh_cache s) (drop_call c (sh_calls s))), Some (mkAnswer c f requests found true))
        | _ => (Some s, None)
        end
    | Step c =>
        match find_call c (sh_calls s) with
        | None => (Some s, None)
        | Some p =>
            match call_step (cl_file p) (cl_stage p) (sh_cache s) with
            | (None, _) => (None, None)
            | (Some cache', inl g) =>
                (Some (mkShared cache' ((c, mkCall (cl_file p) (cl_requests p) g) :: drop_call c (sh_calls s))), None)
            | (Some cache', inr vs) =>
                (Some (mkShared cache' (drop_call c (sh_calls s))), Some (mkAnswer c (cl_file p) (cl_requests p) vs false))
            end
        end
    end.
  (** A run: the state and the answers in order; [None]: some call is stuck. *)
  Fixpoint crun (s : shared) (es : list cev) : option (shared * list answer) :=
    match es with
    | [] => Some (s, [])
    | e :: r =>
        match cstep s e with
        | (None, _) => None
        | (Some s', a) =>
            match crun s' r with
            | None => None
            | Some (s'', l) => Some (s'', match a with Some x => x :: l | None => l end)
            end
        end
    end.
  Definition cold (n : nat) : shared := mkShared (cache_new n) [].
End Calls.
Arguments stage Q V P : clear implicits.
Arguments call S Q V P : clear implicits.
Arguments answer S Q V : clear implicits.
Arguments shared S Q V P : clear implicits.
Arguments cev S Q : clear implicits.

(** *** Bloom filters *)
Section Bloom.
  (** [decode]: [Sbbf::from_bytes]. *)
  Context {F : Type}.
  Variable decode : bytes -> option F.
  Definition gap_bytes : N := 64 * 1024.

  Context {S : Type}.
  Variable contents : S -> bytes.
  (** The read of the missing filters of a file; [None]: it fails. *)
  Definition fetch_filters (f : S) (rs : list range) : option (list (option F)) :=
    match get_byte_ranges gap_bytes (contents f) rs with
    | ROk bs => Some (map decode bs)
    | _ => None
    end.
End Bloom.

(** *** File metadata *)
Section Metadata.
  (** [load]: reading and checking the metadata of a file, src/db/scan.rs:76-88. *)
  Context {S V : Type}.
  Variable load : S -> option V.
  Definition fetch_metadata (f : S) (places : list unit) : option (list (option V)) :=
    match load f with Some m => Some (map (fun _ => Some m) places) | None => None end.
End Metadata.
