(** Byte limits of seal policies: what they bound (C84). *)
From Coq Require Import List NArith ZArith Bool.
From Verif Require Import Base.Order Model.MemTable Model.Immutable Model.Db Model.Policy Model.Utf8 Model.Key Model.KeySize Spec.ByteSpec
     Spec.LimitSpec Spec.History Model.Run Spec.Valid Proof.Demo Proof.KeyInst Proof.LimitFacts Proof.ByteFacts Proof.ByteWit.
Import ListNotations.
Local Open Scope N_scope.

(** Keys that compare equal have one size, so the counters do not depend on which of them is
    written first (the hypothesis of [C46_counters]). *)
Theorem C84_key_size :
  forall a b : key, keys_cmp a b = Eq -> key_heap_size a = key_heap_size b.
Proof. exact key_size_eq. Qed.
Print Assumptions C84_key_size.
(** The size of a key is the number of bytes of its strings and binaries. *)
Theorem C84_key_bytes :
  forall k : key, key_heap_size k = N.of_nat (length (content k)).
Proof. exact key_size_content. Qed.
Print Assumptions C84_key_bytes.
Example C84_key_size_applies :
  key_heap_size [CStr [104; 233]; CI64 7; CBin [0; 255]] = 5 /\ key_heap_size [CI64 7; CF64 0; CBool true] = 0 /\
  keys_cmp [CF64 0] [CF64 (2 ^ 63)] = Eq.
Proof. repeat split; vm_compute; reflexivity. Qed.

(** After an ingest under a policy with a limit in bytes the different keys left in the
    memtable, with 32 bytes each, are below the limit.  Missing: the rows themselves (below). *)
Theorem C84_keys_partial :
  forall (K : Type) (KO : KeyOrd K) (R : Type) (key_of : R -> option K) row_bytes del_bytes key_bytes capacity ops
         p limit since rows span d1,
    (1 <= capacity)%nat -> N.of_nat (length ops) + 1 < 2 ^ 64 ->
    ops_ok key_of row_bytes del_bytes (start capacity) ops ->
    let d := st_db (run key_of row_bytes del_bytes (start capacity) ops) in
    Forall (fun r => key_of r <> None) rows ->
    put_rows key_of rows (d_clock d) (observe_range span (tick d)) = (d1, true) ->
    byte_limited limit p ->
    exists d' ks, ingest_policy key_of key_bytes p since rows span d = (d', true) /\
      lists_keys (map (fun e => fst (fst e)) (m_index (d_mem d'))) ks /\
      (ks = [] \/ sum_of (fun k => key_bytes k + 32) ks < limit).
Proof. exact @c84_bound. Qed.
Print Assumptions C84_keys_partial.
Example C84_keys_applies :
  demo_ok keyed_ops /\ byte_limited 121 (AnyOf [BatchesThreshold 9; BytesThreshold 121]) /\
  map (fun e => fst (fst e)) (m_index (d_mem (fst (keyed_ingest 121)))) = [1; 2; 2; 3] /\
  lists_keys [1; 2; 2; 3] [1; 2; 3] /\ sum_of (fun _ : N => 8 + 32) [1; 2; 3] = 120 /\
  m_index (d_mem (fst (keyed_ingest 120))) = [].
Proof. exact keyed_case. Qed.

(** The rows are not counted, nor are later versions of a key: writing one key again and again
    keeps all the rows, of any size, in the memtable, and a limit that one key does not reach
    is never reached. *)
Theorem C84_rows_refuted :
  forall (K : Type) (KO : KeyOrd K) (R : Type) (key_of : R -> option K) (key_bytes : K -> N) (size : R -> N) (k : K)
         limit capacity rows,
    Forall (fun r => key_of r = Some k) rows -> key_bytes k + 32 < limit -> (length rows <= capacity)%nat ->
    let r := ingest_all key_of key_bytes (BytesThreshold limit) (map (fun r => (0, [r])) rows) (db_new capacity, None) in
    d_imm (fst r) = [] /\ held size (d_mem (fst r)) = sum_of size rows.
Proof. exact @c84_payload. Qed.
Print Assumptions C84_rows_refuted.
(** 300 MB under a limit of 64 MiB. *)
Example C84_rows_applies :
  Forall (fun r => wide_key r = Some seven) wide_rows /\ key_heap_size (raw seven) + 32 < 64 * 1024 * 1024 /\
  let r := ingest_all wide_key (fun k => key_heap_size (raw k)) (BytesThreshold (64 * 1024 * 1024))
                      (map (fun r => (0, [r])) wide_rows) (db_new 1024, None) in
  d_imm (fst r) = [] /\ held wide_size (d_mem (fst r)) = 300000000.
Proof. exact wide_case. Qed.
