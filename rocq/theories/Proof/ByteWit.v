(** Concrete cases for the byte limits. *)
From Coq Require Import List NArith ZArith Bool Lia Arith.
From Verif Require Import Base.Order Model.MemTable Model.Immutable Model.Db Model.Policy Model.Utf8 Model.Key Model.KeySize Spec.ByteSpec
     Spec.LimitSpec Spec.History Model.Run Spec.Valid Proof.Demo Proof.KeyInst Proof.LimitFacts Proof.ByteFacts.
Import ListNotations.
Local Open Scope N_scope.

(** A table keyed by a 64-bit integer: a row is its key and the bytes of its other columns. *)
Definition wide_row := (option nkey * N)%type.
Definition wide_key (r : wide_row) : option nkey := fst r.
Definition wide_size (r : wide_row) : N := snd r.
Definition seven : nkey := exist _ [CI64 7] eq_refl.
(** The key 7 is written three times, each time with 100 MB. *)
Definition wide_rows : list wide_row := repeat (Some seven, 100000000) 3.

Lemma wide_case :
  Forall (fun r => wide_key r = Some seven) wide_rows /\ key_heap_size (raw seven) + 32 < 64 * 1024 * 1024 /\
  let r := ingest_all wide_key (fun k => key_heap_size (raw k)) (BytesThreshold (64 * 1024 * 1024))
                      (map (fun r => (0, [r])) wide_rows) (db_new 1024, None) in
  d_imm (fst r) = [] /\ held wide_size (d_mem (fst r)) = 300000000.
Proof.
  split; [repeat constructor|]. split; [vm_compute; reflexivity|].
  assert (A : Forall (fun r => wide_key r = Some seven) wide_rows) by repeat constructor.
  exact (c84_payload wide_key (fun k => key_heap_size (raw k)) wide_size seven (64 * 1024 * 1024) 1024 wide_rows A
           ltac:(vm_compute; reflexivity) ltac:(cbn; lia)).
Qed.

Definition keyed_ops : list (op N row) := [OIngest [rw 1 10; rw 2 20] None false].
Definition keyed_more : list row := [rw 2 21; rw 3 30].
Definition keyed_ingest (limit : N) : db N row * bool :=
  ingest_policy row_key (fun _ => 8) (AnyOf [BatchesThreshold 9; BytesThreshold limit]) None keyed_more None (st_db (demo_run keyed_ops)).
Lemma keyed_case :
  demo_ok keyed_ops /\ byte_limited 121 (AnyOf [BatchesThreshold 9; BytesThreshold 121]) /\
  map (fun e => fst (fst e)) (m_index (d_mem (fst (keyed_ingest 121)))) = [1; 2; 2; 3] /\
  lists_keys [1; 2; 2; 3] [1; 2; 3] /\ sum_of (fun _ : N => 8 + 32) [1; 2; 3] = 120 /\
  m_index (d_mem (fst (keyed_ingest 120))) = [].
Proof.
  split; [vm_compute; repeat constructor|]. split; [apply (bl_any _ (BytesThreshold 121)); [right; left; reflexivity|constructor]|].
  split; [vm_compute; reflexivity|]. split.
  - split; [repeat constructor|]. split.
    + intros k [<-|[<-|[<-|[]]]]; cbn; auto.
    + intros k [<-|[<-|[<-|[<-|[]]]]].
      * exists 1. cbn; auto.
      * exists 2. cbn; auto.
      * exists 2. cbn; auto.
      * exists 3. cbn; auto.
  - split; vm_compute; reflexivity.
Qed.
