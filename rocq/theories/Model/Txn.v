(** Point reads of a transaction: src/transaction/mod.rs, with the row scans of
    src/db/scan.rs it uses.  Definitions only. *)
From Coq Require Import List NArith Bool.
From Verif Require Import Base.Order Model.OMap Model.KeyTs Model.MemTable Model.Immutable
     Model.SsTable Model.MergeStream Model.DbScan Model.Db.
Import ListNotations.

Section Txn.
  Context {K : Type} {KO : KeyOrd K} {R : Type}.

  (** The rows among the entries of a scan; tombstones are dropped
      (src/db/scan.rs:823-833, 847-858). *)
  Definition live_pairs (l : list ((K * N) * option R)) : list (K * R) :=
    flat_map (fun e => match snd e with Some r => [(fst (fst e), r)] | None => [] end) l.

  (** [scan_mutable_rows_at]: src/db/scan.rs:838-861 *)
  Definition mem_rows_at (ts : N) (d : db K R) : option (list (K * R)) :=
    match mem_scan (d_mem d) ts None with Some l => Some (live_pairs l) | None => None end.

  (** [scan_immutable_rows_at]: src/db/scan.rs:811-836; segments oldest first. *)
  Fixpoint imm_rows (segs : list (seg K R)) (ts : N) : option (list (K * R)) :=
    match segs with
    | [] => Some []
    | g :: r =>
        match seg_scan g ts None, imm_rows r ts with
        | Some l, Some o => Some (live_pairs l ++ o)
        | _, _ => None
        end
    end.

  (** [entry(k).or_insert(v)] *)
  Definition or_insert {V} (k : K) (v : V) (m : list (K * V)) : list (K * V) :=
    match om_get k m with Some _ => m | None => om_insert k v m end.

  (** [read_mutable_rows]: src/transaction/mod.rs:532-555 *)
  Definition read_mutable_rows (ts : N) (d : db K R) : option (list (K * R)) :=
    match mem_rows_at ts d, imm_rows (d_imm d) ts with
    | Some a, Some b =>
        let out := fold_left (fun m e => om_insert (fst e) (snd e) m) a [] in
        Some (fold_left (fun m e => or_insert (fst e) (snd e) m) b out)
    | _, _ => None
    end.

  (** [Transaction::get]: src/transaction/mod.rs:460-469; [None] is an error. *)
  Definition txn_get (ts : N) (staged : list (K * option R)) (k : K) (d : db K R) : option (option R) :=
    match om_get k staged with
    | Some o => Some o
    | None => match read_mutable_rows ts d with Some m => Some (om_get k m) | None => None end
    end.
End Txn.
