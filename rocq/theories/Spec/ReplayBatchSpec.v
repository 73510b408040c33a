(** What a write of a record batch means, in terms of its rows. *)
From Coq Require Import List NArith Bool String.
From Verif Require Import Model.Columns Model.Frame Model.MemTable Model.Replay Spec.WalSpec Model.ReplayBatch.
Import ListNotations.
Local Open Scope N_scope.

Section Spec.
  Context {T V : Type}.
  Notation batch := (batch (arr T V)).
  Notation entry := (list (N + V) * N * option (list (cell (V := V))))%type.

  (** The key columns exist and no column has a reserved name. *)
  Definition plain_table (t : table T) : Prop :=
    t_keys t <> [] /\ (forall k, In k (t_keys t) -> (k < List.length (sc_fields (t_schema t)))%nat) /\
    (forall f, In f (sc_fields (t_schema t)) -> f_name (fst f) <> "_commit_ts"%string /\ f_name (fst f) <> "_tombstone"%string).

  (** The rows whose flag is [flag], in order. *)
  Definition with_flag {A} (flag : bool) (rows : list A) (tombs : list bool) : list A :=
    map fst (filter (fun x => Bool.eqb (snd x) flag) (combine rows tombs)).

  (** The entry of a written row, and of a deleted one. *)
  Definition writes (keys : list nat) (ts : N) (r : list cell) (e : entry) : Prop :=
    key_of_row keys r = Some (fst (fst e)) /\ snd (fst e) = ts /\ snd e = Some r.
  Definition deletes (keys : list nat) (ts : N) (r : list cell) (e : entry) : Prop :=
    key_of_row keys r = Some (fst (fst e)) /\ snd (fst e) = ts /\ snd e = None.

  (** All entries of some puts; [None]: one of them fails. *)
  Definition all_entries (t : table T) (ps : list (put T V)) : option (list entry) :=
    option_map (@List.concat entry) (mapM (put_entries t) ps).

  (** The event is what is read back from the log for the command. *)
  Definition comes_back (ipc_write : batch -> bytes) (ipc_read : bytes -> option (list batch)) (c : command (arr T V)) (e : event (arr T V)) : Prop :=
    exists ty p, encode_command (arr T V) arr_len ipc_write c = Ok (ty, p) /\ decode_frame (arr T V) arr_len ipc_read ty p = Ok e.
End Spec.
