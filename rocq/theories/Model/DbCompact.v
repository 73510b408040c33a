(** A major compaction of the database: src/compaction/driver.rs:439-660 (one task run to
    completion without a concurrent manifest change; the WAL references are in
    [Model.WalDb]).  Definitions only. *)
From Coq Require Import List NArith Bool.
From Verif Require Import Base.Order Model.OMap Model.KeyTs Model.MemTable Model.Immutable
     Model.SsTable Model.Compact Model.Version Model.Planner Model.Db.
Import ListNotations.

Section DbCompact.
  Context {K : Type} {KO : KeyOrd K} {R : Type}.
  Variable key_of : R -> option K.
  Variable row_bytes : R -> nat.
  Variable del_bytes : K -> nat.

  (** The batches in which the Parquet reader returns a file. *)
  Definition chunking := sst K R -> list (list (R * N)) * list (list (K * N)).

  Definition stream_of (ch : chunking) (t : sst K R) : list (sbatch K R) :=
    zip_stream (fst (ch t)) (snd (ch t)).

  (** Merge the task's inputs and publish the outcome.  The [bool] says whether the
      manifest was changed. *)
  Definition compact (cf : mconf) (ch : chunking) (tk : task K) (d : db K R) : db K R * bool :=
    match resolve_inputs (@t_id K R) (d_levels d) (tk_input tk) with
    | None | Some [] => (d, false)
    | Some ins =>
        match merge_exec key_of row_bytes del_bytes cf (map (fun p => stream_of ch (snd p)) ins) (d_next_id d) with
        | None => (mkDb (d_mem d) (d_imm d) (d_mrange d) (d_iranges d) (d_levels d) (d_clock d)
                        (d_next_id d + 1)%N, false)
        | Some (outs, next) =>
            match apply_edits (@t_id K R) (mkVer 0 (d_levels d) [] None None)
                              (outcome_edits (@t_id K R) ins outs (tk_target tk)) with
            | Some v => (mkDb (d_mem d) (d_imm d) (d_mrange d) (d_iranges d) (v_levels v) (d_clock d) next, true)
            | None => (mkDb (d_mem d) (d_imm d) (d_mrange d) (d_iranges d) (d_levels d) (d_clock d) next, false)
            end
        end
    end.
End DbCompact.
Arguments chunking K R : clear implicits.
