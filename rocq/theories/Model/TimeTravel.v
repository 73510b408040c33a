(** Published versions and snapshots at a timestamp (src/db/mod.rs).  Definitions only.

    Each version is kept with the history of acknowledged writes at its creation, a record
    that the program does not have.  Files of old versions are never deleted (nothing but
    tests sweeps them). *)
From Coq Require Import List NArith Bool.
From Verif Require Import Base.Order Model.OMap Model.KeyTs Model.MemTable Model.Immutable
     Model.SsTable Model.DbScan Model.Version Model.Compact Model.Planner Model.Db Model.DbCompact Spec.History Model.Run.
Import ListNotations.

Section TimeTravel.
  Context {K : Type} {KO : KeyOrd K} {R : Type}.
  Variable key_of : R -> option K.
  Variable row_bytes : R -> nat.
  Variable del_bytes : K -> nat.

  (** A version: its timestamp in the manifest, its tables, the writes acknowledged when it
      was created. *)
  Record tversion := mkTV { tv_ts : N; tv_levels : list (list (sst K R)); tv_hist : list (hcommit K R) }.
  Record tstate := mkTT { tt_st : state K R; tt_vers : list tversion (* oldest first *) }.
  Definition tt_start (capacity : nat) : tstate := mkTT (start capacity) [].

  (** The calls that publish a version: a flush (src/db/mod.rs:1170-1180), a compaction
      (src/compaction/driver.rs:560, 785), a transaction commit when there is a WAL
      (src/transaction/mod.rs:1327-1373). *)
  Definition publishes (s : state K R) (o : op K R) : bool :=
    match o with
    | OFlush level => snd (flush key_of level (st_db s))
    | OCompact cf ch tk => snd (compact key_of row_bytes del_bytes cf ch tk (st_db s))
    | OCommit ts ms (Some _) =>
        match stage key_of ms, snd (commit key_of ts (stage key_of ms) None (st_db s)) with
        | _ :: _, COk => true
        | _, _ => false
        end
    | _ => false
    end.
  (** The timestamp of the next version: src/manifest/driver.rs:243-252 *)
  Definition next_version (vs : list tversion) : N := N.of_nat (length vs) + 1.
  Definition tt_step (t : tstate) (o : op K R) : tstate :=
    let s' := step key_of row_bytes del_bytes (tt_st t) o in
    mkTT s' (tt_vers t ++ if publishes (tt_st t) o
                          then [mkTV (next_version (tt_vers t)) (d_levels (st_db s')) (st_hist s')] else []).
  Definition tt_run (t : tstate) (ops : list (op K R)) : tstate := fold_left tt_step ops t.

  (** [snapshot_at]: src/db/mod.rs:855-883 (the choice of the version in the manifest is
      [version_at] of Model/Manifest.v). *)
  Definition snapshot_at (ts : N) (t : tstate) : snapshot K R :=
    mkSnap ts match find (fun v => N.leb (tv_ts v) ts) (rev (tt_vers t)) with
              | Some v => tv_levels v
              | None => d_levels (st_db (tt_st t))
              end.
  (** [snapshot_at(ts)] and a scan of everything. *)
  Definition scan_at (ts : N) (t : tstate) : option (list ((K * N) * R)) :=
    scan key_of (@t_rows K R) cp_all (snapshot_at ts t) None (st_db (tt_st t)).
End TimeTravel.
Arguments tversion K R : clear implicits.
Arguments tstate K R : clear implicits.
