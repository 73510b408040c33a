(** Sequences of database operations, with the history of acknowledged writes.
    Definitions only. *)
From Coq Require Import List NArith Bool.
From Verif Require Import Base.Order Model.OMap Model.KeyTs Model.MemTable Model.Immutable
     Model.SsTable Model.Version Model.Compact Model.Planner Model.Db Model.DbCompact Spec.History.
Import ListNotations.

Section Run.
  Context {K : Type} {KO : KeyOrd K} {R : Type}.
  Variable key_of : R -> option K.
  Variable row_bytes : R -> nat.
  Variable del_bytes : K -> nat.

  (** The calls a user (or the background compaction) makes.  [span] is the WAL frame
      range of the write, [dec] the decision of the seal policy after it. *)
  Inductive op :=
  | OIngest (rows : list R) (span : option frame_range) (dec : bool)
  | OTomb (rows : list (R * bool)) (span : option frame_range) (dec : bool)
  | OCommit (snapshot_ts : N) (muts : list (mut K R)) (span : option frame_range)
  | OFlush (level : nat)
  | OCompact (cf : mconf) (ch : chunking K R) (tk : task K).

  (** Staging a list of [upsert] and [delete] calls: src/transaction/mod.rs:421-457; a
      rejected call leaves the staged mutations as they were. *)
  Definition stage_call (s : list (K * option R)) (m : mut K R) : list (K * option R) :=
    match m with
    | Put r => match stage_upsert key_of s r with Some s' => s' | None => s end
    | Del k => stage_delete s k
    end.
  Definition stage (ms : list (mut K R)) : list (K * option R) := fold_left stage_call ms [].
  (** The calls that were not rejected. *)
  Definition accepted (ms : list (mut K R)) : list (mut K R) :=
    filter (fun m => match mut_key key_of m with Some _ => true | None => false end) ms.

  (** The mutations of an [ingest_with_tombstones] call, in row order. *)
  Definition tomb_muts (rows : list (R * bool)) : list (mut K R) :=
    flat_map (fun p : R * bool => if snd p then match key_of (fst p) with Some k => [Del k] | None => [] end
                       else [Put (fst p)]) rows.

  (** The database with two records of what happened to it: the acknowledged writes with
      their commit timestamps, and the newest commit timestamp found in any table that a
      compaction replaced (older snapshots may miss versions it dropped). *)
  Record state := mkSt { st_db : db K R; st_hist : list (hcommit K R); st_horizon : N }.

  Definition ack (s : state) (ms : list (mut K R)) (r : db K R * bool) : state :=
    mkSt (fst r)
         (st_hist s ++ match ms with
                       | [] => []
                       | _ => if snd r then [(d_clock (st_db s), ms)] else []
                       end)
         (st_horizon s).

  (** The newest commit timestamp in the tables a task names. *)
  Definition newest_input (d : db K R) (tk : task K) : N :=
    fold_right N.max 0%N
      (flat_map (fun t : sst K R => map snd (t_rows t) ++ map snd (t_dels t))
         (filter (fun t : sst K R => mem_id (t_id t) (map snd (tk_input tk))) (concat (d_levels d)))).

  Definition step (s : state) (o : op) : state :=
    let d := st_db s in
    match o with
    | OIngest rows span dec => ack s (map Put rows) (ingest key_of rows span dec d)
    | OTomb rows span dec => ack s (tomb_muts rows) (ingest_with_tombstones key_of rows span dec d)
    | OCommit ts ms span =>
        let '(d', res) := commit key_of ts (stage ms) span d in
        ack s (accepted ms) (d', match res with COk => true | _ => false end)
    | OFlush level => mkSt (fst (flush key_of level d)) (st_hist s) (st_horizon s)
    | OCompact cf ch tk =>
        let '(d', changed) := compact key_of row_bytes del_bytes cf ch tk d in
        mkSt d' (st_hist s) (if changed then N.max (st_horizon s) (newest_input d tk) else st_horizon s)
    end.

  Definition start (capacity : nat) : state := mkSt (db_new capacity) [] 0.
  Definition run (s : state) (ops : list op) : state := fold_left step ops s.
End Run.
Arguments op K R : clear implicits.
Arguments state K R : clear implicits.
