(** Hypotheses of the theorems about logs, crashes and restarts. *)
From Coq Require Import List NArith Bool.
From Verif Require Import Base.Order Model.MemTable Model.SsTable Model.Compact Model.Planner Model.Db Model.DbCompact
     Model.WalScan Model.Replay Model.WalWriter Spec.History Spec.ReplaySpec Spec.Valid Model.Run Model.WalDb.
Import ListNotations.
Local Open Scope N_scope.

Section Recover.
  Context {K : Type} {KO : KeyOrd K} {R : Type}.
  Variable key_of : R -> option K.
  Variable row_bytes : R -> nat.
  Variable del_bytes : K -> nat.
  Variable size : rec K R -> N.
  Notation ystep := (ystep key_of row_bytes del_bytes size).
  Notation crash := (crash key_of size).
  Notation reopen := (reopen key_of size).

  (** No null keys, no empty batch, no key both written and deleted by one
      [ingest_with_tombstones]. *)
  Definition write_ok (w : wr K R) : Prop :=
    match w with
    | WIngest rows => rows <> [] /\ Forall (fun r => key_of r <> None) rows
    | WTomb rows => Forall (fun p => key_of (fst p) <> None) rows /\ tomb_separate key_of rows
    | WCommit _ _ => True
    end.
  (** The memtable takes another batch without sealing itself. *)
  Definition mem_slots (d : db K R) : Prop :=
    (length (m_batches (d_mem d)) < m_capacity (d_mem d))%nat /\ (length (m_deletes (d_mem d)) < m_capacity (d_mem d))%nat.
  (** No counter is about to reach its maximum. *)
  Definition room (y : sys K R) : Prop :=
    d_clock (st_db (y_st y)) + 1 < 2 ^ 64 /\ w_next (y_log y) + 4 < 2 ^ 64 /\ w_nseg (y_log y) + 4 < 2 ^ 64 /\
    Forall (fun i => i + 1 < 2 ^ 64) (y_seen y).

  (** The records in the log, in order. *)
  Definition records (w : writer (rec K R)) : list (rec K R) := map snd (flat (w_files w)).
  (** A payload whose transaction is neither committed nor aborted later in the log. *)
  Definition dangling (l : list (rec K R)) (i : N) (p : pay K R) : Prop :=
    exists a b, l = a ++ RPay i p :: b /\ Forall (fun r => finishes r <> Some i) b.
  (** The writer finds the last identifier used, or it does not matter. *)
  Definition ids_safe (w : writer (rec K R)) : Prop :=
    (exists f i, last_frame (w_cur w) = Some f /\ tail_id (snd f) = Some i /\ i + 1 < 2 ^ 64) \/
    (forall i p, ~ dangling (records w) i p).
  (** The restart did not seal while replaying, and it continues the frame numbers. *)
  Definition restart_ok (y0 y1 : sys K R) : Prop :=
    ids_safe (y_log y0) /\
    (forall f, In f (flat (w_files (y_log y0))) -> fst f <= w_next (y_log y1)) /\
    d_imm (st_db (y_st y1)) = [].

  Definition inflight_ok (fl : inflight K R) : Prop := match fl with None => True | Some (w, _, _) => write_ok w end.
  Definition yop_ok (cf : wconf) (y : sys K R) (o : yop K R) : Prop :=
    room y /\
    match o with
    | YWrite w _ _ => write_ok w /\ mem_slots (st_db (y_st y))
    | YFlush _ _ | YRotate => True
    | YCompact mc ch tk _ =>
        forall l t, In (l, t_id t) (tk_input tk) -> In t (concat (d_levels (st_db (y_st y)))) -> faithful ch t
    | YRestart fl decs =>
        inflight_ok fl /\ forall y0 y1, crash cf fl y = Some y0 -> reopen cf decs y0 = Some y1 -> restart_ok y0 y1
    end.
  Fixpoint yops_ok (cf : wconf) (y : sys K R) (ops : list (yop K R)) : Prop :=
    match ops with
    | [] => True
    | o :: r => yop_ok cf y o /\ forall y', ystep cf y o = Some y' -> yops_ok cf y' r
    end.

  (** *** Where a write is *)
  (** The last of the changes [ms] to the key [k] leaves the row [o] ([None]: deleted). *)
  Definition changes (ms : list (mut K R)) (k : K) (o : option R) : Prop :=
    exists a m b, ms = a ++ m :: b /\ mut_key key_of m = Some k /\ mut_row m = o /\
      forall x k', In x b -> mut_key key_of x = Some k' -> kcmp k' k <> Eq.
  Definition table_has (t : sst K R) (k : K) (ts : N) (o : option R) : Prop :=
    match o with Some r => In (r, ts) (t_rows t) /\ key_of r = Some k | None => In (k, ts) (t_dels t) end.
  (** A table has this change, or a newer one of the same key that is not after [hz]. *)
  Definition in_tables (hz : N) (ls : list (list (sst K R))) (k : K) (ts : N) (o : option R) : Prop :=
    exists t, In t (concat ls) /\
      (table_has t k ts o \/ exists k' ts' o', kcmp k' k = Eq /\ ts < ts' <= hz /\ table_has t k' ts' o').
  Definition pay_changes (p : pay K R) : list (mut K R) :=
    match p with
    | LRows rows _ => map Put rows
    | LDels ks _ => flat_map (fun k => match k with Some k => [Del k] | None => [] end) ks
    end.
  (** The log has the payload and, later, the commit record of its transaction. *)
  Definition logged (l : list (rec K R)) (p : pay K R) (ts : N) : Prop :=
    exists a id b c, l = a ++ RPay id p :: b ++ RCommit id ts :: c /\ Forall (fun r => finishes r <> Some id) b.
  Definition in_log (l : list (rec K R)) (k : K) (ts : N) (o : option R) : Prop :=
    exists p, logged l p ts /\ changes (pay_changes p) k o.
  (** What recovery reads. *)
  Definition replayed (y : sys K R) : list (rec K R) := map snd (frames_from (floor_of (y_refs y)) (w_files (y_log y))).
  (** What an interrupted call leaves: everything if its last record, the commit, was written. *)
  Definition survives (y : sys K R) (fl : inflight K R) : list (hcommit K R) :=
    match fl with
    | None => []
    | Some (w, j, _) =>
        match recs key_of (st_db (y_st y)) w (y_prov y) (d_clock (st_db (y_st y))) with
        | [] => []
        | l => if Nat.ltb (S j) (length l) then [] else [(d_clock (st_db (y_st y)), wr_muts key_of w)]
        end
    end.
End Recover.
