(** Hypotheses of the theorems about runs of the database and about scans. *)
From Coq Require Import List NArith Bool.
From Verif Require Import Base.Order Base.Sub Model.MemTable Model.Immutable Model.SsTable Model.KeyBounds
     Model.DbScan Model.Db Model.Compact Model.Planner Model.DbCompact Spec.History Spec.KeySet Model.Run.
Import ListNotations.

Section Valid.
  Context {K : Type} {KO : KeyOrd K} {R : Type}.
  Variable key_of : R -> option K.
  Variable row_bytes : R -> nat.
  Variable del_bytes : K -> nat.

  (** No key is both written and deleted by the call. *)
  Definition tomb_separate (rows : list (R * bool)) : Prop :=
    forall r r' k k', In (r, false) rows -> In (r', true) rows ->
      key_of r = Some k -> key_of r' = Some k' -> kcmp k k' <> Eq.

  (** The reader returns the file, without empty batches, and no file with both rows and
      deletes comes in more than one batch. *)
  Definition faithful (ch : chunking K R) (t : sst K R) : Prop :=
    concat (fst (ch t)) = t_rows t /\ concat (snd (ch t)) = t_dels t /\
    Forall (fun b => b <> []) (fst (ch t)) /\ Forall (fun b => b <> []) (snd (ch t)) /\
    (t_rows t = [] \/ t_dels t = [] \/ (length (fst (ch t)) <= 1 /\ length (snd (ch t)) <= 1)).

  (** The memtable has a free batch slot. *)
  Definition has_slot (s : state K R) : Prop :=
    length (m_batches (d_mem (st_db s))) < m_capacity (d_mem (st_db s)).
  (** Some row to be stored has a null in a key column: the call is rejected. *)
  Definition null_key (rows : list R) : Prop := exists r, In r rows /\ key_of r = None.

  (** A call with a null key is made only while the memtable has a free slot (C37 has the
      other case); [ingest_with_tombstones] has no null key among its deletes and does not
      both write and delete one key; the reader used by compaction is faithful. *)
  Definition op_ok (s : state K R) (o : op K R) : Prop :=
    match o with
    | OIngest rows _ _ => null_key rows -> has_slot s
    | OTomb rows _ _ => (null_key (part_upserts rows) -> has_slot s) /\
                        (Forall (fun p => snd p = true -> key_of (fst p) <> None) rows \/ null_key (part_upserts rows)) /\
                        tomb_separate rows
    | OCommit _ _ _ => True
    | OFlush _ => True
    | OCompact cf ch tk => forall l t, In (l, t_id t) (tk_input tk) -> In t (concat (d_levels (st_db s))) -> faithful ch t
    end.
  Fixpoint ops_ok (s : state K R) (ops : list (op K R)) : Prop :=
    match ops with
    | [] => True
    | o :: r => op_ok s o /\ ops_ok (step key_of row_bytes del_bytes s o) r
    end.

  (** What the planner derived from the predicate is sound: the key bounds contain the key
      of every matching row, and the two splits of the predicate lose nothing. *)
  Record cp_sound (cp : cpred K R) : Prop := {
    cs_true : c_true cp = true -> forall r, c_full cp r = true;
    cs_bounds : forall kb r k, c_bounds cp = Some kb -> key_of r = Some k ->
                c_full cp r = true -> kb_in kb k = true;
    cs_split : forall r k, key_of r = Some k ->
               (c_full cp r = true <-> opt_pred (c_push cp) r = true /\ opt_pred (c_resid cp) r = true);
    cs_nonsst : forall r k, key_of r = Some k -> opt_pred (c_nonsst cp) r = true ->
                (forall kb, c_bounds cp = Some kb -> kb_in kb k = true) -> c_full cp r = true;
    cs_nonsst' : forall r k, key_of r = Some k -> c_full cp r = true -> opt_pred (c_nonsst cp) r = true
  }.

  (** A segment is read unless all its rows are newer than [ts]; this is safe when its
      tombstones then are, too. *)
  Definition seg_safe (ts : N) (g : seg K R) : Prop :=
    s_mvcc g <> [] -> (forall p, In p (s_mvcc g) -> (ts < fst p)%N) -> forall t, In t (s_del_ts g) -> (ts < t)%N.

  (** The table file has a version of key [k] with a timestamp [<= ts]. *)
  Definition sst_holds (ts : N) (k : K) (t : sst K R) : Prop :=
    (exists r u k', In (r, u) (t_rows t) /\ key_of r = Some k' /\ kcmp k' k = Eq /\ (u <= ts)%N) \/
    (exists k' u, In (k', u) (t_dels t) /\ kcmp k' k = Eq /\ (u <= ts)%N).

  (** The index of the memtable or of a segment has a version of key [k] visible at [ts];
      the indexes of the memtable and the immutable segments. *)
  Definition holdsb (ts : N) (k : K) (idx : list (K * N)) : bool :=
    existsb (fun kt => keqb (fst kt) k && N.leb (snd kt) ts) idx.
  Definition layer_keys (d : db K R) : list (list (K * N)) :=
    map fst (m_index (d_mem d)) :: map (fun g => map fst (s_index g)) (d_imm d).

  (** Rows left out below the merge of a read at [ts]: the page pruning may leave out rows
      newer than [ts] (it prunes with the predicate and [commit_ts <= ts]); otherwise the
      pushed-down predicate and the page pruning look at the key only and keep every key
      that can match. *)
  Definition push_ok (prune : sst K R -> list (R * N)) (cp : cpred K R) (ts : N) (ls : list (list (sst K R))) : Prop :=
    (forall t, In t (concat ls) -> sublist (prune t) (t_rows t)) /\
    (forall t r u k, In t (concat ls) -> In (r, u) (t_rows t) -> key_of r = Some k ->
       (In (r, u) (prune t) /\ opt_pred (c_push cp) r = true) \/
       (ts < u)%N \/
       (forall r' k', key_of r' = Some k' -> kcmp k' k = Eq -> c_full cp r' = false)).

  (** [kept] is [rows] without some of those newer than [ts]: what page pruning may select
      of a file for a read without predicate (src/db/scan.rs:399-401). *)
  Inductive drops_newer (ts : N) : list (R * N) -> list (R * N) -> Prop :=
  | dn_nil : drops_newer ts [] []
  | dn_keep a kept rows : drops_newer ts kept rows -> drops_newer ts (a :: kept) (a :: rows)
  | dn_drop a kept rows : (ts < snd a)%N -> drops_newer ts kept rows -> drops_newer ts kept (a :: rows).

End Valid.
