(** What the theorems about concurrent calls say: which calls have returned, what they
    wrote, and the conditions on schedules. *)
From Coq Require Import List NArith Bool Sorted.
From Verif Require Import Base.Order Model.MemTable Model.Immutable Model.SsTable Model.Db
     Spec.History Model.Run Spec.Valid Model.Sched.
Import ListNotations.

Section ConcSpec.
  Context {K : Type} {KO : KeyOrd K} {R : Type}.
  Variable key_of : R -> option K.

  (** What a call asks to write: the rows of an ingest, the rows and deletes of an ingest
      with tombstones, the accepted [upsert] and [delete] calls of a transaction. *)
  Definition muts_of (w : call K R) : list (mut K R) :=
    match w with
    | CIngest rows _ => map Put rows
    | CTomb rows _ => tomb_muts key_of rows
    | CTxn _ ms => accepted key_of ms
    end.

  Definition returned (t : thread K R) : Prop := exists o, t_pc t = PDone o.
  Definition failed (t : thread K R) : Prop := t_pc t = PDone Failed.
  (** The call has been acknowledged with commit timestamp [ts]. *)
  Definition acked_at (t : thread K R) (ts : N) : Prop := t_pc t = PDone (Acked ts).

  (** The acknowledged writes with their commit timestamps, in no particular order. *)
  Definition acked (c : conc K R) : list (hcommit K R) :=
    flat_map (fun t => match t_pc t with PDone (Acked ts) => [(ts, muts_of (t_call t))] | _ => [] end) (c_threads c).

  Definition by_time (h : list (hcommit K R)) : Prop :=
    StronglySorted (fun a b => (fst a < fst b)%N) h.

  (** The call has its commit timestamp and has not returned. *)
  Definition writing (t : thread K R) : Prop :=
    match t_pc t with PPut _ _ | PAdd _ _ _ | PSeal _ | PAddLast _ _ => True | _ => False end.
  (** The call has taken the memtable away and not yet added it to the immutable segments. *)
  Definition sealing (t : thread K R) : Prop :=
    match t_pc t with PAdd _ _ _ | PAddLast _ _ => True | _ => False end.
  Definition checking (t : thread K R) : Prop :=
    match t_pc t with PCheck _ => True | _ => False end.

  (** Every row handed to a call has a non-null key, and no [ingest_with_tombstones] call
      both writes and deletes one key. *)
  Definition ev_ok (e : event K R) : Prop :=
    match e with
    | EIngest rows _ => Forall (fun r => key_of r <> None) rows
    | ETomb rows _ => Forall (fun p => key_of (fst p) <> None) rows /\ tomb_separate key_of rows
    | _ => True
    end.
  (** The schedules the theorems range over: fewer than 2^64 events, rows as in [ev_ok], and
      no call fails (a batch too large for an empty memtable). *)
  Definition sched_hyp (capacity : nat) (es : list (event K R)) : Prop :=
    1 <= capacity /\ Forall ev_ok es /\ (N.of_nat (length es) < 2 ^ 64)%N /\
    Forall (fun t => ~ failed t) (c_threads (crun key_of (cstart capacity) es)).
  Definition not_flush (e : event K R) : Prop := match e with EFlush _ => False | _ => True end.

  (** A sequence of steps of calls in which no step is idle. *)
  Fixpoint effective (c : conc K R) (is : list nat) : Prop :=
    match is with
    | [] => True
    | i :: r => cstep key_of c (EStep i) <> c /\ effective (cstep key_of c (EStep i)) r
    end.

  (** No transaction begins while a write is in flight, nor before the first write was
      acknowledged; no conflict check runs while a sealed segment is in the hands of a call. *)
  Definition calm_begins (c : conc K R) (es : list (event K R)) : Prop :=
    forall es1 ms es2, es = es1 ++ EBegin ms :: es2 ->
      Forall (fun t => ~ writing t) (c_threads (crun key_of c es1)) /\ acked (crun key_of c es1) <> [].
  Definition calm_checks (c : conc K R) (es : list (event K R)) : Prop :=
    forall es1 i t es2, es = es1 ++ EStep i :: es2 ->
      nth_error (c_threads (crun key_of c es1)) i = Some t -> checking t ->
      Forall (fun u => ~ sealing u) (c_threads (crun key_of c es1)).

  (** The call is a transaction that writes or deletes key [k]. *)
  Definition txn_writes (k : K) (t : thread K R) : Prop :=
    exists snap ms m k', t_call t = CTxn snap ms /\ In m (accepted key_of ms) /\ mut_key key_of m = Some k' /\ kcmp k' k = Eq.

  (** Call [j] is a transaction that began after call [i] was acknowledged. *)
  Definition began_after (c : conc K R) (es : list (event K R)) (i j : nat) : Prop :=
    exists es1 ms es2 t ts, es = es1 ++ EBegin ms :: es2 /\ length (c_threads (crun key_of c es1)) = j /\
      nth_error (c_threads (crun key_of c es1)) i = Some t /\ acked_at t ts.

  (** Two acknowledged transactions write one key, and neither began after the other was
      acknowledged: one of them overwrote a write it could not have seen. *)
  Definition lost_update (capacity : nat) (es : list (event K R)) : Prop :=
    exists i j t u ti tj k, i <> j /\
      nth_error (c_threads (crun key_of (cstart capacity) es)) i = Some t /\
      nth_error (c_threads (crun key_of (cstart capacity) es)) j = Some u /\
      acked_at t ti /\ acked_at u tj /\ txn_writes k t /\ txn_writes k u /\
      ~ began_after (cstart capacity) es i j /\ ~ began_after (cstart capacity) es j i.

  Definition is_ingest (t : thread K R) : Prop := exists rows dec, t_call t = CIngest rows dec.
End ConcSpec.
