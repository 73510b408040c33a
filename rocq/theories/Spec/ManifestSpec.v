(** What a user of the manifest can observe. *)
From Coq Require Import List NArith Bool.
From Verif Require Import Model.Version Model.Sessions Model.Manifest.
Import ListNotations.
Local Open Scope N_scope.

Section ManifestSpec.
  Context {E S : Type}.
  Notation vms := (mstore vkey (vval E) (vreq E) (mres (option N))).
  (** The version stored under the timestamp [ts] can be loaded and is [v]. *)
  Definition loads (s : vms) (t ts : N) (v : vstate E) : Prop :=
    exists h, snapshot_at_version t ts (m_kv s) = MOk (h, Some v).
  (** The current version. *)
  Definition latest (s : vms) (t : N) (v : option (vstate E)) : Prop :=
    exists h, snapshot_latest t (m_kv s) = MOk (h, v) /\ h_txn h = option_map (@v_ts E) v.
  (** A publish to [t] with the edits [es] and the expected head [x] returned [ts]. *)
  Definition published (r : option (vreq E * reply (mres (option N)))) (t : N) (es : list (edit E)) (x : option (option N)) (ts : N) : Prop :=
    r = Some (RPublish t es x, Returned (MOk (Some ts))).
  (** A call returned an error. *)
  Definition failed {Req A} (r : option (Req * reply (mres A))) : Prop :=
    exists q, r = Some (q, Precondition) \/ exists e, r = Some (q, Returned (MErr e)).

  Notation cms := (mstore ckey (cval S) (creq S) (mres (option (tmeta S)))).
  Definition registered (s : cms) (m : tmeta S) : Prop := table_meta (tm_id m) (m_kv s) = MOk m.
  (** The definition agrees with the table. *)
  Definition agrees (m : tmeta S) (d : tdef S) : Prop :=
    tm_schema m = td_schema d /\ tm_pk m = td_pk d /\ tm_ret m = td_ret d /\ tm_version m = td_version d.
  (** The identifiers drawn by the calls of a run. *)
  Definition drawn (es : list (event (creq S))) : list N :=
    flat_map (fun e => match e with EOpen _ (RRegister i _) => [i] | _ => [] end) es.
End ManifestSpec.
