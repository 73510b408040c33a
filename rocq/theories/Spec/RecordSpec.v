(** Records a table can hold: numbers fit their machine types, paths are in the form their
    parser gives, maps are sorted, the bounds of a file's keys are finite scalars. *)
From Coq Require Import List NArith ZArith QArith Bool Sorted.
From Verif Require Import Spec.Ieee Model.Key Model.UnionKey Model.Records.
Import ListNotations.
Local Open Scope N_scope.

Definition opt_all {A} (P : A -> Prop) (o : option A) : Prop := forall x, o = Some x -> P x.
Definition u64 (n : N) : Prop := n < 2 ^ 64.
Definition u32 (n : N) : Prop := n < 2 ^ 32.
Definition u128 (n : N) : Prop := n < 2 ^ 128.
Definition signed (bits z : Z) : Prop := (- 2 ^ (bits - 1) <= z < 2 ^ (bits - 1))%Z.
Definition a_number (v : fval) : Prop := exists q, v = FNum q.

(** A component of a key the table accepts, of its type's range. *)
Definition cell_fits (c : ucell) : Prop :=
  match c with
  | UPlain (CI8 z) => signed 8 z | UPlain (CI16 z) => signed 16 z | UPlain (CI32 z) => signed 32 z | UPlain (CI64 z) => signed 64 z
  | UPlain (CU8 n) => n < 2 ^ 8 | UPlain (CU16 n) => n < 2 ^ 16 | UPlain (CU32 n) => u32 n | UPlain (CU64 n) => u64 n
  | UPlain (CF32 b) => u32 b | UPlain (CF64 b) => u64 b
  | UPlain (CBin s) => Forall (fun x => x < 256) s
  | _ => True
  end.
(** A scalar, and a number if it is a float. *)
Definition finite_scalar (c : ucell) : Prop :=
  match c with
  | UUnion _ _ => False
  | UPlain (CF32 b) => a_number (f32_value b)
  | UPlain (CF64 b) => a_number (f64_value b)
  | _ => True
  end.
(** Not a value of a union column. *)
Definition no_union (c : ucell) : Prop := match c with UPlain _ => True | UUnion _ _ => False end.
(** The JSON reader gives the float back that was written. *)
Definition exact_reader (reread32 reread64 : N -> N) : Prop :=
  (forall b, a_number (f32_value b) -> reread32 b = b) /\ (forall b, a_number (f64_value b) -> reread64 b = b).

Definition wal_fits (w : rwal) : Prop := u64 (w_seq w) /\ u128 (w_id w) /\ u64 (w_first w) /\ u64 (w_last w).
Definition bounds_of (s : rstats) : list ucell :=
  match s_min s with Some k => k | None => [] end ++ match s_max s with Some k => k | None => [] end.
Definition stats_fit (s : rstats) : Prop :=
  u64 (s_rows s) /\ u64 (s_bytes s) /\ u64 (s_tombs s) /\ Forall cell_fits (bounds_of s) /\ opt_all u64 (s_min_ts s) /\ opt_all u64 (s_max_ts s).

Section Paths.
  Variable parse_path : chars -> option chars.
  Definition path_fits (p : chars) : Prop := parse_path p = Some p.
  Definition entry_fits (e : rentry) : Prop :=
    path_fits (e_data e) /\ opt_all path_fits (e_delete e) /\ u64 (e_sst e) /\ opt_all stats_fit (e_stat e) /\ opt_all (Forall u128) (e_wals e).
  Definition version_fits (v : rversion) : Prop :=
    u128 (v_table v) /\ u64 (v_commit v) /\ Forall (Forall entry_fits) (v_ssts v) /\
    Forall wal_fits (v_wals v) /\ opt_all wal_fits (v_low v) /\ opt_all u64 (v_tomb v).
  Definition head_fits (h : rhead) : Prop :=
    u128 (h_table h) /\ u32 (h_schema h) /\ opt_all wal_fits (h_floor h) /\ opt_all u64 (h_last h).
  Definition value_fits (v : rvalue) : Prop :=
    match v with RHead h => head_fits h | RVersion v => version_fits v | RFloor w => wal_fits w end.
  Definition gone_fits (g : rgone) : Prop :=
    u64 (g_id g) /\ u32 (g_level g) /\ path_fits (g_data g) /\ opt_all path_fits (g_delete g).
  Definition plan_fits (p : rplan) : Prop := Forall gone_fits (p_ssts p) /\ Forall wal_fits (p_wals p).
End Paths.

(** Every key bound in a version, a record. *)
Definition version_bounds (v : rversion) : list ucell :=
  flat_map (fun e => match e_stat e with Some s => bounds_of s | None => [] end) (concat (v_ssts v)).
Definition value_bounds (v : rvalue) : list ucell := match v with RVersion v => version_bounds v | _ => [] end.

Definition keep_fits (k : N * (N * N)) : Prop := u64 (fst k) /\ u64 (fst (snd k)) /\ snd (snd k) < 10 ^ 9.
Definition table_fits (t : rtable) : Prop := u128 (t_table t) /\ opt_all keep_fits (t_keep t) /\ u32 (t_version t).
Definition catalog_fits (c : rcatalog) : Prop :=
  Forall u128 (map fst (c_tables c)) /\ StronglySorted N.lt (map fst (c_tables c)) /\ u64 (c_ordinal c).
Definition cat_fits (c : rcat) : Prop := match c with RCatalog c => catalog_fits c | RTable t => table_fits t end.
Definition state_fits (s : rstate) : Prop :=
  opt_all u64 (st_segment s) /\ opt_all u64 (st_frame s) /\ opt_all u64 (st_commit s) /\ Forall wal_fits (st_sealed s) /\ opt_all wal_fits (st_active s).
