(** Scans that return only requested columns: the schemas and projections left out of
    [Model.DbScan].  Definitions only.

    Simplifications: a schema has names and types only (no nullability or metadata); columns
    are not nested; [DynProjection] and [DynBuilders] (typed-arrow-dyn) are external: a
    projection finds each requested column by name and type and copies its cells. *)
From Coq Require Import List NArith Bool.
From Verif Require Import Base.Order Spec.Tri Model.Key Model.Expr Model.Residual Model.Pred Model.MemTable Model.Immutable
  Model.SsTable Model.MergeStream Model.DbScan Model.Db.
Import ListNotations.

Definition names (s : schema) : list N := map fst s.
Definition mem_name (c : N) (l : list N) : bool := existsb (N.eqb c) l.
Definition drop_name (c : N) (l : list N) : list N := filter (fun x => negb (N.eqb x c)) l.

(** [collect_predicate_columns]: src/query/scan.rs:682-702 *)
Fixpoint pred_columns (e : expr) : list N :=
  match e with
  | ETrue | EFalse => []
  | ECmp c _ _ | EBetween c _ _ _ | EIn c _ | EBloom c | EStarts c _ | EIsNull c _ => [c]
  | ENot x => pred_columns x
  | EAnd l | EOr l => flat_map pred_columns l
  end.

(** The loop over the fields of a schema that takes the needed ones:
    src/query/scan.rs:663-668, src/db/scan.rs:503-511, with their positions; the second
    component is the names not found. *)
Fixpoint take_needed (i : nat) (needed : list N) (s : schema) : list (nat * (N * dtype)) * list N :=
  match s with
  | [] => ([], needed)
  | f :: r =>
      if mem_name (fst f) needed
      then let '(l, rest) := take_needed (S i) (drop_name (fst f) needed) r in ((i, f) :: l, rest)
      else take_needed (S i) needed r
  end.

(** [extend_projection_schema]: src/query/scan.rs:640-680 *)
Definition extend_projection (base proj : schema) (required : list N) : option schema :=
  if forallb (fun c => mem_name c (names proj)) required then Some proj
  else match take_needed 0 (names proj ++ required) base with
       | (l, []) => Some (map snd l)
       | _ => None
       end.

(** [DynProjection::from_schema] (external): the position of every column of [tgt]. *)
Fixpoint all_positions (find : N * dtype -> option nat) (tgt : schema) : option (list nat) :=
  match tgt with
  | [] => Some []
  | f :: r => match find f, all_positions find r with
              | Some i, Some l => Some (i :: l)
              | _, _ => None
              end
  end.
Definition dyn_projection (src tgt : schema) : option (list nat) :=
  all_positions (fun f => match col_index src (fst f), col_type src (fst f) with
                          | Some i, Some t => if dtype_eqb t (snd f) then Some i else None
                          | _, _ => None
                          end) tgt.
(** [schema_projection_indices]: src/db/scan.rs:537-558: by name only *)
Definition schema_projection_indices (base tgt : schema) : option (list nat) :=
  all_positions (fun f => col_index base (fst f)) tgt.

(** [project_row_raw]: the cells at these positions. *)
Definition pick (idx : list nat) (row : cells) : cells := map (fun i => nth i row None) idx.

(** Rows of the memtable, of immutable segments and of a transaction
    (src/inmem/mutable/memtable.rs:861-878, src/inmem/immutable/memtable.rs:418-431,
    src/transaction/mod.rs:229-288); a projection without columns is refused. *)
Definition row_projection (s sc : schema) : option (cells -> cells) :=
  match sc with
  | [] => None
  | _ => option_map pick (dyn_projection s sc)
  end.

(** The name of the commit timestamp column in files. *)
Definition commit_name : N := 0xffff.
(** [sst_projection_from_metadata]: src/db/scan.rs:489-522: positions and schema of the
    columns read from a file; a file has the table's columns and the commit column *)
Definition sst_columns (s sc ks : schema) : option (list nat * schema) :=
  match take_needed 0 (names sc ++ names ks ++ [commit_name]) (s ++ [(commit_name, TU64)]) with
  | (l, []) => Some (map fst l, map snd l)
  | _ => None
  end.
(** What is read of a file row, and the key and the row made of it
    (src/db/scan.rs:728-731, src/ondisk/scan.rs:569-660). *)
Definition file_row (ts : N) (row : cells) : cells := row ++ [Some (CU64 ts)].
Definition sst_projection (s sc ks : schema) : option (N -> cells -> cells * cells) :=
  match sst_columns s sc ks with
  | None => None
  | Some (cols, fs) =>
      match schema_projection_indices fs sc, schema_projection_indices fs ks with
      | Some ri, Some ki => Some (fun ts row => let b := pick cols (file_row ts row) in (pick ki b, pick ri b))
      | _, _ => None
      end
  end.

Section Scan.
  Context {K : Type} {KO : KeyOrd K} {R : Type}.
  Variable key_of : R -> option K.
  Variable single : cell -> option K.
  Variable row_cells : R -> cells.
  Variable row_filter : expr -> R -> bool.

  (** The predicate's parts, split by the columns of [ps]: src/db/scan.rs:203-217 *)
  Definition compile_for (ps s ks : schema) (e : expr) : cpred K R :=
    mkCP (match e with ETrue => true | _ => false end)
         (matches row_cells s e)
         (key_bounds_for_predicate single ks e)
         (option_map row_filter (fst (split_row_filter ps e)))
         (option_map (matches row_cells s) (snd (split_row_filter ps e)))
         (option_map (matches row_cells s) (snd (split_non_sst ks e))).

  (** [combine_predicates_with_and]: src/db/scan.rs:1360-1366 *)
  Definition combine_with_and (a b : option expr) : option expr :=
    match a, b with
    | Some x, Some y => Some (EAnd [x; y])
    | Some x, None => Some x
    | None, o => o
    end.
  (** The residual predicate of the plan: src/db/scan.rs:266-273, 333-337.  [file_resid]:
      some selected file's schema leaves a residual. *)
  Definition residual_expr (ps ks : schema) (e : expr) (force has_non_sst file_resid : bool) : option expr :=
    let is_true := match e with ETrue => true | _ => false end in
    let non_sst := if force && negb is_true then Some e else if has_non_sst then snd (split_non_sst ks e) else None in
    if file_resid && negb is_true then Some e
    else combine_with_and (snd (split_row_filter ps e)) non_sst.

  (** One stream with its rows projected to the scan schema. *)
  Definition project_source (s ks sc : schema) (src : @source K R) : option (@source K cells) :=
    let '(prio, es) := src in
    match (if Nat.eqb prio 3 then option_map (fun f ts row => snd (f ts row)) (sst_projection s sc ks)
           else option_map (fun f (_ : N) row => f row) (row_projection s sc)) with
    | None => None
    | Some f => Some (prio, map (fun e : (K * N) * option R =>
                                   (fst e, option_map (fun r => f (snd (fst e)) (row_cells r)) (snd e))) es)
    end.

  (** [matches_owned] on a projected row: src/query/stream/package.rs:295-299 *)
  Definition row_matches (sc : schema) (e : expr) (row : cells) : bool :=
    match evaluate sc row e with Some t => is_true t | None => false end.

  (** The re-projection of packaged rows: src/query/stream/package.rs:82-89, 147-158 *)
  Definition schema_eqb (a b : schema) : bool :=
    (fix go (a b : schema) : bool :=
       match a, b with
       | [], [] => true
       | (n, t) :: a', (m, u) :: b' => N.eqb n m && dtype_eqb t u && go a' b'
       | _, _ => false
       end) a b.
  Definition result_projection (sc proj : schema) : option (cells -> cells) :=
    if schema_eqb sc proj then Some (fun row => row) else option_map pick (dyn_projection sc proj).

  (** [plan_scan_with_context], [build_scan_streams] and [execute_with_txn_scan] with the
      requested columns [proj]: src/db/scan.rs:185-373, 660-809, 1143-1210. *)
  Definition scan_projected (s ks proj : schema) (e : expr) (prune : sst K R -> list (R * N))
             (txn : option (@staged_map K R)) (sn : snapshot K R) (limit : option nat) (d : db K R)
    : option (list ((K * N) * cells)) :=
    match extend_projection s proj (pred_columns e) with
    | None => None
    | Some ps =>
        let overlay := match txn with Some (x :: r) => Some (txn_entries (sn_ts sn) (x :: r)) | _ => None end in
        let force := match overlay with Some _ => true | None => false end in
        let p := plan_scan prune (compile_for ps s ks e) force (d_mem d) (d_imm d) (sn_levels sn) (sn_ts sn) limit in
        let has_non_sst := p_mem p || negb (Nat.eqb (length (p_imm p)) 0) in
        let file_resid := match snd (split_row_filter s e), p_ssts p with Some _, _ :: _ => true | _, _ => false end in
        let resid := residual_expr ps ks e force has_non_sst file_resid in
        let sc := if force || match resid with Some _ => true | None => false end then ps else proj in
        match build_streams key_of overlay (d_mem d) (d_imm d) p with
        | None => None
        | Some [] => Some []
        | Some srcs =>
            match all_some (map (project_source s ks sc) srcs), result_projection sc proj with
            | Some srcs', Some out =>
                match resid with
                | None => option_map (map (fun x => (fst x, out (snd x)))) (merge_streams limit srcs')
                | Some q =>
                    match merge_streams None srcs' with
                    | None => None
                    | Some rows =>
                        let hits := map (fun x => (fst x, out (snd x))) (filter (fun x => row_matches sc q (snd x)) rows) in
                        Some (match limit with Some n => firstn n hits | None => hits end)
                    end
                end
            | _, _ => None
            end
        end
    end.
End Scan.
