(** Planning and executing a scan: src/db/scan.rs.  Definitions only. *)
From Coq Require Import List NArith Bool.
From Verif Require Import Base.Order Model.OMap Model.KeyTs Model.MemTable Model.Immutable
     Model.SsTable Model.MergeStream Model.KeyBounds Model.Package.
Import ListNotations.

Section DbScan.
  Context {K : Type} {KO : KeyOrd K} {R : Type}.
  Variable key_of : R -> option K.

  (** What the planner derives from the predicate before it looks at the data
      (src/db/scan.rs:207-217, 266-272); [Model.Pred] computes it from an expression. *)
  Record cpred := mkCP {
    c_true : bool;                        (* the predicate is [Expr::True] *)
    c_full : R -> bool;                   (* the whole predicate *)
    c_bounds : option (kbounds K);        (* [key_bounds_for_predicate] *)
    c_push : option (R -> bool);          (* [split_predicate_for_row_filter(..).pushdown] *)
    c_resid : option (R -> bool);         (* [split_predicate_for_row_filter(..).residual] *)
    c_nonsst : option (R -> bool)         (* [split_predicate_for_non_sst(..).residual] *)
  }.

  (** The predicate of a scan without one. *)
  Definition cp_all : cpred := mkCP true (fun _ => true) None None None None.

  (** [ScanPlan]: src/query/scan.rs:444-458 *)
  Record plan := mkPlan {
    p_push : option (R -> bool);
    p_imm : list nat;
    p_mem : bool;                                   (* the mutable row set is not empty *)
    p_range : option (bound K * bound K);           (* [ScanSelection::KeyRange] *)
    p_ssts : list (sst K R * list (R * N));         (* selected SSTs and their row selection *)
    p_resid : option (R -> bool);
    p_limit : option nat;
    p_ts : N
  }.

  (** [combine_predicates_with_and]: src/db/scan.rs:1360-1366 *)
  Definition combine_and (a b : option (R -> bool)) : option (R -> bool) :=
    match a, b with
    | Some p, Some q => Some (fun r => p r && q r)
    | Some p, None => Some p
    | None, o => o
    end.

  (** The mutable row set is non-empty: src/db/scan.rs:231-257 *)
  Definition mem_kept (bounds : option (kbounds K)) (read_ts : N) (m : mem K R) : bool :=
    if Nat.eqb (mem_row_count m) 0 then false
    else
      let keep1 := match mem_key_bounds m, bounds with
                   | (Some a, Some b), Some kb => kb_overlaps kb a b
                   | _, _ => true
                   end in
      keep1 && match mem_commit_ts_bounds m with
               | Some (mn, _) => negb (N.ltb read_ts mn)
               | None => true
               end.

  (** Whether an SST entry survives the statistics checks: src/db/scan.rs:283-300 *)
  Definition sst_kept (bounds : option (kbounds K)) (read_ts : N) (t : sst K R) : bool :=
    (match bounds with
     | None => true
     | Some kb =>
         if kb_empty kb then false
         else match t_min_key t, t_max_key t with
              | Some a, Some b => kb_overlaps kb a b
              | _, _ => true
              end
     end) &&
    match t_min_ts t with Some mn => negb (N.ltb read_ts mn) | None => true end.

  (** The selected SSTs with the rows [prune] selects ([prune_sst_selection],
      src/db/scan.rs:301-313).  [prune] stands for Parquet row-group and page pruning of
      the aisle library: the rows it keeps of a file.  An SST with no selected rows and no
      delete sidecar is skipped. *)
  Definition select_ssts (prune : sst K R -> list (R * N)) (bounds : option (kbounds K))
             (read_ts : N) (ssts : list (sst K R)) : list (sst K R * list (R * N)) :=
    flat_map (fun t =>
                if sst_kept bounds read_ts t then
                  match prune t, t_dels t with
                  | [], [] => []
                  | rows, _ => [(t, rows)]
                  end
                else []) ssts.

  (** [plan_scan_with_context]: src/db/scan.rs:185-373.  [levels] are the SST levels of
      the snapshot's manifest version; [m] and [imms] are the memtable and the immutable
      segments at the time of planning.  Schemas and projections are in [Model.Project]; every
      SST file has the table's schema, so [requires_residual] holds for one SST iff the
      row-filter split left a residual. *)
  Definition plan_scan (prune : sst K R -> list (R * N)) (cp : cpred) (force : bool)
             (m : mem K R) (imms : list (seg K R)) (levels : list (list (sst K R)))
             (read_ts : N) (limit : option nat) : plan :=
    let bounds := c_bounds cp in
    let imm := prune_segments (option_map kb_overlaps bounds) read_ts imms in
    let mk := mem_kept bounds read_ts m in
    let has_non_sst := mk || negb (Nat.eqb (length imm) 0) in
    let non_sst := if force && negb (c_true cp) then Some (c_full cp)
                   else if has_non_sst then c_nonsst cp else None in
    let resid := combine_and (c_resid cp) non_sst in
    let sel := select_ssts prune bounds read_ts (concat levels) in
    let requires := match c_resid cp, sel with Some _, _ :: _ => true | _, _ => false end in
    let resid' := if requires && negb (c_true cp) then Some (c_full cp) else resid in
    mkPlan (match sel with [] => None | _ => c_push cp end)
           imm mk
           (match bounds with Some kb => kb_range kb | None => None end)
           sel resid' limit read_ts.

  Definition opt_pred (p : option (R -> bool)) : R -> bool :=
    match p with Some f => f | None => fun _ => true end.

  (** The immutable segments fetched by index: src/db/scan.rs:692-698; an index out of
      range is silently dropped ([filter_map]). *)
  Definition fetch_segs (idx : list nat) (imms : list (seg K R)) : list (seg K R) :=
    flat_map (fun i => match nth_error imms i with Some s => [s] | None => [] end) idx.

  Definition source_of (prio : nat) (o : option (list ((K * N) * option R))) : option (@source K R) :=
    match o with Some l => Some (prio, l) | None => None end.

  Fixpoint all_some {A} (l : list (option A)) : option (list A) :=
    match l with
    | [] => Some []
    | Some a :: r => match all_some r with Some s => Some (a :: s) | None => None end
    | None :: _ => None
    end.

  (** [build_scan_streams]: src/db/scan.rs:660-809.  [txn] is the entries of the
      transaction overlay, if any.  [None]: a stream failed. *)
  Definition build_streams (txn : option (list ((K * N) * option R)))
             (m : mem K R) (imms : list (seg K R)) (p : plan) : option (list (@source K R)) :=
    all_some
      ((match txn with Some l => [Some (0, l)] | None => [] end) ++
       (if p_mem p then [source_of 1 (mem_scan m (p_ts p) (p_range p))] else []) ++
       map (fun s => source_of 2 (seg_scan s (p_ts p) (p_range p))) (fetch_segs (p_imm p) imms) ++
       map (fun tr => source_of 3 (sst_scan key_of (opt_pred (p_push p)) (snd tr) (t_dels (fst tr)) (p_ts p)))
           (p_ssts p)).

  (** [execute_with_txn_scan]: src/db/scan.rs:1143-1210: the limit goes to the merge if
      there is no residual predicate, to the packaging otherwise.  [m] and [imms] are
      the memtable and immutable segments when the streams are built.  The result is the
      rows in the order they are returned, with their key and timestamp; the batches of
      [Model.Package] concatenate to it. *)
  Definition exec_plan (txn : option (list ((K * N) * option R)))
             (m : mem K R) (imms : list (seg K R)) (p : plan) : option (list ((K * N) * R)) :=
    match build_streams txn m imms p with
    | None => None
    | Some srcs =>
        match p_resid p with
        | None => merge_streams (p_limit p) srcs
        | Some keep =>
            match merge_streams None srcs with
            | None => None
            | Some rows =>
                let hits := filter (fun e => keep (snd e)) rows in
                Some (match p_limit p with Some n => firstn n hits | None => hits end)
            end
        end
    end.
End DbScan.
Arguments cpred K R : clear implicits.
Arguments plan K R : clear implicits.
