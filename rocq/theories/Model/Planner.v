(** The leveled compaction planner (src/compaction/planner.rs) and the resolution of its
    inputs (src/compaction/orchestrator.rs).  Definitions only.

    Simplification: byte totals do not overflow [usize]. *)
From Coq Require Import List NArith Bool Arith.
From Verif Require Import Base.Order Model.SsTable Model.Version.
Import ListNotations.

Section Planner.
  Context {K : Type} {KO : KeyOrd K}.
  (** An SST entry with the parts of its statistics the planner looks at:
      minimal key, maximal key, bytes ([LevelFile]: src/compaction/planner.rs:150-163). *)
  Context {E : Type}.
  Variable eid : E -> N.
  Variable estats : E -> option (option K * option K * nat).

  (** [LeveledPlannerConfig]: src/compaction/planner.rs:165-185 *)
  Record pconf := mkPConf {
    pc_l0_trigger : nat;
    pc_l0_max_inputs : nat;
    pc_l0_max_bytes : option nat;
    pc_thresholds : list nat;
    pc_max_bytes : list (option nat);
    pc_max_inputs : nat;
    pc_task_bytes : option nat
  }.

  (** [CompactionTask] with its [CompactionInput]s: src/compaction/planner.rs:201-222 *)
  Record task := mkTask {
    tk_source : nat;
    tk_target : nat;
    tk_input : list (nat * N);
    tk_range : option (K * K)
  }.

  Definition ebytes (e : E) : nat := match estats e with Some (_, _, b) => b | None => 0 end.
  (** [total_bytes]: src/compaction/planner.rs:435-441 *)
  Definition total_bytes (fs : list E) : nat := list_sum (map ebytes fs).

  (** [compare_key]: src/compaction/planner.rs:399-407 *)
  Definition compare_key (a b : E) : comparison :=
    match estats a, estats b with
    | Some (Some x, _, _), Some (Some y, _, _) => kcmp x y
    | _, _ => Eq
    end.
  Definition ck_le (a b : E) : bool := match compare_key a b with Gt => false | _ => true end.

  (** [select_compaction_run]: src/compaction/planner.rs:370-397.  [ordered] is sorted by
      minimal key with a stable sort. *)
  Fixpoint select_run (take : nat) (cap : option nat) (n bytes : nat) (ordered : list E) : list E :=
    match ordered with
    | [] => []
    | f :: r =>
        if Nat.leb take n then []
        else if match cap with
                | Some c => negb (Nat.eqb n 0) && Nat.ltb c (bytes + ebytes f)
                | None => false
                end then []
        else f :: select_run take cap (S n) (bytes + ebytes f) r
    end.
  Definition select_compaction_run (files : list E) (take : nat) (cap : option nat) : list E :=
    select_run take cap 0 0 (sort_by ck_le files).

  (** [aggregate_key_range]: src/compaction/planner.rs:409-433 *)
  Fixpoint agg (fs : list E) (mn mx : option K) : option (option K * option K) :=
    match fs with
    | [] => Some (mn, mx)
    | f :: r =>
        match estats f with
        | None => None
        | Some (a, z, _) =>
            agg r
                (match a with
                 | None => mn
                 | Some c => match mn with
                             | Some cur => if kleb cur c then Some cur else Some c
                             | None => Some c end
                 end)
                (match z with
                 | None => mx
                 | Some c => match mx with
                             | Some cur => if kleb c cur then Some cur else Some c
                             | None => Some c end
                 end)
        end
    end.
  Definition aggregate_key_range (fs : list E) : option (K * K) :=
    match agg fs None None with Some (Some a, Some z) => Some (a, z) | _ => None end.

  (** [CompactionSnapshot::from]: src/compaction/planner.rs:133-148: the non-empty levels
      with their numbers. *)
  Fixpoint snapshot_from (i : nat) (ls : list (list E)) : list (nat * list E) :=
    match ls with
    | [] => []
    | [] :: r => snapshot_from (S i) r
    | b :: r => (i, b) :: snapshot_from (S i) r
    end.
  (** [CompactionSnapshot::level]: src/compaction/planner.rs:97-99 *)
  Definition level_of (sn : list (nat * list E)) (l : nat) : option (list E) :=
    option_map snd (find (fun p => Nat.eqb (fst p) l) sn).

  (** [plan_l0]: src/compaction/planner.rs:245-271 *)
  Definition plan_l0 (cfg : pconf) (sn : list (nat * list E)) : option task :=
    match level_of sn 0 with
    | None => None
    | Some files =>
        let over := match pc_l0_max_bytes cfg with Some c => Nat.leb c (total_bytes files) | None => false end in
        if Nat.ltb (length files) (pc_l0_trigger cfg) && negb over then None
        else
          let take := Nat.max (Nat.min (pc_l0_max_inputs cfg) (length files)) 1 in
          let sel := select_compaction_run files take (pc_task_bytes cfg) in
          Some (mkTask 0 1 (map (fun f => (0, eid f)) sel) (aggregate_key_range sel))
    end.

  (** The overlap test of [plan_leveled_from]: src/compaction/planner.rs:316-322 *)
  Definition overlaps_range (lo hi : K) (f : E) : bool :=
    match estats f with
    | Some (Some a, Some z, _) => kleb a hi && kleb lo z
    | _ => false
    end.

  (** The body of the loop of [plan_leveled_from]: src/compaction/planner.rs:284-339 *)
  Definition plan_level (cfg : pconf) (sn : list (nat * list E)) (level : nat) (files : list E) : option task :=
    match nth_error (pc_thresholds cfg) (level - 1) with
    | None => None
    | Some limit =>
        let over := match nth_error (pc_max_bytes cfg) (level - 1) with
                    | Some (Some c) => Nat.leb c (total_bytes files)
                    | _ => false
                    end in
        if Nat.leb (length files) limit && negb over then None
        else
          let take := Nat.max (Nat.min (pc_max_inputs cfg) (length files)) 1 in
          let sel := select_compaction_run files take (pc_task_bytes cfg) in
          match sel with
          | [] => None
          | _ =>
              let range := aggregate_key_range sel in
              let ov := match level_of sn (level + 1), range with
                        | Some next, Some (lo, hi) => filter (overlaps_range lo hi) next
                        | _, _ => []
                        end in
              Some (mkTask level (level + 1)
                           (map (fun f => (level, eid f)) sel ++ map (fun f => (level + 1, eid f)) ov)
                           (match ov with [] => range | _ => aggregate_key_range (sel ++ ov) end))
          end
    end.
  Fixpoint plan_leveled (cfg : pconf) (sn todo : list (nat * list E)) (min_level : nat) : option task :=
    match todo with
    | [] => None
    | (level, files) :: r =>
        if Nat.leb min_level level then
          match plan_level cfg sn level files with
          | Some t => Some t
          | None => plan_leveled cfg sn r min_level
          end
        else plan_leveled cfg sn r min_level
    end.
  (** [plan_leveled_from]: src/compaction/planner.rs:273-342 *)
  Definition plan_leveled_from (cfg : pconf) (sn : list (nat * list E)) (min_level : nat) : option task :=
    plan_leveled cfg sn sn (Nat.max min_level 1).

  (** [plan]: src/compaction/planner.rs:238-243 *)
  Definition plan (cfg : pconf) (sn : list (nat * list E)) : option task :=
    match plan_l0 cfg sn with Some t => Some t | None => plan_leveled_from cfg sn 1 end.
  (** [plan_with_min_level]: src/compaction/planner.rs:344-353 *)
  Definition plan_with_min_level (cfg : pconf) (sn : list (nat * list E)) (min_level : nat) : option task :=
    if Nat.eqb min_level 0 then plan cfg sn else plan_leveled_from cfg sn min_level.

  (** [plan_from_version] (src/compaction/orchestrator.rs:21-48); an empty layout has no
      non-empty level, for which the planner has no task either. *)
  Definition plan_version (cfg : pconf) (ls : list (list E)) (min_level : nat) : option task :=
    match snapshot_from 0 ls with
    | [] => None
    | sn => plan_with_min_level cfg sn min_level
    end.

  (** [resolve_inputs]: src/compaction/orchestrator.rs:54-79; [None]: missing. *)
  Fixpoint resolve_inputs (ls : list (list E)) (ins : list (nat * N)) : option (list (nat * E)) :=
    match ins with
    | [] => Some []
    | (l, i) :: r =>
        match nth_error ls l with
        | None => None
        | Some b =>
            match find (fun e => N.eqb (eid e) i) b, resolve_inputs ls r with
            | Some e, Some es => Some ((l, e) :: es)
            | _, _ => None
            end
        end
    end.

  (** [CompactionOutcome::to_version_edits], the SST part: src/compaction/executor.rs:83-114.
      The removals are grouped by level; the code visits the levels in hash order, the
      model in the order of first use (removals on different levels commute). *)
  Definition remove_edits (ins : list (nat * E)) : list (edit E) :=
    map (fun l => RemoveSsts l (map (fun p => eid (snd p)) (filter (fun p => Nat.eqb (fst p) l) ins)))
        (nodup Nat.eq_dec (map fst ins)).
  Definition outcome_edits (ins : list (nat * E)) (outs : list E) (target : nat) : list (edit E) :=
    remove_edits ins ++ match outs with [] => [] | _ => [AddSsts target outs] end.
End Planner.
Arguments task K : clear implicits.
