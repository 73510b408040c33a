(** What a proposed compaction task must look like. *)
From Coq Require Import List NArith Bool Sorted Arith.
From Verif Require Import Base.Order Model.Planner.
Import ListNotations.

Section Plan.
  Context {K : Type} {KO : KeyOrd K} {E : Type}.
  Variable eid : E -> N.
  Variable estats : E -> option (option K * option K * nat).

  (** Level [l] has reached its configured limit: level 0 by its number of files or bytes,
      a lower level by having more files than its threshold or reaching its bytes. *)
  Definition l0_over (cfg : pconf) (ls : list (list E)) : Prop :=
    pc_l0_trigger cfg <= length (nth 0 ls []) \/
    exists c, pc_l0_max_bytes cfg = Some c /\ c <= total_bytes estats (nth 0 ls []).
  Definition level_over (cfg : pconf) (ls : list (list E)) (l : nat) : Prop :=
    exists limit, nth_error (pc_thresholds cfg) (l - 1) = Some limit /\
      (limit < length (nth l ls []) \/
       exists c, nth_error (pc_max_bytes cfg) (l - 1) = Some (Some c) /\ c <= total_bytes estats (nth l ls [])).
  Definition over (cfg : pconf) (ls : list (list E)) (l : nat) : Prop :=
    nth l ls [] <> [] /\ match l with O => l0_over cfg ls | S _ => level_over cfg ls l end.

  (** A well formed task: it takes files [srcs] of a level over its limit and files [nexts]
      of the next one, which the outputs go to. *)
  Record good_task (cfg : pconf) (ls : list (list E)) (tk : task K) (srcs nexts : list E) : Prop := {
    gt_input : tk_input tk = map (fun f => (tk_source tk, eid f)) srcs ++ map (fun f => (S (tk_source tk), eid f)) nexts;
    gt_target : tk_target tk = S (tk_source tk);
    gt_src : forall f, In f srcs -> In f (nth (tk_source tk) ls []);
    gt_next : forall f, In f nexts -> In f (nth (S (tk_source tk)) ls []);
    gt_some : srcs <> [];
    gt_count : length srcs <= Nat.max 1 (match tk_source tk with O => pc_l0_max_inputs cfg | S _ => pc_max_inputs cfg end);
    (* within the byte budget of a task, unless a single file exceeds it *)
    gt_bytes : forall c, pc_task_bytes cfg = Some c -> length srcs = 1 \/ total_bytes estats srcs <= c;
    gt_nodup : NoDup (map eid (nth (tk_source tk) ls [])) -> NoDup (map eid (nth (S (tk_source tk)) ls [])) ->
               NoDup (tk_input tk);
    gt_over : over cfg ls (tk_source tk);
    gt_l0 : tk_source tk = 0 -> nexts = [];
    (* every file of the next level that shares keys with a chosen one is chosen *)
    gt_overlap : tk_source tk <> 0 -> (forall f, In f srcs -> exists a z b, estats f = Some (Some a, Some z, b)) ->
      forall f g a z b c d e, In f srcs -> In g (nth (S (tk_source tk)) ls []) ->
        estats f = Some (Some a, Some z, b) -> estats g = Some (Some c, Some d, e) ->
        kcmp a d <> Gt -> kcmp c z <> Gt -> In g nexts;
    (* the key range it announces covers every chosen file *)
    gt_range : forall lo hi f a z b, tk_range tk = Some (lo, hi) -> In f (srcs ++ nexts) ->
      estats f = Some (Some a, Some z, b) -> kcmp lo a <> Gt /\ kcmp z hi <> Gt
  }.
End Plan.
