(** What a scan derives from its predicate: key bounds and the two splits.
    src/query/scan.rs, src/query/mod.rs, src/db/scan.rs, src/ondisk/sstable.rs.
    Definitions only. *)
From Coq Require Import List NArith ZArith Bool.
From Verif Require Import Base.Order Spec.Tri Model.Float Model.Utf8 Model.KeyBounds Model.Key Model.Expr
     Model.Residual Model.DbScan.
Import ListNotations.

(** [KeyPredicateValue for KeyOwned]: src/query/mod.rs:56-80 *)
Definition scalar_to_cell (v : scalar) : option cell :=
  match s_type v, s_val v with
  | TBool, Some (VBool b) => Some (CBool b)
  | (TI8 | TI16 | TI32 | TI64), Some (VInt z) => Some (CI64 z)
  | (TU8 | TU16 | TU32 | TU64), Some (VInt z) => Some (CU64 (Z.to_N z))
  | TF32, Some (VFloat b) => Some (CF64 (widen b))
  | TF64, Some (VFloat b) => Some (CF64 b)
  | (TUtf8 | TLargeUtf8 | TUtf8View), Some (VStr s) => Some (CStr s)
  | (TBinary | TLargeBinary | TBinaryView | TFixed _), Some (VBin b) => Some (CBin b)
  | _, _ => None
  end.

(** [is_string_key]: src/query/scan.rs:608-613; [is_string_key_type]: src/db/scan.rs:1345-1350;
    [is_string_type]: src/ondisk/sstable.rs:1576-1581 *)
Definition is_string_type (t : dtype) : bool :=
  match t with TUtf8 | TLargeUtf8 | TUtf8View => true | _ => false end.

Section Bounds.
  Context {K : Type} {KO : KeyOrd K}.
  (** The key of one cell, [KeyOwned::from].  [None] stands for a key that is not in the
      ordered key type [K] (a NaN): predicates with such a literal on the key column are
      not modelled. *)
  Variable single : cell -> option K.

  (** [scalar_to_key]: src/query/scan.rs:490-492 *)
  Definition scalar_to_key (v : scalar) : option K :=
    match scalar_to_cell v with Some c => single c | None => None end.

  (** [Iterator::min] and [Iterator::max]: the first of the smallest, the last of the largest *)
  Definition min_key (k : K) (ks : list K) : K :=
    fold_left (fun m x => match kcmp x m with Lt => x | _ => m end) ks k.
  Definition max_key (k : K) (ks : list K) : K :=
    fold_left (fun m x => match kcmp x m with Lt => m | _ => x end) ks k.

  Fixpoint all_keys (vs : list scalar) : option (list K) :=
    match vs with
    | [] => Some []
    | v :: r => match scalar_to_key v, all_keys r with
                | Some k, Some ks => Some (k :: ks)
                | _, _ => None
                end
    end.

  (** [bounds_from_expr]: src/query/scan.rs:494-574 *)
  Fixpoint bounds_from_expr (kc : N) (kt : dtype) (e : expr) : option (kbounds K) :=
    match e with
    | ETrue => None
    | EFalse => Some kb_none
    | ECmp c op v =>
        if N.eqb c kc then
          match scalar_to_key v with
          | None => None
          | Some k => match op with
                      | OpEq => Some (kb_with_range (k, true) (k, true))
                      | OpNe => None
                      | OpLt => Some (kb_with_upper k false)
                      | OpLe => Some (kb_with_upper k true)
                      | OpGt => Some (kb_with_lower k false)
                      | OpGe => Some (kb_with_lower k true)
                      end
          end
        else None
    | EBetween c lo hi incl =>
        if N.eqb c kc then
          match scalar_to_key lo, scalar_to_key hi with
          | Some a, Some b => Some (kb_with_range (a, incl) (b, incl))
          | _, _ => None
          end
        else None
    | EStarts c p =>
        if N.eqb c kc then
          if negb (is_string_type kt) || Nat.eqb (length p) 0 then None
          else match single (CStr p) with
               | None => None
               | Some lower =>
                   match next_prefix_string p with
                   | Some u => match single (CStr u) with
                               | Some upper => Some (kb_with_range (lower, true) (upper, false))
                               | None => None
                               end
                   | None => Some (kb_with_lower lower true)
                   end
               end
        else None
    | EIn c vs =>
        if N.eqb c kc then
          match vs with
          | [] => Some kb_none
          | _ => match all_keys vs with
                 | Some (k :: ks) => Some (kb_with_range (min_key k ks, true) (max_key k ks, true))
                 | _ => None
                 end
          end
        else None
    | EAnd l =>
        (fix go (acc : option (kbounds K)) (l : list expr) : option (kbounds K) :=
           match l with
           | [] => acc
           | x :: t => match bounds_from_expr kc kt x with
                       | Some b => go (Some (match acc with Some p => kb_intersect p b | None => b end)) t
                       | None => go acc t
                       end
           end) None l
    | EOr l =>
        (fix go (acc : option (kbounds K)) (l : list expr) : option (kbounds K) :=
           match l with
           | [] => acc
           | x :: t => match bounds_from_expr kc kt x with
                       | Some b => go (Some (match acc with Some p => kb_union p b | None => b end)) t
                       | None => None
                       end
           end) None l
    | EIsNull _ _ | EBloom _ | ENot _ => None
    end.

  (** [key_bounds_for_predicate]: src/query/scan.rs:478-488; [ks] is the key schema *)
  Definition key_bounds_for_predicate (ks : schema) (e : expr) : option (kbounds K) :=
    match ks with
    | [(kc, kt)] => bounds_from_expr kc kt e
    | _ => None
    end.
End Bounds.

(** A split: the pushed-down part and the residual part.
    [PredicateSplit]: src/ondisk/sstable.rs:1307-1311; [NonSstPredicateSplit]: src/db/scan.rs:1229-1233 *)
Definition split := (option expr * option expr)%type.
Definition pushed (e : expr) : split := (Some e, None).
Definition kept (e : expr) : split := (None, Some e).

(** [combine_and], [combine_or]: src/ondisk/sstable.rs:1475-1489; [combine_and_parts]: src/db/scan.rs:1352-1358 *)
Definition combine_and (l : list expr) : option expr :=
  match l with [] => None | [e] => Some e | _ => Some (EAnd l) end.
Definition combine_or (l : list expr) : option expr :=
  match l with [] => None | [e] => Some e | _ => Some (EOr l) end.

Definition opt_list {A} (o : option A) : list A := match o with Some a => [a] | None => [] end.

(** [scalar_matches_column]: src/ondisk/sstable.rs:1544-1556 *)
Definition scalar_matches_column (s : schema) (c : N) (v : scalar) : bool :=
  match col_type s c with
  | None => false
  | Some t => match s_type v with TNull => false | vt => dtype_eqb vt t end
  end.

(** [split_predicate_for_row_filter]: src/ondisk/sstable.rs:1313-1473 *)
Fixpoint split_row_filter (s : schema) (e : expr) : split :=
  match e with
  | ETrue => (None, None)
  | EFalse => pushed EFalse
  | ECmp c _ v => if scalar_matches_column s c v then pushed e else kept e
  | EBetween c lo hi _ =>
      if scalar_matches_column s c lo && scalar_matches_column s c hi then pushed e else kept e
  | EIn c vs =>
      match col_type s c with
      | None => kept e
      | Some _ => if forallb (scalar_matches_column s c) vs then pushed e else kept e
      end
  | EStarts c _ => match col_type s c with
                   | Some t => if is_string_type t then pushed e else kept e
                   | None => kept e
                   end
  | EIsNull c _ => match col_type s c with Some _ => pushed e | None => kept e end
  | EBloom _ => kept e
  | EAnd l =>
      let parts := map (split_row_filter s) l in
      (combine_and (flat_map (fun p => opt_list (fst p)) parts),
       combine_and (flat_map (fun p => opt_list (snd p)) parts))
  | EOr l =>
      match l with
      | [] => pushed EFalse
      | _ =>
          (fix go (acc : list expr) (l : list expr) : split :=
             match l with
             | [] => (combine_or acc, None)
             | x :: t => match split_row_filter s x with
                         | (_, Some _) => kept e
                         | (Some p, None) => go (acc ++ [p]) t
                         | (None, None) => (None, None)
                         end
             end) [] l
      end
  | ENot x => match split_row_filter s x with
              | (_, Some _) => kept e
              | (None, None) => pushed EFalse
              | (Some p, None) => pushed (ENot p)
              end
  end.

(** [split_predicate_for_non_sst_inner]: src/db/scan.rs:1263-1343 *)
Fixpoint split_non_sst_inner (kc : N) (kt : dtype) (e : expr) : split :=
  match e with
  | ETrue => (None, None)
  | EFalse => pushed EFalse
  | ECmp c op _ =>
      if negb (N.eqb c kc) then kept e
      else match op with OpNe => kept e | _ => pushed e end
  | EBetween c _ _ _ => if negb (N.eqb c kc) then kept e else pushed e
  | EStarts c p =>
      if negb (N.eqb c kc) || Nat.eqb (length p) 0 || negb (is_string_type kt) then kept e
      else match next_prefix_string p with None => kept e | Some _ => pushed e end
  | EAnd l =>
      let parts := map (split_non_sst_inner kc kt) l in
      (combine_and (flat_map (fun p => opt_list (fst p)) parts),
       combine_and (flat_map (fun p => opt_list (snd p)) parts))
  | EIn _ _ | EIsNull _ _ | EBloom _ | EOr _ | ENot _ => kept e
  end.

(** [split_predicate_for_non_sst]: src/db/scan.rs:1235-1261 *)
Definition split_non_sst (ks : schema) (e : expr) : split :=
  match e with
  | ETrue => (None, None)
  | EFalse => pushed EFalse
  | _ => match ks with
         | [(kc, kt)] => split_non_sst_inner kc kt e
         | _ => kept e
         end
  end.

(** [find_bloom_filter_column(..).is_some()]: src/db/scan.rs:1216-1227 *)
Fixpoint has_bloom (e : expr) : bool :=
  match e with
  | EBloom _ => true
  | EAnd l | EOr l => existsb has_bloom l
  | ENot x => has_bloom x
  | _ => false
  end.

Section Compile.
  Context {K : Type} {KO : KeyOrd K} {R : Type}.
  Variable single : cell -> option K.
  Variable row_cells : R -> cells.
  (** The row filter aisle builds from the pushed-down part of the predicate (external). *)
  Variable row_filter : expr -> R -> bool.

  (** [matches_owned]: src/query/stream/package.rs:295-299; a predicate on which the
      evaluator fails is excluded by the theorems' hypotheses *)
  Definition matches (s : schema) (e : expr) (r : R) : bool :=
    match evaluate s (row_cells r) e with Some t => is_true t | None => false end.

  (** What [plan_scan_with_context] derives from the predicate: src/db/scan.rs:207-217,
      266-272; [s] is the table's schema and [ks] the schema of its key columns. *)
  Definition compile (s ks : schema) (e : expr) : cpred K R :=
    mkCP (match e with ETrue => true | _ => false end)
         (matches s e)
         (key_bounds_for_predicate single ks e)
         (option_map row_filter (fst (split_row_filter s e)))
         (option_map (matches s) (snd (split_row_filter s e)))
         (option_map (matches s) (snd (split_non_sst ks e))).
End Compile.
