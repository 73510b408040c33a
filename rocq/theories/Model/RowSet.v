(** Row selections of one scan source: src/query/scan.rs:258-431.  Definitions only.
    Row counts are natural numbers: the selectors of a row set add up to its [total_rows],
    a [usize], so the saturating additions of the iterator never saturate. *)
From Coq Require Import List Arith Bool.
Import ListNotations.

(** [parquet::arrow::arrow_reader::RowSelector] *)
Record selector := mkSel { sel_skip : bool; sel_count : nat }.
Definition selection := list selector.

(** The sum in [RowSet::from_row_selection]: src/query/scan.rs:298 *)
Definition implied_total (s : selection) : nat := fold_right (fun x n => sel_count x + n) 0 s.
(** [RowSelection::row_count] of parquet: the rows that are not skipped *)
Definition row_count (s : selection) : nat :=
  fold_right (fun x n => (if sel_skip x then 0 else sel_count x) + n) 0 s.

(** [RowSelection::from_consecutive_ranges] of parquet; [None]: it panics (ranges out of order) *)
Fixpoint from_ranges_loop (acc : selection) (last_end : nat) (ranges : list (nat * nat)) (total : nat) : option selection :=
  match ranges with
  | [] => if Nat.eqb last_end total then Some acc
          else if last_end <? total then Some (acc ++ [mkSel true (total - last_end)]) else None
  | (a, b) :: r =>
      let len := b - a in
      if Nat.eqb len 0 then from_ranges_loop acc last_end r total
      else if Nat.eqb a last_end then
        match rev acc with
        | [] => from_ranges_loop [mkSel false len] b r total
        | l :: t => from_ranges_loop (rev t ++ [mkSel (sel_skip l) (sel_count l + len)]) b r total
        end
      else if last_end <? a then from_ranges_loop (acc ++ [mkSel true (a - last_end); mkSel false len]) b r total
      else None
  end.

(** [RowSet]: src/query/scan.rs:264-268 *)
Record rowset := mkRS { rs_total : nat; rs_sel : selection }.

Definition rs_from_ranges (total : nat) (ranges : list (nat * nat)) : option rowset :=
  option_map (mkRS total) (from_ranges_loop [] 0 ranges total).
(** [RowSet::all], [RowSet::none]: src/query/scan.rs:279-289 *)
Definition rs_all (total : nat) : option rowset :=
  if Nat.eqb total 0 then rs_from_ranges 0 [] else rs_from_ranges total [(0, total)].
Definition rs_none (total : nat) : option rowset := rs_from_ranges total [].
(** [RowSet::from_row_selection]: src/query/scan.rs:294-309 *)
Definition rs_from_selection (total : nat) (s : selection) : option rowset :=
  if Nat.eqb (implied_total s) total then Some (mkRS total s) else None.

(** [len], [is_full], [is_empty]: src/query/scan.rs:329-341 *)
Definition rs_len (r : rowset) : nat := row_count (rs_sel r).
Definition rs_full (r : rowset) : bool := Nat.eqb (rs_len r) (rs_total r).
Definition rs_empty (r : rowset) : bool := Nat.eqb (rs_len r) 0.
(** [to_row_selection]: src/query/scan.rs:380-386; [None]: the reader of the file reads every row *)
Definition rs_to_selection (r : rowset) : option selection := if rs_full r then None else Some (rs_sel r).

(** parquet's [intersect_row_selections] and [union_row_selections]: both walk the two lists
    of selectors, each step consuming the shorter of the two heads; the rows of a step are
    kept iff [keep] of the two [skip] flags says so.  A list that is exhausted first is
    followed by the rest of the other one. *)
Fixpoint walk (keep : bool -> bool -> bool) (fuel : nat) (l r : selection) : option selection :=
  match fuel with
  | O => None
  | S f =>
      match l, r with
      | a :: l', _ => if Nat.eqb (sel_count a) 0 then walk keep f l' r else
          match r with
          | [] => Some l
          | b :: r' =>
              if Nat.eqb (sel_count b) 0 then walk keep f l r'
              else
                let skip := negb (keep (negb (sel_skip a)) (negb (sel_skip b))) in
                if sel_count a <? sel_count b then
                  option_map (cons (mkSel skip (sel_count a)))
                    (walk keep f l' (mkSel (sel_skip b) (sel_count b - sel_count a) :: r'))
                else
                  option_map (cons (mkSel skip (sel_count b)))
                    (walk keep f (mkSel (sel_skip a) (sel_count a - sel_count b) :: l') r')
          end
      | [], _ => Some r
      end
  end.
Definition walk_fuel (l r : selection) : nat :=
  length l + length r + implied_total l + implied_total r + 1.
Definition sel_and (l r : selection) : option selection := walk andb (walk_fuel l r) l r.
Definition sel_or (l r : selection) : option selection := walk orb (walk_fuel l r) l r.

(** [RowSet::intersect], [RowSet::union]: src/query/scan.rs:343-367; the outer [None] is
    [LengthMismatch], fuel never runs out *)
Definition rs_combine (op : selection -> selection -> option selection) (a b : rowset) : option rowset :=
  if Nat.eqb (rs_total a) (rs_total b) then option_map (mkRS (rs_total a)) (op (rs_sel a) (rs_sel b)) else None.
Definition rs_intersect := rs_combine sel_and.
Definition rs_union := rs_combine sel_or.

(** [RowSetIter]: src/query/scan.rs:390-431, run to the end *)
Fixpoint iter_from (offset : nat) (s : selection) : list nat :=
  match s with
  | [] => []
  | x :: r =>
      if Nat.eqb (sel_count x) 0 then iter_from offset r
      else if sel_skip x then iter_from (offset + sel_count x) r
      else seq offset (sel_count x) ++ iter_from (offset + sel_count x) r
  end.
Definition rs_iter (r : rowset) : list nat := iter_from 0 (rs_sel r).
