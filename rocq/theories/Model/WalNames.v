(** The names of the log's files and the listing of its directory: src/wal/storage.rs, and the
    names of table files: src/ondisk/sstable.rs:1131-1148.  Definitions only.

    A name is the list of its bytes.  A path is the directory, as the list of its parts, and the
    name.  Simplifications: every file that is listed can be opened (sizes are left out); an
    absent directory lists nothing; no listing fails. *)
From Coq Require Import List NArith Bool.
Import ListNotations.
Local Open Scope N_scope.

Definition name := list N.
(** "wal-", ".tonwal", ".parquet", ".delete.parquet", "L" *)
Definition n_wal : name := [119; 97; 108; 45].
Definition n_tonwal : name := [46; 116; 111; 110; 119; 97; 108].
Definition n_parquet : name := [46; 112; 97; 114; 113; 117; 101; 116].
(** "state.json": src/wal/state.rs:16 *)
Definition n_state : name := [115; 116; 97; 116; 101; 46; 106; 115; 111; 110].
Definition n_delete : name := [46; 100; 101; 108; 101; 116; 101] ++ n_parquet.

(** [{n:020}]: the decimal digits with zeros in front up to [w] of them, for a number of at most
    that many digits (a u64 has at most twenty). *)
Fixpoint digits (w : nat) (n : N) : name :=
  match w with
  | O => []
  | S w' => digits w' (n / 10) ++ [48 + n mod 10]
  end.

(** [segment_path]: src/wal/storage.rs:97-103 *)
Definition segment_name (seq : N) : name := n_wal ++ digits 20 seq ++ n_tonwal.

(** [str::strip_prefix] and [str::strip_suffix] *)
Fixpoint strip_prefix (p s : name) : option name :=
  match p, s with
  | [], _ => Some s
  | x :: p', y :: s' => if x =? y then strip_prefix p' s' else None
  | _, [] => None
  end.
Definition strip_suffix (p s : name) : option name := option_map (@rev N) (strip_prefix (rev p) (rev s)).

(** [str::parse::<u64>]: an optional plus sign, then one or more digits; the value must be below
    2^64. *)
Fixpoint parse_digits (acc : N) (s : name) : option N :=
  match s with
  | [] => Some acc
  | c :: r =>
      if (48 <=? c) && (c <=? 57)
      then let v := acc * 10 + (c - 48) in if v <? 2 ^ 64 then parse_digits v r else None
      else None
  end.
Definition parse_u64 (s : name) : option N :=
  match s with
  | [] => None
  | [43] => None
  | 43 :: r => parse_digits 0 r
  | _ => parse_digits 0 s
  end.

(** [segment_sequence]: src/wal/storage.rs:559-566 *)
Definition segment_sequence (s : name) : option N :=
  match strip_prefix n_wal s with
  | None => None
  | Some r =>
      match strip_suffix n_tonwal r with
      | None => None
      | Some d => if Nat.eqb (length d) 20 then parse_u64 d else None
      end
  end.

(** *** Listing *)
Record path := mkPath { p_dir : list name; p_name : name }.
Definition name_eqb (a b : name) : bool := if list_eq_dec N.eq_dec a b then true else false.
Definition path_eqb (a b : path) : bool :=
  (if list_eq_dec (list_eq_dec N.eq_dec) (p_dir a) (p_dir b) then true else false) && name_eqb (p_name a) (p_name b).

(** [describe_segment] on every listed file: src/wal/storage.rs:434-458 *)
Definition describe (fs : list path) : list (N * path) :=
  flat_map (fun p => match segment_sequence (p_name p) with Some n => [(n, p)] | None => [] end) fs.

(** [sort_by_key]: stable *)
Fixpoint insert_seq (x : N * path) (l : list (N * path)) : list (N * path) :=
  match l with
  | [] => [x]
  | y :: r => if fst x <=? fst y then x :: l else y :: insert_seq x r
  end.
Definition sort_seq (l : list (N * path)) : list (N * path) := fold_right insert_seq [] l.
(** [dedup_by]: an entry equal to the kept one before it is removed *)
Fixpoint dedup (l : list (N * path)) : list (N * path) :=
  match l with
  | [] => []
  | x :: r =>
      match dedup r with
      | y :: r' => if (fst x =? fst y) && path_eqb (snd x) (snd y) then x :: r' else x :: y :: r'
      | [] => [x]
      end
  end.

(** [Path::prefix_matches] (external): the directory starts with the parts of the root *)
Fixpoint starts (root dir : list name) : bool :=
  match root, dir with
  | [], _ => true
  | x :: r, y :: d => name_eqb x y && starts r d
  | _, [] => false
  end.

(** [list_segments_with_hint] (src/wal/storage.rs:111-150) with [should_attempt_fallback]
    (206-218) and [list_segments_from_root] (234-264).  [s3]: the files are in an object store;
    [hint]: the segment the state file names; [here]: what listing the directory shows; [all]:
    what listing the whole store shows. *)
Definition list_segments (s3 : bool) (root : list name) (hint : option N) (here all : list path) : list (N * path) :=
  let es := describe here in
  let more := match hint with
              | Some n => if s3 && negb (existsb (fun e => fst e =? n) es)
                          then describe (filter (fun p => starts root (p_dir p)) all) else []
              | None => []
              end in
  dedup (sort_seq (es ++ more)).

(** [prune_below]: src/wal/storage.rs:152-168: the paths removed *)
Definition prune_below (floor : N) (root : list name) (here : list path) : list path :=
  if floor =? 0 then []
  else map snd (filter (fun e => fst e <? floor) (list_segments false root None here [])).

(** *** Table files *)
(** [level_dir] and [build_table_paths]: src/ondisk/sstable.rs:157-162, 1131-1149.  The level is
    written in decimal without zeros in front. *)
Fixpoint strip_zeros (s : name) : name :=
  match s with
  | 48 :: ((_ :: _) as r) => strip_zeros r
  | _ => s
  end.
Definition decimal (n : N) : name := strip_zeros (digits 20 n).
Definition level_dir (root : list name) (level : N) : list name := root ++ [76 :: decimal level].
Definition table_paths (root : list name) (level id : N) : path * path :=
  let dir := level_dir root level in
  (mkPath dir (digits 20 id ++ n_parquet), mkPath dir (digits 20 id ++ n_delete)).
