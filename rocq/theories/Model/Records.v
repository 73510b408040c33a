(** What the manifest and the log keep as JSON: version records, table heads, log floors,
    clean-up plans, the catalog, and the state file of the log.  The functions that serde
    derives for these types, and the hand-written ones for keys and paths.  JSON values, not
    their text: serde_json and the manifest's storage are trusted to hand back the value they
    were given, except for floating point numbers, see [VF32], [VF64].  Definitions only. *)
From Coq Require Import List NArith ZArith Bool String Ascii.
From Verif Require Import Model.Key Model.UnionKey.
Import ListNotations.
Local Open Scope N_scope.

Definition chars := list N.
Definition lit (s : string) : chars := map N_of_ascii (list_ascii_of_string s).

(** [VF32 b], [VF64 b]: the shortest decimal text of the finite float with these bits. *)
Inductive jv :=
| VNull | VBool (b : bool) | VInt (z : Z) | VF32 (bits : N) | VF64 (bits : N) | VStr (s : chars)
| VArr (l : list jv) | VObj (l : list (chars * jv)).

(** *** Building blocks of serde *)
Fixpoint traverse {A B} (f : A -> option B) (l : list A) : option (list B) :=
  match l with
  | [] => Some []
  | x :: r => match f x, traverse f r with Some y, Some ys => Some (y :: ys) | _, _ => None end
  end.
Definition bind {A B} (o : option A) (f : A -> option B) : option B := match o with Some x => f x | None => None end.
Notation "'do' x <- a ; b" := (bind a (fun x => b)) (at level 200, x pattern, a at level 100, b at level 200).

Definition e_u (n : N) : jv := VInt (Z.of_N n).
Definition d_u (bits : N) (j : jv) : option N :=
  match j with VInt z => if (Z.leb 0 z && Z.ltb z (2 ^ Z.of_N bits))%bool then Some (Z.to_N z) else None | _ => None end.
Definition d_i (bits : N) (j : jv) : option Z :=
  match j with
  | VInt z => if (Z.leb (- 2 ^ (Z.of_N bits - 1)) z && Z.ltb z (2 ^ (Z.of_N bits - 1)))%bool then Some z else None
  | _ => None
  end.
Definition d_str (j : jv) : option chars := match j with VStr s => Some s | _ => None end.
Definition e_opt {A} (f : A -> jv) (o : option A) : jv := match o with Some x => f x | None => VNull end.
Definition e_optf {A} (f : A -> option jv) (o : option A) : option jv := match o with Some x => f x | None => Some VNull end.
Definition d_opt {A} (f : jv -> option A) (j : jv) : option (option A) :=
  match j with VNull => Some None | _ => match f j with Some x => Some (Some x) | None => None end end.
Definition d_list {A} (f : jv -> option A) (j : jv) : option (list A) := match j with VArr l => traverse f l | _ => None end.

Fixpoint chars_eqb (a b : chars) : bool :=
  match a, b with [], [] => true | x :: a', y :: b' => (x =? y) && chars_eqb a' b' | _, _ => false end.
Fixpoint member (n : chars) (l : list (chars * jv)) : option jv :=
  match l with [] => None | (m, v) :: r => if chars_eqb m n then Some v else member n r end.
Definition members (j : jv) : option (list (chars * jv)) := match j with VObj l => Some l | _ => None end.
(** A field: a missing one is an error, or [None] for a plain [Option], or the default. *)
Definition need {A} (l : list (chars * jv)) (n : string) (f : jv -> option A) : option A := bind (member (lit n) l) f.
Definition need_opt {A} (l : list (chars * jv)) (n : string) (f : jv -> option A) : option (option A) :=
  match member (lit n) l with Some j => d_opt f j | None => Some None end.
Definition need_or {A} (l : list (chars * jv)) (n : string) (d : A) (f : jv -> option A) : option A :=
  match member (lit n) l with Some j => f j | None => Some d end.

(** *** ULIDs: 26 characters of Crockford's base 32, 5 bits each; the excess bits are lost.
    src/id.rs; [TableId]: src/manifest/domain.rs:18-41.  (The reader of the crate also takes
    lower case letters; never written.) *)
Definition alphabet : chars := lit "0123456789ABCDEFGHJKMNPQRSTVWXYZ".
Fixpoint digits32 (k : nat) (n : N) : list N := match k with O => [] | S k' => digits32 k' (n / 32) ++ [n mod 32] end.
Definition e_ulid (n : N) : chars := map (fun d => nth (N.to_nat d) alphabet 0) (digits32 26 n).
Fixpoint index (c : N) (l : chars) (i : N) : option N :=
  match l with [] => None | x :: r => if x =? c then Some i else index c r (i + 1) end.
Definition d_ulid_chars (s : chars) : option N :=
  if Nat.eqb (List.length s) 26 then
    do ds <- traverse (fun c => index c alphabet 0) s;
    Some (fold_left (fun a d => (a * 32 + d) mod 2 ^ 128) ds 0)
  else None.
Definition d_ulid (j : jv) : option N := bind (d_str j) d_ulid_chars.

Section Records.
  (** [Path::parse] of fusio, and what serde_json makes of the text of a float when it reads
      it back. *)
  Variable parse_path : chars -> option chars.
  Variable reread32 reread64 : N -> N.

  (** [path_serde], [path_serde_option]: src/manifest/domain.rs:540-588 *)
  Definition d_path (j : jv) : option chars := bind (d_str j) parse_path.

  (** *** Keys: src/key/owned.rs:193-290.  A cell is an object with its variant's name; bytes
      are an array of numbers; serde_json writes a float that is not finite as null.
      [cell_data_type] refuses a union on writing. *)
  Definition finite32 (b : N) : bool := negb ((b / 2 ^ 23) mod 2 ^ 8 =? 255).
  Definition finite64 (b : N) : bool := negb ((b / 2 ^ 52) mod 2 ^ 11 =? 2047).
  Definition variant (n : string) (v : jv) : jv := VObj [(lit n, v)].
  Definition e_cell (c : ucell) : option jv :=
    match c with
    | UUnion _ _ => None
    | UPlain c => Some
        match c with
        | CBool b => variant "Bool" (VBool b)
        | CI8 z => variant "I8" (VInt z) | CI16 z => variant "I16" (VInt z)
        | CI32 z => variant "I32" (VInt z) | CI64 z => variant "I64" (VInt z)
        | CU8 n => variant "U8" (e_u n) | CU16 n => variant "U16" (e_u n)
        | CU32 n => variant "U32" (e_u n) | CU64 n => variant "U64" (e_u n)
        | CF32 b => variant "F32" (if finite32 b then VF32 b else VNull)
        | CF64 b => variant "F64" (if finite64 b then VF64 b else VNull)
        | CStr s => variant "Str" (VStr s)
        | CBin s => variant "Bin" (VArr (map e_u s))
        end
    end.
  Definition d_cell (j : jv) : option ucell :=
    match j with
    | VObj [(n, v)] =>
        let plain := option_map UPlain in
        if chars_eqb n (lit "Bool") then match v with VBool b => Some (UPlain (CBool b)) | _ => None end
        else if chars_eqb n (lit "I8") then plain (option_map CI8 (d_i 8 v))
        else if chars_eqb n (lit "I16") then plain (option_map CI16 (d_i 16 v))
        else if chars_eqb n (lit "I32") then plain (option_map CI32 (d_i 32 v))
        else if chars_eqb n (lit "I64") then plain (option_map CI64 (d_i 64 v))
        else if chars_eqb n (lit "U8") then plain (option_map CU8 (d_u 8 v))
        else if chars_eqb n (lit "U16") then plain (option_map CU16 (d_u 16 v))
        else if chars_eqb n (lit "U32") then plain (option_map CU32 (d_u 32 v))
        else if chars_eqb n (lit "U64") then plain (option_map CU64 (d_u 64 v))
        else if chars_eqb n (lit "F32") then match v with VF32 b => Some (UPlain (CF32 (reread32 b))) | _ => None end
        else if chars_eqb n (lit "F64") then match v with VF64 b => Some (UPlain (CF64 (reread64 b))) | _ => None end
        else if chars_eqb n (lit "Str") then plain (option_map CStr (d_str v))
        else if chars_eqb n (lit "Bin") then plain (option_map CBin (d_list (d_u 8) v))
        else None
    | _ => None
    end.
  Definition e_key (k : ukey) : option jv := option_map VArr (traverse e_cell k).
  Definition d_key (j : jv) : option ukey := d_list d_cell j.

  (** *** [WalSegmentRef] and [WalSegmentBounds]: src/manifest/domain.rs:468-479,
      src/wal/state.rs:179-190 *)
  Record rwal := mkRW { w_seq : N; w_id : N; w_first : N; w_last : N }.
  Definition e_wal (w : rwal) : jv :=
    VObj [(lit "seq", e_u (w_seq w)); (lit "file_id", VStr (e_ulid (w_id w)));
          (lit "first_frame", e_u (w_first w)); (lit "last_frame", e_u (w_last w))].
  Definition d_wal (j : jv) : option rwal :=
    do l <- members j; do s <- need l "seq" (d_u 64); do i <- need l "file_id" d_ulid;
    do f <- need l "first_frame" (d_u 64); do e <- need l "last_frame" (d_u 64); Some (mkRW s i f e).

  (** *** [SsTableStats]: src/ondisk/sstable.rs:321-339 *)
  Record rstats := mkRS { s_rows : N; s_bytes : N; s_tombs : N; s_min : option ukey; s_max : option ukey;
                          s_min_ts : option N; s_max_ts : option N }.
  Definition e_stats (s : rstats) : option jv :=
    do a <- e_optf e_key (s_min s); do b <- e_optf e_key (s_max s);
    Some (VObj [(lit "rows", e_u (s_rows s)); (lit "bytes", e_u (s_bytes s)); (lit "tombstones", e_u (s_tombs s));
                (lit "min_key", a); (lit "max_key", b);
                (lit "min_commit_ts", e_opt e_u (s_min_ts s)); (lit "max_commit_ts", e_opt e_u (s_max_ts s))]).
  Definition d_stats (j : jv) : option rstats :=
    do l <- members j; do r <- need l "rows" (d_u 64); do b <- need l "bytes" (d_u 64); do t <- need l "tombstones" (d_u 64);
    do mn <- need_opt l "min_key" d_key; do mx <- need_opt l "max_key" d_key;
    do mt <- need_opt l "min_commit_ts" (d_u 64); do xt <- need_opt l "max_commit_ts" (d_u 64); Some (mkRS r b t mn mx mt xt).

  (** *** [SstEntry]: src/manifest/domain.rs:411-421 *)
  Record rentry := mkRE { e_data : chars; e_delete : option chars; e_sst : N; e_stat : option rstats; e_wals : option (list N) }.
  Definition e_entry (e : rentry) : option jv :=
    do s <- e_optf e_stats (e_stat e);
    Some (VObj [(lit "data_path", VStr (e_data e)); (lit "delete_path", e_opt VStr (e_delete e)); (lit "sst_id", e_u (e_sst e));
                (lit "stats", s); (lit "wal_segments", e_opt (fun l => VArr (map (fun i => VStr (e_ulid i)) l)) (e_wals e))]).
  Definition d_entry (j : jv) : option rentry :=
    do l <- members j; do p <- need l "data_path" d_path; do q <- need l "delete_path" (d_opt d_path);
    do i <- need l "sst_id" (d_u 64); do s <- need_opt l "stats" d_stats; do w <- need_opt l "wal_segments" (d_list d_ulid);
    Some (mkRE p q i s w).

  (** *** [VersionState]: src/manifest/domain.rs:264-281 *)
  Record rversion := mkRV { v_table : N; v_commit : N; v_ssts : list (list rentry); v_wals : list rwal; v_low : option rwal; v_tomb : option N }.
  Definition e_version (v : rversion) : option jv :=
    do ls <- traverse (fun lv => option_map VArr (traverse e_entry lv)) (v_ssts v);
    Some (VObj [(lit "table_id", VStr (e_ulid (v_table v))); (lit "commit_timestamp", e_u (v_commit v)); (lit "ssts", VArr ls);
                (lit "wal_segments", VArr (map e_wal (v_wals v))); (lit "wal_floor", e_opt e_wal (v_low v));
                (lit "tombstone_watermark", e_opt e_u (v_tomb v))]).
  Definition d_version (j : jv) : option rversion :=
    do l <- members j; do t <- need l "table_id" d_ulid; do c <- need l "commit_timestamp" (d_u 64);
    do s <- need l "ssts" (d_list (d_list d_entry)); do w <- need_or l "wal_segments" [] (d_list d_wal);
    do f <- need_opt l "wal_floor" d_wal; do m <- need_opt l "tombstone_watermark" (d_u 64); Some (mkRV t c s w f m).

  (** *** [TableHead]: src/manifest/domain.rs:250-261 *)
  Record rhead := mkRH { h_table : N; h_schema : N; h_floor : option rwal; h_last : option N }.
  Definition e_head (h : rhead) : jv :=
    VObj [(lit "table_id", VStr (e_ulid (h_table h))); (lit "schema_version", e_u (h_schema h));
          (lit "wal_floor", e_opt e_wal (h_floor h)); (lit "last_manifest_txn", e_opt e_u (h_last h))].
  Definition d_head (j : jv) : option rhead :=
    do l <- members j; do t <- need l "table_id" d_ulid; do s <- need l "schema_version" (d_u 32);
    do f <- need_opt l "wal_floor" d_wal; do m <- need_opt l "last_manifest_txn" (d_u 64); Some (mkRH t s f m).

  (** *** [VersionValue], tagged with its kind: src/manifest/domain.rs:85-96 *)
  Inductive rvalue := RHead (h : rhead) | RVersion (v : rversion) | RFloor (w : rwal).
  Definition tagged (k : string) (j : jv) : jv := VObj [(lit "kind", VStr (lit k)); (lit "payload", j)].
  Definition e_value (v : rvalue) : option jv :=
    match v with
    | RHead h => Some (tagged "TableHead" (e_head h))
    | RVersion v => option_map (tagged "TableVersion") (e_version v)
    | RFloor w => Some (tagged "WalFloor" (e_wal w))
    end.
  Definition d_value (j : jv) : option rvalue :=
    do l <- members j; do k <- need l "kind" d_str; do p <- member (lit "payload") l;
    if chars_eqb k (lit "TableHead") then option_map RHead (d_head p)
    else if chars_eqb k (lit "TableVersion") then option_map RVersion (d_version p)
    else if chars_eqb k (lit "WalFloor") then option_map RFloor (d_wal p)
    else None.

  (** *** [GcSstRef], [GcPlanState], [GcPlanValue]: src/manifest/domain.rs:110-118, 512-538 *)
  Record rgone := mkRG { g_id : N; g_level : N; g_data : chars; g_delete : option chars }.
  Record rplan := mkRP { p_ssts : list rgone; p_wals : list rwal }.
  Definition e_gone (g : rgone) : jv :=
    VObj [(lit "id", e_u (g_id g)); (lit "level", e_u (g_level g)); (lit "data_path", VStr (g_data g)); (lit "delete_path", e_opt VStr (g_delete g))].
  Definition d_gone (j : jv) : option rgone :=
    do l <- members j; do i <- need l "id" (d_u 64); do v <- need l "level" (d_u 32); do p <- need l "data_path" d_path;
    do q <- need l "delete_path" (d_opt d_path); Some (mkRG i v p q).
  Definition e_plan (p : rplan) : jv :=
    tagged "Plan" (VObj [(lit "obsolete_ssts", VArr (map e_gone (p_ssts p))); (lit "obsolete_wal_segments", VArr (map e_wal (p_wals p)))]).
  Definition d_plan (j : jv) : option rplan :=
    do l <- members j; do k <- need l "kind" d_str; do p <- member (lit "payload") l;
    if chars_eqb k (lit "Plan") then
      do m <- members p; do s <- need m "obsolete_ssts" (d_list d_gone); do w <- need m "obsolete_wal_segments" (d_list d_wal); Some (mkRP s w)
    else None.

  (** *** The catalog: [CatalogState], [TableMeta], [CatalogValue]: src/manifest/domain.rs:47-67,
      176-247.  A map is an object whose member names are the keys' text, in ascending order;
      reading it inserts one member after the other.  [Duration] is its seconds and nanoseconds. *)
  Record rtable := mkRT { t_table : N; t_name : chars; t_print : chars; t_keys : list chars; t_keep : option (N * (N * N)); t_version : N }.
  Record rcatalog := mkRC { c_tables : list (N * chars); c_ordinal : N }.
  Definition e_keep (k : N * (N * N)) : jv :=
    VObj [(lit "max_versions", e_u (fst k)); (lit "max_ttl", VObj [(lit "secs", e_u (fst (snd k))); (lit "nanos", e_u (snd (snd k)))])].
  Definition d_keep (j : jv) : option (N * (N * N)) :=
    do l <- members j; do m <- need l "max_versions" (d_u 64); do t <- member (lit "max_ttl") l; do r <- members t;
    do s <- need r "secs" (d_u 64); do n <- need r "nanos" (d_u 32);
    (* whole seconds are carried over; too many of them is an error *)
    if s + n / 10 ^ 9 <? 2 ^ 64 then Some (m, (s + n / 10 ^ 9, n mod 10 ^ 9)) else None.
  Definition e_table (t : rtable) : jv :=
    VObj [(lit "table_id", VStr (e_ulid (t_table t))); (lit "name", VStr (t_name t)); (lit "schema_fingerprint", VStr (t_print t));
          (lit "primary_key_columns", VArr (map VStr (t_keys t))); (lit "retention", e_opt e_keep (t_keep t)); (lit "schema_version", e_u (t_version t))].
  Definition d_table (j : jv) : option rtable :=
    do l <- members j; do i <- need l "table_id" d_ulid; do n <- need l "name" d_str; do f <- need l "schema_fingerprint" d_str;
    do k <- need l "primary_key_columns" (d_list d_str); do r <- need_opt l "retention" d_keep; do v <- need l "schema_version" (d_u 32);
    Some (mkRT i n f k r v).
  Fixpoint map_insert (i : N) (s : chars) (l : list (N * chars)) : list (N * chars) :=
    match l with
    | [] => [(i, s)]
    | (j, t) :: r => if i <? j then (i, s) :: l else if i =? j then (i, s) :: r else (j, t) :: map_insert i s r
    end.
  Definition e_catalog (c : rcatalog) : jv :=
    VObj [(lit "tables", VObj (map (fun p => (e_ulid (fst p), VObj [(lit "logical_table_name", VStr (snd p))])) (c_tables c)));
          (lit "next_table_ordinal", e_u (c_ordinal c))].
  Definition d_named (p : chars * jv) : option (N * chars) :=
    do i <- d_ulid_chars (fst p); do m <- members (snd p); do s <- need m "logical_table_name" d_str; Some (i, s).
  Definition d_catalog (j : jv) : option rcatalog :=
    do l <- members j; do t <- member (lit "tables") l; do ps <- members t;
    do es <- traverse d_named ps;
    do o <- need l "next_table_ordinal" (d_u 64);
    Some (mkRC (fold_left (fun a p => map_insert (fst p) (snd p) a) es []) o).
  Inductive rcat := RCatalog (c : rcatalog) | RTable (t : rtable).
  Definition e_cat (c : rcat) : jv :=
    match c with RCatalog c => tagged "Catalog" (e_catalog c) | RTable t => tagged "TableMeta" (e_table t) end.
  Definition d_cat (j : jv) : option rcat :=
    do l <- members j; do k <- need l "kind" d_str; do p <- member (lit "payload") l;
    if chars_eqb k (lit "Catalog") then option_map RCatalog (d_catalog p)
    else if chars_eqb k (lit "TableMeta") then option_map RTable (d_table p)
    else None.

  (** *** The state file of the log: [WalState], every missing field is the default.
      src/wal/state.rs:21-35; [load], [persist]: src/wal/state.rs:121-176.  An absent file and
      an empty one are the default state. *)
  Record rstate := mkRState { st_segment : option N; st_frame : option N; st_commit : option N; st_sealed : list rwal; st_active : option rwal }.
  Definition state_default : rstate := mkRState None None None [] None.
  Definition e_state_fields (s : rstate) : list (chars * jv) :=
    [(lit "last_segment_seq", e_opt e_u (st_segment s)); (lit "last_frame_seq", e_opt e_u (st_frame s));
     (lit "last_commit_ts", e_opt e_u (st_commit s)); (lit "sealed_segments", VArr (map e_wal (st_sealed s)));
     (lit "active_segment", e_opt e_wal (st_active s))].
  Definition e_state (s : rstate) : jv := VObj (e_state_fields s).
  Definition d_state (j : jv) : option rstate :=
    do l <- members j; do a <- need_or l "last_segment_seq" None (d_opt (d_u 64)); do b <- need_or l "last_frame_seq" None (d_opt (d_u 64));
    do c <- need_or l "last_commit_ts" None (d_opt (d_u 64)); do d <- need_or l "sealed_segments" [] (d_list d_wal);
    do e <- need_or l "active_segment" None (d_opt d_wal); Some (mkRState a b c d e).
  Inductive content := Absent | Empty | Value (j : jv).
  Definition load_state (c : content) : option rstate :=
    match c with Absent | Empty => Some state_default | Value j => d_state j end.
End Records.
