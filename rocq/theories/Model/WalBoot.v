(** Opening the log for writing: [WriterContext::new] (src/wal/writer.rs:501-606) with
    [rehydrate_segment_metadata] (1082-1124), [align_state_with_segments] (1126-1151) and
    [load_bounds_from_storage] (963-978).  Definitions only.  A directory is the list of its
    segments in increasing order of their numbers, each number once ([Model.WalScan]); file
    identifiers are computed from the numbers and left out; timers are in [Model.WalSync],
    retention is in [Model.WalWriter]. *)
From Coq Require Import List NArith Bool.
From Verif Require Import Model.Columns Model.Frame Model.WalScan Model.WalWriter.
Import ListNotations.
Local Open Scope N_scope.

(** [WalState]: src/wal/state.rs:21-35, without the commit time *)
Record wal_state := mkWS { st_seg : option N; st_frame : option N; st_sealed : list seg_ref; st_active : option seg_ref }.

(** The map collected from the sealed segments: a later entry replaces an earlier one
    (src/wal/writer.rs:1091-1100) *)
Definition sealed_lookup (l : list seg_ref) (seq : N) : option seg_ref := find (fun r => r_seq r =? seq) (rev l).

(** [load_bounds_from_storage] *)
Definition load_bounds (seq : N) (bs : bytes) : res seg_ref :=
  match frame_bounds bs with
  | Err e => Err e
  | Ok None => Err Codec
  | Ok (Some (a, b)) => Ok (mkRef seq a b)
  end.
(** [rehydrate_segment_metadata], the completed segments *)
Fixpoint rehydrate (sealed : list seg_ref) (dir : wal_dir) : res (list seg_ref) :=
  match dir with
  | [] => Ok []
  | (_, []) :: r => rehydrate sealed r
  | (seq, bs) :: r =>
      match (match sealed_lookup sealed seq with Some b => Ok b | None => load_bounds seq bs end) with
      | Err e => Err e
      | Ok b => match rehydrate sealed r with Err e => Err e | Ok l => Ok (b :: l) end
      end
  end.

Record booted := mkBoot {
  bt_files : wal_dir;             (* the files afterwards *)
  bt_closed : list seg_ref;       (* [completed_segments] *)
  bt_active : option seg_ref;     (* [active_segment] *)
  bt_seg : N;                     (* [segment_seq] *)
  bt_bytes : nat;                 (* [segment_bytes] *)
  bt_frame : N;                   (* [next_frame_seq] *)
  bt_next : N;                    (* [next_segment_seq] *)
  bt_state : option wal_state
}.
(** [WriterContext::new]: [first] is the number of the segment in an empty directory *)
Definition boot (first : N) (st : option wal_state) (dir : wal_dir) : res booted :=
  match tail_metadata dir with
  | Err e => Err e
  | Ok (tail, dir1) =>
      let frame0 := match tail with Some t => match tm_last_frame t with Some x => sat1 x | None => 1 end | None => 1 end in
      let seg := match tail with Some t => tm_active t | None => first end in
      let bytes := match tail with Some t => tm_bytes t | None => O end in
      let files := match tail with Some _ => dir1 | None => [(first, [])] end in
      let frame := match st with Some s => match st_frame s with Some x => N.max frame0 (sat1 x) | None => frame0 end | None => frame0 end in
      let next := match st with Some s => match st_seg s with Some x => N.max (sat1 seg) (sat1 x) | None => sat1 seg end | None => sat1 seg end in
      let sealed := match st with Some s => st_sealed s | None => [] end in
      match rehydrate sealed (removelast files) with
      | Err e => Err e
      | Ok closed =>
          match (match List.last files (first, []) with
                 | (_, []) => Ok None
                 | (q, bs) => match load_bounds q bs with Ok b => Ok (Some b) | Err e => Err e end
                 end) with
          | Err e => Err e
          | Ok active =>
              Ok (mkBoot files closed active seg bytes frame next
                         (match st with Some s => Some (mkWS (st_seg s) (st_frame s) closed active) | None => None end))
          end
      end
  end.
