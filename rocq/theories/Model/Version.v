(** Version payloads of the manifest: SST levels, WAL references and the edits applied to
    them (src/manifest/domain.rs).  Definitions only.

    Simplifications: an SST entry is any type with an id; a level or frame number fits its
    machine type; a file id is the number the ULID stands for. *)
From Coq Require Import List NArith Bool.
From Verif Require Import Base.Order Model.SsTable.
Import ListNotations.

(** [WalSegmentRef]: src/manifest/domain.rs:469-480 *)
Record walref := mkWR { wr_seq : N; wr_file : N; wr_first : N; wr_last : N }.

(** [WalSegmentRef::cmp]: src/manifest/domain.rs:490-496 *)
Definition wr_cmp (a b : walref) : comparison :=
  match N.compare (wr_seq a) (wr_seq b) with
  | Eq => match N.compare (wr_first a) (wr_first b) with
          | Eq => match N.compare (wr_last a) (wr_last b) with
                  | Eq => N.compare (wr_file a) (wr_file b)
                  | c => c
                  end
          | c => c
          end
  | c => c
  end.
Definition wr_le (a b : walref) : bool := match wr_cmp a b with Gt => false | _ => true end.
Definition wr_eqb (a b : walref) : bool :=
  N.eqb (wr_seq a) (wr_seq b) && N.eqb (wr_file a) (wr_file b)
  && N.eqb (wr_first a) (wr_first b) && N.eqb (wr_last a) (wr_last b).

Section Version.
  Context {E : Type}.
  Variable eid : E -> N.

  (** [ensure_level] followed by an update of the bucket: src/manifest/domain.rs:347-353 *)
  Fixpoint level_update (n : nat) (f : list E -> list E) (ls : list (list E)) : list (list E) :=
    match n, ls with
    | O, [] => [f []]
    | O, b :: r => f b :: r
    | S n, [] => [] :: level_update n f []
    | S n, b :: r => b :: level_update n f r
    end.

  (** One entry of [add_ssts]: an entry with the same id in the level is replaced. *)
  Definition add_one (b : list E) (e : E) : list E :=
    filter (fun x => negb (N.eqb (eid x) (eid e))) b ++ [e].
  (** [add_ssts]: src/manifest/domain.rs:319-329 *)
  Definition add_ssts (level : nat) (es : list E) (ls : list (list E)) : list (list E) :=
    match es with
    | [] => ls
    | _ => level_update level (fun b => fold_left add_one es b) ls
    end.

  Definition mem_id (i : N) (ids : list N) : bool := existsb (N.eqb i) ids.
  (** [remove_ssts]: src/manifest/domain.rs:331-345; [None]: missing level. *)
  Definition remove_ssts (level : nat) (ids : list N) (ls : list (list E)) : option (list (list E)) :=
    match ids with
    | [] => Some ls
    | _ => if Nat.leb (length ls) level then None
           else Some (level_update level (filter (fun x => negb (mem_id (eid x) ids))) ls)
    end.

  (** [trim_trailing_empty_levels]: src/manifest/domain.rs:355-359 *)
  Fixpoint trim (ls : list (list E)) : list (list E) :=
    match ls with
    | [] => []
    | b :: r => match b, trim r with [], [] => [] | _, r' => b :: r' end
    end.
  (** The buckets sorted by id, empty trailing levels dropped: src/manifest/domain.rs:310-313 *)
  Definition tidy (ls : list (list E)) : list (list E) :=
    trim (map (sort_by (fun a b => N.leb (eid a) (eid b))) ls).

  (** [VersionEdit]: src/manifest/version.rs:7-32 *)
  Inductive edit :=
  | AddSsts (level : nat) (es : list E)
  | RemoveSsts (level : nat) (ids : list N)
  | SetWal (segs : list walref)
  | SetMark (w : N).

  (** [VersionState]: src/manifest/domain.rs:270-287 *)
  Record vstate := mkVer {
    v_ts : N;
    v_levels : list (list E);
    v_wal : list walref;
    v_floor : option walref;
    v_mark : option N
  }.
  (** [VersionState::empty]: src/manifest/domain.rs:287-296 *)
  Definition vstate_empty : vstate := mkVer 0 [] [] None None.

  Definition apply_edit (v : vstate) (e : edit) : option vstate :=
    match e with
    | AddSsts l es => Some (mkVer (v_ts v) (add_ssts l es (v_levels v)) (v_wal v) (v_floor v) (v_mark v))
    | RemoveSsts l ids =>
        match remove_ssts l ids (v_levels v) with
        | Some ls => Some (mkVer (v_ts v) ls (v_wal v) (v_floor v) (v_mark v))
        | None => None
        end
    | SetWal segs => Some (mkVer (v_ts v) (v_levels v) segs (v_floor v) (v_mark v))
    | SetMark w => Some (mkVer (v_ts v) (v_levels v) (v_wal v) (v_floor v) (Some w))
    end.
  Fixpoint apply_each (v : vstate) (es : list edit) : option vstate :=
    match es with
    | [] => Some v
    | e :: r => match apply_edit v e with Some v' => apply_each v' r | None => None end
    end.
  (** [normalise_wal_segments]: src/manifest/domain.rs:399-408 *)
  Definition normalise (v : vstate) : vstate :=
    match v_wal v with
    | [] => mkVer (v_ts v) (v_levels v) [] None (v_mark v)
    | _ => let w := sort_by wr_le (v_wal v) in
           mkVer (v_ts v) (v_levels v) w (hd_error w) (v_mark v)
    end.
  (** [apply_edits]: src/manifest/domain.rs:298-317; [None]: an invariant error. *)
  Definition apply_edits (v : vstate) (es : list edit) : option vstate :=
    match apply_each v es with
    | None => None
    | Some v' => Some (normalise (mkVer (v_ts v') (tidy (v_levels v')) (v_wal v') (v_floor v') (v_mark v')))
    end.

  (** Edit lists applied one after the other, as [apply_version_edits] does on the latest
      version (src/manifest/driver.rs:176-283); a rejected list leaves the version as it
      was.  Also returns the accepted lists. *)
  Fixpoint apply_batches (v : vstate) (bs : list (list edit)) : vstate * list (list edit) :=
    match bs with
    | [] => (v, [])
    | b :: r => match apply_edits v b with
                | Some v' => let '(w, acc) := apply_batches v' r in (w, b :: acc)
                | None => apply_batches v r
                end
    end.
End Version.
Arguments edit E : clear implicits.
Arguments vstate E : clear implicits.
