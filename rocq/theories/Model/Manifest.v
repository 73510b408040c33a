(** The version manifest and the table catalog (src/manifest/driver.rs).  Definitions only.

    Simplifications: table identifiers are numbers; an SST entry is any type with an id; the
    table id stored again inside a version or a head is left out (it is the one of the key);
    errors keep only their kind. *)
From Coq Require Import List NArith Bool.
From Verif Require Import Base.Order Model.SsTable Model.Version Model.WalWriter Model.Sessions.
Import ListNotations.

(** [ManifestError] *)
Inductive merr := EInvariant | ECas | ECatalog.
Inductive mres (A : Type) := MOk (a : A) | MErr (e : merr).
Arguments MOk {A} a. Arguments MErr {A} e.

(** [VersionKey]: src/manifest/domain.rs:66-84 *)
Inductive vkey := KHead (t : N) | KVer (t ts : N) | KFloor (t : N).
Definition vkey_eqb (a b : vkey) : bool :=
  match a, b with
  | KHead t, KHead t' => N.eqb t t'
  | KVer t s, KVer t' s' => N.eqb t t' && N.eqb s s'
  | KFloor t, KFloor t' => N.eqb t t'
  | _, _ => false
  end.

(** [TableHead]: src/manifest/domain.rs:253-265 *)
Record thead := mkHead { h_schema : N; h_floor : option walref; h_txn : option N }.

Section Versions.
  Context {E : Type}.
  Variable eid : E -> N.

  (** [VersionValue]: src/manifest/domain.rs:86-97 *)
  Inductive vval := VHead (h : thead) | VVer (v : vstate E) | VFloor (r : walref).
  Notation vstore := (store vkey vval).
  Notation get := (kget (Val := vval) vkey_eqb).

  (** [validate_key_value] then [try_from]: src/manifest/codec.rs:44-51, domain.rs:140-178;
      [MOk None]: no such key. *)
  Definition get_head (t : N) (s : vstore) : mres (option thead) :=
    match get (KHead t) s with
    | None => MOk None
    | Some (VHead h) => MOk (Some h)
    | Some _ => MErr EInvariant
    end.
  Definition get_ver (t ts : N) (s : vstore) : mres (option (vstate E)) :=
    match get (KVer t ts) s with
    | None => MOk None
    | Some (VVer v) => MOk (Some v)
    | Some _ => MErr EInvariant
    end.
  Definition get_floor (t : N) (s : vstore) : mres (option walref) :=
    match get (KFloor t) s with
    | None => MOk None
    | Some (VFloor r) => MOk (Some r)
    | Some _ => MErr EInvariant
    end.

  (** Calls that write: [apply_version_edits] (no expected head) and
      [apply_version_edits_cas] (with one); [init_table_head]. *)
  Inductive vreq :=
  | RPublish (t : N) (es : list (edit E)) (expected : option (option N))
  | RInit (t schema : N).
  (** The manifest timestamp of a publish; nothing of [init_table_head]. *)
  Notation vres := (mres (option N)).

  Definition same_txn (a b : option N) : bool :=
    match a, b with Some x, Some y => N.eqb x y | None, None => true | _, _ => false end.
  Definition set_ts (ts : N) (v : vstate E) : vstate E := mkVer ts (v_levels v) (v_wal v) (v_floor v) (v_mark v).

  (** The version a publish starts from. *)
  Definition base_version (t : N) (h : thead) (s : vstore) : mres (vstate E) :=
    match h_txn h with
    | None => MOk vstate_empty
    | Some ts => match get_ver t ts s with
                 | MOk (Some v) => MOk v
                 | MOk None => MErr EInvariant
                 | MErr e => MErr e
                 end
    end.

  (** [apply_version_edits_inner]: src/manifest/driver.rs:176-283 *)
  Definition publish (t : N) (es : list (edit E)) (expected : option (option N)) (s : vstore) : outcome vkey vval vres :=
    match es with
    | [] => Ended (MErr EInvariant)
    | _ =>
        match get_head t s with
        | MErr e => Ended (MErr e)
        | MOk None => Ended (MErr EInvariant)
        | MOk (Some h) =>
            if match expected with Some x => negb (same_txn (h_txn h) x) | None => false end
            then Ended (MErr ECas)
            else match base_version t h s with
                 | MErr e => Ended (MErr e)
                 | MOk v =>
                     match apply_edits eid v es with
                     | None => Ended (MErr EInvariant)
                     | Some v' =>
                         let next := sat1 (v_ts v') in
                         let v'' := set_ts next v' in
                         Staged [(KVer t next, Some (VVer v''));
                                 (KHead t, Some (VHead (mkHead (h_schema h) (v_floor v'') (Some next))));
                                 (KFloor t, option_map VFloor (v_floor v''))]
                                (MOk (Some next))
                     end
                 end
        end
    end.

  (** [init_table_head]: src/manifest/driver.rs:389-403, with the head its only caller passes
      (src/manifest/bootstrap.rs:206-216). *)
  Definition init_head (t schema : N) (s : vstore) : outcome vkey vval vres :=
    match get (KHead t) s with
    | Some _ => Ended (MOk None)
    | None => Staged [(KHead t, Some (VHead (mkHead schema None None)))] (MOk None)
    end.
  Definition vexec (q : vreq) (s : vstore) : outcome vkey vval vres :=
    match q with
    | RPublish t es x => publish t es x s
    | RInit t v => init_head t v s
    end.

  (** *** Reads, each in one session *)

  (** The entries of [scan_range] between the first and the last possible version of the
      table: src/manifest/driver.rs:422-444.  The versions are sorted afterwards. *)
  Definition scan_versions (t : N) (s : vstore) : mres (list (vstate E)) :=
    fold_right (fun e acc => match fst e with
                             | KVer t' _ => if N.eqb t' t then
                                              match snd e, acc with
                                              | VVer v, MOk l => MOk (v :: l)
                                              | VVer _, MErr x => MErr x
                                              | _, _ => MErr EInvariant
                                              end
                                            else acc
                             | _ => acc
                             end) (MOk []) s.
  (** [list_versions]: src/manifest/driver.rs:414-457; a limit of 0 is no limit. *)
  Definition list_versions (t : N) (limit : nat) (s : vstore) : mres (list (vstate E)) :=
    match scan_versions t s with
    | MErr e => MErr e
    | MOk l =>
        let sorted := sort_by (fun a b => N.leb (v_ts b) (v_ts a)) l in
        MOk (match limit with O => sorted | _ => firstn limit sorted end)
    end.
  (** [snapshot_latest]: src/manifest/driver.rs:290-329 *)
  Definition snapshot_latest (t : N) (s : vstore) : mres (thead * option (vstate E)) :=
    match get_head t s with
    | MErr e => MErr e
    | MOk None => MErr EInvariant
    | MOk (Some h) =>
        match h_txn h with
        | None => MOk (h, None)
        | Some ts => match get_ver t ts s with MErr e => MErr e | MOk v => MOk (h, v) end
        end
    end.
  (** [snapshot_at_version]: src/manifest/driver.rs:341-382 *)
  Definition snapshot_at_version (t ts : N) (s : vstore) : mres (thead * option (vstate E)) :=
    match get_head t s with
    | MErr e => MErr e
    | MOk None => MErr EInvariant
    | MOk (Some h) => match get_ver t ts s with MErr e => MErr e | MOk v => MOk (h, v) end
    end.
  (** [wal_floor]: src/manifest/driver.rs:465-477 *)
  Definition wal_floor (t : N) (s : vstore) : mres (option walref) := get_floor t s.
  (** [snapshot_at]: src/db/mod.rs:855-883: the manifest version pinned for a timestamp. *)
  Definition version_at (t ts : N) (s : vstore) : mres (thead * option (vstate E)) :=
    match list_versions t 0 s with
    | MErr e => MErr e
    | MOk l => match find (fun v => N.leb (v_ts v) ts) l with
               | Some v => snapshot_at_version t (v_ts v) s
               | None => snapshot_latest t s
               end
    end.
End Versions.
Arguments vval E : clear implicits.
Arguments vreq E : clear implicits.

(** *** The catalog *)
Section Catalog.
  (** Strings, compared by equality only. *)
  Context {S : Type}.
  Variable seqb : S -> S -> bool.

  (** [TableRetionConfig]: src/manifest/domain.rs:228-235; the duration in nanoseconds. *)
  Record retention := mkRet { r_versions : N; r_ttl : N }.
  (** [TableDefinition]: src/manifest/domain.rs:210-223 *)
  Record tdef := mkDef { td_name : S; td_schema : S; td_pk : list S; td_ret : option retention; td_version : N }.
  (** [TableMeta]: src/manifest/domain.rs:193-207 *)
  Record tmeta := mkMeta { tm_id : N; tm_name : S; tm_schema : S; tm_pk : list S; tm_ret : option retention; tm_version : N }.
  Inductive ckey := CRoot | CMeta (t : N).
  Definition ckey_eqb (a b : ckey) : bool :=
    match a, b with CRoot, CRoot => true | CMeta t, CMeta t' => N.eqb t t' | _, _ => false end.
  (** [CatalogState]: src/manifest/domain.rs:176-184; the map of the tables in order of
      their ids. *)
  Record catalog := mkCat { c_tables : list (N * S); c_ordinal : N }.
  Inductive cval := CCat (c : catalog) | CTab (m : tmeta).
  Notation cstore := (store ckey cval).
  Notation get := (kget (Val := cval) ckey_eqb).

  Definition list_eqb (a b : list S) : bool :=
    Nat.eqb (length a) (length b) && forallb (fun p => seqb (fst p) (snd p)) (combine a b).
  Definition ret_eqb (a b : option retention) : bool :=
    match a, b with
    | Some x, Some y => N.eqb (r_versions x) (r_versions y) && N.eqb (r_ttl x) (r_ttl y)
    | None, None => true
    | _, _ => false
    end.
  (** [find_table_by_name]: src/manifest/driver.rs:659-664 *)
  Definition find_table (c : catalog) (name : S) : option N :=
    match find (fun e => seqb (snd e) name) (c_tables c) with Some e => Some (fst e) | None => None end.
  (** [ensure_table_compat]: src/manifest/driver.rs:666-692 *)
  Definition compat (m : tmeta) (d : tdef) : bool :=
    if negb (seqb (tm_schema m) (td_schema d)) then false
    else if negb (list_eqb (tm_pk m) (td_pk d)) then false
    else if negb (N.eqb (tm_version m) (td_version d)) then false
    else if negb (ret_eqb (tm_ret m) (td_ret d)) then false
    else true.
  (** [BTreeMap::insert] *)
  Fixpoint tables_insert (i : N) (n : S) (l : list (N * S)) : list (N * S) :=
    match l with
    | [] => [(i, n)]
    | (j, m) :: r => match N.compare i j with
                     | Lt => (i, n) :: l
                     | Eq => (i, n) :: r
                     | Gt => (j, m) :: tables_insert i n r
                     end
    end.

  (** [init_catalog_root]; [register_table] with the identifier a new table would get. *)
  Inductive creq := RRoot | RRegister (fresh : N) (d : tdef).
  Notation cres := (mres (option tmeta)).

  (** [register_table]: src/manifest/driver.rs:561-617 *)
  Definition register (fresh : N) (d : tdef) (s : cstore) : outcome ckey cval cres :=
    match (match get CRoot s with
           | Some (CCat c) => MOk c
           | Some _ => MErr EInvariant
           | None => MOk (mkCat [] 0)
           end) with
    | MErr e => Ended (MErr e)
    | MOk c =>
        match find_table c (td_name d) with
        | Some i =>
            match get (CMeta i) s with
            | Some (CTab m) => if compat m d then Ended (MOk (Some m)) else Ended (MErr ECatalog)
            | _ => Ended (MErr EInvariant)
            end
        | None =>
            let m := mkMeta fresh (td_name d) (td_schema d) (td_pk d) (td_ret d) (td_version d) in
            Staged [(CRoot, Some (CCat (mkCat (tables_insert fresh (td_name d) (c_tables c)) (sat1 (c_ordinal c)))));
                    (CMeta fresh, Some (CTab m))]
                   (MOk (Some m))
        end
    end.
  Definition cexec (q : creq) (s : cstore) : outcome ckey cval cres :=
    match q with
    | RRegister i d => register i d s
    | RRoot => match get CRoot s with
               | Some _ => Ended (MOk None)
               | None => Staged [(CRoot, Some (CCat (mkCat [] 0)))] (MOk None)
               end
    end.
  (** [table_meta]: src/manifest/driver.rs:624-640 *)
  Definition table_meta (i : N) (s : cstore) : mres tmeta :=
    match get (CMeta i) s with Some (CTab m) => MOk m | _ => MErr EInvariant end.
End Catalog.
Arguments tdef S : clear implicits.
Arguments tmeta S : clear implicits.
Arguments catalog S : clear implicits.
Arguments cval S : clear implicits.
Arguments creq S : clear implicits.
