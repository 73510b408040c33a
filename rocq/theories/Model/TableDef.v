(** The definition under which a table is registered: src/mode/mod.rs:93-109.  Definitions
    only. *)
From Coq Require Import List NArith Bool.
From Verif Require Import Model.Json Model.KeyDecl Model.Manifest.
Import ListNotations.
Local Open Scope N_scope.

(** The member of an object. *)
Definition member (name : chars) (v : json) : option json :=
  match v with
  | JObj l => match find (fun p => chars_eqb (fst p) name) l with Some p => Some (snd p) | None => None end
  | _ => None
  end.

(** The names of the fields of a schema, read from its JSON: an Arrow schema is written as an
    object whose member [fields] is the array of its fields in order, each an object with a
    member [name] (derived serialisation of arrow-schema).  The code reads them from the
    schema itself. *)
Definition str_fields : chars := [102; 105; 101; 108; 100; 115].
Definition str_name : chars := [110; 97; 109; 101].
Definition field_names (schema : json) : list chars :=
  match member str_fields schema with
  | Some (JArr l) => map (fun f => match member str_name f with Some (JStr n) => n | _ => [] end) l
  | _ => []
  end.

(** [DynModeConfig]: the schema and the key columns ([key_indices]). *)
Record table := mkTable { t_schema : json; t_cols : list nat }.

(** [table_definition]: src/mode/mod.rs:93-109.  [field] of an index out of range panics in
    the code; the indices of an extractor are in range. *)
Definition key_names (t : table) : list chars := map (fun i => nth i (field_names (t_schema t)) []) (t_cols t).
Definition table_definition (sha : chars -> chars) (name : chars) (t : table) : tdef chars :=
  mkDef name (fingerprint sha (t_schema t)) (key_names t) None 0.
