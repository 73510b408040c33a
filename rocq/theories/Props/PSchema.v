(** Key declarations (C67) and the fingerprint of a schema (C68).

    Schemas and texts are arbitrary; strings are lists of Unicode scalar values. *)
From Coq Require Import String List NArith Bool Permutation.
From Verif Require Import Model.Json Model.KeyDecl Model.Sessions Model.Manifest Model.TableDef
     Spec.KeyDeclSpec Spec.JsonSpec Spec.ManifestSpec Proof.KeyDeclFacts Proof.TableDefFacts Proof.JsonFacts Proof.SchemaWit.
Import ListNotations.
Local Open Scope N_scope.

(** *** C67: the key columns of a schema. *)
(** With field markers: the key columns are exactly the marked fields, each once, in the order
    of their places, fields of one place in schema order.  They are accepted exactly if their
    types may be keys and either one field is marked or every marker gives a place. *)
Theorem C67_marked :
  forall s cols, (exists i o, marked s i o) ->
    (from_metadata s = Some cols <->
     NoDup cols /\ (forall i, In i cols <-> exists o, marked s i o) /\
     ((exists i, (exists o, marked s i o) /\ forall j o, marked s j o -> j = i) \/ (forall i o, marked s i o -> o <> None)) /\
     (forall i, In i cols -> supported s i) /\
     (forall x y i j, (x < y)%nat -> nth_error cols x = Some i -> nth_error cols y = Some j ->
        exists m n, marked s i (Some m) /\ marked s j (Some n) /\ (m < n \/ (m = n /\ (i < j)%nat)))).
Proof. exact marked_columns. Qed.
Print Assumptions C67_marked.
Example C67_marked_applies : from_metadata placed = Some [1%nat; 0%nat] /\ marked placed 0 (Some 2) /\ marked placed 1 (Some 1).
Proof. exact placed_key. Qed.

(** Without field markers: the fields named by the list of the schema, in its order. *)
Theorem C67_named :
  forall s names cols, (forall i o, ~ marked s i o) -> s_keys s = Some (names_list names) -> Forall plain names ->
    (from_metadata s = Some cols <-> names <> [] /\ Forall2 (called s) names cols /\ Forall (supported s) cols).
Proof. exact named_columns. Qed.
Print Assumptions C67_named.
Example C67_named_applies : s_keys metrics_built = Some (names_list metrics_keys) /\ Forall plain metrics_keys /\
  from_metadata metrics_built = Some [2%nat; 1%nat].
Proof. exact (conj eq_refl (conj (proj1 metrics_plain) (proj2 metrics_build))). Qed.

(** Or the one field whose name the schema gives outside a list. *)
Theorem C67_single :
  forall s t name cols, (forall i o, ~ marked s i o) -> s_keys s = Some t -> names_one t name ->
    (from_metadata s = Some cols <-> exists i, cols = [i] /\ called s name i /\ supported s i).
Proof. exact one_column. Qed.
Print Assumptions C67_single.
Example C67_single_applies :
  (forall i o, ~ marked one_key i o) /\ names_one (str " ""host""") (str "host") /\ names_one (str "[host") (str "[host").
Proof. exact one_named. Qed.

(** With neither, the schema is refused. *)
Theorem C67_undeclared :
  forall s, (forall i o, ~ marked s i o) -> s_keys s = None -> from_metadata s = None.
Proof. exact undeclared. Qed.
Print Assumptions C67_undeclared.
Example C67_undeclared_applies : (forall i o, ~ marked metrics i o) /\ s_keys metrics = None.
Proof. exact (conj (proj2 metrics_plain) eq_refl). Qed.

(** The builder takes the named fields, and refuses when one is missing or of a wrong type;
    on request it writes the list of names into the schema. *)
Theorem C67_builder :
  forall s names w s' cols, builder s names w = Some (s', cols) ->
    names <> [] /\ Forall2 (called s) names cols /\ Forall (supported s) cols /\ s_fields s' = s_fields s /\
    (w = false -> s' = s) /\ (w = true -> Forall plain names -> s_keys s' = Some (names_list names)).
Proof. exact builder_key. Qed.
Print Assumptions C67_builder.
Theorem C67_builder_refuses :
  forall s names w, builder s names w = None <->
    ~ (names <> [] /\ exists cols, Forall2 (called s) names cols /\ Forall (supported s) cols).
Proof. exact builder_refuses. Qed.
Print Assumptions C67_builder_refuses.

(** What the builder writes into the schema is read back as the same key.
    Partial: only for schemas without field markers and names without commas, quotes,
    backslashes and control characters; refuted for others below. *)
Theorem C67_round_trip_partial :
  forall s names s' cols, builder s names true = Some (s', cols) ->
    (forall i o, ~ marked s i o) -> Forall plain names -> from_metadata s' = Some cols.
Proof. exact round_trip. Qed.
Print Assumptions C67_round_trip_partial.
Example C67_round_trip_applies :
  (builder metrics metrics_keys true = Some (metrics_built, [2%nat; 1%nat]) /\ from_metadata metrics_built = Some [2%nat; 1%nat]) /\
  (Forall plain metrics_keys /\ (forall i o, ~ marked metrics i o)).
Proof. exact (conj metrics_build metrics_plain). Qed.

(** A name with a comma: the schema is read back with another key, without an error. *)
Theorem C67_comma_refuted :
  exists s names s' cols cols', (forall i o, ~ marked s i o) /\
    builder s names true = Some (s', cols) /\ from_metadata s' = Some cols' /\ cols' <> cols.
Proof. exact comma_key. Qed.
Print Assumptions C67_comma_refuted.
(** A field marker left in the schema overrides the key that the builder wrote. *)
Theorem C67_marker_refuted :
  exists s names s' cols cols', Forall plain names /\
    builder s names true = Some (s', cols) /\ from_metadata s' = Some cols' /\ cols' <> cols.
Proof. exact marker_wins. Qed.
Print Assumptions C67_marker_refuted.

(** *** C68: reopening with another schema. *)
(** The canonical text of a schema determines it up to the order of the members of objects. *)
Theorem C68_text :
  forall v w, uniq v -> (text (canon v) = text (canon w) <-> same v w).
Proof. exact canon_text. Qed.
Print Assumptions C68_text.

(** A table registered with schema and key [t1] is opened again with [t2] exactly if the
    schemas say the same thing and the key columns have the same names; otherwise the open
    fails.  [sha] is the hash function; it must not confuse the two texts. *)
Theorem C68_reopen :
  forall sha es c i name t1 t2 m, NoDup (drawn es) ->
    uniq (t_schema t1) -> no_collision sha (text (canon (t_schema t1))) (text (canon (t_schema t2))) ->
    let s := mrun ckey_eqb (cexec chars_eqb) mstart es in
    registered s m -> tm_name m = name -> agrees m (table_definition sha name t1) ->
    let q := RRegister i (table_definition sha name t2) in
    let r := snd (mstep ckey_eqb (cexec chars_eqb) s (EOpen c q)) in
    (same (t_schema t1) (t_schema t2) /\ key_names t1 = key_names t2 -> r = Some (q, Returned (MOk (Some m)))) /\
    (~ (same (t_schema t1) (t_schema t2) /\ key_names t1 = key_names t2) -> r = Some (q, Returned (MErr ECatalog))).
Proof. exact reopen. Qed.
Print Assumptions C68_reopen.
Example C68_applies :
  (NoDup (drawn first_open) /\ registered opened opened_table /\
   agrees opened_table (table_definition ident (str "t"%string) (mkTable jschema [0%nat])) /\
   key_names (mkTable jschema [0%nat]) = [str "ts"%string] /\ key_names (mkTable jschema' [0%nat]) = [str "ts"%string]) /\
  (uniq jschema /\ uniq jschema' /\ uniq jother /\ jschema <> jschema' /\ same jschema jschema' /\ ~ same jschema jother) /\
  NoDup (field_names jschema).
Proof. exact (conj reopens (conj jschema_same jschema_names)). Qed.

(** If the names of the fields are distinct, the key columns are then the same. *)
Theorem C68_key_partial :
  forall t1 t2, uniq (t_schema t1) -> uniq (t_schema t2) -> same (t_schema t1) (t_schema t2) ->
    NoDup (field_names (t_schema t1)) ->
    Forall (fun i => (i < List.length (field_names (t_schema t1)))%nat) (t_cols t1) ->
    Forall (fun i => (i < List.length (field_names (t_schema t2)))%nat) (t_cols t2) ->
    key_names t1 = key_names t2 -> t_cols t1 = t_cols t2.
Proof. exact distinct_names. Qed.
Print Assumptions C68_key_partial.
(** If two fields have one name they may differ: opened by key name and then from the
    metadata of the same schema, a table has two keys and one definition. *)
Theorem C68_key_refuted :
  exists s j name c d, uniq j /\ field_names j = List.map f_name (s_fields s) /\
    from_key_name s name = Some c /\ from_metadata s = Some d /\ c <> d /\
    forall sha table, table_definition sha table (mkTable j c) = table_definition sha table (mkTable j d).
Proof. exact twin_names. Qed.
Print Assumptions C68_key_refuted.
