(** Witnesses for key declarations and schema fingerprints. *)
From Coq Require Import String Ascii List NArith ZArith Bool Permutation.
From Verif Require Import Model.Json Model.KeyDecl Model.Sessions Model.Manifest Model.TableDef
     Spec.KeyDeclSpec Spec.JsonSpec Spec.ManifestSpec Proof.KeyDeclFacts Proof.JsonFacts Proof.TableDefFacts.
Import ListNotations.
Local Open Scope N_scope.

Definition fld (name : string) (mark : option string) : field := mkField (str name) true (option_map str mark).

(** Places written with spaces and a plus sign; a marker that is no marker. *)
Definition placed : dschema :=
  mkSchema [fld "tenant" (Some " 2 "%string); fld "id" (Some "+1"%string); fld "payload" (Some "no"%string)] None.
Lemma placed_key : from_metadata placed = Some [1%nat; 0%nat] /\ marked placed 0 (Some 2) /\ marked placed 1 (Some 1).
Proof.
  split; [vm_compute; reflexivity|]. split; apply marks_spec; vm_compute; auto.
Qed.

(** A list of names. *)
Definition metrics : dschema := mkSchema [fld "value" None; fld "host" None; fld "ts" None] None.
Definition metrics_keys : list chars := [str "ts"; str "host"].
Definition metrics_built : dschema := mkSchema (s_fields metrics) (Some (str "[""ts"",""host""]")).
Lemma metrics_build : builder metrics metrics_keys true = Some (metrics_built, [2%nat; 1%nat]) /\
  from_metadata metrics_built = Some [2%nat; 1%nat].
Proof. vm_compute. auto. Qed.
Definition no_marks (s : dschema) : bool := match marks s with [] => true | _ => false end.
Lemma no_marks_spec s : no_marks s = true -> forall i o, ~ marked s i o.
Proof. unfold no_marks. intros H i o HM. apply marks_spec in HM. destruct (marks s); [destruct HM|discriminate]. Qed.
Lemma metrics_plain : Forall plain metrics_keys /\ (forall i o, ~ marked metrics i o).
Proof. split; [repeat constructor; discriminate|]. apply no_marks_spec. reflexivity. Qed.

(** One key, in quotes with a space before; and a name with an opening bracket. *)
Definition one_key : dschema := mkSchema (s_fields metrics) (Some (str " ""host""")).
Lemma one_named : (forall i o, ~ marked one_key i o) /\ names_one (str " ""host""") (str "host") /\ names_one (str "[host") (str "[host").
Proof.
  split; [apply no_marks_spec; reflexivity|].
  assert (W : forall c, ~ In c white \/ In c white) by (intros c; destruct (in_dec N.eq_dec c white); auto).
  assert (V : forall c, existsb (N.eqb c) white = false -> ~ In c white).
  { intros c H K. assert (X : existsb (N.eqb c) white = true) by (apply existsb_exists; exists c; split; [exact K|apply N.eqb_refl]). congruence. }
  split.
  - exists [32], 1%nat, 1%nat, []. split; [reflexivity|]. split; [constructor; [vm_compute; tauto|constructor]|]. split; [constructor|]. split.
    + exists 104, (str "ost"), 116, (str "hos"). do 2 (split; [reflexivity|]). split; [now apply V|]. split; [now apply V|]. split; discriminate.
    + intros (inner & H). discriminate.
  - exists [], 0%nat, 0%nat, []. split; [reflexivity|]. split; [constructor|]. split; [constructor|]. split.
    + exists 91, (str "host"), 116, (str "[hos"). do 2 (split; [reflexivity|]). split; [now apply V|]. split; [now apply V|]. split; discriminate.
    + intros (inner & H). apply (f_equal (@rev N)) in H. rewrite !rev_app_distr in H. discriminate.
Qed.

(** A name with a comma: read back as two columns. *)
Definition comma : dschema := mkSchema [fld "a,b" None; fld "a" None; fld "b" None] None.
Lemma comma_key : exists s names s' cols cols', (forall i o, ~ marked s i o) /\
  builder s names true = Some (s', cols) /\ from_metadata s' = Some cols' /\ cols' <> cols.
Proof.
  exists comma, [str "a,b"], (mkSchema (s_fields comma) (Some (str "[""a,b""]"))), [0%nat], [1%nat; 2%nat].
  split; [now apply no_marks_spec|]. split; [vm_compute; reflexivity|]. split; [vm_compute; reflexivity|discriminate].
Qed.
(** A field marker overrides the list of names. *)
Definition both : dschema := mkSchema [fld "a" None; fld "b" (Some "true"%string)] None.
Lemma marker_wins : exists s names s' cols cols', Forall plain names /\
  builder s names true = Some (s', cols) /\ from_metadata s' = Some cols' /\ cols' <> cols.
Proof.
  exists both, [str "a"], (mkSchema (s_fields both) (Some (str "[""a""]"))), [0%nat], [1%nat].
  split; [repeat constructor; discriminate|]. split; [vm_compute; reflexivity|]. split; [vm_compute; reflexivity|discriminate].
Qed.

(** *** Fingerprints *)
Definition jfield (name : string) : json := JObj [(str "name", JStr (str name)); (str "dict_id", JInt 0); (str "nullable", JBool true)].
Definition jfield' (name : string) : json := JObj [(str "nullable", JBool true); (str "name", JStr (str name)); (str "dict_id", JInt 0)].
Definition jschema : json :=
  JObj [(str "fields", JArr [jfield "ts"; jfield "host"]); (str "metadata", JObj [(str "b", JStr (str "1")); (str "a", JStr (str "2"))])].
Definition jschema' : json :=
  JObj [(str "metadata", JObj [(str "a", JStr (str "2")); (str "b", JStr (str "1"))]); (str "fields", JArr [jfield' "ts"; jfield' "host"])].
Definition jother : json :=
  JObj [(str "fields", JArr [jfield "host"; jfield "ts"]); (str "metadata", JObj [(str "b", JStr (str "1")); (str "a", JStr (str "2"))])].

Fixpoint nodupb (l : list chars) : bool :=
  match l with [] => true | x :: r => negb (existsb (chars_eqb x) r) && nodupb r end.
Fixpoint uniqb (v : json) : bool :=
  match v with
  | JArr l => forallb uniqb l
  | JObj l => nodupb (List.map fst l) && forallb (fun p => uniqb (snd p)) l
  | _ => true
  end.
Lemma nodupb_spec l : nodupb l = true -> NoDup l.
Proof.
  induction l as [|x l IH]; intros H; [constructor|]. cbn [nodupb] in H. apply andb_prop in H as [H1 H2].
  constructor; auto. intros HI. apply negb_true_iff in H1.
  assert (X : existsb (chars_eqb x) l = true) by (apply existsb_exists; exists x; split; [exact HI|now apply chars_eqb_spec]).
  congruence.
Qed.
Lemma uniqb_spec v : uniqb v = true -> uniq v.
Proof.
  induction v as [|b|z|s|l IH|l IH] using json_nested; intros H; try constructor.
  - cbn [uniqb] in H. rewrite forallb_forall in H. rewrite Forall_forall in *. auto.
  - cbn [uniqb] in H. apply andb_prop in H as [H _]. now apply nodupb_spec.
  - cbn [uniqb] in H. apply andb_prop in H as [_ H]. rewrite forallb_forall in H. rewrite Forall_forall in *. auto.
Qed.

Lemma jschema_same : uniq jschema /\ uniq jschema' /\ uniq jother /\ jschema <> jschema' /\ same jschema jschema' /\ ~ same jschema jother.
Proof.
  assert (U : uniq jschema) by (apply uniqb_spec; vm_compute; reflexivity).
  split; [exact U|]. split; [apply uniqb_spec; vm_compute; reflexivity|]. split; [apply uniqb_spec; vm_compute; reflexivity|].
  split; [discriminate|]. split.
  - apply (canon_text _ _ U). vm_compute. reflexivity.
  - intros H. apply (canon_text _ _ U) in H. vm_compute in H. discriminate.
Qed.

Lemma jschema_names : NoDup (field_names jschema).
Proof. apply nodupb_spec. vm_compute. reflexivity. Qed.

Definition ident (x : chars) : chars := x.
Definition first_open : list (event (creq chars)) :=
  [EOpen 0 RRoot; ECommit 0; EOpen 0 (RRegister 7 (table_definition ident (str "t") (mkTable jschema [0%nat]))); ECommit 0].
Definition opened := mrun ckey_eqb (cexec chars_eqb) mstart first_open.
Definition opened_table : tmeta chars := mkMeta 7 (str "t") (text (canon jschema)) [str "ts"] None 0.
Lemma reopens :
  NoDup (drawn first_open) /\ registered opened opened_table /\
  agrees opened_table (table_definition ident (str "t") (mkTable jschema [0%nat])) /\
  key_names (mkTable jschema [0%nat]) = [str "ts"] /\ key_names (mkTable jschema' [0%nat]) = [str "ts"].
Proof.
  split; [repeat constructor; intros []|]. split; [vm_compute; reflexivity|].
  split; [repeat split; vm_compute; reflexivity|]. split; vm_compute; reflexivity.
Qed.

(** Two fields of one name: opened with the key name, the key is the first; from the markers
    of the same schema, the second; both have one definition. *)
Definition twins : dschema := mkSchema [fld "a" None; fld "a" (Some "true"%string)] None.
Definition jtwins : json :=
  JObj [(str "fields", JArr [JObj [(str "name", JStr (str "a")); (str "metadata", JObj [])];
                             JObj [(str "name", JStr (str "a")); (str "metadata", JObj [(str "tonbo.key", JStr (str "true"))])]]);
        (str "metadata", JObj [])].
Lemma twin_names : exists s j name c d, uniq j /\ field_names j = List.map f_name (s_fields s) /\
  from_key_name s name = Some c /\ from_metadata s = Some d /\ c <> d /\
  forall sha table, table_definition sha table (mkTable j c) = table_definition sha table (mkTable j d).
Proof.
  exists twins, jtwins, (str "a"), [0%nat], [1%nat]. split; [apply uniqb_spec; vm_compute; reflexivity|].
  split; [vm_compute; reflexivity|]. split; [vm_compute; reflexivity|]. split; [vm_compute; reflexivity|].
  split; [discriminate|]. intros sha tb. reflexivity.
Qed.
