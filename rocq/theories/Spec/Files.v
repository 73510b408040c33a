(** The contents of table files. *)
From Coq Require Import List NArith Bool Sorted.
From Verif Require Import Base.Order Spec.Mvcc Spec.History Model.SsTable Model.Db.
Import ListNotations.

Section Files.
  Context {K : Type} {KO : KeyOrd K} {R : Type}.
  Variable key_of : R -> option K.

  (** The file holds the version: as a row with its commit timestamp, or as a delete. *)
  Definition file_version (t : sst K R) (v : (K * N) * option R) : Prop :=
    (exists r, vval v = Some r /\ In (r, vts v) (t_rows t) /\ key_of r = Some (vkey v)) \/
    (vval v = None /\ In (vkey v, vts v) (t_dels t)).
  Definition some_file (ts : list (sst K R)) (v : (K * N) * option R) : Prop :=
    exists t, In t ts /\ file_version t v.

  (** The newest version of its key in the files. *)
  Definition newest_of (ts : list (sst K R)) (v : (K * N) * option R) : Prop :=
    some_file ts v /\ forall w, some_file ts w -> same_key (vkey w) (vkey v) -> (vts w <= vts v)%N.

  (** Rows and deletes are sorted by key, no key occurs twice. *)
  Record sorted_file (t : sst K R) : Prop := {
    sf_keys : Forall (fun p => key_of (fst p) <> None) (t_rows t);
    sf_rows : StronglySorted (fun p q => forall k l, key_of (fst p) = Some k -> key_of (fst q) = Some l -> kcmp k l = Lt) (t_rows t);
    sf_dels : StronglySorted (fun p q => kcmp (fst p) (fst q) = Lt) (t_dels t);
    sf_once : forall v w, file_version t v -> file_version t w -> same_key (vkey v) (vkey w) -> vval v = vval w
  }.
  (** The files follow each other in key order. *)
  Definition files_ascend (ts : list (sst K R)) : Prop :=
    StronglySorted (fun a b => forall v w, file_version a v -> file_version b w -> kcmp (vkey v) (vkey w) = Lt) ts.

  (** Rows and deletes are in key order; a key may occur many times. *)
  Definition in_key_order (t : sst K R) : Prop :=
    StronglySorted (fun p q => forall k l, key_of (fst p) = Some k -> key_of (fst q) = Some l -> kcmp k l <> Gt) (t_rows t) /\
    StronglySorted (fun p q => kcmp (fst p) (fst q) <> Gt) (t_dels t).
  (** The files of a database: identifiers name one file, new ones are unused, every file is in key order. *)
  Record laid_out (d : db K R) : Prop := {
    lo_ids : NoDup (map (@t_id K R) (concat (d_levels d)));
    lo_next : forall t, In t (concat (d_levels d)) -> (t_id t < d_next_id d)%N;
    lo_order : Forall in_key_order (concat (d_levels d))
  }.
  (** The reader returns the whole file, in batches of any sizes. *)
  Definition reads_whole (ch : sst K R -> list (list (R * N)) * list (list (K * N))) (t : sst K R) : Prop :=
    concat (fst (ch t)) = t_rows t /\ concat (snd (ch t)) = t_dels t.

  (** Sorted by key, the newest version of a key first. *)
  Definition newest_first {A} (key : A -> K) (ts : A -> N) (l : list A) : Prop :=
    StronglySorted (fun a b => kcmp (key a) (key b) = Lt \/ (kcmp (key a) (key b) = Eq /\ (ts b <= ts a)%N)) l.

  (** A call that upserts the rows marked [false] and deletes the keys of the rows marked
      [true], where a delete wins over an upsert of the same key. *)
  Definition deletes_last (rows : list (R * bool)) : list (mut K R) :=
    map Put (map fst (filter (fun p => negb (snd p)) rows)) ++
    flat_map (fun p : R * bool => if snd p then match key_of (fst p) with Some k => [Del k] | None => [] end else []) rows.
End Files.
