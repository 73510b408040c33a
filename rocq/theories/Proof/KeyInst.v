(** The keys without NaN as an ordered key type; keys of rows. *)
From Coq Require Import List NArith ZArith Bool Eqdep_dec.
From Verif Require Import Base.Order Base.Lex Spec.KeySpec Model.Key Model.Expr Proof.KeyFacts.
Import ListNotations.

(** Keys of readable types without a NaN. *)
Definition nkey := { k : key | key_ok k = true }.
Definition raw (k : nkey) : key := proj1_sig k.
Definition nkey_cmp (a b : nkey) : comparison := keys_cmp (raw a) (raw b).

Lemma nkey_ok (k : nkey) : cells_ok (raw k).
Proof. apply key_ok_iff. exact (proj2_sig k). Qed.
Lemma nkey_opp x y : nkey_cmp y x = CompOpp (nkey_cmp x y).
Proof. apply keys_cmp_opp; apply nkey_ok. Qed.
Lemma nkey_trans c x y z : nkey_cmp x y = c -> nkey_cmp y z = c -> nkey_cmp x z = c.
Proof. apply keys_cmp_trans; apply nkey_ok. Qed.
Global Instance nkey_ord : KeyOrd nkey := {| kcmp := nkey_cmp; kcmp_opp := nkey_opp; kcmp_trans := nkey_trans |}.

Lemma key_ok_dec (k : key) : key_ok k = true \/ key_ok k = false.
Proof. destruct (key_ok k); auto. Qed.
(** The key made of these cells, if it is in [nkey]. *)
Definition to_nkey (k : key) : option nkey :=
  match bool_dec (key_ok k) true with
  | left H => Some (exist _ k H)
  | right _ => None
  end.
Lemma to_nkey_raw k n : to_nkey k = Some n -> raw n = k.
Proof. unfold to_nkey. destruct (bool_dec (key_ok k) true); [|discriminate]. intros H. injection H as <-. reflexivity. Qed.
Lemma to_nkey_some k : key_ok k = true -> exists n, to_nkey k = Some n /\ raw n = k.
Proof. unfold to_nkey. intros H. destruct (bool_dec (key_ok k) true); [|congruence]. eexists; split; reflexivity. Qed.
Lemma to_nkey_none k : to_nkey k = None -> key_ok k = false.
Proof. unfold to_nkey. destruct (bool_dec (key_ok k) true); [discriminate|]. now destruct (key_ok k). Qed.

(** A key of one cell. *)
Definition one_cell (c : cell) : option nkey := to_nkey [c].

(** The cells of the key columns of a row; [None] if one is null or missing. *)
Fixpoint key_cells (s : schema) (kcols : list N) (r : cells) : option key :=
  match kcols with
  | [] => Some []
  | c :: t =>
      match col_index s c with
      | Some i => match nth_error r i, key_cells s t r with
                  | Some (Some x), Some k => Some (x :: k)
                  | _, _ => None
                  end
      | None => None
      end
  end.
