(** Concrete scans with predicates that return the wrong rows; keys that break the order. *)
From Coq Require Import List NArith ZArith Bool Arith Lia.
From Verif Require Import Base.Order Base.Sub Spec.Tri Spec.KeySpec Spec.PredSpec Spec.Sql Spec.KeySet Spec.Table Model.KeyBounds
     Model.Key Model.Expr Model.Pred Model.MemTable Model.Immutable Model.SsTable Model.DbScan Model.Db
     Spec.Mvcc Spec.History Model.Run Spec.Valid Proof.KeyInst Proof.RunFacts Proof.Refine Proof.Reads Proof.TableFacts.
Import ListNotations.

(** The row filter and the page pruning at their best: exact filter, nothing pruned. *)
Definition exact_filter {s : schema} (e : expr) (r : trow s) : bool := is_true (sql s (row_cells r) e).
Lemma exact_filter_ok s : filter_contract (@exact_filter s).
Proof. intros e r. reflexivity. Qed.
Lemma sub_refl {A} (l : list A) : sublist l l.
Proof. induction l; constructor; auto. Qed.
Lemma no_pruning_ok s K e ts : prune_contract e ts (@t_rows K (trow s)).
Proof. intros t. split; [apply sub_refl|]. auto. Qed.

Definition sz {s : schema} (_ : trow s) : nat := 16.
Definition ksz (_ : nkey) : nat := 16.
Definition trun (s : schema) (kcols : list N) := run (trow_key s kcols) (@sz s) ksz (start 1024).
Definition tok (s : schema) (kcols : list N) := ops_ok (trow_key s kcols) (@sz s) ksz (start 1024).

(** The scan at [ts] with predicate [e], after the operations. *)
Definition tscan (s : schema) (kcols : list N) (e : expr) (ts : N) (ops : list (op nkey (trow s))) :=
  let d := st_db (trun s kcols ops) in
  scan (trow_key s kcols) (@t_rows nkey (trow s)) (compile one_cell row_cells exact_filter s (key_schema s kcols) e)
       (mkSnap ts (d_levels d)) None d.
(** What it should return. *)
Definition tspec (s : schema) (kcols : list N) (e : expr) (ts : N) (ops : list (op nkey (trow s))) (out : list ((nkey * N) * trow s)) :=
  lists_table (trow_key s kcols) (as_of (trow_key s kcols) (st_hist (trun s kcols ops)) ts)
              (fun r => is_true (sql s (row_cells r) e)) out.

Lemma not_listed' {K R} {KO : KeyOrd K} (key_of : R -> option K) (m : table K R) p out k t r :
  In ((k, t), r) out -> (m k <> Some (t, r) \/ p r = false) -> ~ lists_table key_of m p out.
Proof. intros H1 H2 [_ H]. apply H in H1 as (A & B & C). destruct H2; congruence. Qed.
Lemma unlisted' {K R} {KO : KeyOrd K} (key_of : R -> option K) (m : table K R) (p : R -> bool) out k t r :
  m k = Some (t, r) -> key_of r = Some k -> p r = true -> ~ In ((k, t), r) out -> ~ lists_table key_of m p out.
Proof. intros H1 H2 H3 H4 [_ H]. apply H4, H. auto. Qed.

(** A row and a key from cells that are known to fit. *)
Definition mk (s : schema) (r : cells) (H : row_fits s r = true) : trow s := exist _ r H.
Definition kk (k : key) (H : key_ok k = true) : nkey := exist _ k H.
Notation "'ROW' s r" := (mk s r eq_refl) (at level 10, s at level 9, r at level 9).
Notation "'KEY' k" := (kk k eq_refl) (at level 10, k at level 9).

(** Equality of rows, keys and results through their cells (the proofs they carry are unique). *)
Lemma sig_same {A} (f : A -> bool) (a b : { x : A | f x = true }) : proj1_sig a = proj1_sig b -> a = b.
Proof.
  destruct a as [a Ha], b as [b Hb]; simpl. intros E. subst b. f_equal. apply (Eqdep_dec.UIP_dec bool_dec).
Qed.
Definition show {s : schema} (e : (nkey * N) * trow s) : key * N * cells := (raw (fst (fst e)), snd (fst e), row_cells (snd e)).
Lemma show_inj s (a b : (nkey * N) * trow s) : show a = show b -> a = b.
Proof.
  destruct a as [[k t] r], b as [[k' t'] r']. unfold show; simpl. intros E. injection E as E1 E2 E3.
  apply sig_same in E1, E3. congruence.
Qed.
Lemma shows_inj s (a b : list ((nkey * N) * trow s)) : map show a = map show b -> a = b.
Proof.
  revert b; induction a as [|x a IH]; intros [|y b]; try discriminate; auto. cbn [map]. intros E.
  injection E as E1 E2 E3 E4. f_equal; [apply show_inj; unfold show; congruence|auto].
Qed.
Lemma result_is s (o : option (list ((nkey * N) * trow s))) out :
  option_map (map show) o = Some (map show out) -> o = Some out.
Proof. destruct o as [a|]; [|discriminate]. cbn [option_map]. intros E. injection E as E. f_equal. now apply shows_inj. Qed.
Lemma entry_is s (o : option (N * trow s)) t r :
  option_map (fun p => (fst p, row_cells (snd p))) o = Some (t, row_cells r) -> o = Some (t, r).
Proof.
  destruct o as [[t' r']|]; [|discriminate]. simpl. intros E. injection E as -> E. apply sig_same in E. congruence.
Qed.
Lemma entry_not s (o : option (N * trow s)) t r :
  option_map (fun p => (fst p, row_cells (snd p))) o <> Some (t, row_cells r) -> o <> Some (t, r).
Proof. intros H E. apply H. rewrite E. reflexivity. Qed.
Lemma key_is (o : option nkey) k : option_map raw o = Some (raw k) -> o = Some k.
Proof. destruct o as [a|]; [|discriminate]. simpl. intros E. injection E as E. apply sig_same in E. congruence. Qed.
Lemma key_some (o : option nkey) k : option_map raw o = Some k -> o <> None.
Proof. intros E ->. discriminate. Qed.

Ltac ok_t :=
  repeat match goal with
         | |- _ /\ _ => split
         | |- True => exact I
         | |- ops_ok _ _ _ _ [] => exact I
         | |- ops_ok _ _ _ _ (_ :: _) => cbn [ops_ok]
         | |- op_ok _ _ (OFlush _) => exact I
         | |- op_ok _ _ (OIngest _ _ _) => apply rows_op_ok; repeat apply Forall_cons; try apply Forall_nil; eapply key_some; vm_compute; reflexivity
         end.

(** A table with a 64-bit key and a 64-bit value. *)
Definition s64 : schema := [(0, TI64); (1, TI64)]%N.
Definition r64 (k v : Z) (H : row_fits s64 [Some (CI64 k); Some (CI64 v)] = true) : trow s64 := mk _ _ H.
Definition i64 (z : Z) : scalar := mkSc TI64 (Some (VInt z)).

(** The newest version is in a later file and does not match; the older file's version does. *)
Definition stale_ops : list (op nkey (trow s64)) :=
  [OIngest [r64 1 10 eq_refl] None true; OFlush 0; OIngest [r64 1 20 eq_refl] None true; OFlush 0].
Lemma stale_wrong :
  tok s64 [0%N] stale_ops /\ expr_good s64 (ECmp 1 OpEq (i64 10)) = true /\
  key_lits_ok s64 [0%N] (ECmp 1 OpEq (i64 10)) = true /\
  exists out, tscan s64 [0%N] (ECmp 1 OpEq (i64 10)) 1 stale_ops = Some out /\
              ~ tspec s64 [0%N] (ECmp 1 OpEq (i64 10)) 1 stale_ops out.
Proof.
  split; [unfold tok, stale_ops; ok_t|]. split; [reflexivity|]. split; [reflexivity|].
  exists [((KEY [CI64 1], 0%N), r64 1 10 eq_refl)]. split; [apply result_is; vm_compute; reflexivity|].
  eapply not_listed'; [left; reflexivity|]. left. apply entry_not. vm_compute. discriminate.
Qed.

(** A 32-bit key compared with a 32-bit literal. *)
Definition s32 : schema := [(0, TI32); (1, TI64)]%N.
Definition r32 (k v : Z) (H : row_fits s32 [Some (CI32 k); Some (CI64 v)] = true) : trow s32 := mk _ _ H.
Definition i32 (z : Z) : scalar := mkSc TI32 (Some (VInt z)).
Definition narrow_ops : list (op nkey (trow s32)) := [OIngest [r32 1 10 eq_refl; r32 9 90 eq_refl] None false].
Lemma narrow_lost :
  tok s32 [0%N] narrow_ops /\ expr_good s32 (ECmp 0 OpLt (i32 5)) = true /\ only_cols [0%N] (ECmp 0 OpLt (i32 5)) = true /\
  exists out, tscan s32 [0%N] (ECmp 0 OpLt (i32 5)) 0 narrow_ops = Some out /\
              ~ tspec s32 [0%N] (ECmp 0 OpLt (i32 5)) 0 narrow_ops out.
Proof.
  split; [unfold tok, narrow_ops; ok_t|]. split; [reflexivity|]. split; [reflexivity|].
  exists []. split; [apply result_is; vm_compute; reflexivity|].
  apply (unlisted' _ _ _ _ (KEY [CI32 1]) 0 (r32 1 10 eq_refl)); [apply entry_is; vm_compute; reflexivity|apply key_is; vm_compute; reflexivity|vm_compute; reflexivity|]. intros [].
Qed.
Lemma narrow_extra :
  tok s32 [0%N] narrow_ops /\ expr_good s32 (ECmp 0 OpGt (i32 5)) = true /\ only_cols [0%N] (ECmp 0 OpGt (i32 5)) = true /\
  exists out, tscan s32 [0%N] (ECmp 0 OpGt (i32 5)) 0 narrow_ops = Some out /\
              ~ tspec s32 [0%N] (ECmp 0 OpGt (i32 5)) 0 narrow_ops out.
Proof.
  split; [unfold tok, narrow_ops; ok_t|]. split; [reflexivity|]. split; [reflexivity|].
  exists [((KEY [CI32 1], 0%N), r32 1 10 eq_refl); ((KEY [CI32 9], 0%N), r32 9 90 eq_refl)]. split; [apply result_is; vm_compute; reflexivity|].
  eapply not_listed'; [left; reflexivity|]. right. vm_compute. reflexivity.
Qed.

(** A null literal compared with the key. *)
Definition null64 : scalar := mkSc TI64 None.
Definition one_ops : list (op nkey (trow s64)) := [OIngest [r64 1 10 eq_refl; r64 2 20 eq_refl] None false].
Lemma null_extra :
  tok s64 [0%N] one_ops /\ expr_good s64 (ECmp 0 OpEq null64) = true /\ only_cols [0%N] (ECmp 0 OpEq null64) = true /\
  exists out, tscan s64 [0%N] (ECmp 0 OpEq null64) 0 one_ops = Some out /\
              ~ tspec s64 [0%N] (ECmp 0 OpEq null64) 0 one_ops out.
Proof.
  split; [unfold tok, one_ops; ok_t|]. split; [reflexivity|]. split; [reflexivity|].
  exists [((KEY [CI64 1], 0%N), r64 1 10 eq_refl); ((KEY [CI64 2], 0%N), r64 2 20 eq_refl)]. split; [apply result_is; vm_compute; reflexivity|].
  eapply not_listed'; [left; reflexivity|]. right. vm_compute. reflexivity.
Qed.

(** [False] on a table with a composite key. *)
Lemma false_extra :
  tok s64 [0; 1]%N one_ops /\ expr_good s64 EFalse = true /\ only_cols [0; 1]%N EFalse = true /\
  exists out, tscan s64 [0; 1]%N EFalse 0 one_ops = Some out /\ ~ tspec s64 [0; 1]%N EFalse 0 one_ops out.
Proof.
  split; [unfold tok, one_ops; ok_t|]. split; [reflexivity|]. split; [reflexivity|].
  exists [((KEY [CI64 1; CI64 10], 0%N), r64 1 10 eq_refl); ((KEY [CI64 2; CI64 20], 0%N), r64 2 20 eq_refl)]. split; [apply result_is; vm_compute; reflexivity|].
  eapply not_listed'; [left; reflexivity|]. right. vm_compute. reflexivity.
Qed.

(** A [LargeUtf8] literal compared with a [Utf8] column. *)
Definition sstr : schema := [(0, TI64); (1, TUtf8)]%N.
Definition rstr (k : Z) (v : list N) (H : row_fits sstr [Some (CI64 k); Some (CStr v)] = true) : trow sstr := mk _ _ H.
Definition large (v : list N) : scalar := mkSc TLargeUtf8 (Some (VStr v)).
Definition str_ops : list (op nkey (trow sstr)) := [OIngest [rstr 1 [97%N] eq_refl] None false].
Lemma large_lost :
  tok sstr [0%N] str_ops /\ key_lits_ok sstr [0%N] (ECmp 1 OpEq (large [97%N])) = true /\
  exists out, tscan sstr [0%N] (ECmp 1 OpEq (large [97%N])) 0 str_ops = Some out /\
              ~ tspec sstr [0%N] (ECmp 1 OpEq (large [97%N])) 0 str_ops out.
Proof.
  split; [unfold tok, str_ops; ok_t|]. split; [reflexivity|].
  exists []. split; [apply result_is; vm_compute; reflexivity|].
  apply (unlisted' _ _ _ _ (KEY [CI64 1]) 0 (rstr 1 [97%N] eq_refl)); [apply entry_is; vm_compute; reflexivity|apply key_is; vm_compute; reflexivity|vm_compute; reflexivity|]. intros [].
Qed.

Lemma c09_narrow : exists e k kb, raw k = [CI32 1] /\ sql s32 [Some (CI32 1); None] e = TT /\
  key_bounds_for_predicate one_cell (key_schema s32 [0%N]) e = Some kb /\ kb_in kb k = false.
Proof.
  exists (ECmp 0 OpLt (i32 5)), (KEY [CI32 1]), (kb_with_upper (KEY [CI64 5]) false).
  split; [reflexivity|]. split; [vm_compute; reflexivity|]. split; [reflexivity|vm_compute; reflexivity].
Qed.
