(** A concrete table used by the examples and the counterexamples: the key of a row is a
    nullable number, the rest of the row is a number. *)
From Coq Require Import List NArith Bool Arith Lia.
From Verif Require Import Base.Order Model.MemTable Model.Immutable Model.SsTable Model.DbScan
     Model.Compact Model.Planner Model.Db Model.DbCompact Spec.Mvcc Spec.History Model.Run Spec.Valid Proof.Refine.
Import ListNotations.

Definition row := (option N * N)%type.
Definition row_key (r : row) : option N := fst r.
Definition row_size (_ : row) : nat := 16.
Definition del_size (_ : N) : nat := 16.
Definition rw (k v : N) : row := (Some k, v).

Lemma N_cmp_opp (x y : N) : N.compare y x = CompOpp (N.compare x y).
Proof. apply N.compare_antisym. Qed.
Lemma N_cmp_trans c (x y z : N) : N.compare x y = c -> N.compare y z = c -> N.compare x z = c.
Proof.
  destruct c; rewrite ?N.compare_eq_iff, ?N.compare_lt_iff, ?N.compare_gt_iff; intros; lia.
Qed.
Global Instance N_key : KeyOrd N := {| kcmp := N.compare; kcmp_opp := N_cmp_opp; kcmp_trans := N_cmp_trans |}.

(** A reader that returns every file in one batch. *)
Definition one_batch : chunking N row :=
  fun t => (match t_rows t with [] => [] | l => [l] end, match t_dels t with [] => [] | l => [l] end).
(** A reader with batches of [n] rows, as the Parquet reader (n = 1024). *)
Fixpoint chunks {A} (fuel n : nat) (l : list A) : list (list A) :=
  match fuel, l with
  | _, [] => []
  | O, _ => []
  | S f, _ => firstn n l :: chunks f n (skipn n l)
  end.
Definition batches_of (n : nat) : chunking N row :=
  fun t => (chunks (length (t_rows t)) n (t_rows t), chunks (length (t_dels t)) n (t_dels t)).

Lemma chunks_concat {A} n fuel : forall l : list A, 1 <= n -> length l <= fuel -> concat (chunks fuel n l) = l.
Proof.
  induction fuel as [|fuel IH]; intros l Hn Hl.
  - destruct l; [reflexivity|simpl in Hl; lia].
  - destruct l as [|a l]; [reflexivity|]. cbn [chunks]. simpl concat. rewrite IH.
    + apply firstn_skipn.
    + auto.
    + rewrite skipn_length. cbn [length] in *. lia.
Qed.
Lemma batches_whole n (t : sst N row) : 1 <= n ->
  concat (fst (batches_of n t)) = t_rows t /\ concat (snd (batches_of n t)) = t_dels t.
Proof. intros H. unfold batches_of. simpl. split; apply chunks_concat; auto. Qed.

Lemma one_batch_faithful (t : sst N row) : faithful one_batch t.
Proof.
  unfold faithful, one_batch. destruct t as [i rs xs ? ? ? ?]; simpl.
  destruct rs, xs; simpl; rewrite ?app_nil_r; repeat split; auto; try (repeat constructor; discriminate);
    right; right; auto.
Qed.

Definition no_caps : mconf := mkConf None None 1024.
Definition demo_step := step row_key row_size del_size.
Definition demo_run := run row_key row_size del_size (start 1024).
Definition demo_ok := ops_ok row_key row_size del_size (start 1024).

Definition demo_ops : list (op N row) :=
  [ OIngest [rw 1 10; rw 2 20; rw 3 30] (Some (1, 3)%N) true;
    OTomb [(rw 2 0, true); (rw 4 40, false)] None false;
    OCommit 1 [Put (rw 1 11); Del 3%N; Put (rw 5 50)] None;
    OFlush 0;
    OIngest [rw 3 33] None true;
    OFlush 0;
    OCompact no_caps one_batch (mkTask 0 1 [(0, 1%N); (0, 2%N)] None);
    OIngest [rw 1 12] None false ].

Definition separate_b (rows : list (row * bool)) : bool :=
  forallb (fun p => forallb (fun q =>
    match row_key (fst p), row_key (fst q) with
    | Some k, Some k' => snd p || negb (snd q) || negb (N.eqb k k')
    | _, _ => true
    end) rows) rows.
Lemma separate_check rows : separate_b rows = true -> tomb_separate row_key rows.
Proof.
  unfold separate_b. intros H r r' k k' H1 H2 E1 E2 E. rewrite forallb_forall in H.
  specialize (H _ H1). rewrite forallb_forall in H. specialize (H _ H2). cbn [fst snd] in H.
  rewrite E1, E2 in H. simpl in H. apply N.compare_eq_iff in E. subst k'. now rewrite N.eqb_refl in H.
Qed.

(** Every condition of [ops_ok] on these operations. *)
Ltac ok_ops :=
  repeat match goal with
         | |- _ /\ _ => split
         | |- True => exact I
         | |- ops_ok _ _ _ _ [] => exact I
         | |- ops_ok _ _ _ _ (_ :: _) => cbn [ops_ok]
         | |- op_ok _ _ (OFlush _) => exact I
         | |- op_ok _ _ (OCommit _ _ _) => exact I
         | |- op_ok _ _ (OCompact _ one_batch _) => intros ? ? ? ?; apply one_batch_faithful
         | |- op_ok _ _ (OIngest _ _ _) => apply rows_op_ok; repeat constructor; discriminate
         | |- op_ok _ _ (OTomb _ _ _) => apply tomb_op_ok
         | |- Forall _ _ => repeat constructor; discriminate
         | |- tomb_separate _ _ => apply separate_check; reflexivity
         end.

Lemma demo_ops_ok : demo_ok demo_ops.
Proof. unfold demo_ok, demo_ops. ok_ops. Qed.

(** To show that an output is not the listing of a table. *)
Lemma not_listed (m : table N row) p out k t r :
  In ((k, t), r) out -> m k <> Some (t, r) -> ~ lists_table row_key m p out.
Proof. intros H1 H2 [_ H]. apply H in H1. tauto. Qed.
Lemma unlisted (m : table N row) (p : row -> bool) out k t r :
  m k = Some (t, r) -> row_key r = Some k -> p r = true -> ~ In ((k, t), r) out -> ~ lists_table row_key m p out.
Proof. intros H1 H2 H3 H4 [_ H]. apply H4, H. auto. Qed.
