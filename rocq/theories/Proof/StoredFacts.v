(** Commit times of data files (C72). *)
From Coq Require Import List NArith Bool String Arith.
From Verif Require Import Model.Columns Model.Stored Proof.ColumnFacts.
Import ListNotations.

Lemma values_some : forall l, values (map Some l) = Some l.
Proof. induction l as [|v l IH]; simpl; [auto|now rewrite IH]. Qed.

Lemma no_null_some array (l : list N) : has_null (array := array) (U64 (map Some l)) = false.
Proof. simpl. induction l; simpl; auto. Qed.

Lemma times_kept : forall array array_len (b : batch array) ts,
  batch_valid array array_len b -> List.length ts = b_rows b ->
  has_field commit_col b = false ->
  (exists w, store_columns array array_len b ts = COk w /\
     firstn (List.length (b_cols b)) (b_cols w) = b_cols b) /\
  times_back array array_len b ts = COk ts.
Proof.
  intros array array_len b ts [NE V] L H.
  unfold times_back, store_columns. rewrite L, Nat.eqb_refl. simpl negb.
  rewrite (try_new_ok array array_len _ (b_rows b)).
  2: { destruct (b_cols b); simpl; congruence. }
  2: { apply Forall_app. split; [exact V|]. constructor; [|constructor]. simpl.
       rewrite map_length. split; auto. intros _. apply (no_null_some array). }
  split.
  - eexists. split; [reflexivity|]. simpl. rewrite firstn_app, Nat.sub_diag, firstn_all.
    simpl. apply app_nil_r.
  - unfold stored_times, column_by_name. simpl.
    rewrite (position_app array). 2: { apply no_position. exact H. }
    simpl. rewrite Nat.add_0_r, nth_last. simpl. now rewrite values_some.
Qed.

Lemma values_inv : forall l v, values l = Some v -> l = map Some v.
Proof.
  induction l as [|[x|] l IH]; simpl; intros v H; try discriminate.
  - injection H as <-. reflexivity.
  - destruct (values l) as [r|]; [|discriminate]. injection H as <-. simpl. now rewrite (IH r).
Qed.

Lemma times_own : forall array array_len (b : batch array) ts,
  batch_valid array array_len b -> stored_times array b = COk ts ->
  List.length ts = b_rows b /\
  exists f, In (f, U64 (map Some ts)) (b_cols b) /\ f_name f = commit_col.
Proof.
  intros array array_len b ts [_ V] H. unfold stored_times, column_by_name in H.
  destruct (position commit_col (b_cols b)) as [i|] eqn:P; [|discriminate].
  destruct (nth_error (b_cols b) i) as [[f c]|] eqn:E; [|discriminate]. simpl in H.
  destruct c as [l|a]; [|discriminate]. destruct (values l) as [v|] eqn:EV; [|discriminate].
  injection H as <-. apply values_inv in EV. subst l.
  pose proof (nth_error_In _ _ E) as HI. rewrite Forall_forall in V. destruct (V _ HI) as [L _]. simpl in L.
  rewrite map_length in L. split; auto. exists f. split; auto.
  clear - P E. revert i P E. induction (b_cols b) as [|[g d] r IH]; simpl; intros i P E; [discriminate|].
  destruct (String.eqb (f_name g) commit_col) eqn:G.
  - injection P as <-. simpl in E. injection E as <- _. now apply String.eqb_eq.
  - destruct (position commit_col r) as [j|] eqn:Pj; [|discriminate]. injection P as <-. simpl in E. eauto.
Qed.

(** A table of an [id] and a number called [_commit_ts]. *)
Definition clash (id v : N) : batch unit :=
  mkBatch [(mkField "id" false, U64 [Some id]); (mkField commit_col false, U64 [Some v])] 1 [].

Lemma clash_valid id v : batch_valid unit (fun _ => O) (clash id v).
Proof.
  split; [discriminate|]. repeat constructor; simpl; auto.
Qed.

Lemma clash_wrong : exists array array_len (b : batch array) ts got,
  batch_valid array array_len b /\ List.length ts = b_rows b /\
  times_back array array_len b ts = COk got /\ got <> ts.
Proof.
  exists unit, (fun _ => O), (clash 1 900), [7%N], [900%N].
  split; [apply clash_valid|]. split; [reflexivity|]. split; [reflexivity|]. discriminate.
Qed.
