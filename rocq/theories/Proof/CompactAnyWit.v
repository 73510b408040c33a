(** A compaction that leaves out the newest version of a key, in files the outputs of which
    are in order. *)
From Coq Require Import List NArith Bool Arith Lia.
From Verif Require Import Base.Order Model.MemTable Model.Immutable Model.SsTable Model.DbScan
     Model.Compact Model.Planner Model.Db Model.DbCompact Spec.Mvcc Spec.History Spec.KeySet Spec.Files Model.Run Spec.Valid
     Proof.Demo Proof.Findings1 Proof.CompactAny.
Import ListNotations.

Notation many_db := (st_db (demo_run many)).
Notation many_after := (compact row_key row_size del_size (mkConf (Some 600) None 1024) (batches_of 1024) one_input many_db).

Definition row_eqb (a b : row) : bool :=
  match fst a, fst b with Some x, Some y => N.eqb x y | None, None => true | _, _ => false end && N.eqb (snd a) (snd b).
Lemma row_eqb_eq a b : row_eqb a b = true -> a = b.
Proof.
  destruct a as [[x|] u], b as [[y|] v]; unfold row_eqb; cbn [fst snd]; intros H; try discriminate; apply andb_true_iff in H as [H1 H2];
    apply N.eqb_eq in H2; [apply N.eqb_eq in H1|]; congruence.
Qed.
Definition has_row (r : row) (u : N) (ts : list (sst N row)) : bool :=
  existsb (fun t => existsb (fun p => row_eqb (fst p) r && N.eqb (snd p) u) (t_rows t)) ts.
Definition no_row (r : row) (ts : list (sst N row)) : bool :=
  forallb (fun t => forallb (fun p => negb (row_eqb (fst p) r)) (t_rows t)) ts.
Definition all_at (u : N) (ts : list (sst N row)) : bool :=
  forallb (fun t => forallb (fun p => N.eqb (snd p) u) (t_rows t) && forallb (fun p => N.eqb (snd p) u) (t_dels t)) ts.
Definition all_named (tk : task N) (ts : list (sst N row)) : bool :=
  forallb (fun t => existsb (N.eqb (t_id t)) (map snd (tk_input tk))) ts.

Lemma row_eqb_refl r : row_eqb r r = true.
Proof. destruct r as [[x|] u]; unfold row_eqb; simpl; now rewrite ?N.eqb_refl. Qed.
Lemma has_row_file k u r ts : row_key r = Some k -> has_row r u ts = true -> some_file row_key ts ((k, u), Some r).
Proof.
  intros HK H. apply existsb_exists in H as (t & T1 & H). apply existsb_exists in H as ([r' u'] & R1 & H).
  cbn [fst snd] in H. apply andb_true_iff in H as [H1 H2]. apply row_eqb_eq in H1. apply N.eqb_eq in H2. subst.
  exists t. split; auto. left. exists r. auto.
Qed.
Lemma no_row_file k u r ts : no_row r ts = true -> ~ some_file row_key ts ((k, u), Some r).
Proof.
  intros H (t & T1 & [(r' & E1 & E2 & _)|[E1 _]]); [|discriminate]. unfold no_row in H. rewrite forallb_forall in H. specialize (H t T1).
  rewrite forallb_forall in H. specialize (H _ E2). cbn [fst] in H. injection E1 as <-. rewrite row_eqb_refl in H. discriminate.
Qed.
Lemma all_at_file u ts w : all_at u ts = true -> some_file row_key ts w -> vts w = u.
Proof.
  intros H (t & T1 & HF). unfold all_at in H. rewrite forallb_forall in H. specialize (H t T1). apply andb_true_iff in H as [H1 H2].
  rewrite forallb_forall in H1, H2. destruct HF as [(r & _ & E & _)|[_ E]]; [apply H1 in E|apply H2 in E]; cbn [snd] in E; now apply N.eqb_eq in E.
Qed.

Lemma many_laid : laid_out row_key many_db.
Proof.
  assert (L : (N.of_nat (length many) < 2 ^ 64)%N) by reflexivity.
  assert (C : 1 <= 1024) by (apply Nat.leb_le; reflexivity).
  exact (reach_laid_out N N_key row row_key row_size del_size 1024 many C L many_ok).
Qed.
Lemma many_has : has_row (rw 1025 7) 0 (concat (d_levels many_db)) = true.
Proof. vm_cast_no_check (eq_refl true). Qed.
Lemma many_lost : no_row (rw 1025 7) (concat (d_levels (fst many_after))) = true.
Proof. vm_cast_no_check (eq_refl true). Qed.
Lemma many_at : all_at 0 (concat (d_levels many_db)) = true.
Proof. vm_cast_no_check (eq_refl true). Qed.
Lemma many_named : all_named one_input (concat (d_levels many_db)) = true.
Proof. vm_cast_no_check (eq_refl true). Qed.
Lemma many_changed : snd many_after = true.
Proof. vm_cast_no_check (eq_refl true). Qed.

Lemma content_gen (d : db N row) (r : db N row * bool) tk k u x :
  row_key x = Some k -> has_row x u (concat (d_levels d)) = true -> no_row x (concat (d_levels (fst r))) = true ->
  all_at u (concat (d_levels d)) = true -> all_named tk (concat (d_levels d)) = true -> snd r = true -> laid_out row_key d ->
  laid_out row_key d /\ (forall t, reads_whole (batches_of 1024) t) /\
  (forall t, In t (concat (d_levels d)) -> In (t_id t) (map snd (tk_input tk))) /\
  snd r = true /\ newest_of row_key (concat (d_levels d)) ((k, u), Some x) /\ ~ some_file row_key (concat (d_levels (fst r))) ((k, u), Some x).
Proof.
  intros HK H1 H2 H3 H4 H5 HL. split; auto. split; [intros t; apply batches_whole; apply Nat.leb_le; reflexivity|]. split; [|split; [exact H5|split; [split|]]].
  - intros t Ht. unfold all_named in H4. rewrite forallb_forall in H4. specialize (H4 t Ht).
    apply existsb_exists in H4 as (i & I1 & I2). apply N.eqb_eq in I2. now subst i.
  - now apply has_row_file.
  - intros w Hw _. rewrite (all_at_file u _ w H3 Hw). cbn. lia.
  - now apply no_row_file.
Qed.
Lemma content_wrong : exists ops cf tk v,
  demo_ok ops /\ let d := st_db (demo_run ops) in
  let r := compact row_key row_size del_size cf (batches_of 1024) tk d in
  laid_out row_key d /\ (forall t, reads_whole (batches_of 1024) t) /\
  (forall t, In t (concat (d_levels d)) -> In (t_id t) (map snd (tk_input tk))) /\
  snd r = true /\ newest_of row_key (concat (d_levels d)) v /\ ~ some_file row_key (concat (d_levels (fst r))) v.
Proof.
  exists many, (mkConf (Some 600) None 1024), one_input, ((1025%N, 0%N), Some (rw 1025 7)). split; [exact many_ok|].
  exact (content_gen many_db many_after one_input 1025 0 (rw 1025 7) eq_refl many_has many_lost many_at many_named many_changed many_laid).
Qed.

(** The files that compaction writes, with at most 600 rows each. *)
Lemma many_files :
  snd many_after = true /\
  map (fun t => (length (t_rows t), length (t_dels t))) (nth 1 (d_levels (fst many_after)) []) = [(600, 0); (424, 1)].
Proof. split; [exact many_changed|vm_cast_no_check (eq_refl [(600, 0); (424, 1)])]. Qed.
Lemma many_laid_out : laid_out row_key many_db /\ forall t, reads_whole (batches_of 1024) t.
Proof. split; [exact many_laid|]. intros t. apply batches_whole. apply Nat.leb_le. reflexivity. Qed.
