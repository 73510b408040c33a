(** Proofs about the commit timestamp column. *)
From Coq Require Import List NArith Bool String Lia Arith.
From Verif Require Import Model.Columns.
Import ListNotations.

Section Columns.
  Variable array : Type.
  Variable array_len : array -> nat.
  Notation batch := (batch array).
  Notation column := (column array).
  Notation append_commit_column := (append_commit_column array array_len).
  Notation split_commit_column := (split_commit_column array array_len).
  Notation valid := (batch_valid array array_len).

  Lemma ts_len ts n : col_len array array_len (ts_column ts n) = n.
  Proof. cbn. apply repeat_length. Qed.
  Lemma ts_null ts n : has_null (array := array) (ts_column ts n) = false.
  Proof. cbn. induction n; auto. Qed.
  Lemma ts_equal ts n : all_equal (repeat (Some ts) n) = true.
  Proof.
    destruct n; [reflexivity|]. cbn [repeat all_equal]. cbn [forallb]. rewrite N.eqb_refl. cbn.
    induction n; auto. cbn. now rewrite N.eqb_refl.
  Qed.
  Lemma ts_value ts n : commit_value (array := array) (ts_column ts n) = COk (match n with O => None | S _ => Some ts end).
  Proof.
    unfold commit_value, ts_column. change (has_null (U64 (repeat (Some ts) n))) with (has_null (array := array) (ts_column ts n)).
    rewrite ts_null, ts_equal. destruct n; reflexivity.
  Qed.

  (** A valid list of columns is accepted by [try_new]. *)
  Lemma try_new_ok cols rows meta : cols <> [] ->
    Forall (fun fc : field * column => col_len array array_len (snd fc) = rows /\ (f_nullable (fst fc) = false -> has_null (snd fc) = false)) cols ->
    try_new array array_len cols meta = Some (mkBatch cols rows meta).
  Proof.
    intros NE H. destruct cols as [|[f0 c0] cols]; [congruence|]. unfold try_new.
    assert (E0 : col_len array array_len c0 = rows) by (inversion H as [|? ? [E _]]; exact E).
    rewrite E0. assert (F : forallb (fun fc : field * column => Nat.eqb (col_len array array_len (snd fc)) rows &&
        (f_nullable (fst fc) || negb (has_null (snd fc)))) ((f0, c0) :: cols) = true).
    { apply forallb_forall. rewrite Forall_forall in H. intros fc Hfc. destruct (H fc Hfc) as [A B].
      rewrite A, Nat.eqb_refl. cbn. destruct (f_nullable (fst fc)); auto. cbn. now rewrite B. }
    now rewrite F.
  Qed.
  Lemma no_position name (cols : list (field * column)) :
    existsb (fun fc : field * column => String.eqb (f_name (fst fc)) name) cols = false -> position name cols = None.
  Proof.
    induction cols as [|[f c] cols IH]; auto. cbn. intros H. apply orb_false_iff in H as [-> H]. now rewrite IH.
  Qed.
  Lemma position_app name (a b : list (field * column)) : position name a = None ->
    position name (a ++ b) = option_map (fun i => List.length a + i) (position name b).
  Proof.
    induction a as [|[f c] a IH]; cbn.
    - intros _. destruct (position name b); reflexivity.
    - destruct (String.eqb (f_name f) name); [discriminate|]. destruct (position name a) eqn:E; [discriminate|]. intros _.
      rewrite IH; auto. destruct (position name b); reflexivity.
  Qed.
  Lemma remove_nth_last {A} (a : list A) x : remove_nth (List.length a) (a ++ [x]) = a.
  Proof. induction a; cbn; congruence. Qed.
  Lemma nth_last {A} (a : list A) x : nth_error (a ++ [x]) (List.length a) = Some x.
  Proof. induction a; cbn; auto. Qed.

  Lemma append_ok b ts : valid b -> has_field commit_col b = false -> has_field tombstone_col b = false ->
    append_commit_column b (ts_column ts (b_rows b)) =
      COk (mkBatch (b_cols b ++ [(mkField commit_col false, ts_column ts (b_rows b))]) (b_rows b) (b_meta b)).
  Proof.
    intros [NE HV] H1 H2. unfold append_commit_column. rewrite ts_len, Nat.eqb_refl. cbn [negb].
    unfold ts_column at 1. rewrite ts_null, ts_equal. cbn [negb]. rewrite H1, H2.
    rewrite (try_new_ok _ (b_rows b)).
    - reflexivity.
    - destruct (b_cols b); discriminate.
    - apply Forall_app. split; auto. constructor; auto. cbn [fst snd]. split; [apply ts_len|]. intros _. apply ts_null.
  Qed.
  Lemma c45 b ts : valid b -> has_field commit_col b = false -> has_field tombstone_col b = false ->
    exists w, append_commit_column b (ts_column ts (b_rows b)) = COk w /\ valid w /\
      split_commit_column w =
        COk (b, match b_rows b with O => None | S _ => Some ts end, ts_column ts (b_rows b)).
  Proof.
    intros HV H1 H2. pose proof HV as [NE HF].
    eexists. split; [apply append_ok; auto|]. split.
    - split; cbn.
      + destruct (b_cols b); discriminate.
      + apply Forall_app. split; auto. constructor; auto. cbn [fst snd]. split; [apply ts_len|]. intros _. apply ts_null.
    - unfold split_commit_column. cbn [b_cols b_meta].
      assert (P : position commit_col (b_cols b ++ [(mkField commit_col false, ts_column ts (b_rows b))]) = Some (List.length (b_cols b))).
      { rewrite position_app by (now apply no_position). cbn. now rewrite Nat.add_0_r. }
      rewrite P, nth_last, ts_value, remove_nth_last, (try_new_ok _ (b_rows b)); auto.
      destruct b; reflexivity.
  Qed.
  (** What makes an append fail. *)
  Lemma c45_reject b ts : valid b -> (has_field commit_col b = true \/ has_field tombstone_col b = true) ->
    exists e, append_commit_column b (ts_column ts (b_rows b)) = CErr e.
  Proof.
    intros HV H. unfold append_commit_column. rewrite ts_len, Nat.eqb_refl. cbn [negb].
    unfold ts_column at 1. rewrite ts_null, ts_equal. cbn [negb].
    destruct (has_field commit_col b); [eauto|]. destruct (has_field tombstone_col b); [eauto|].
    destruct H; discriminate.
  Qed.
  (** Appending succeeds only with one column of equal timestamps. *)
  Lemma append_inv b c w : append_commit_column b c = COk w ->
    exists ts, c = ts_column ts (b_rows b) \/ (b_rows b = O /\ c = U64 []).
  Proof.
    unfold append_commit_column. destruct (Nat.eqb_spec (col_len array array_len c) (b_rows b)) as [E|]; [|discriminate].
    cbn [negb]. destruct c as [l|a]; [|discriminate]. destruct (has_null (U64 l)) eqn:HN; [discriminate|].
    destruct (all_equal l) eqn:HE; [|discriminate]. intros _. cbn in E. rewrite <- E.
    destruct l as [|[v|] l]; [exists 0%N; right; auto|exists v; left|discriminate HE].
    unfold ts_column. f_equal. cbn [List.length repeat]. f_equal. clear E HN.
    unfold all_equal in HE. cbn [forallb] in HE. rewrite N.eqb_refl in HE. cbn [andb] in HE. rename HE into H.
    induction l as [|x l IH]; auto. cbn in *. destruct x as [y|]; [|discriminate].
    apply andb_true_iff in H as [H1 H2]. apply N.eqb_eq in H1. subst. f_equal. auto.
  Qed.
End Columns.
