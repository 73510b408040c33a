(** Packaging and limits. *)
From Coq Require Import List NArith Arith Bool Lia.
From Verif Require Import Base.Order Model.MemTable Model.Immutable Model.SsTable Model.MergeStream
     Model.DbScan Model.Db Model.Package Proof.MergeFacts.
Import ListNotations.

(** The rows a stream of polls delivers. *)
Definition delivered {A} (polls : list (option A)) : list A :=
  flat_map (fun p => match p with Some a => [a] | None => [] end) polls.

Section Package.
  Context {A : Type}.
  Variable keep : A -> bool.

  Lemma fill_spec : forall polls room b d rest, fill keep room polls = (b, d, rest) ->
    length b <= room /\ filter keep (delivered polls) = b ++ filter keep (delivered rest) /\
    (d = true -> rest = []) /\ (1 <= room -> d = false -> length rest < length polls) /\
    (room <= length b -> d = false).
  Proof.
    induction polls as [|p polls IH]; intros room b d rest; destruct room as [|room]; simpl.
    - intros [= <- <- <-]. repeat split; simpl; auto; lia.
    - intros [= <- <- <-]. simpl. split; [lia|]. split; [reflexivity|]. split; [auto|]. split; [discriminate|]. intros. lia.
    - intros [= <- <- <-]. simpl. split; [lia|]. split; [reflexivity|]. split; [discriminate|]. split; [lia|auto].
    - destruct p as [a|].
      + destruct (keep a) eqn:EK.
        * destruct (fill keep room polls) as [[b' d'] r'] eqn:EF. intros [= <- <- <-].
          destruct (IH room b' d' r' EF) as (H1 & H2 & H3 & H4 & H5). simpl. rewrite EK, H2. split; [lia|]. split; [reflexivity|].
          split; [auto|]. split; [|intros; apply H5; lia]. intros _ ->. destruct room as [|room].
          -- destruct polls; simpl in EF; inversion EF; subst; simpl; lia.
          -- assert (length r' < length polls) by (apply H4; auto; lia). lia.
        * intros EF. destruct (IH (S room) b d rest EF) as (H1 & H2 & H3 & H4 & H5). simpl app. cbn [filter]. rewrite EK. split; [lia|]. split; [auto|].
          split; [auto|]. split; [|intros; apply H5; lia]. intros _ ->. assert (length rest < length polls) by (apply H4; auto; lia). lia.
      + intros [= <- <- <-]. simpl. split; [lia|]. split; [reflexivity|]. split; [discriminate|]. split; [lia|auto].
  Qed.

  Lemma package_spec batch_size : 1 <= batch_size -> forall fuel limit emitted polls, length polls < fuel ->
    exists bs, package keep fuel batch_size limit emitted polls = Some bs /\
      Forall (fun b => b <> [] /\ length b <= batch_size) bs /\
      concat bs = match limit with
                  | Some l => firstn (l - emitted) (filter keep (delivered polls))
                  | None => filter keep (delivered polls)
                  end.
  Proof.
    intros HB. induction fuel as [|fuel IH]; intros limit emitted polls HL; [lia|]. cbn [package].
    destruct (match limit with Some l => Nat.leb l emitted | None => false end) eqn:EL.
    - destruct limit as [l|]; [|discriminate]. apply Nat.leb_le in EL. exists []. replace (l - emitted) with 0 by lia.
      simpl. auto.
    - set (room := effective batch_size limit emitted).
      assert (HR : 1 <= room /\ room <= batch_size /\ (forall l, limit = Some l -> room <= l - emitted)).
      { unfold room, effective. destruct limit as [l|].
        - apply Nat.leb_gt in EL. split; [lia|]. split; [lia|]. intros l' [= <-]. lia.
        - split; [lia|]. split; [lia|]. discriminate. }
      destruct HR as (R1 & R2 & R3).
      destruct (fill keep room polls) as [[b d] rest] eqn:EF.
      destruct (fill_spec polls room b d rest EF) as (H1 & H2 & H3 & H4 & H5).
      destruct b as [|a b].
      + destruct d.
        * rewrite (H3 eq_refl) in H2. simpl in H2. exists []. rewrite H2. split; auto. split; auto.
          destruct limit; simpl; auto. now rewrite firstn_nil.
        * destruct (IH limit emitted rest) as (bs & B1 & B2 & B3); [specialize (H4 R1 eq_refl); lia|].
          exists bs. split; auto. split; auto. rewrite H2. exact B3.
      + assert (HLT : length rest < fuel).
        { destruct d; [rewrite (H3 eq_refl)|specialize (H4 R1 eq_refl); lia]. simpl.
          destruct polls; [|simpl in HL; lia]. simpl in EF. destruct room; simpl in EF; inversion EF. }
        destruct (IH limit (emitted + length (a :: b)) rest HLT) as (bs & B1 & B2 & B3). rewrite B1.
        exists ((a :: b) :: bs). split; auto. split; [constructor; auto; split; [discriminate|lia]|].
        rewrite H2. simpl concat. rewrite B3. destruct limit as [l|]; [|reflexivity].
        specialize (R3 l eq_refl). change ((a :: b) ++ firstn (l - (emitted + length (a :: b))) (filter keep (delivered rest)) =
          firstn (l - emitted) ((a :: b) ++ filter keep (delivered rest))).
        rewrite firstn_app, (firstn_all2 (a :: b)) by lia. f_equal. f_equal. lia.
  Qed.

  Theorem package_stream_spec batch_size limit polls : 1 <= batch_size ->
    exists bs, package_stream keep batch_size limit polls = Some bs /\
      Forall (fun b => b <> [] /\ length b <= batch_size) bs /\
      concat bs = match limit with
                  | Some l => firstn l (filter keep (delivered polls))
                  | None => filter keep (delivered polls)
                  end.
  Proof.
    intros HB. destruct (package_spec batch_size HB (S (length polls)) limit 0 polls) as (bs & B1 & B2 & B3); [lia|].
    exists bs. split; auto. split; auto. rewrite B3. destruct limit; auto. now rewrite Nat.sub_0_r.
  Qed.
End Package.

Section Limit.
  Context {K : Type} {KO : KeyOrd K} {R : Type}.
  Variable key_of : R -> option K.

  Lemma exec_plan_limit txn (m : mem K R) imms p n full :
    exec_plan key_of txn m imms (mkPlan (p_push p) (p_imm p) (p_mem p) (p_range p) (p_ssts p) (p_resid p) None (p_ts p)) = Some full ->
    exec_plan key_of txn m imms (mkPlan (p_push p) (p_imm p) (p_mem p) (p_range p) (p_ssts p) (p_resid p) (Some n) (p_ts p)) = Some (firstn n full).
  Proof.
    unfold exec_plan, build_streams. simpl. destruct (all_some _) as [srcs|]; [|discriminate].
    destruct (p_resid p) as [f|].
    - destruct (merge_streams None srcs); [|discriminate]. intros [= <-]. reflexivity.
    - apply merge_run_limit.
  Qed.

  Theorem scan_limit prune (cp : cpred K R) txn sn n (d : db K R) full :
    scan_txn key_of prune cp txn sn None d = Some full ->
    scan_txn key_of prune cp txn sn (Some n) d = Some (firstn n full).
  Proof. unfold scan_txn. intros H. apply (exec_plan_limit _ _ _ (plan_scan prune cp _ _ _ _ _ None)). exact H. Qed.
End Limit.
