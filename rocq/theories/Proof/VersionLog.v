(** The WAL references and the watermark of a version are those last set. *)
From Coq Require Import List NArith Bool Sorted Permutation Lia Arith.
From Verif Require Import Base.Order Model.SsTable Model.Version Spec.LiveSet Proof.SstFacts.
Import ListNotations.

Section VersionLog.
  Context {E : Type}.
  Variable eid : E -> N.

  Definition mark_from (m : option N) (es : list (edit E)) : option N :=
    fold_left (fun m e => match e with SetMark w => Some w | _ => m end) es m.
  Definition wal_from (m : list walref) (es : list (edit E)) : list walref :=
    fold_left (fun m e => match e with SetWal w => w | _ => m end) es m.

  Lemma each_log es : forall (v v' : vstate E), apply_each eid v es = Some v' ->
    v_mark v' = mark_from (v_mark v) es /\ v_wal v' = wal_from (v_wal v) es.
  Proof.
    induction es as [|e es IH]; intros v v' H; cbn in *; [now inversion H|].
    destruct (apply_edit eid v e) as [v1|] eqn:E1; [|discriminate]. apply IH in H as [-> ->].
    destruct e as [l a|l i|w|w]; cbn in E1.
    - inversion E1; subst; auto.
    - destruct (remove_ssts eid l i (v_levels v)); inversion E1; subst; auto.
    - inversion E1; subst; auto.
    - inversion E1; subst; auto.
  Qed.
  Lemma wal_perm es : forall a b, Permutation a b -> Permutation (wal_from a es) (wal_from b es).
  Proof. induction es as [|e es IH]; intros a b H; cbn; [exact H|]. destruct e; apply IH; auto. Qed.

  Definition tidy_log (v : vstate E) := StronglySorted (fun a b => (wr_seq a <= wr_seq b)%N) (v_wal v) /\ v_floor v = hd_error (v_wal v).
  Lemma normalise_log (v : vstate E) : tidy_log (normalise v) /\ Permutation (v_wal v) (v_wal (normalise v)) /\ v_mark (normalise v) = v_mark v.
  Proof.
    unfold normalise, tidy_log. destruct (v_wal v) as [|w l] eqn:EW; cbn [v_wal v_floor v_mark].
    - repeat split; auto. constructor.
    - repeat split; auto.
      + apply sort_by_sorted; intros a b; [| |intros; lia]; unfold wr_le, wr_cmp;
          destruct (N.compare_spec (wr_seq a) (wr_seq b)); try lia; discriminate.
      + apply sort_by_perm.
  Qed.

  Lemma batches_log bs : forall v : vstate E, tidy_log v ->
    let r := apply_batches eid v bs in
    tidy_log (fst r) /\ Permutation (wal_from (v_wal v) (concat (snd r))) (v_wal (fst r)) /\
    v_mark (fst r) = mark_from (v_mark v) (concat (snd r)).
  Proof.
    induction bs as [|b bs IH]; intros v HT; cbn [apply_batches]; [cbn; auto|].
    unfold apply_edits. destruct (apply_each eid v b) as [v1|] eqn:E1; [|now apply IH].
    apply each_log in E1 as [M1 W1].
    match goal with |- context [apply_batches eid (normalise ?x) bs] => set (u := x) end.
    destruct (normalise_log u) as (T & P & M). specialize (IH (normalise u) T).
    destruct (apply_batches eid (normalise u) bs) as [w acc]. cbn [fst snd concat] in *. destruct IH as (A & B & C).
    split; [exact A|]. unfold wal_from, mark_from in *. rewrite !fold_left_app. split.
    - eapply perm_trans; [|exact B]. apply wal_perm. eapply perm_trans; [|exact P]. cbn. rewrite W1. reflexivity.
    - rewrite C, M. cbn. now rewrite M1.
  Qed.

  Lemma c27_log (bs : list (list (edit E))) :
    let r := apply_batches eid vstate_empty bs in
    v_mark (fst r) = last_mark (concat (snd r)) /\
    Permutation (last_wal (concat (snd r))) (v_wal (fst r)) /\
    StronglySorted (fun a b => (wr_seq a <= wr_seq b)%N) (v_wal (fst r)) /\ v_floor (fst r) = hd_error (v_wal (fst r)).
  Proof.
    intros r. destruct (batches_log bs vstate_empty) as ((A & B) & C & D); [split; [constructor|reflexivity]|].
    repeat split; auto.
  Qed.
End VersionLog.
Lemma demo_log :
  let bs := [[SetWal [mkWR 2 1 5 9; mkWR 1 1 1 4]; SetMark 7]; [RemoveSsts 5 [1%N]; SetMark 9]; [AddSsts 0 [3%N]; SetMark 8]]%N in
  let r := apply_batches (fun x : N => x) vstate_empty bs in
  v_mark (fst r) = Some 8%N /\ v_wal (fst r) = [mkWR 1 1 1 4; mkWR 2 1 5 9]%N /\ v_floor (fst r) = Some (mkWR 1 1 1 4).
Proof. vm_compute. repeat split. Qed.
