(** Records that do not survive: a key bound that is a union or a float that is no number. *)
From Coq Require Import List NArith ZArith Bool String Ascii Lia Sorted.
From Verif Require Import Spec.Ieee Model.Key Model.UnionKey Model.Records Spec.RecordSpec Proof.RecordFacts.
Import ListNotations.
Local Open Scope N_scope.

Definition lost {A} (e : A -> option jv) (d : jv -> option A) (x : A) : Prop := forall j, e x = Some j -> d j = None.
Lemma traverse_lost {A} (e : A -> option jv) d l : Exists (lost e d) l -> forall js, traverse e l = Some js -> traverse d js = None.
Proof.
  induction 1 as [x l H|x l _ IH]; intros js E; cbn [traverse] in E; destruct (e x) as [j|] eqn:EX; try discriminate;
    destruct (traverse e l) as [js'|]; try discriminate; injection E as <-; cbn [traverse].
  - now rewrite (H j EX).
  - rewrite (IH js' eq_refl). now destruct (d j).
Qed.
Lemma optf_lost {A} (e : A -> option jv) d x : lost e d x -> (forall j, e x = Some j -> j <> VNull) ->
  forall j, e_optf e (Some x) = Some j -> d_opt d j = None.
Proof. intros H NN j E. cbn [e_optf] in E. pose proof (H j E) as D. pose proof (NN j E) as N. unfold d_opt. destruct j; try (now rewrite D). congruence. Qed.

Lemma not_number mb eb b : ~ a_number (ieee mb eb b) -> ((b / 2 ^ mb) mod 2 ^ eb =? 2 ^ eb - 1) = true.
Proof.
  intros H. unfold ieee in H. destruct (_ =? 2 ^ eb - 1) in *; [reflexivity|]. exfalso. apply H. eexists. reflexivity.
Qed.

Section Lost.
  Variable parse_path : chars -> option chars.
  Variable reread32 reread64 : N -> N.

  Lemma cell_lost c : ~ finite_scalar c -> lost e_cell (d_cell reread32 reread64) c.
  Proof.
    intros H j E. destruct c as [c|]; [|discriminate]. destruct c as [b|z|z|z|z|n|n|n|n|b|b|s|s]; cbn [finite_scalar] in H; try (exfalso; apply H; exact I).
    - unfold e_cell in E. injection E as <-. unfold finite32. unfold f32_value in H. apply not_number in H. change 255 with (2 ^ 8 - 1). rewrite H. reflexivity.
    - unfold e_cell in E. injection E as <-. unfold finite64. unfold f64_value in H. apply not_number in H. change 2047 with (2 ^ 11 - 1). rewrite H. reflexivity.
  Qed.
  Lemma key_lost k : Exists (fun c => ~ finite_scalar c) k -> lost e_key (d_key reread32 reread64) k.
  Proof.
    intros H j E. unfold e_key in E. destruct (traverse e_cell k) as [js|] eqn:ET; [|discriminate]. injection E as <-. cbn [d_key d_list].
    unfold d_key. cbn [d_list]. eapply traverse_lost; [|exact ET]. eapply Exists_impl; [|exact H]. intros. now apply cell_lost.
  Qed.
  Lemma stats_lost s : Exists (fun c => ~ finite_scalar c) (bounds_of s) -> lost e_stats (d_stats reread32 reread64) s.
  Proof.
    destruct s as [r b t mn mx mt xt]. unfold bounds_of. cbn [s_min s_max]. intros H j E.
    unfold e_stats in E. cbn [s_rows s_bytes s_tombs s_min s_max s_min_ts s_max_ts] in E.
    destruct (e_optf e_key mn) as [j1|] eqn:E1; [|discriminate]. destruct (e_optf e_key mx) as [j2|] eqn:E2; [|discriminate].
    cbn [bind] in E. injection E as <-. unfold d_stats. mem.
    destruct (d_u 64 (e_u r)); cbn [bind]; [|reflexivity]. destruct (d_u 64 (e_u b)); cbn [bind]; [|reflexivity]. destruct (d_u 64 (e_u t)); cbn [bind]; [|reflexivity].
    assert (NN : forall k j, e_key k = Some j -> j <> VNull).
    { intros k j HK. unfold e_key in HK. destruct (traverse e_cell k); [|discriminate]. injection HK as <-. discriminate. }
    apply Exists_app in H as [H|H].
    - destruct mn as [k|]; [|inversion H]. rewrite (optf_lost e_key (d_key reread32 reread64) k (key_lost k H) (NN k) j1 E1). reflexivity.
    - destruct (d_opt (d_key reread32 reread64) j1); cbn [bind]; [|reflexivity].
      destruct mx as [k|]; [|inversion H]. rewrite (optf_lost e_key (d_key reread32 reread64) k (key_lost k H) (NN k) j2 E2). reflexivity.
  Qed.
  Lemma entry_lost e : Exists (fun c => ~ finite_scalar c) (match e_stat e with Some s => bounds_of s | None => [] end) ->
    lost e_entry (d_entry parse_path reread32 reread64) e.
  Proof.
    destruct e as [p q i s w]. cbn [e_stat]. intros H j E. unfold e_entry in E. cbn [e_data e_delete e_sst e_stat e_wals] in E.
    destruct s as [s|]; [|inversion H]. destruct (e_optf e_stats (Some s)) as [j1|] eqn:E1; [|discriminate]. cbn [bind] in E. injection E as <-. unfold d_entry. mem.
    destruct (d_path parse_path (VStr p)); cbn [bind]; [|reflexivity]. destruct (d_opt (d_path parse_path) (e_opt VStr q)); cbn [bind]; [|reflexivity].
    destruct (d_u 64 (e_u i)); cbn [bind]; [|reflexivity]. rewrite (optf_lost e_stats (d_stats reread32 reread64) s (stats_lost s H)) with (j := j1); auto.
    intros j HJ. unfold e_stats in HJ. destruct (e_optf e_key (s_min s)); [|discriminate]. destruct (e_optf e_key (s_max s)); [|discriminate]. cbn [bind] in HJ. injection HJ as <-. discriminate.
  Qed.
  Lemma version_lost v : Exists (fun c => ~ finite_scalar c) (version_bounds v) -> lost e_version (d_version parse_path reread32 reread64) v.
  Proof.
    destruct v as [t c ss ws lo tb]. unfold version_bounds. cbn [v_ssts]. intros H j E. unfold e_version in E. cbn [v_table v_commit v_ssts v_wals v_low v_tomb] in E.
    destruct (traverse _ ss) as [ls|] eqn:ET in E; [|discriminate]. cbn [bind] in E. injection E as <-. unfold d_version. mem.
    destruct (d_ulid (VStr (e_ulid t))); cbn [bind]; [|reflexivity]. destruct (d_u 64 (e_u c)); cbn [bind]; [|reflexivity].
    cbn [d_list]. rewrite (traverse_lost (fun lv => option_map VArr (traverse e_entry lv)) (d_list (d_entry parse_path reread32 reread64)) ss); auto.
    clear - H. induction ss as [|lv ss IH]; [inversion H|]. cbn [List.concat] in H. rewrite flat_map_app in H. apply Exists_app in H as [H|H].
    - left. intros j E. destruct (traverse e_entry lv) as [js|] eqn:ET; [|discriminate]. injection E as <-. cbn [d_list]. eapply traverse_lost; [|exact ET].
      clear - H. induction lv as [|e lv IH]; [inversion H|]. cbn [flat_map] in H. apply Exists_app in H as [H|H]; [left; now apply entry_lost|right; auto].
    - right. auto.
  Qed.
  Theorem value_lost v j : Exists (fun c => ~ finite_scalar c) (value_bounds v) -> e_value v = Some j -> d_value parse_path reread32 reread64 j = None.
  Proof.
    intros H E. destruct v as [h|v|w]; cbn [value_bounds] in H; [inversion H| |inversion H]. cbn [e_value] in E. destruct (e_version v) as [p|] eqn:EV; [|discriminate].
    cbn [option_map] in E. injection E as <-. unfold d_value, tagged. mem. cbn [d_str bind].
    repeat match goal with |- context [chars_eqb (lit ?a) (lit ?b)] =>
        let v := eval vm_compute in (chars_eqb (lit a) (lit b)) in change (chars_eqb (lit a) (lit b)) with v; cbv iota end.
    now rewrite (version_lost v H p EV).
  Qed.
End Lost.

(** What is written: everything but unions. *)
Lemma traverse_some {A B} (f : A -> option B) l : (exists ys, traverse f l = Some ys) <-> Forall (fun x => exists y, f x = Some y) l.
Proof.
  induction l as [|x l IH]; cbn [traverse]; [split; [constructor|exists []; auto]|]. split.
  - intros (ys & H). destruct (f x) as [y|] eqn:E; [|discriminate]. destruct (traverse f l) as [zs|]; [|discriminate]. constructor; [eauto|]. apply IH. eauto.
  - intros H. inversion H as [|? ? (y & E) K]; subst. apply IH in K as (ys & K). rewrite E, K. eauto.
Qed.
Lemma key_written k : (exists j, e_key k = Some j) <-> Forall no_union k.
Proof.
  unfold e_key. split.
  - intros (j & H). destruct (traverse e_cell k) as [js|] eqn:E; [|discriminate]. assert (T : exists ys, traverse e_cell k = Some ys) by eauto.
    apply traverse_some in T. eapply Forall_impl; [|exact T]. intros [c|] (y & H1); [exact I|discriminate].
  - intros H. assert (T : exists ys, traverse e_cell k = Some ys).
    { apply traverse_some. eapply Forall_impl; [|exact H]. intros [c|] H1; [eexists; reflexivity|destruct H1]. }
    destruct T as (ys & ->). eexists. reflexivity.
Qed.
Lemma stats_written s : (exists j, e_stats s = Some j) <-> Forall no_union (bounds_of s).
Proof.
  destruct s as [r b t mn mx mt xt]. unfold e_stats, bounds_of. cbn [s_min s_max]. rewrite Forall_app. split.
  - intros (j & H). destruct (e_optf e_key mn) as [j1|] eqn:E1; [|discriminate]. destruct (e_optf e_key mx) as [j2|] eqn:E2; [|discriminate]. split.
    + destruct mn as [k|]; [|constructor]. apply key_written. eauto.
    + destruct mx as [k|]; [|constructor]. apply key_written. eauto.
  - intros [H1 H2]. assert (E : forall o, Forall no_union (match o with Some k => k | None => [] end) -> exists j, e_optf e_key o = Some j).
    { intros [k|] H; [|exists VNull; auto]. apply key_written in H. exact H. }
    destruct (E mn H1) as (j1 & ->). destruct (E mx H2) as (j2 & ->). eexists. reflexivity.
Qed.
Lemma entry_written e : (exists j, e_entry e = Some j) <-> Forall no_union (match e_stat e with Some s => bounds_of s | None => [] end).
Proof.
  destruct e as [p q i s w]. unfold e_entry. cbn [e_stat]. split.
  - intros (j & H). destruct (e_optf e_stats s) as [j1|] eqn:E1; [|discriminate]. destruct s as [s|]; [|constructor]. apply stats_written. eauto.
  - intros H. destruct s as [s|]; [|eexists; reflexivity]. apply stats_written in H as (j & H). cbn [e_optf]. rewrite H. eexists. reflexivity.
Qed.
Lemma entries_written l : (exists js, traverse e_entry l = Some js) <->
  Forall no_union (flat_map (fun e => match e_stat e with Some s => bounds_of s | None => [] end) l).
Proof.
  rewrite traverse_some. rewrite Forall_flat_map. split; intros H; (eapply Forall_impl; [|exact H]); intros e K; now apply entry_written.
Qed.
Theorem value_written v : (exists j, e_value v = Some j) <-> Forall no_union (value_bounds v).
Proof.
  destruct v as [h|v|w]; cbn [value_bounds e_value].
  - split; [constructor|eauto].
  - destruct v as [t c ss ws lo tb]. unfold e_version, version_bounds. cbn [v_ssts]. transitivity (exists ls, traverse (fun lv => option_map VArr (traverse e_entry lv)) ss = Some ls).
    + destruct (traverse _ ss) as [ls|]; cbn [bind option_map]; split; intros (x & H); try discriminate; eexists; reflexivity.
    + rewrite traverse_some. induction ss as [|lv ss IH]; cbn [List.concat flat_map]; [split; constructor|].
      rewrite flat_map_app, Forall_app, <- IH, <- entries_written. split.
      * intros H. inversion H as [|? ? (y & E) K]; subst. split; auto. destruct (traverse e_entry lv); [eauto|discriminate].
      * intros [(js & E) K]. constructor; auto. rewrite E. eexists. reflexivity.
  - split; [constructor|eauto].
Qed.
