(** UTF-8 keeps the order of code points, and [next_prefix_string] bounds a prefix. *)
From Coq Require Import List NArith ZArith Bool Lia.
From Verif Require Import Base.Lex Model.Utf8.
Import ListNotations.
Local Open Scope N_scope.

Definition scalars (s : list N) : Prop := Forall (fun c => is_scalar c = true) s.

Lemma is_scalar_spec c : is_scalar c = true <-> c < 0xD800 \/ (0xDFFF < c /\ c < 0x110000).
Proof.
  unfold is_scalar. rewrite orb_true_iff, andb_true_iff, !N.ltb_lt. tauto.
Qed.

Ltac Zify.zify_post_hook ::= Z.to_euclidean_division_equations.

Lemma lexN_cons x y a b : lexN (x :: a) (y :: b) = match N.compare x y with Eq => lexN a b | c => c end.
Proof. reflexivity. Qed.

(** The first differing character decides. *)
Lemma utf8_char_lt c d x y : c < d -> d < 0x110000 -> lexN (utf8_char c ++ x) (utf8_char d ++ y) = Lt.
Proof.
  intros H Hd. unfold utf8_char.
  destruct (N.ltb_spec c 0x80); destruct (N.ltb_spec d 0x80); try lia;
  try (destruct (N.ltb_spec c 0x800)); try (destruct (N.ltb_spec d 0x800)); try lia;
  try (destruct (N.ltb_spec c 0x10000)); try (destruct (N.ltb_spec d 0x10000)); try lia;
  cbn [app]; repeat rewrite lexN_cons;
  repeat match goal with
         | |- (match ?a ?= ?b with _ => _ end) = Lt => destruct (N.compare_spec a b); [|reflexivity|exfalso; lia]
         end; exfalso; lia.
Qed.

Lemma is_scalar_lt c : is_scalar c = true -> c < 0x110000.
Proof. rewrite is_scalar_spec. lia. Qed.

Lemma utf8_lex a b : scalars a -> scalars b -> lexN (utf8 a) (utf8 b) = lexN a b.
Proof.
  intros Ha; revert b. induction Ha as [|c a Hc Ha IH]; intros b Hb.
  - destruct b as [|d b]; auto. inversion_clear Hb. unfold utf8; simpl.
    unfold utf8_char. destruct (d <? 0x80), (d <? 0x800), (d <? 0x10000); reflexivity.
  - destruct b as [|d b].
    + unfold utf8; simpl. unfold utf8_char. destruct (c <? 0x80), (c <? 0x800), (c <? 0x10000); reflexivity.
    + inversion_clear Hb. rewrite lexN_cons. cbn [utf8 flat_map]. fold (utf8 a) (utf8 b).
      apply is_scalar_lt in Hc. match goal with H : is_scalar d = true |- _ => apply is_scalar_lt in H end.
      destruct (N.compare_spec c d).
      * subst. rewrite lexN_app_same. now apply IH.
      * now apply utf8_char_lt.
      * rewrite lexN_opp, utf8_char_lt by assumption. reflexivity.
Qed.

Lemma starts_with_spec s p : starts_with s p = true <-> exists t, s = p ++ t.
Proof.
  revert s; induction p as [|x p IH]; intros s; simpl.
  - split; [now exists s|reflexivity].
  - destruct s as [|y s].
    + split; [discriminate|]. intros [t H]; discriminate.
    + rewrite andb_true_iff, N.eqb_eq, IH. split.
      * intros [-> [t ->]]. now exists t.
      * intros [t H]. injection H as -> ->. eauto.
Qed.

Lemma utf8_app a b : utf8 (a ++ b) = utf8 a ++ utf8 b.
Proof. apply flat_map_app. Qed.

Lemma utf8_prefix s p : scalars s -> scalars p ->
  (starts_with (utf8 s) (utf8 p) = true <-> exists t, s = p ++ t).
Proof.
  intros Hs Hp. rewrite starts_with_spec. split.
  - revert s Hs. induction Hp as [|d p Hd Hp IH]; intros s Hs [t E].
    + now exists s.
    + destruct Hs as [|c s Hc Hs].
      * exfalso. revert E. unfold utf8; simpl. unfold utf8_char.
        destruct (d <? 0x80), (d <? 0x800), (d <? 0x10000); discriminate.
      * cbn [utf8 flat_map] in E. fold (utf8 s) (utf8 p) in E. rewrite <- app_assoc in E.
        assert (c = d).
        { apply is_scalar_lt in Hc, Hd. destruct (N.lt_trichotomy c d) as [L|[L|L]]; auto; exfalso.
          - pose proof (utf8_char_lt c d (utf8 s) (utf8 p ++ t) L Hd) as X. rewrite E, lexN_refl in X. discriminate.
          - pose proof (utf8_char_lt d c (utf8 p ++ t) (utf8 s) L Hc) as X. rewrite E, lexN_refl in X. discriminate. }
        subst d. apply app_inv_head in E. destruct (IH s Hs) as [u ->]; eauto. now exists u.
  - intros [t ->]. exists (utf8 t). apply utf8_app.
Qed.

(** ** The successor of a character *)
Lemma scalar_from_gap : scalar_from 2050 0xD800 = Some 0xE000.
Proof. vm_compute. reflexivity. Qed.

Lemma scalar_from_step k n : scalar_from (S k) n =
  if n <=? 0x10FFFF then (if is_scalar n then Some n else scalar_from k (n + 1)) else None.
Proof. reflexivity. Qed.

Lemma next_scalar_spec c : is_scalar c = true ->
  match next_scalar_char c with
  | Some n => is_scalar n = true /\ c < n /\ forall d, is_scalar d = true -> c <= d -> d < n -> d = c
  | None => c = 0x10FFFF
  end.
Proof.
  intros Hc. pose proof (proj1 (is_scalar_spec c) Hc) as Hc'.
  destruct (N.eq_dec c 0xD7FF) as [->|].
  { unfold next_scalar_char. replace (0xD7FF + 1) with 0xD800 by reflexivity. rewrite scalar_from_gap.
    split; [reflexivity|]. split; [lia|]. intros d Hd. apply is_scalar_spec in Hd. lia. }
  unfold next_scalar_char. rewrite scalar_from_step.
  destruct (N.leb_spec (c + 1) 0x10FFFF).
  - assert (E : is_scalar (c + 1) = true) by (apply is_scalar_spec; lia).
    rewrite E. split; [exact E|]. split; [lia|]. intros; lia.
  - lia.
Qed.

Lemma lexN_nil_r a : lexN a [] = Lt -> False.
Proof. destruct a; discriminate. Qed.

(** [p] and the bound computed for it enclose exactly the strings that start with [p]. *)
Definition between (p : list N) (u : option (list N)) (s : list N) : Prop :=
  lexN p s <> Gt /\ match u with Some u => lexN s u = Lt | None => True end.

Lemma prefix_step q c n s : is_scalar c = true -> scalars s -> c < n ->
  (forall d, is_scalar d = true -> c <= d -> d < n -> d = c) ->
  ((exists t, s = (q ++ [c]) ++ t) <-> between (q ++ [c]) (Some (q ++ [n])) s).
Proof.
  intros Hc Hs Hn Hnx. unfold between. revert s Hs; induction q as [|x q IH]; intros s Hs.
  - cbn [app]. destruct Hs as [|d s Hd Hs].
    + split; [intros [t E]; discriminate|]. intros [E _]. now elim E.
    + rewrite !lexN_cons. split.
      * intros [t E]. injection E as -> ->. rewrite N.compare_refl. split.
        -- destruct t; discriminate.
        -- destruct (N.compare_spec c n); auto; lia.
      * intros [E1 E2]. assert (d = c) as ->.
        { apply Hnx; auto.
          - destruct (N.compare_spec c d); try lia; congruence.
          - destruct (N.compare_spec d n); auto; try discriminate. exfalso. now apply lexN_nil_r in E2. }
        now exists s.
  - cbn [app]. destruct Hs as [|d s Hd Hs].
    + split; [intros [t E]; discriminate|]. intros [E _]. now elim E.
    + rewrite !lexN_cons. specialize (IH s Hs). split.
      * intros [t E]. injection E as -> E. rewrite !N.compare_refl. apply IH. now exists t.
      * destruct (N.compare_spec x d).
        -- subst d. rewrite N.compare_refl. intros E. apply IH in E as [t ->]. now exists t.
        -- intros [_ E]. destruct (N.compare_spec d x); try lia; discriminate.
        -- intros [E _]. congruence.
Qed.

Lemma lexN_prefix p t : lexN p (p ++ t) <> Gt.
Proof.
  rewrite <- (app_nil_r p) at 1. rewrite lexN_app_same. destruct t; discriminate.
Qed.

Lemma lexN_shorten q c s : lexN (q ++ c) s <> Gt -> lexN q s <> Gt.
Proof.
  revert s; induction q as [|x q IH]; intros s; cbn [app].
  - destruct s; discriminate.
  - destruct s as [|y s]; [easy|]. rewrite !lexN_cons.
    destruct (N.compare_spec x y); try easy. apply IH.
Qed.

Lemma next_prefix_exact p s : scalars p -> scalars s ->
  ((exists t, s = p ++ t) <-> between p (next_prefix_string p) s).
Proof.
  unfold next_prefix_string. intros Hp Hs. revert Hp. induction p as [|c q IH] using rev_ind; intros Hp.
  - simpl. unfold between. split; [|eauto]. intros _. split; auto. destruct s; discriminate.
  - apply Forall_app in Hp as [Hq Hc]. inversion_clear Hc as [|? ? Hc' _]. rename Hc' into Hc.
    rewrite rev_unit. cbn [bump_last].
    pose proof (next_scalar_spec c Hc) as Hn.
    destruct (next_scalar_char c) as [n|].
    + cbn [rev]. rewrite rev_involutive. destruct Hn as (H1 & H2 & H3). now apply prefix_step.
    + subst c. specialize (IH Hq). split.
      * intros [t ->]. split; [apply lexN_prefix|].
        destruct (proj1 IH) as [_ E]; [exists ([0x10FFFF] ++ t); now rewrite <- app_assoc|]. exact E.
      * intros [E1 E2]. destruct (proj2 IH) as [t ->].
        { split; auto. eapply lexN_shorten; eauto. }
        rewrite lexN_app_same in E1.
        destruct t as [|d t]; [now elim E1|]. rewrite lexN_cons in E1.
        assert (d = 0x10FFFF) as ->.
        { apply Forall_app in Hs as [_ Hs]. inversion_clear Hs as [|? ? Hd _]. apply is_scalar_lt in Hd.
          destruct (N.compare_spec 0x10FFFF d); try lia; congruence. }
        exists t. now rewrite <- app_assoc.
Qed.

(** The computed bound is a string. *)
Lemma next_prefix_scalars p u : scalars p -> next_prefix_string p = Some u -> scalars u.
Proof.
  unfold next_prefix_string. induction p as [|c q IH] using rev_ind; intros Hp E; [discriminate|].
  apply Forall_app in Hp as [Hq Hc]. inversion_clear Hc as [|? ? Hc' _].
  rewrite rev_unit in E. cbn [bump_last] in E.
  pose proof (next_scalar_spec c Hc') as Hn. destruct (next_scalar_char c) as [n|].
  - injection E as <-. cbn [rev]. rewrite rev_involutive. apply Forall_app. split; auto.
    constructor; [apply Hn|constructor].
  - now apply IH.
Qed.
