(** The invariants behind C56: in schedules that keep the critical parts apart every write
    that is not in an SST has all its frames at or above every floor. *)
From Coq Require Import List Arith NArith Bool Lia Sorting.Sorted.
From Verif Require Import Model.Sched Model.LogRace Spec.RaceSpec.
Import ListNotations.
Local Open Scope N_scope.

Definition th (s : lstate) (i : nat) : option lthread := nth_error (ls_threads s) i.

Lemma nth_set {A} i j (x y : A) l : nth_error l i = Some y ->
  nth_error (set_nth i x l) j = if Nat.eqb j i then Some x else nth_error l j.
Proof.
  revert i j. induction l as [|a l IH]; intros [|i] [|j] H; cbn in *; try discriminate; auto.
Qed.
Lemma th_upd s s' i t t' j : th s i = Some t ->
  th (with_threads s' (set_nth i t' (ls_threads s))) j = if Nat.eqb j i then Some t' else th s j.
Proof. intros H. unfold th. cbn. eapply nth_set; eauto. Qed.
Lemma th_app s x j t : th (with_threads s (ls_threads s ++ [x])) j = Some t ->
  th s j = Some t \/ t = x /\ th s j = None.
Proof.
  unfold th. cbn. intros H. destruct (Nat.ltb_spec j (length (ls_threads s))) as [L|L].
  - rewrite nth_error_app1 in H by auto. auto.
  - right. rewrite nth_error_app2 in H by auto. split; [|now apply nth_error_None].
    destruct (j - length (ls_threads s))%nat as [|k]; cbn in H; [congruence|destruct k; discriminate].
Qed.
Lemma th_app_old s x j t : th s j = Some t -> th (with_threads s (ls_threads s ++ [x])) j = Some t.
Proof. unfold th. cbn. intros H. rewrite nth_error_app1; auto. apply nth_error_Some. congruence. Qed.

(** *** Layer 1: the log and the writes *)
Definition wf (t : lthread) : Prop :=
  (1 <= lt_total t)%nat /\ (length (lt_nos t) <= lt_total t)%nat /\
  match lt_pc t with
  | LStart => lt_nos t = [] /\ lt_kind t = WkCommit
  | LAppend => True
  | LSeal => length (lt_nos t) = lt_total t /\ lt_kind t = WkIngest
  | LFloor | LCollect _ | LPublish _ => length (lt_nos t) = lt_total t /\ lt_kind t = WkCommit
  | LTake _ k | LAdd _ _ k => length (lt_nos t) = lt_total t /\ (k = KDone \/ k = after_insert (lt_kind t))
  | _ => length (lt_nos t) = lt_total t
  end.

Record InvA (s : lstate) : Prop := mkA {
  a_sorted : StronglySorted N.lt (map fst (ls_log s));
  a_active : forall g, In g (ls_log s) -> fst g <= ls_active s;
  a_inner : forall g, In g (ls_log s) -> StronglySorted N.lt (map lf_no (snd g));
  a_next : forall g f, In g (ls_log s) -> In f (snd g) -> lf_no f < ls_next s;
  a_back : forall g f, In g (ls_log s) -> In f (snd g) -> exists t, th s (lf_w f) = Some t /\ In (lf_no f) (lt_nos t);
  a_wf : forall i t, th s i = Some t -> wf t
}.

Lemma to_segment_in q f l g : In g (to_segment q f l) ->
  In g l \/ g = (q, [f]) \/ exists fs, In (q, fs) l /\ g = (q, fs ++ [f]).
Proof.
  induction l as [|[q' fs] l IH]; cbn.
  - intros [<-|[]]; auto.
  - destruct (N.eqb_spec q' q) as [->|E]; cbn.
    + intros [<-|H]; [right; right; exists fs; auto|auto].
    + intros [<-|H]; auto. destruct (IH H) as [H1|[H1|(fs' & H1 & H2)]]; auto. right; right; exists fs'; auto.
Qed.
Lemma to_segment_old q f l g x : In g l -> In x (snd g) -> exists g', In g' (to_segment q f l) /\ fst g' = fst g /\ In x (snd g').
Proof.
  induction l as [|[q' fs] l IH]; cbn; [tauto|]. intros [<-|H] Hx.
  - destruct (N.eqb q' q); eexists; (split; [left; reflexivity|]); cbn in *; auto. split; auto. apply in_app_iff; auto.
  - destruct (N.eqb q' q); [exists g; cbn; auto|]. destruct (IH H Hx) as (g' & A1 & A2). exists g'. cbn; auto.
Qed.
Lemma to_segment_new q f l : exists g, In g (to_segment q f l) /\ fst g = q /\ In f (snd g).
Proof.
  induction l as [|[q' fs] l IH]; cbn.
  - eexists; split; [left; reflexivity|]. cbn; auto.
  - destruct (N.eqb_spec q' q) as [->|E].
    + eexists; split; [left; reflexivity|]. cbn. split; auto. apply in_app_iff; cbn; auto.
    + destruct IH as (g & A1 & A2). exists g; cbn; auto.
Qed.
Lemma to_segment_fst q f l : map fst (to_segment q f l) = map fst l \/
  (map fst (to_segment q f l) = map fst l ++ [q] /\ ~ In q (map fst l)).
Proof.
  induction l as [|[q' fs] l IH]; cbn; auto.
  destruct (N.eqb_spec q' q) as [->|E]; cbn; auto.
  destruct IH as [-> | [-> H]]; auto. right; split; auto. intros [A|A]; auto.
Qed.
Lemma sorted_snoc l q : StronglySorted N.lt l -> (forall x, In x l -> x < q) -> StronglySorted N.lt (l ++ [q]).
Proof.
  induction 1 as [|a l H IH HF]; cbn; intros L; [repeat constructor|]. constructor; auto.
  apply Forall_app. split; auto.
Qed.
Lemma sorted_filter (p : lseg -> bool) l : StronglySorted N.lt (map fst l) -> StronglySorted N.lt (map fst (filter p l)).
Proof.
  induction l as [|a l IH]; cbn; auto. inversion 1 as [|? ? H1 H2]; subst. destruct (p a); cbn; auto.
  constructor; auto. rewrite Forall_forall in *. intros x Hx. apply H2. rewrite in_map_iff in *.
  destruct Hx as (y & <- & Hy). apply filter_In in Hy. exists y; tauto.
Qed.

(** What a step of a write leaves alone. *)
Lemma write_frame b i t s s' t' : write_step b i t s = (s', t') ->
  ls_threads s' = ls_threads s /\ ls_flush s' = ls_flush s /\ lt_kind t' = lt_kind t /\ lt_total t' = lt_total t.
Proof.
  unfold write_step. intros H.
  destruct (lt_pc t); repeat match type of H with
    | context [if ?c then _ else _] => destruct c
    | context [match ls_mem s with _ => _ end] => destruct (ls_mem s)
    | context [match collect ?a ?c ?d with _ => _ end] => destruct (collect a c d)
    end; injection H as <- <-; cbn; auto.
Qed.

Lemma in_prune p l g : In g (prune_log p l) <-> In g l /\ p <= fst g.
Proof. unfold prune_log. rewrite filter_In, N.leb_le. tauto. Qed.

Lemma stepA_log s s' (H : InvA s) : ls_log s' = ls_log s -> ls_active s' = ls_active s -> ls_next s' = ls_next s ->
  (forall i t, th s i = Some t -> exists t', th s' i = Some t' /\ incl (lt_nos t) (lt_nos t')) ->
  (forall i t, th s' i = Some t -> wf t) -> InvA s'.
Proof.
  intros E1 E2 E3 HT HW. destruct H as [A1 A2 A3 A4 A5 A6]. constructor; rewrite ?E1, ?E2, ?E3; auto.
  intros g f Hg Hf. destruct (A5 g f Hg Hf) as (t & T1 & T2). destruct (HT _ _ T1) as (t' & T3 & T4). exists t'; auto.
Qed.
Lemma prune_A s p : InvA s -> InvA (with_log s (prune_log p (ls_log s))).
Proof.
  intros [A1 A2 A3 A4 A5 A6]. constructor; cbn; auto.
  - now apply sorted_filter.
  - intros g Hg. apply in_prune in Hg. apply A2; tauto.
  - intros g Hg. apply in_prune in Hg. apply A3; tauto.
  - intros g f Hg. apply in_prune in Hg. apply (A4 g f); tauto.
  - intros g f Hg. apply in_prune in Hg. apply (A5 g f); tauto.
Qed.
Lemma threads_A s i t t' : InvA s -> th s i = Some t -> incl (lt_nos t) (lt_nos t') -> wf t' ->
  InvA (with_threads s (set_nth i t' (ls_threads s))).
Proof.
  intros H HT HI HW. eapply stepA_log; [exact H|reflexivity|reflexivity|reflexivity| |].
  - intros j u Hu. erewrite th_upd by eauto. destruct (Nat.eqb_spec j i) as [->|E]; [|exists u; split; auto; apply incl_refl].
    rewrite HT in Hu. injection Hu as <-. exists t'; auto.
  - intros j u. erewrite th_upd by eauto. destruct (Nat.eqb_spec j i) as [->|E]; [congruence|]. apply (a_wf _ H).
Qed.

Lemma same_A s s' i t t' : InvA s -> th s i = Some t -> ls_log s' = ls_log s -> ls_active s' = ls_active s ->
  ls_next s' = ls_next s -> lt_nos t' = lt_nos t -> wf t' ->
  InvA (with_threads s' (set_nth i t' (ls_threads s))).
Proof.
  intros H HT E1 E2 E3 HI HW. eapply stepA_log; [exact H|exact E1|exact E2|exact E3| |].
  - intros j u Hu. erewrite th_upd by eauto. destruct (Nat.eqb_spec j i) as [->|E]; [|exists u; split; auto; apply incl_refl].
    rewrite HT in Hu. injection Hu as <-. exists t'; split; auto. rewrite HI. apply incl_refl.
  - intros j u. erewrite th_upd by eauto. destruct (Nat.eqb_spec j i) as [->|E]; [congruence|]. apply (a_wf _ H).
Qed.
Lemma flush_A s s' : InvA s -> ls_log s' = ls_log s -> ls_active s' = ls_active s ->
  ls_next s' = ls_next s -> ls_threads s' = ls_threads s -> InvA s'.
Proof.
  intros H E1 E2 E3 E4. eapply stepA_log; eauto; unfold th; rewrite E4.
  - intros j u Hu. exists u; split; auto; apply incl_refl.
  - apply (a_wf _ H).
Qed.

Lemma append_A b s i t : InvA s -> th s i = Some t -> lt_pc t = LAppend -> (length (lt_nos t) < lt_total t)%nat ->
  InvA (with_threads (append_frame b i s)
          (set_nth i (mkLT (lt_kind t) (lt_total t) (lt_nos t ++ [ls_next s]) (lt_prev t) LAppend) (ls_threads s))).
Proof.
  intros [A1 A2 A3 A4 A5 A6] HT HP HL.
  set (q := if b then ls_active s + 1 else ls_active s).
  assert (Hq : ls_active s <= q) by (unfold q; destruct b; lia).
  constructor; cbn; fold q.
  - destruct (to_segment_fst q (mkLF (ls_next s) i) (ls_log s)) as [-> | [-> Hn]]; auto.
    apply sorted_snoc; auto. intros x Hx. apply in_map_iff in Hx as (g & <- & Hg).
    specialize (A2 g Hg). assert (fst g <> q); [|lia]. intros E. apply Hn. rewrite <- E. now apply in_map.
  - intros g Hg. apply to_segment_in in Hg as [Hg|[->|(fs & Hg & ->)]]; cbn; try lia. specialize (A2 g Hg). lia.
  - intros g Hg. apply to_segment_in in Hg as [Hg|[->|(fs & Hg & ->)]]; cbn; auto.
    + repeat constructor.
    + rewrite map_app. apply sorted_snoc; [apply (A3 (q, fs) Hg)|]. intros x Hx. apply in_map_iff in Hx as (f & <- & Hf).
      apply (A4 (q, fs) f Hg Hf).
  - intros g f Hg Hf. apply to_segment_in in Hg as [Hg|[->|(fs & Hg & ->)]].
    + specialize (A4 g f Hg Hf). lia.
    + cbn in Hf. destruct Hf as [<-|[]]. cbn. lia.
    + cbn in Hf. apply in_app_iff in Hf as [Hf|[<-|[]]]; [specialize (A4 (q, fs) f Hg Hf); lia|cbn; lia].
  - assert (NEW : exists t0, th (with_threads (append_frame b i s)
        (set_nth i (mkLT (lt_kind t) (lt_total t) (lt_nos t ++ [ls_next s]) (lt_prev t) LAppend) (ls_threads s))) i = Some t0 /\
        In (ls_next s) (lt_nos t0)).
    { erewrite th_upd by eauto. rewrite Nat.eqb_refl. eexists; split; [reflexivity|]. cbn. apply in_app_iff; cbn; auto. }
    assert (OLD : forall g f, In g (ls_log s) -> In f (snd g) -> exists t0, th (with_threads (append_frame b i s)
        (set_nth i (mkLT (lt_kind t) (lt_total t) (lt_nos t ++ [ls_next s]) (lt_prev t) LAppend) (ls_threads s))) (lf_w f) = Some t0 /\
        In (lf_no f) (lt_nos t0)).
    { intros g f Hg Hf. destruct (A5 g f Hg Hf) as (u & U1 & U2). erewrite th_upd by eauto.
      destruct (Nat.eqb_spec (lf_w f) i) as [E|E]; [|eauto].
      rewrite E, HT in U1. injection U1 as <-. eexists; split; [reflexivity|]. cbn. apply in_app_iff; auto. }
    intros g f Hg Hf. apply to_segment_in in Hg as [Hg|[->|(fs & Hg & ->)]]; eauto.
    + cbn in Hf. destruct Hf as [<-|[]]. exact NEW.
    + cbn in Hf. apply in_app_iff in Hf as [Hf|[<-|[]]]; [apply (OLD (q, fs)); auto|exact NEW].
  - intros j u. erewrite th_upd by eauto. destruct (Nat.eqb_spec j i) as [->|E]; [|apply A6].
    intros Hu. injection Hu as <-. destruct (A6 _ _ HT) as (W1 & W2 & W3).
    split; [exact W1|]. split; [|exact I]. cbn. rewrite app_length. cbn. lia.
Qed.

Lemma step_A s e : InvA s -> InvA (levent_step s e).
Proof.
  intros H. destruct e as [n|n|i b|]; cbn [levent_step].
  - eapply stepA_log; [exact H|reflexivity|reflexivity|reflexivity| |].
    + intros j u Hu. exists u. split; [now apply th_app_old|apply incl_refl].
    + intros j u Hu. apply th_app in Hu as [Hu|[-> _]]; [now apply (a_wf _ H) in Hu|]. repeat split; cbn; lia.
  - eapply stepA_log; [exact H|reflexivity|reflexivity|reflexivity| |].
    + intros j u Hu. exists u. split; [now apply th_app_old|apply incl_refl].
    + intros j u Hu. apply th_app in Hu as [Hu|[-> _]]; [now apply (a_wf _ H) in Hu|]. repeat split; cbn; lia.
  - destruct (nth_error (ls_threads s) i) as [t|] eqn:HT; [|exact H].
    pose proof (a_wf _ H _ _ HT) as (W1 & W2 & W3).
    destruct (write_step b i t s) as [s' t'] eqn:E. unfold write_step in E.
    destruct (lt_pc t) eqn:P.
    + injection E as <- <-. apply threads_A with (t := t); auto; [apply incl_refl|]. destruct W3 as [W3 W4]. repeat split; cbn; auto.
    + destruct (Nat.ltb_spec (length (lt_nos t)) (lt_total t)) as [L|L]; injection E as <- <-.
      * now apply append_A.
      * apply threads_A with (t := t); auto; [apply incl_refl|]. repeat split; cbn; auto. lia.
    + injection E as <- <-. apply (same_A s (with_mrange s _) i t); auto; [repeat split; cbn; auto].
    + destruct b; injection E as <- <-; apply (same_A s (with_mem s _) i t); auto.
      * repeat split; cbn; auto.
      * unfold wf; cbn. destruct (lt_kind t) eqn:K; cbn; rewrite ?K; auto.
    + injection E as <- <-. apply (same_A s (with_mrange s _) i t); auto. unfold wf; cbn. auto.
    + injection E as <- <-. apply (same_A s (with_imm s _) i t); auto. destruct W3 as [W3 [-> | ->]]; unfold wf; cbn; auto.
      destruct (lt_kind t) eqn:K; cbn; auto.
    + destruct W3 as [W3 W4]. destruct b; [destruct (ls_mem s)|]; injection E as <- <-.
      * apply (same_A s s i t); auto. unfold wf; cbn; auto.
      * apply (same_A s (with_mem s _) i t); auto. unfold wf; cbn; auto.
      * apply (same_A s s i t); auto. unfold wf; cbn; auto.
    + injection E as <- <-. apply (same_A s s i t); auto. unfold wf; cbn; auto.
    + destruct W3 as [W3 W4]. destruct (collect _ _ _); injection E as <- <-; apply (same_A s s i t); auto; unfold wf; cbn; auto.
    + destruct W3 as [W3 W4]. injection E as <- <-. apply (same_A s (with_floor s _) i t); auto. unfold wf; cbn; auto.
    + injection E as <- <-. apply (same_A s s i t); auto. unfold wf; cbn. destruct (ls_floor s); auto.
    + injection E as <- <-. apply (threads_A (with_log s _) i t); [now apply prune_A|exact HT|apply incl_refl|]. unfold wf; cbn; auto.
    + injection E as <- <-. apply (same_A s s i t); auto. unfold wf. rewrite P. auto.
  - unfold flush_wal_step. destruct (ls_flush s); try (apply (flush_A s); auto; reflexivity).
    + destruct (ls_imm s); [exact H|]. apply (flush_A s); auto.
    + apply (flush_A (with_log s (prune_log p (ls_log s)))); auto. now apply prune_A.
Qed.

Lemma th_start i : th ls_start i = None.
Proof. unfold th. cbn. now destruct i. Qed.
Lemma start_A : InvA ls_start.
Proof.
  constructor; cbn; try tauto; try apply SSorted_nil. intros k u Hk. rewrite th_start in Hk. discriminate.
Qed.

(** *** Layer 2: one critical part at a time *)
Record InvX (s : lstate) : Prop := mkX {
  x_one : forall j t, th s j = Some t -> critical_write t = true ->
          critical_flush (ls_flush s) = false /\
          forall i u, th s i = Some u -> i <> j -> critical_write u = false /\ open_write u = false;
  x_flush : critical_flush (ls_flush s) = true ->
          forall i u, th s i = Some u -> critical_write u = false /\ open_write u = false
}.

Lemma apart_step s i b : apart s (VStep i b) ->
  (forall j t, th s j = Some t -> j <> i -> critical_write t = false) /\
  (forall j t, th s j = Some t -> j <> i -> enters s (VStep i b) = true -> open_write t = false) /\
  critical_flush (ls_flush s) = false.
Proof.
  intros [H1 H2]. repeat split.
  - intros j t Hj E. apply (H1 j t Hj). congruence.
  - intros j t Hj E EN. apply (H1 j t Hj); auto. congruence.
  - apply H2. discriminate.
Qed.
Lemma apart_flush s : apart s VFlush ->
  forall j t, th s j = Some t -> critical_write t = false /\ (enters s VFlush = true -> open_write t = false).
Proof. intros [H1 H2] j t Hj. apply (H1 j t Hj). discriminate. Qed.
Lemma room_step s i b t : room s (VStep i b) -> th s i = Some t -> lt_pc t = LInsert -> b = false.
Proof. intros H HT HP. destruct b; auto. now destruct (H i t eq_refl HT). Qed.

Lemma crit_enter s i b t s' t' : th s i = Some t -> wf t -> room s (VStep i b) -> write_step b i t s = (s', t') ->
  critical_write t = false -> critical_write t' = true -> enters s (VStep i b) = true.
Proof.
  intros HT (W1 & W2 & W3) HR E C1 C2. cbn. unfold th in HT. rewrite HT.
  unfold write_step in E. unfold critical_write in C1, C2.
  destruct (lt_pc t) eqn:P; try reflexivity;
    try (destruct (lt_kind t) eqn:K; try discriminate).
  all: try (destruct W3; congruence).
  all: try rewrite (room_step s i b t HR HT P) in E.
  all: try (destruct b; [reflexivity|]).
  all: try match type of E with context [if Nat.ltb ?x ?y then _ else _] => destruct (Nat.ltb x y) end.
  all: injection E as <- <-; cbn in C2; rewrite ?K, ?P in C2; cbn in C2; try discriminate.
  all: try (destruct (ls_floor s); discriminate).
Qed.

Lemma step_X s e : InvA s -> InvX s -> apart s e -> room s e -> InvX (levent_step s e).
Proof.
  intros HA [X1 X2] HP HR. destruct e as [n|n|i b|]; cbn [levent_step].
  - constructor.
    + intros j t Hj C. apply th_app in Hj as [Hj|[-> Hj]]; [|discriminate].
      destruct (X1 j t Hj C) as [Y1 Y2]. split; auto. intros k u Hu E.
      apply th_app in Hu as [Hu|[-> Hu]]; eauto.
    + cbn. intros C k u Hu. apply th_app in Hu as [Hu|[-> Hu]]; eauto.
  - constructor.
    + intros j t Hj C. apply th_app in Hj as [Hj|[-> Hj]]; [|discriminate].
      destruct (X1 j t Hj C) as [Y1 Y2]. split; auto. intros k u Hu E.
      apply th_app in Hu as [Hu|[-> Hu]]; eauto.
    + cbn. intros C k u Hu. apply th_app in Hu as [Hu|[-> Hu]]; eauto.
  - destruct (nth_error (ls_threads s) i) as [t|] eqn:HT; [|constructor; auto].
    destruct (write_step b i t s) as [s' t'] eqn:E.
    destruct (write_frame _ _ _ _ _ _ E) as (F1 & F2 & F3 & F4).
    destruct (apart_step _ _ _ HP) as (P1 & P2 & P3).
    constructor.
    + intros j u Hj C. erewrite th_upd in Hj by eauto. cbn. rewrite F2. split; auto.
      intros k v Hk EK. erewrite th_upd in Hk by eauto.
      destruct (Nat.eqb_spec j i) as [->|Ej].
      * injection Hj as <-. destruct (Nat.eqb_spec k i) as [->|Ek]; [congruence|]. split; [eauto|].
        destruct (critical_write t) eqn:CT.
        -- eapply (X1 i t HT CT); eauto.
        -- eapply P2; eauto. eapply crit_enter; eauto. apply (a_wf _ HA _ _ HT).
      * exfalso. specialize (P1 j u Hj Ej). congruence.
    + cbn. rewrite F2, P3. discriminate.
  - pose proof (apart_flush _ HP) as P1.
    assert (TH : ls_threads (flush_wal_step s) = ls_threads s).
    { unfold flush_wal_step. destruct (ls_flush s); auto. destruct (ls_imm s); auto. }
    constructor; unfold th; rewrite TH.
    + intros j t Hj C. destruct (P1 j t Hj). congruence.
    + intros C j t Hj. destruct (P1 j t Hj) as [Q1 Q2]. split; auto.
      destruct (critical_flush (ls_flush s)) eqn:CF; [eapply X2; eauto|].
      apply Q2. cbn. unfold flush_wal_step in C. destruct (ls_flush s) eqn:EF; auto; cbn in C; try discriminate.
      destruct (ls_floor s); discriminate.
Qed.
Lemma start_X : InvX ls_start.
Proof. constructor; intros; rewrite th_start in *; discriminate. Qed.

(** *** Layer 3: where writes are, and which range covers them *)
Definition inserted (t : lthread) : bool :=
  match lt_pc t with LStart | LAppend | LRecord | LInsert => false | _ => true end.
Definition cov (r : option (N * N)) (nos : list N) : Prop := exists f l, r = Some (f, l) /\ forall n, In n nos -> f <= n.
Definition sealing (t : lthread) (i : nat) : Prop :=
  match lt_pc t with LTake ws _ | LAdd ws _ _ => In i ws | _ => False end.
Definition loc (s : lstate) (i : nat) : Prop :=
  In i (ls_mem s) \/ (exists e, In e (ls_imm s) /\ In i (fst e)) \/
  (exists j t, th s j = Some t /\ sealing t i) \/ In i (ls_sst s).
Definition held_by (s : lstate) (r : option (N * N)) (i : nat) : Prop :=
  exists t, th s i = Some t /\ inserted t = true /\ cov r (lt_nos t).

Record InvC (s : lstate) : Prop := mkCC {
  c_mem : forall i, In i (ls_mem s) -> exists t, th s i = Some t /\ inserted t = true;
  c_imm : forall e i, In e (ls_imm s) -> In i (fst e) -> held_by s (snd e) i;
  c_loc : forall i t, th s i = Some t -> inserted t = true -> loc s i;
  c_cov : forall i t, th s i = Some t -> In i (ls_mem s) \/ lt_pc t = LInsert -> cov (ls_mrange s) (lt_nos t);
  c_seal : forall j t, th s j = Some t ->
           match lt_pc t with
           | LTake ws k => k = KDone /\ ls_mem s = [] /\ forall i, In i ws -> held_by s (ls_mrange s) i
           | LAdd ws r k => k = KDone /\ forall i, In i ws -> held_by s r i
           | _ => True
           end;
  c_flush : match ls_flush s with
            | LFNone => True
            | LFTaken ws n | LFFloor ws n _ | LFLive ws n _ _ => ws = concat (map fst (ls_imm s)) /\ n = length (ls_imm s)
            | LFReady ws n _ => exists pre suf, ls_imm s = pre ++ suf /\ length pre = n /\ ws = concat (map fst pre)
            | LFPruneRead n | LFPrune n _ | LFDrop n =>
                exists pre suf, ls_imm s = pre ++ suf /\ length pre = n /\
                forall i, In i (concat (map fst pre)) -> In i (ls_sst s)
            end
}.

Lemma cov_extend r r' nos : cov r nos -> cov (extend r r') nos.
Proof.
  intros (f & l & -> & H). destruct r' as [[f' l']|]; cbn; eexists _, _; (split; [reflexivity|]); auto.
  intros n Hn. specialize (H n Hn). lia.
Qed.
Lemma fold_min_head l a : fold_left N.min l a <= a.
Proof. revert a. induction l as [|b l IH]; intros a; cbn; [lia|]. specialize (IH (N.min a b)). lia. Qed.
Lemma fold_min_le l a n : In n (a :: l) -> fold_left N.min l a <= n.
Proof.
  revert a. induction l as [|b l IH]; intros a; cbn.
  - intros [->|[]]. lia.
  - pose proof (fold_min_head l (N.min a b)) as Q. intros [->|[->|H]]; try lia. apply IH. now right.
Qed.
Lemma cov_span r nos : nos <> [] -> cov (extend r (span nos)) nos.
Proof.
  destruct nos as [|a l]; [congruence|]. intros _. unfold span. set (f := fold_left N.min l a).
  assert (H : forall n, In n (a :: l) -> f <= n) by (intros; now apply fold_min_le).
  destruct r as [[f' l']|]; cbn; eexists _, _; (split; [reflexivity|]); intros n Hn; specialize (H n Hn); lia.
Qed.

(** A step of a write that keeps the inserted writes and their frames. *)
Section Keep.
  Context (s s' : lstate) (i : nat) (t t' : lthread).
  Hypothesis HT : th s i = Some t.
  Let s1 := with_threads s' (set_nth i t' (ls_threads s)).
  Lemma keep_held r r' j :
    (forall nos, cov r nos -> cov r' nos) ->
    (inserted t = true -> inserted t' = true /\ lt_nos t' = lt_nos t) -> held_by s r j -> held_by s1 r' j.
  Proof.
    intros HC HI (u & U1 & U2 & U3). unfold held_by, s1. erewrite th_upd by eauto.
    destruct (Nat.eqb_spec j i) as [->|E]; [|eauto 6].
    rewrite HT in U1. injection U1 as <-. destruct (HI U2) as [I1 I2]. exists t'. rewrite I2. auto.
  Qed.
  Lemma keep_ins j : (inserted t = true -> inserted t' = true) ->
    (exists u, th s j = Some u /\ inserted u = true) -> exists u, th s1 j = Some u /\ inserted u = true.
  Proof.
    intros HI (u & U1 & U2). unfold s1. erewrite th_upd by eauto.
    destruct (Nat.eqb_spec j i) as [->|E]; [|eauto]. rewrite HT in U1. injection U1 as <-. eauto.
  Qed.
End Keep.

(** The write takes a step that neither inserts nor seals. *)
Lemma neutral_C s s' i t t' : InvC s -> th s i = Some t ->
  ls_mem s' = ls_mem s -> ls_mrange s' = ls_mrange s -> ls_imm s' = ls_imm s -> ls_sst s' = ls_sst s -> ls_flush s' = ls_flush s ->
  inserted t' = inserted t -> (inserted t = true -> lt_nos t' = lt_nos t) -> lt_pc t' <> LInsert ->
  match lt_pc t with LTake _ _ | LAdd _ _ _ => False | _ => True end ->
  match lt_pc t' with LTake _ _ | LAdd _ _ _ => False | _ => True end ->
  InvC (with_threads s' (set_nth i t' (ls_threads s))).
Proof.
  intros [C1 C2 C3 C4 C5 C6] HT E1 E2 E3 E4 E5 I1 I2 NI S1 S2.
  assert (KI : inserted t = true -> inserted t' = true) by congruence.
  assert (KH : forall r j, held_by s r j -> held_by (with_threads s' (set_nth i t' (ls_threads s))) r j).
  { intros r j. apply keep_held with (t := t); auto. }
  constructor; cbn [with_threads ls_mem ls_imm ls_mrange ls_sst ls_flush]; rewrite ?E1, ?E2, ?E3, ?E5.
  - intros j Hj. apply (keep_ins s s' i t t'); auto.
  - intros e j He Hj. apply KH. eauto.
  - intros j u. erewrite th_upd by eauto. intros Hu IU. unfold loc; cbn [with_threads ls_mem ls_imm ls_sst]. rewrite E1, E3, E4.
    assert (L : loc s j).
    { destruct (Nat.eqb_spec j i) as [->|E]; [|eauto]. injection Hu as <-. apply (C3 i t); congruence. }
    destruct L as [L|[L|[(k & w & K1 & K2)|L]]]; auto. right. right. left. exists k, w. split; auto.
    erewrite th_upd by eauto. destruct (Nat.eqb_spec k i) as [->|E]; auto. rewrite HT in K1. injection K1 as <-.
    exfalso. unfold sealing in K2. destruct (lt_pc t); auto.
  - intros j u. erewrite th_upd by eauto. destruct (Nat.eqb_spec j i) as [->|E]; [|apply C4].
    intros Hu [M|P]; injection Hu as <-; [|congruence]. destruct (C1 i M) as (w & W1 & W2). rewrite HT in W1. injection W1 as <-.
    rewrite I2 by auto. apply (C4 i t HT); auto.
  - intros j u. erewrite th_upd by eauto. destruct (Nat.eqb_spec j i) as [->|E].
    + intros Hu. injection Hu as <-. destruct (lt_pc t'); tauto.
    + intros Hu. specialize (C5 j u Hu). destruct (lt_pc u); auto; [destruct C5 as (D1 & D2 & D3)|destruct C5 as (D1 & D3)]; repeat split; auto.
  - rewrite E4. exact C6.
Qed.

Lemma skipn_pre {A} (pre suf : list A) : skipn (length pre) (pre ++ suf) = suf.
Proof. induction pre; cbn; auto. Qed.

Lemma write_C b i t s s' t' : InvA s -> InvX s -> InvC s -> apart s (VStep i b) -> room s (VStep i b) ->
  th s i = Some t -> write_step b i t s = (s', t') -> InvC (with_threads s' (set_nth i t' (ls_threads s))).
Proof.
  intros HA HX HC HP HR HT E.
  destruct (apart_step _ _ _ HP) as (P1 & P2 & P3).
  pose proof (a_wf _ HA _ _ HT) as (W1 & W2 & W3).
  unfold write_step in E. destruct (lt_pc t) eqn:P.
  - injection E as <- <-. apply neutral_C with (t := t); auto; cbn; unfold inserted; rewrite ?P; cbn; auto; discriminate.
  - destruct (Nat.ltb _ _); injection E as <- <-; apply neutral_C with (t := t); auto; cbn; unfold inserted; rewrite ?P; cbn; auto; discriminate.
  - (* LRecord *)
    injection E as <- <-.
    assert (KH : forall r j, held_by s r j -> held_by (with_threads (with_mrange s (extend (ls_mrange s) (span (lt_nos t))))
              (set_nth i (at_pc t LInsert) (ls_threads s))) r j).
    { intros r j. apply keep_held with (t := t); auto. unfold inserted. rewrite P. discriminate. }
    destruct HC as [C1 C2 C3 C4 C5 C6]. constructor; cbn [with_threads with_mrange ls_mem ls_imm ls_mrange ls_sst ls_flush].
    + intros j Hj. eapply keep_ins; eauto. unfold inserted. rewrite P. discriminate.
    + intros e j He Hj. apply KH. eauto.
    + intros j u. erewrite th_upd by eauto. destruct (Nat.eqb_spec j i) as [->|E]; intros Hu IU; [injection Hu as <-; discriminate|].
      destruct (C3 j u Hu IU) as [L|[L|[(k & w & K1 & K2)|L]]]; unfold loc; auto. right. right. left. exists k, w. split; auto.
      erewrite th_upd by eauto. destruct (Nat.eqb_spec k i) as [->|Ek]; auto. rewrite HT in K1. injection K1 as <-.
      unfold sealing in K2. rewrite P in K2. destruct K2.
    + intros j u. erewrite th_upd by eauto. destruct (Nat.eqb_spec j i) as [->|E]; intros Hu M.
      * injection Hu as <-. cbn. apply cov_span. intros N. rewrite N in W3. cbn in W3. lia.
      * apply cov_extend. eapply C4; eauto.
    + intros j u. erewrite th_upd by eauto. destruct (Nat.eqb_spec j i) as [->|E]; intros Hu.
      * injection Hu as <-. exact I.
      * specialize (C5 j u Hu). specialize (P1 j u Hu E). destruct (lt_pc u) eqn:PU; auto.
        -- unfold critical_write in P1. rewrite PU in P1. discriminate.
        -- destruct C5; split; auto.
    + exact C6.
  - (* LInsert *)
    rewrite (room_step s i b t HR HT P) in E. injection E as <- <-.
    set (t' := at_pc t (pc_of (after_insert (lt_kind t)))).
    assert (NI : lt_pc t' <> LInsert /\ inserted t' = true /\ match lt_pc t' with LTake _ _ | LAdd _ _ _ => False | _ => True end).
    { unfold t', inserted; cbn. destruct (lt_kind t); cbn; repeat split; auto; discriminate. }
    destruct NI as (N1 & N2 & N3).
    assert (KH : forall r j, held_by s r j -> held_by (with_threads (with_mem s (ls_mem s ++ [i])) (set_nth i t' (ls_threads s))) r j).
    { intros r j. apply keep_held with (t := t); auto. }
    destruct HC as [C1 C2 C3 C4 C5 C6]. constructor; cbn [with_threads with_mem ls_mem ls_imm ls_mrange ls_sst ls_flush].
    + intros j Hj. apply in_app_iff in Hj as [Hj|[<-|[]]]; [eapply keep_ins; eauto|]. exists t'. split; auto.
      erewrite th_upd by eauto. now rewrite Nat.eqb_refl.
    + intros e j He Hj. apply KH. eauto.
    + intros j u. erewrite th_upd by eauto. destruct (Nat.eqb_spec j i) as [->|E]; intros Hu IU; unfold loc; cbn [with_threads with_mem ls_mem ls_imm ls_mrange ls_sst ls_flush].
      { left. apply in_app_iff. right. now left. }
      destruct (C3 j u Hu IU) as [L|[L|[(k & w & K1 & K2)|L]]]; auto; [left; apply in_app_iff; auto|]. right. right. left. exists k, w. split; auto.
      erewrite th_upd by eauto. destruct (Nat.eqb_spec k i) as [->|Ek]; auto. rewrite HT in K1. injection K1 as <-.
      unfold sealing in K2. rewrite P in K2. destruct K2.
    + intros j u. erewrite th_upd by eauto. destruct (Nat.eqb_spec j i) as [->|E]; intros Hu M.
      * injection Hu as <-. cbn. apply (C4 i t); auto.
      * apply (C4 j u Hu). destruct M as [M|M]; auto. apply in_app_iff in M as [M|[M|[]]]; auto. congruence.
    + intros j u. erewrite th_upd by eauto. destruct (Nat.eqb_spec j i) as [->|E]; intros Hu.
      * injection Hu as <-. destruct (lt_pc t'); tauto.
      * specialize (C5 j u Hu). specialize (P1 j u Hu E). destruct (lt_pc u) eqn:PU; auto.
        -- unfold critical_write in P1. rewrite PU in P1. discriminate.
        -- destruct C5; split; auto.
    + exact C6.
  - (* LTake *)
    injection E as <- <-.
    set (t' := at_pc t (LAdd ws (ls_mrange s) k)).
    assert (KH : forall r j, held_by s r j -> held_by (with_threads (with_mrange s None) (set_nth i t' (ls_threads s))) r j).
    { intros r j. apply keep_held with (t := t); auto. }
    assert (CW : critical_write t = true) by (unfold critical_write; now rewrite P).
    destruct (x_one _ HX i t HT CW) as [_ XO].
    destruct HC as [C1 C2 C3 C4 C5 C6]. pose proof (C5 i t HT) as D. rewrite P in D. destruct D as (D1 & D2 & D3).
    constructor; cbn [with_threads with_mrange ls_mem ls_imm ls_mrange ls_sst ls_flush].
    + intros j Hj. eapply keep_ins; eauto.
    + intros e j He Hj. apply KH. eauto.
    + intros j u. erewrite th_upd by eauto. intros Hu IU.
      assert (L : loc s j).
      { destruct (Nat.eqb_spec j i) as [->|E]; [|eauto]. injection Hu as <-. apply (C3 i t); auto. unfold inserted. now rewrite P. }
      unfold loc; cbn [with_threads with_mrange ls_mem ls_imm ls_mrange ls_sst ls_flush].
      destruct L as [L|[L|[(k' & w & K1 & K2)|L]]]; auto. right. right. left. 
      destruct (Nat.eqb_spec k' i) as [->|Ek].
      * exists i, t'. erewrite th_upd by eauto. rewrite Nat.eqb_refl. split; auto. rewrite HT in K1. injection K1 as <-.
        unfold sealing in *. rewrite P in K2. exact K2.
      * exists k', w. erewrite th_upd by eauto. apply Nat.eqb_neq in Ek. rewrite Ek. auto.
    + intros j u. erewrite th_upd by eauto. rewrite D2. destruct (Nat.eqb_spec j i) as [->|E]; intros Hu [[]|M].
      * injection Hu as <-. discriminate.
      * exfalso. destruct (XO j u Hu E) as [_ O]. unfold open_write in O. rewrite M in O. discriminate.
    + intros j u. erewrite th_upd by eauto. destruct (Nat.eqb_spec j i) as [->|E]; intros Hu.
      * injection Hu as <-. cbn. split; auto.
      * destruct (XO j u Hu E) as [O _]. unfold critical_write in O. destruct (lt_pc u); auto; discriminate.
    + exact C6.
  - (* LAdd *)
    injection E as <- <-. destruct HC as [C1 C2 C3 C4 C5 C6]. pose proof (C5 i t HT) as D. rewrite P in D. destruct D as (-> & D3).
    set (t' := at_pc t (pc_of KDone)).
    assert (KH : forall r j, held_by s r j -> held_by (with_threads (with_imm s (ls_imm s ++ [(ws, r)])) (set_nth i t' (ls_threads s))) r j).
    { intros q j. apply keep_held with (t := t); auto. }
    assert (KH' : forall q j, held_by s q j -> held_by (with_threads (with_imm s (ls_imm s ++ [(ws, r)])) (set_nth i t' (ls_threads s))) q j).
    { intros q j. apply keep_held with (t := t); auto. }
    constructor; cbn [with_threads with_imm ls_mem ls_imm ls_mrange ls_sst ls_flush].
    + intros j Hj. eapply keep_ins; eauto.
    + intros e j He Hj. apply KH'. apply in_app_iff in He as [He|[<-|[]]]; eauto.
    + intros j u. erewrite th_upd by eauto. intros Hu IU.
      assert (L : loc s j).
      { destruct (Nat.eqb_spec j i) as [->|E]; [|eauto]. injection Hu as <-. apply (C3 i t); auto. unfold inserted. now rewrite P. }
      unfold loc; cbn [with_threads with_imm ls_mem ls_imm ls_mrange ls_sst ls_flush].
      destruct L as [L|[(e & L1 & L2)|[(k' & w & K1 & K2)|L]]]; auto.
      * right. left. exists e. split; auto. apply in_app_iff; auto.
      * destruct (Nat.eqb_spec k' i) as [->|Ek].
        -- rewrite HT in K1. injection K1 as <-. unfold sealing in K2. rewrite P in K2.
           right. left. exists (ws, r). split; auto. apply in_app_iff. right. now left.
        -- right. right. left. exists k', w. erewrite th_upd by eauto. apply Nat.eqb_neq in Ek. rewrite Ek. auto.
    + intros j u. erewrite th_upd by eauto. destruct (Nat.eqb_spec j i) as [->|E]; intros Hu M.
      * injection Hu as <-. cbn in *. apply (C4 i t); auto. destruct M; auto. discriminate.
      * eapply C4; eauto.
    + intros j u. erewrite th_upd by eauto. destruct (Nat.eqb_spec j i) as [->|E]; intros Hu.
      * injection Hu as <-. exact I.
      * specialize (C5 j u Hu). destruct (lt_pc u) eqn:PU; auto.
        -- destruct C5 as (Q1 & Q2 & Q3). repeat split; auto.
        -- destruct C5; split; auto.
    + destruct (ls_flush s); try discriminate; auto; destruct C6 as (pre & suf & F1 & F2 & F3); exists pre, (suf ++ [(ws, r)]);
        rewrite F1, app_assoc; auto.
  - (* LSeal *)
    destruct b; [destruct (ls_mem s) as [|m0 ml] eqn:M|]; injection E as <- <-.
    + apply neutral_C with (t := t); auto; cbn; unfold inserted; rewrite ?P; cbn; auto; discriminate.
    + rewrite <- M in *. set (t' := at_pc t (LTake (ls_mem s) KDone)).
      assert (KH : forall r j, held_by s r j -> held_by (with_threads (with_mem s []) (set_nth i t' (ls_threads s))) r j).
      { intros r j. apply keep_held with (t := t); auto. }
      destruct HC as [C1 C2 C3 C4 C5 C6].
      constructor; cbn [with_threads with_mem ls_mem ls_imm ls_mrange ls_sst ls_flush].
      * intros j [].
      * intros e j He Hj. apply KH. eauto.
      * intros j u. erewrite th_upd by eauto. intros Hu IU.
        assert (L : loc s j).
        { destruct (Nat.eqb_spec j i) as [->|E]; [|eauto]. injection Hu as <-. apply (C3 i t); auto. unfold inserted. now rewrite P. }
        unfold loc; cbn [with_threads with_mem ls_mem ls_imm ls_mrange ls_sst ls_flush].
        destruct L as [L|[L|[(k' & w & K1 & K2)|L]]]; auto.
        -- right. right. left. exists i, t'. erewrite th_upd by eauto. rewrite Nat.eqb_refl. split; auto.
        -- right. right. left. destruct (Nat.eqb_spec k' i) as [->|Ek].
           ++ rewrite HT in K1. injection K1 as <-. unfold sealing in K2. rewrite P in K2. destruct K2.
           ++ exists k', w. erewrite th_upd by eauto. apply Nat.eqb_neq in Ek. rewrite Ek. auto.
      * intros j u. erewrite th_upd by eauto. destruct (Nat.eqb_spec j i) as [->|E]; intros Hu [[]|X].
        -- injection Hu as <-. discriminate.
        -- eapply C4; eauto.
      * intros j u. erewrite th_upd by eauto. destruct (Nat.eqb_spec j i) as [->|E]; intros Hu.
        -- injection Hu as <-. cbn. repeat split; auto. intros k Hk. apply KH. destruct (C1 k Hk) as (u & U1 & U2).
           exists u. repeat split; auto. apply (C4 k u U1). auto.
        -- specialize (C5 j u Hu). destruct (lt_pc u) eqn:PU; auto.
           ++ destruct C5 as (Q1 & Q2 & Q3). repeat split; auto.
           ++ destruct C5; split; auto.
      * exact C6.
    + apply neutral_C with (t := t); auto; cbn; unfold inserted; rewrite ?P; cbn; auto; discriminate.
  - injection E as <- <-; apply neutral_C with (t := t); auto; cbn; unfold inserted; rewrite ?P; cbn; auto; discriminate.
  - destruct (collect _ _ _); injection E as <- <-; apply neutral_C with (t := t); auto; cbn; unfold inserted; rewrite ?P; cbn; auto; discriminate.
  - injection E as <- <-; apply neutral_C with (t := t); auto; cbn; unfold inserted; rewrite ?P; cbn; auto; discriminate.
  - destruct (ls_floor s); injection E as <- <-; apply neutral_C with (t := t); auto; cbn; unfold inserted; rewrite ?P; cbn; auto; discriminate.
  - injection E as <- <-; apply neutral_C with (t := t); auto; cbn; unfold inserted; rewrite ?P; cbn; auto; discriminate.
  - injection E as <- <-; apply neutral_C with (t := t); auto; rewrite ?P; auto; discriminate.
Qed.

Lemma held_threads s s' r i : ls_threads s' = ls_threads s -> held_by s r i -> held_by s' r i.
Proof. intros E (t & H). exists t. unfold th in *. now rewrite E. Qed.

(** The flush takes a step. *)
Lemma flush_frame s : ls_threads (flush_wal_step s) = ls_threads s /\ ls_mem (flush_wal_step s) = ls_mem s /\
  ls_mrange (flush_wal_step s) = ls_mrange s.
Proof. unfold flush_wal_step. destruct (ls_flush s); auto. destruct (ls_imm s); auto. Qed.
Lemma flush_C s : InvC s -> InvC (flush_wal_step s).
Proof.
  intros [C1 C2 C3 C4 C5 C6]. destruct (flush_frame s) as (F1 & F2 & F3).
  assert (I0 : forall e, In e (ls_imm (flush_wal_step s)) -> In e (ls_imm s)).
  { intros e. unfold flush_wal_step. destruct (ls_flush s); auto.
    - destruct (ls_imm s) eqn:EI; cbn; rewrite ?EI; auto.
    - cbn. intros H. rewrite <- (firstn_skipn n (ls_imm s)). apply in_app_iff. auto. }
  assert (KH : forall r i, held_by s r i -> held_by (flush_wal_step s) r i) by (intros; eapply held_threads; eauto).
  assert (TH : forall i, th (flush_wal_step s) i = th s i) by (intros; unfold th; now rewrite F1).
  constructor; rewrite ?F2, ?F3.
  - intros i Hi. rewrite TH. auto.
  - intros e i He Hi. apply KH. apply I0 in He. eauto.
  - intros i t. rewrite TH. intros Ht It. specialize (C3 i t Ht It). unfold loc in *. rewrite F2.
    assert (SL : (exists j u, th s j = Some u /\ sealing u i) -> exists j u, th (flush_wal_step s) j = Some u /\ sealing u i)
      by (intros (j & u & U1 & U2); exists j, u; rewrite TH; auto).
    assert (LA : forall f, ls_flush s = f -> forall s2, s2 = flush_wal_step s ->
        (forall e, In e (ls_imm s) -> In i (fst e) -> In e (ls_imm s2) \/ In i (ls_sst s2)) ->
        (In i (ls_sst s) -> In i (ls_sst s2)) ->
        In i (ls_mem s) \/ (exists e, In e (ls_imm s2) /\ In i (fst e)) \/ (exists j u, th s2 j = Some u /\ sealing u i) \/ In i (ls_sst s2)).
    { intros f _ s2 -> K1 K2. destruct C3 as [L|[(e & L1 & L2)|[L|L]]]; auto.
      destruct (K1 e L1 L2); auto. right. left. exists e. auto. }
    apply (LA _ eq_refl _ eq_refl); unfold flush_wal_step; destruct (ls_flush s) eqn:EF; auto.
    + destruct (ls_imm s) eqn:EI; cbn; rewrite ?EI; auto.
    + cbn. destruct C6 as (pre & suf & D1 & D2 & D3). rewrite D1. intros e He Hi. subst n. rewrite skipn_pre.
      apply in_app_iff in He as [He|He]; auto. right. apply D3. apply in_concat. exists (fst e). split; auto. now apply in_map.
    + destruct (ls_imm s); auto.
    + intros H. cbn. apply in_app_iff. auto.
  - intros i t. rewrite TH. apply C4.
  - intros j t. rewrite TH. intros Ht. specialize (C5 j t Ht). destruct (lt_pc t); auto.
    + destruct C5 as (Q1 & Q2 & Q3). repeat split; auto.
    + destruct C5; split; auto.
  - unfold flush_wal_step. destruct (ls_flush s) eqn:EF.
    + destruct (ls_imm s) eqn:EI; cbn; [rewrite EF; auto|]. rewrite EI. auto.
    + exact C6.
    + exact C6.
    + destruct C6 as [-> ->]. exists (ls_imm s), []. rewrite app_nil_r. auto.
    + destruct C6 as (pre & suf & D1 & D2 & D3). exists pre, suf. repeat split; auto. intros i Hi. cbn. apply in_app_iff. right. now rewrite D3.
    + cbn. destruct (ls_floor s); exact C6.
    + exact C6.
    + exact I.
Qed.

Lemma spawn_C s x : inserted x = false -> lt_pc x <> LInsert -> InvC s -> InvC (with_threads s (ls_threads s ++ [x])).
Proof.
  intros NI NP [C1 C2 C3 C4 C5 C6]. set (s' := with_threads s (ls_threads s ++ [x])).
  assert (KH : forall r i, held_by s r i -> held_by s' r i).
  { intros r i (t & T1 & T2). exists t. split; auto. now apply th_app_old. }
  constructor.
  - intros i Hi. destruct (C1 i Hi) as (t & T1 & T2). exists t. split; auto. now apply th_app_old.
  - intros e i He Hi. apply KH. eauto.
  - intros i t Ht It. apply th_app in Ht as [Ht|[-> _]]; [|congruence].
    destruct (C3 i t Ht It) as [L|[L|[(k & w & K1 & K2)|L]]]; unfold loc; auto. right. right. left. exists k, w. split; auto. now apply th_app_old.
  - intros i t Ht M. apply th_app in Ht as [Ht|[-> Hn]]; [exact (C4 i t Ht M)|]. destruct M as [M|M]; [|congruence].
    destruct (C1 i M) as (u & U1 & _). congruence.
  - intros j t Ht. apply th_app in Ht as [Ht|[-> Hn]].
    + specialize (C5 j t Ht). destruct (lt_pc t); auto.
      * destruct C5 as (Q1 & Q2 & Q3). repeat split; auto.
      * destruct C5; split; auto.
    + unfold inserted in NI. destruct (lt_pc x); auto; discriminate.
  - exact C6.
Qed.

Lemma step_C s e : InvA s -> InvX s -> InvC s -> apart s e -> room s e -> InvC (levent_step s e).
Proof.
  intros HA HX HC HP HR. destruct e as [n|n|i b|]; cbn [levent_step].
  - apply spawn_C; auto. discriminate.
  - apply spawn_C; auto. discriminate.
  - destruct (nth_error (ls_threads s) i) as [t|] eqn:HT; [|exact HC].
    destruct (write_step b i t s) as [s' t'] eqn:E. eapply write_C; eauto.
  - now apply flush_C.
Qed.
Lemma start_C : InvC ls_start.
Proof. constructor; cbn; try tauto; intros; rewrite th_start in *; discriminate. Qed.
