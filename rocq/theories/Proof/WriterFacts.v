(** The WAL writer: numbering, rotation, pruning and reopening. *)
From Coq Require Import List NArith Bool Lia Sorted.
From Verif Require Import Model.WalScan Model.WalWriter.
Import ListNotations.
Local Open Scope N_scope.

Lemma SSort_app {A} (P : A -> A -> Prop) (a b : list A) :
  StronglySorted P (a ++ b) <-> StronglySorted P a /\ StronglySorted P b /\ forall x y, In x a -> In y b -> P x y.
Proof.
  induction a as [|h a IH]; cbn [app].
  - split; [intros H; split; [constructor|split; [auto|intros x y []]]|tauto].
  - split.
    + intros H. inversion H as [|? ? H1 H2]; subst. apply IH in H1 as (A1 & A2 & A3). rewrite Forall_forall in H2.
      split; [constructor; auto; apply Forall_forall; intros; apply H2, in_or_app; auto|]. split; auto.
      intros x y [<-|Hx] Hy; auto. apply H2, in_or_app; auto.
    + intros (H1 & H2 & H3). inversion H1 as [|? ? A1 A2]; subst. constructor.
      * apply IH. split; auto. split; auto. intros x y Hx Hy. apply H3; cbn; auto.
      * apply Forall_forall. intros x Hx. apply in_app_or in Hx as [Hx|Hx]; [rewrite Forall_forall in A2; auto|]. apply H3; cbn; auto.
Qed.

Section WriterFacts.
  Context {A : Type}.
  Variable size : A -> N.
  Variable tail_id : A -> option N.
  Variable commit_of : A -> option N.
  Notation frame := (frame A).
  Notation files := (files A).
  Notation writer := (writer A).

  (** The frames of some files, each with its segment. *)
  Definition tagged (fs : files) : list (N * frame) := flat_map (fun s => map (pair (fst s)) (snd s)) fs.

  Lemma tagged_app a b : tagged (a ++ b) = tagged a ++ tagged b.
  Proof. apply flat_map_app. Qed.
  Lemma flat_tagged fs : flat fs = map snd (tagged fs).
  Proof.
    unfold flat, tagged. induction fs as [|[s l] fs IH]; cbn; auto. rewrite map_app, map_map, IH. cbn. now rewrite map_id.
  Qed.
  Lemma tagged_In fs q f : In (q, f) (tagged fs) <-> exists l, In (q, l) fs /\ In f l.
  Proof.
    unfold tagged. rewrite in_flat_map. split.
    - intros ([s l] & H1 & H2). apply in_map_iff in H2 as (g & E & H2). cbn in *. inversion E; subst. eauto.
    - intros (l & H1 & H2). exists (q, l). split; auto. apply in_map_iff. exists f. auto.
  Qed.

  (** Segments and frame numbers grow. *)
  Record fok (fs : files) : Prop := {
    fo_segs : StronglySorted N.lt (map fst fs);
    fo_nums : StronglySorted N.le (map (fun t => fst (snd t)) (tagged fs))
  }.
  Record winv (w : writer) : Prop := {
    wi_files : fok (w_files w);
    wi_next : forall t, In t (tagged (w_files w)) -> fst (snd t) <= w_next w;
    wi_seg : w_seg w < w_nseg w;
    wi_pos : 1 <= w_next w;
    wi_one : forall t, In t (tagged (w_files w)) -> 1 <= fst (snd t)
  }.

  Definition grows (fs fs' : files) : Prop := forall s l, In (s, l) fs -> exists l', In (s, l ++ l') fs'.
  Lemma grows_refl fs : grows fs fs.
  Proof. intros s l H. exists []. now rewrite app_nil_r. Qed.
  Lemma grows_trans a b c : grows a b -> grows b c -> grows a c.
  Proof. intros H1 H2 s l H. destruct (H1 s l H) as (l1 & X). destruct (H2 _ _ X) as (l2 & Y). exists (l1 ++ l2). now rewrite app_assoc. Qed.

  (** The writer appended [new] and possibly rotated. *)
  Record ext (w w' : writer) (new : list (N * frame)) : Prop := {
    ex_tagged : tagged (w_files w') = tagged (w_files w) ++ new;
    ex_grows : grows (w_files w) (w_files w');
    ex_new : forall t, In t new -> w_seg w <= fst t;
    ex_seg : w_seg w <= w_seg w'
  }.
  Lemma ext_refl w : ext w w [].
  Proof. constructor; [now rewrite app_nil_r|apply grows_refl|intros t []|lia]. Qed.
  Lemma ext_trans a b c n1 n2 : ext a b n1 -> ext b c n2 -> ext a c (n1 ++ n2).
  Proof.
    intros [A1 A2 A3 A4] [B1 B2 B3 B4]. constructor.
    - now rewrite B1, A1, app_assoc.
    - eapply grows_trans; eauto.
    - intros t Ht. apply in_app_or in Ht as [Ht|Ht]; auto. specialize (B3 t Ht). lia.
    - lia.
  Qed.

  Lemma sat1_small n : n + 1 < 2 ^ 64 -> sat1 n = n + 1.
  Proof. unfold sat1. intros H. apply N.min_l. lia. Qed.

  Section NoBudget.
    Variable cf : wconf.
    Hypothesis HB : c_retention cf = None.

    Lemma enforce_none (w : writer) : enforce cf w = Some w.
    Proof. unfold enforce. now rewrite HB. Qed.

    Lemma put_ext a (w : writer) : winv w -> w_next w + 1 < 2 ^ 64 ->
      winv (put size a w) /\ ext w (put size a w) [(w_seg w, (w_next w, a))] /\ w_next (put size a w) = w_next w + 1 /\
      w_nseg (put size a w) = w_nseg w /\ w_seg (put size a w) = w_seg w /\ w_state (put size a w) = w_state w /\ w_disk (put size a w) = w_disk w.
    Proof.
      intros [[F1 F2] F3 F4 F5 F6] HN. unfold put.
      assert (ET : tagged (w_files (mkWr (w_old w) (w_seg w) (w_cur w ++ [(w_next w, a)]) (w_bytes w + size a) (w_done w)
                    (sat1 (w_next w)) (w_nseg w) (w_state w) (w_disk w))) = tagged (w_files w) ++ [(w_seg w, (w_next w, a))]).
      { unfold w_files. cbn. rewrite !tagged_app, <- app_assoc. f_equal. cbn. rewrite !app_nil_r, map_app. reflexivity. }
      split; [|split; [|cbn; rewrite sat1_small by auto; auto 6]].
      - constructor.
        + constructor; [unfold w_files in *; cbn in *; rewrite map_app in *; exact F1|].
          rewrite ET, map_app. apply SSort_app. split; auto. split; [repeat constructor|].
          intros x y Hx [<-|[]]. apply in_map_iff in Hx as (t & <- & Ht). apply F3, Ht.
        + rewrite ET. intros t Ht. cbn [w_next]. rewrite sat1_small by auto.
          apply in_app_or in Ht as [Ht|[<-|[]]]; [specialize (F3 t Ht)|cbn]; lia.
        + exact F4.
        + cbn [w_next]. rewrite sat1_small by auto. lia.
        + rewrite ET. intros t Ht. apply in_app_or in Ht as [Ht|[<-|[]]]; auto.
      - constructor; auto.
        + intros s l H. unfold w_files in *. cbn in *. apply in_app_or in H as [H|[H|[]]].
          * exists []. rewrite app_nil_r. apply in_or_app; auto.
          * inversion H; subst. exists [(w_next w, a)]. apply in_or_app. cbn; auto.
        + intros t [<-|[]]. cbn. lia.
        + cbn. lia.
    Qed.

    Lemma rotate_ext (w : writer) : winv w -> w_nseg w + 1 < 2 ^ 64 ->
      exists w', rotate cf w = Some w' /\ winv w' /\ ext w w' [] /\ w_next w' = w_next w /\ w_nseg w' = w_nseg w + 1 /\
        ws_frame (w_state w') = ws_frame (w_state w) /\ ws_commit (w_state w') = ws_commit (w_state w) /\ w_disk w' = w_disk w /\ w_cur w' = [].
    Proof.
      intros [[F1 F2] F3 F4 F5 F6] HN. unfold rotate. rewrite enforce_none. eexists. split; [reflexivity|].
      assert (ET : tagged ((w_old w ++ [(w_seg w, w_cur w)]) ++ [(w_nseg w, [])]) = tagged (w_files w)).
      { rewrite tagged_app. cbn. now rewrite app_nil_r. }
      cbn [w_files w_old w_seg w_cur w_next w_nseg w_state w_disk ws_frame ws_commit].
      split; [|split; [|rewrite sat1_small by auto; auto 8]].
      - constructor; unfold w_files; cbn [w_files w_old w_seg w_cur w_next w_nseg w_state w_disk]; rewrite ?ET; auto.
        + constructor; rewrite ?ET; auto. rewrite map_app. apply SSort_app. split; auto. split; [repeat constructor|].
          intros x y Hx [<-|[]]. cbn. change (In x (map fst (w_files w))) in Hx. unfold w_files in Hx, F1. rewrite map_app in Hx, F1.
          apply SSort_app in F1 as (_ & _ & F1). apply in_app_or in Hx as [Hx|[<-|[]]]; cbn; [|lia].
          specialize (F1 x (w_seg w) Hx (or_introl eq_refl)). lia.
        + rewrite sat1_small by auto. lia.
      - constructor; unfold w_files; cbn; rewrite ?app_nil_r.
        + exact ET.
        + intros s l H. exists []. rewrite app_nil_r. apply in_or_app; auto.
        + intros t [].
        + lia.
    Qed.

    Lemma maybe_rotate_ext (w : writer) : winv w -> w_nseg w + 1 < 2 ^ 64 ->
      exists w', maybe_rotate cf w = Some w' /\ winv w' /\ ext w w' [] /\ w_next w' = w_next w /\ w_nseg w' <= w_nseg w + 1 /\
        ws_frame (w_state w') = ws_frame (w_state w) /\ ws_commit (w_state w') = ws_commit (w_state w) /\ w_disk w' = w_disk w.
    Proof.
      intros HW HN. unfold maybe_rotate. destruct (_ || _ || _).
      - exists w. split; auto. split; auto. split; [apply ext_refl|]. repeat split; auto. lia.
      - destruct (rotate_ext w HW HN) as (w' & E & H1 & H2 & H3 & H4 & H5 & H6 & H7 & _). exists w'. repeat split; auto; try apply H1; try apply H2. lia.
    Qed.

    Lemma persist_files (w : writer) : w_files (persist cf w) = w_files w /\ w_next (persist cf w) = w_next w /\ w_seg (persist cf w) = w_seg w
      /\ w_nseg (persist cf w) = w_nseg w /\ w_state (persist cf w) = w_state w /\ (c_state cf = true -> w_disk (persist cf w) = w_state w)
      /\ w_cur (persist cf w) = w_cur w.
    Proof. unfold persist. destruct (c_state cf); cbn; auto 8. repeat split; auto. discriminate. Qed.
    Lemma winv_files w w' : w_files w' = w_files w -> w_next w' = w_next w -> w_seg w' = w_seg w -> w_nseg w' = w_nseg w -> winv w -> winv w'.
    Proof. intros E1 E2 E3 E4 [H1 H2 H3 H4 H5]. constructor; rewrite ?E1, ?E2, ?E3, ?E4; auto. Qed.
    Lemma ext_files a b c n : w_files c = w_files b -> w_seg c = w_seg b -> ext a b n -> ext a c n.
    Proof. intros E1 E2 [H1 H2 H3 H4]. constructor; rewrite ?E1, ?E2; auto. Qed.

    Lemma enqueue_ext a w : winv w -> w_next w + 1 < 2 ^ 64 -> w_nseg w + 1 < 2 ^ 64 ->
      exists w', enqueue size commit_of cf a w = Some (w', (w_next w, w_next w)) /\ winv w' /\
        ext w w' [(w_seg w, (w_next w, a))] /\ w_next w' = w_next w + 1 /\ w_nseg w' <= w_nseg w + 1 /\
        ws_frame (w_state w') = Some (w_next w) /\
        ws_commit (w_state w') = (match commit_of a with Some t => Some t | None => ws_commit (w_state w) end) /\
        (c_state cf = true -> w_disk w' = w_state w').
    Proof.
      intros HW HN HS. unfold enqueue. destruct (put_ext a w HW HN) as (P1 & P2 & P3 & P4 & P5 & P6 & P7).
      rewrite <- P4 in HS. destruct (maybe_rotate_ext _ P1 HS) as (w1 & E & Q1 & Q2 & Q3 & Q4 & Q5 & Q6 & Q7).
      rewrite E. eexists. split.
      { f_equal. f_equal. f_equal. rewrite Q3, P3. lia. }
      destruct (persist_files (progress commit_of a w1)) as (R1 & R2 & R3 & R4 & R5 & R6 & R7).
      split; [|split; [|split; [|split; [|split; [|split]]]]].
      - eapply winv_files; [rewrite R1|rewrite R2|rewrite R3|rewrite R4|exact Q1]; reflexivity.
      - apply (ext_files w w1); [rewrite R1; reflexivity|rewrite R3; reflexivity|]. rewrite <- (app_nil_r [_]). eapply ext_trans; eauto.
      - rewrite R2. cbn. now rewrite Q3.
      - rewrite R4. cbn. lia.
      - rewrite R5. cbn. f_equal. rewrite Q3, P3. lia.
      - rewrite R5. cbn. rewrite Q6, P6. reflexivity.
      - intros HC. rewrite (R6 HC), R5. reflexivity.
    Qed.

    (** The records [l] with consecutive numbers from [n]. *)
    Fixpoint number (n : N) (l : list A) : list frame :=
      match l with [] => [] | a :: r => (n, a) :: number (n + 1) r end.
    Fixpoint acks_of (n : N) (l : list A) : list (N * N) :=
      match l with [] => [] | _ :: r => (n, n) :: acks_of (n + 1) r end.
    Lemma number_snd n l : map snd (number n l) = l.
    Proof. revert n. induction l; intros n; cbn; auto. now rewrite IHl. Qed.
    Lemma number_fst n l f : In f (number n l) -> n <= fst f.
    Proof. revert n. induction l as [|a l IH]; intros n; cbn; [tauto|]. intros [<-|H]; cbn; [lia|]. apply IH in H. lia. Qed.
    Definition last_commit (l : list A) (t : option N) : option N :=
      fold_left (fun t a => match commit_of a with Some x => Some x | None => t end) l t.

    Lemma enqueues_ext l : forall w, winv w -> w_next w + N.of_nat (length l) < 2 ^ 64 -> w_nseg w + N.of_nat (length l) < 2 ^ 64 ->
      exists w' new, enqueues size commit_of cf l w = Some (w', acks_of (w_next w) l) /\ winv w' /\ ext w w' new /\
        map snd new = number (w_next w) l /\ w_next w' = w_next w + N.of_nat (length l) /\ w_nseg w' <= w_nseg w + N.of_nat (length l) /\
        (l <> [] -> ws_frame (w_state w') = Some (w_next w' - 1)) /\ (l = [] -> w' = w) /\
        ws_commit (w_state w') = last_commit l (ws_commit (w_state w)) /\
        (l <> [] -> c_state cf = true -> w_disk w' = w_state w').
    Proof.
      induction l as [|a l IH]; intros w HW HN HS; cbn [length] in *; rewrite ?Nat2N.inj_succ in *.
      - exists w, []. cbn. split; auto. split; auto. split; [apply ext_refl|]. split; auto. split; [lia|]. split; [lia|]. split; [congruence|auto].
        split; auto. split; auto. congruence.
      - destruct (enqueue_ext a w HW) as (w1 & E1 & Q1 & Q2 & Q3 & Q4 & Q5 & Q6 & Q7); [lia|lia|].
        destruct (IH w1 Q1) as (w2 & new & E2 & S1 & S2 & S3 & S4 & S5 & S6 & S7 & S8 & S9); [lia|lia|].
        exists w2, ((w_seg w, (w_next w, a)) :: new). cbn [enqueues]. rewrite E1, E2. cbn [acks_of]. rewrite Q3. split; auto. split; auto.
        split; [change (?x :: new) with ([x] ++ new); eapply ext_trans; eauto|]. split; [cbn; now rewrite S3, Q3|].
        split; [lia|]. split; [lia|]. split; [|split; [congruence|split]].
        + intros _. destruct l as [|b l]; [|apply S6; discriminate]. rewrite (S7 eq_refl) in *. rewrite Q5, Q3. f_equal. lia.
        + rewrite S8, Q6. reflexivity.
        + intros _ HC. destruct l as [|b l]; [|apply S9; auto; discriminate]. rewrite (S7 eq_refl). auto.
    Qed.

    Lemma until_ext st a w : winv w -> w_next w + 1 < 2 ^ 64 -> w_nseg w + 1 < 2 ^ 64 ->
      exists w', enqueue_until size commit_of cf st a w = Some w' /\ winv w' /\
        ext w w' [(w_seg w, (w_next w, a))] /\ w_next w' = w_next w + 1 /\ w_nseg w' <= w_nseg w + 1 /\
        (w_disk w' = w_disk w \/
         c_state cf = true /\ ws_commit (w_disk w') = (match commit_of a with Some t => Some t | None => ws_commit (w_state w) end)).
    Proof.
      intros HW HN HS. destruct (put_ext a w HW HN) as (P1 & P2 & P3 & P4 & P5 & P6 & P7). destruct st; cbn [enqueue_until].
      - eexists. split; [reflexivity|]. split; auto. split; auto. split; auto. split; [rewrite P4; lia|]. auto.
      - rewrite <- P4 in HS. destruct (maybe_rotate_ext _ P1 HS) as (w1 & E & Q1 & Q2 & Q3 & Q4 & Q5 & Q6 & Q7).
        exists w1. split; auto. split; auto. split; [rewrite <- (app_nil_r [_]); eapply ext_trans; eauto|]. split; [lia|]. split; [lia|]. left. congruence.
      - destruct (enqueue_ext a w HW HN HS) as (w1 & E1 & Q1 & Q2 & Q3 & Q4 & Q5 & Q6 & Q7).
        exists w1. rewrite E1. cbn. split; auto. split; auto. split; auto. split; auto. split; auto.
        destruct (c_state cf) eqn:EC; [right|left].
        + split; auto. now rewrite (Q7 eq_refl).
        + clear Q7. unfold enqueue in E1. destruct (maybe_rotate_ext _ P1) as (w2 & E & _ & _ & _ & _ & _ & _ & Q8); [rewrite P4; auto|].
          rewrite E in E1. inversion E1. unfold persist. rewrite EC. cbn. congruence.
    Qed.

    Lemma rotate_now_ext w : winv w -> w_nseg w + 1 < 2 ^ 64 ->
      exists w', rotate_now cf w = Some w' /\ winv w' /\ ext w w' [] /\ w_next w' = w_next w /\ w_nseg w' <= w_nseg w + 1 /\
        ws_frame (w_state w') = ws_frame (w_state w) /\ ws_commit (w_state w') = ws_commit (w_state w) /\
        (w_disk w' = w_disk w \/ w_disk w' = w_state w').
    Proof.
      intros HW HN. unfold rotate_now. destruct (_ =? _).
      - exists w. split; auto. split; auto. split; [apply ext_refl|]. repeat split; auto. lia.
      - destruct (rotate_ext w HW HN) as (w' & E & H1 & H2 & H3 & H4 & H5 & H6 & H7 & _). rewrite E. cbn.
        destruct (persist_files w') as (R1 & R2 & R3 & R4 & R5 & R6 & _).
        eexists. split; [reflexivity|]. split; [eapply winv_files; eauto|]. split; [eapply ext_files; eauto|].
        rewrite R2, R4, R5. repeat split; auto; [lia|].
        unfold persist. destruct (c_state cf); cbn; auto.
    Qed.

    Lemma files_rev (w : writer) : rev (w_files w) = (w_seg w, w_cur w) :: rev (w_old w).
    Proof. unfold w_files. now rewrite rev_app_distr. Qed.
    Lemma open_files ws (w0 : writer) : w_seg w0 + 1 < 2 ^ 64 ->
      exists w, open size cf (w_files w0) ws = Some w /\ w_files w = w_files w0 /\ w_seg w = w_seg w0 /\ w_cur w = w_cur w0 /\
        (c_state cf = true -> w_state w = ws /\ w_disk w = ws) /\ w_seg w < w_nseg w /\ 1 <= w_next w.
    Proof.
      intros H. unfold open. rewrite files_rev, rev_involutive, enforce_none. eexists. split; [reflexivity|].
      unfold w_files. cbn [w_old w_seg w_cur w_state w_disk w_nseg w_next]. split; auto. split; auto. split; auto.
      split; [intros ->; auto|]. rewrite sat1_small by auto. split; [destruct (c_state cf); [destruct (ws_seg ws)|]; lia|lia].
    Qed.
  End NoBudget.

  (** *** Pruning *)
  Lemma drop_below_split floor n : forall fs : files, StronglySorted N.lt (map fst fs) ->
    exists a, fs = a ++ drop_below floor n fs /\ forall s, In s a -> fst s < floor.
  Proof.
    induction n as [|n IHn]; intros fs HS; [exists []; split; [destruct fs; reflexivity|intros s []]|].
    revert HS. induction fs as [|s fs IH]; intros HS; [exists []; split; [reflexivity|intros s []]|].
    cbn [map] in HS. inversion HS as [|? ? H1 H2]; subst. cbn [drop_below].
    destruct (N.ltb_spec (fst s) floor) as [L|L].
    - destruct (IHn fs H1) as (a & E & Ha). exists (s :: a). split; [cbn; now rewrite <- E|]. intros x [<-|Hx]; auto.
    - destruct (IH H1) as (a & E & Ha). destruct a as [|x a].
      + exists []. cbn in *. split; [now rewrite <- E|intros ? []].
      + exfalso. assert (Hx := Ha x (or_introl eq_refl)). rewrite E in H2. cbn in H2. inversion H2 as [|? ? H3 _]; subst. lia.
  Qed.

  Lemma fok_app a b : fok (a ++ b) -> fok b.
  Proof.
    intros [H1 H2]. rewrite map_app in H1. rewrite tagged_app, map_app in H2.
    constructor; [apply SSort_app in H1|apply SSort_app in H2]; tauto.
  Qed.

  Lemma prune_spec floor n w : winv w ->
    exists a, w_files w = a ++ w_files (prune floor n w) /\
      (forall s, In s a -> match floor with Some f => fst s < r_seq f | None => False end) /\
      winv (prune floor n w) /\
      w_next (prune floor n w) = w_next w /\ w_nseg (prune floor n w) = w_nseg w /\ w_seg (prune floor n w) = w_seg w /\
      w_cur (prune floor n w) = w_cur w /\
      w_state (prune floor n w) = w_state w /\ w_disk (prune floor n w) = w_disk w.
  Proof.
    intros HW. pose proof HW as [[F1 F2] F3 F4 F5 F6]. destruct floor as [f|]; cbn [prune].
    - unfold w_files in F1. rewrite map_app in F1. apply SSort_app in F1 as (G1 & _).
      destruct (drop_below_split (r_seq f) n (w_old w) G1) as (a & E & Ha).
      exists a. assert (EF : w_files w = a ++ drop_below (r_seq f) n (w_old w) ++ [(w_seg w, w_cur w)]).
      { unfold w_files. rewrite E at 1. now rewrite app_assoc. }
      split; auto. split; auto. split; [|cbn; auto 8].
      constructor; unfold w_files; cbn [w_old w_seg w_cur w_next w_nseg]; auto.
      + apply fok_app with (a := a). rewrite <- EF. apply HW.
      + intros t Ht. apply F3. rewrite EF, tagged_app. apply in_or_app; auto.
      + intros t Ht. apply F6. rewrite EF, tagged_app. apply in_or_app; auto.
    - exists []. repeat split; auto.
  Qed.

  (** *** What recovery reads *)
  Lemma tagged_split fs a : StronglySorted N.lt (map fst fs) ->
    exists pre, tagged fs = pre ++ filter (fun t => a <=? fst t) (tagged fs) /\ forall t, In t pre -> fst t < a.
  Proof.
    induction fs as [|[s l] fs IH]; intros HS; [exists []; split; [reflexivity|intros t []]|].
    cbn [map fst] in HS. inversion HS as [|? ? H1 H2]; subst. destruct (IH H1) as (pre & E & HP).
    change (tagged ((s, l) :: fs)) with (map (pair s) l ++ tagged fs). rewrite filter_app.
    destruct (N.leb_spec a s) as [L|L].
    - exists []. split; [|intros t []]. cbn [app]. f_equal.
      + clear - L. induction l as [|x l IH]; cbn; auto. destruct (N.leb_spec a s) as [_|X]; [now rewrite <- IH|exfalso; lia].
      + assert (HA : forall t, In t (tagged fs) -> (a <=? fst t) = true).
        { intros [q f] Ht. apply tagged_In in Ht as (l' & Hl & _). cbn. rewrite Forall_forall in H2.
          specialize (H2 q (in_map fst _ _ Hl)). apply N.leb_le. lia. }
        clear - HA. induction (tagged fs) as [|x t IH]; cbn; auto. rewrite HA by (cbn; auto). f_equal. apply IH. intros; apply HA; cbn; auto.
    - exists (map (pair s) l ++ pre). rewrite <- app_assoc. split.
      + f_equal. rewrite E at 1. replace (filter _ (map (pair s) l)) with (@nil (N * frame)); auto.
        clear - L. induction l as [|x l IH]; cbn; auto. destruct (N.leb_spec a s); [lia|auto].
      + intros t Ht. apply in_app_or in Ht as [Ht|Ht]; auto. apply in_map_iff in Ht as (x & <- & _). cbn. lia.
  Qed.

  (** The reference describes a file. *)
  Definition ref_on (fs : files) (r : seg_ref) : Prop :=
    exists f l, In (r_seq r, f :: l) fs /\ fst f = r_first r.

  Lemma frames_from_suffix fs (r : seg_ref) : fok fs -> ref_on fs r ->
    frames_from (Some r) fs = map snd (filter (fun t => r_seq r <=? fst t) (tagged fs)).
  Proof.
    intros [F1 F2] (f0 & l0 & HI & HF). cbn [frames_from].
    assert (HG : forall l x, In (r_seq r, l) fs -> In x l -> r_first r <= fst x).
    { intros l x Hl Hx. assert (l = f0 :: l0).
      { clear - F1 HI Hl. induction fs as [|[s k] fs IH]; [destruct HI|]. cbn [map fst] in F1. inversion F1 as [|? ? H1 H2]; subst.
        rewrite Forall_forall in H2.
        destruct Hl as [Hl|Hl], HI as [HI|HI]; [congruence| | |auto].
        - inversion Hl; subst. specialize (H2 (r_seq r) (in_map fst _ _ HI)). lia.
        - inversion HI; subst. specialize (H2 (r_seq r) (in_map fst _ _ Hl)). lia. }
      subst l. destruct Hx as [<-|Hx]; [lia|].
      apply in_split in HI as (a & b & ->). rewrite tagged_app, map_app in F2. apply SSort_app in F2 as (_ & F2 & _).
      cbn in F2. inversion F2 as [|? ? _ H3]; subst. rewrite Forall_forall in H3. rewrite <- HF. apply H3.
      rewrite map_app. apply in_or_app. left. rewrite map_map. apply in_map_iff. exists x. auto. }
    clear F1 F2 HI HF. induction fs as [|[s l] fs IH]; auto.
    cbn [flat_map]. change (tagged ((s, l) :: fs)) with (map (pair s) l ++ tagged fs).
    rewrite filter_app, map_app, <- IH by (intros k x Hk Hx; apply (HG k x); cbn; auto). f_equal. cbn [fst snd].
    destruct (N.ltb_spec s (r_seq r)) as [L|L].
    - clear - L. induction l as [|x l IH]; cbn; auto. destruct (N.leb_spec (r_seq r) s); [lia|auto].
    - assert (E : map snd (filter (fun t => r_seq r <=? fst t) (map (pair s) l)) = l).
      { clear - L. induction l as [|x l IH]; cbn; auto. destruct (N.leb_spec (r_seq r) s); [cbn; now rewrite IH|lia]. }
      rewrite E. destruct (N.eqb_spec s (r_seq r)) as [->|]; auto.
      assert (HG' : forall x, In x l -> r_first r <= fst x) by (intros x Hx; apply (HG l x); cbn; auto).
      clear - HG'. induction l as [|x l IH]; cbn; auto.
      assert (X := HG' x (or_introl eq_refl)). apply N.leb_le in X. rewrite X. f_equal. apply IH. intros; apply HG'; cbn; auto.
  Qed.

  (** *** Published references *)

  Lemma seg_refs_on cut live (fs : files) r : In r (seg_refs cut live fs) -> ref_on fs r.
  Proof.
    unfold seg_refs. intros H. apply in_flat_map in H as ([s l] & H1 & H2). cbn [fst snd] in H2.
    destruct l as [|f l]; [destruct H2|]. destruct (segment_required _ _ _ _); [|destruct H2]. destruct H2 as [<-|[]].
    exists f, l. auto.
  Qed.
  Lemma seg_refs_sorted cut live (fs : files) : StronglySorted N.lt (map fst fs) -> StronglySorted N.lt (map r_seq (seg_refs cut live fs)).
  Proof.
    intros H. induction fs as [|[s l] fs IH]; [constructor|]. cbn [map fst] in H. inversion H as [|? ? H1 H2]; subst.
    unfold seg_refs. cbn [flat_map]. fold (seg_refs cut live fs). destruct l as [|f l]; [auto|]. cbn [fst snd].
    destruct (segment_required _ _ _ _); [|auto]. cbn [app map r_seq]. constructor; auto.
    rewrite Forall_forall in *. intros x Hx. apply in_map_iff in Hx as (r & <- & Hr). apply seg_refs_on in Hr as (f' & l' & Hr & _).
    apply H2. now apply (in_map fst) in Hr.
  Qed.
  Lemma seg_refs_live cut lv fs q n a : fok fs -> In (q, (n, a)) (tagged fs) -> lv <= n -> In q (map r_seq (seg_refs cut (Some lv) fs)).
  Proof.
    intros HF HI HL. apply tagged_In in HI as (l & H1 & H2). destruct l as [|f l]; [destruct H2|].
    apply in_map_iff. exists (mkRef q (fst f) (fst (last l f))). split; auto. unfold seg_refs. apply in_flat_map. exists (q, f :: l). split; auto.
    cbn [fst snd]. unfold segment_required.
    assert (HN : n <= fst (last l f)).
    { destruct HF as [_ F2]. apply in_split in H1 as (x & y & ->). rewrite tagged_app, map_app in F2. apply SSort_app in F2 as (_ & F2 & _).
      change (tagged ((q, f :: l) :: y)) with (map (pair q) (f :: l) ++ tagged y) in F2. rewrite map_app in F2.
      apply SSort_app in F2 as (F2 & _). rewrite map_map in F2. cbn [snd fst] in F2.
      destruct (exists_last (l := f :: l)) as (l1 & z & E); [discriminate|].
      assert (EL : last l f = z).
      { assert (X : last (f :: l) f = z) by (rewrite E; apply last_last). destruct l; [auto|exact X]. }
      rewrite EL. rewrite E in H2, F2. apply in_app_or in H2 as [H2|[->|[]]]; [|cbn; lia].
      rewrite map_app in F2. apply SSort_app in F2 as (_ & _ & F2). apply (F2 n (fst z)); [|cbn; auto].
      now apply (in_map fst) in H2. }
    match goal with |- context [ (?x <=? ?y) ] => replace (x <=? y) with true by (symmetry; apply N.leb_le; exact (N.le_trans _ _ _ HL HN)) end.
    cbn; auto.
  Qed.
End WriterFacts.
