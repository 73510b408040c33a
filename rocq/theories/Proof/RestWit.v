(** Runs of the background worker used as witnesses. *)
From Coq Require Import List NArith Bool Arith Lia.
From Verif Require Import Base.Order Model.SsTable Model.Version Model.Planner Model.Worker Spec.Plan Spec.RestSpec
     Proof.Demo Proof.PlannerFacts Proof.RestProps.
Import ListNotations.

(** A file: its id, minimal and maximal key and bytes. *)
Definition wfile := (N * (N * N * nat))%type.
Definition wstats (f : wfile) : option (option N * option N * nat) :=
  let '(_, (a, z, b)) := f in Some (Some a, Some z, b).
Definition wid (f : wfile) : N := fst f.
Definition wf (id a z : N) : wfile := (id, (a, z, 10)).

(** Level 0 holds at most one file, level 1 none, level 2 up to twenty; two files are merged at a time. *)
Definition wcfg : pconf := mkPConf 2 2 None [0; 20] [] 2 None.
Definition six : list (list wfile) :=
  [[wf 1 0 5; wf 2 1 6; wf 3 2 7; wf 4 3 8; wf 5 4 9; wf 6 5 10]].
Definition out (id now : N) : @pick wfile := mkPick 0 (Some [wf id 0 9]) now.

Fixpoint rounds_of (wc : wconf) (pss : list (list (@pick wfile))) (w : worker N wfile) (again : bool)
  : option (worker N wfile * bool) :=
  match pss with
  | [] => Some (w, again)
  | ps :: r =>
      match (if again then Some w else take_kick w) with
      | None => None
      | Some w0 => match cycle wid wstats wcfg wc ps w0 with
                   | Some (w1, a) => rounds_of wc r w1 a
                   | None => None
                   end
      end
  end.
Definition faultlessb (ps : list (@pick wfile)) : bool :=
  forallb (fun p => match p_outs p with Some _ => true | None => false end) ps.
Lemma faultlessb_ok ps : faultlessb ps = true -> faultless ps.
Proof.
  unfold faultlessb. rewrite forallb_forall. intros H. apply Forall_forall. intros p Hp.
  apply H in Hp. destruct (p_outs p); congruence.
Qed.
Lemma rounds_of_alone wc ls : forall pss w again w' a,
  alone wid wstats wcfg wc ls w again -> forallb faultlessb pss = true ->
  rounds_of wc pss w again = Some (w', a) -> alone wid wstats wcfg wc ls w' a.
Proof.
  induction pss as [|ps pss IH]; intros w again w' a HA HF H; cbn [rounds_of forallb] in *.
  - injection H as <- <-. auto.
  - apply andb_true_iff in HF as [HF1 HF2]. apply faultlessb_ok in HF1.
    destruct again; cbv iota in H.
    + destruct (cycle wid wstats wcfg wc ps w) as [[w1 a1]|] eqn:EC; [|discriminate].
      eapply IH; [|exact HF2|exact H]. eapply alone_again; eauto.
    + destruct (take_kick w) as [w0|] eqn:EK; [|discriminate].
      destruct (cycle wid wstats wcfg wc ps w0) as [[w1 a1]|] eqn:EC; [|discriminate].
      eapply IH; [|exact HF2|exact H]. eapply alone_kick; eauto.
Qed.

(** One job at a time, a queue of two, one follow-up every 500. *)
Definition wroomy : wconf := mkWConf 1 2 1 500.
Definition roomy_rounds := [[out 11 10]; [out 12 20]; [out 13 30]; [out 14 40]; [out 15 50]].
Lemma roomy_asleep : exists w, asleep wid wstats wcfg wroomy six w /\ over wstats wcfg (w_levels w) 0 /\ length (w_queue w) = 1.
Proof.
  destruct (rounds_of wroomy roomy_rounds (worker_new wroomy six) false) as [[w a]|] eqn:ER; [|vm_compute in ER; discriminate].
  assert (HA : alone wid wstats wcfg wroomy six w a).
  { apply (rounds_of_alone wroomy six roomy_rounds (worker_new wroomy six) false); [constructor|vm_compute; reflexivity|exact ER]. }
  vm_compute in ER. injection ER as <- <-. eexists. split; [split; [exact HA|reflexivity]|]. split; [|reflexivity].
  split; [discriminate|]. left. vm_compute. lia.
Qed.

(** The default: one job at a time, a queue of one. *)
Definition wdefault : wconf := mkWConf 1 1 1 500.
Definition default_rounds := [[out 11 10]; [out 12 20]; [out 13 30]; [out 14 40]; [out 15 50]].
Lemma default_asleep : exists w, asleep wid wstats wcfg wdefault six w /\
  map (map wid) (w_levels w) = [[]; []; [15]]%N /\ wc_queue wdefault <= Nat.max (wc_jobs wdefault) 1.
Proof.
  destruct (rounds_of wdefault (default_rounds ++ [[]]) (worker_new wdefault six) false) as [[w a]|] eqn:ER;
    [|vm_compute in ER; discriminate].
  assert (HA : alone wid wstats wcfg wdefault six w a).
  { apply (rounds_of_alone wdefault six (default_rounds ++ [[]]) (worker_new wdefault six) false); [constructor|vm_compute; reflexivity|exact ER]. }
  vm_compute in ER. injection ER as <- <-. eexists. split; [split; [exact HA|reflexivity]|]. split; [reflexivity|]. vm_compute. lia.
Qed.

(** A run that goes round for ever: after the work of [default_rounds], rounds without a job. *)
Fixpoint unroll (wc : wconf) (pss : list (list (@pick wfile))) (w : worker N wfile) (n : nat) : worker N wfile :=
  match n with
  | O => w
  | S n => match cycle wid wstats wcfg wc (hd [] pss) w with
           | Some (w', _) => unroll wc (tl pss) w' n
           | None => w
           end
  end.
Lemma unroll_step wc : forall n pss w, (forall k, faultless (nth k pss [])) ->
  (forall k, k <= n -> cycle wid wstats wcfg wc (nth k pss []) (unroll wc pss w k) <> None) ->
  rounds wid wstats wcfg wc (unroll wc pss w n) (unroll wc pss w (S n)).
Proof.
  induction n as [|n IH]; intros pss w HF HC.
  - specialize (HC 0 (le_n 0)). cbn [unroll] in *. replace (nth 0 pss []) with (hd [] pss) in HC by (destruct pss; reflexivity).
    destruct (cycle wid wstats wcfg wc (hd [] pss) w) as [[w' a]|] eqn:E; [|congruence].
    exists (hd [] pss), w', a, (w_kicks w'). split; [|split; [exact E|destruct w'; reflexivity]].
    replace (hd [] pss) with (nth 0 pss []) by (destruct pss; reflexivity). apply HF.
  - pose proof (HC 0 (Nat.le_0_l _)) as H0. cbn [unroll] in H0.
    replace (nth 0 pss []) with (hd [] pss) in H0 by (destruct pss; reflexivity).
    cbn [unroll] in *. destruct (cycle wid wstats wcfg wc (hd [] pss) w) as [[w' a]|] eqn:E; [|congruence].
    apply (IH (tl pss) w').
    + intros k. specialize (HF (S k)). destruct pss; [destruct k; exact HF|exact HF].
    + intros k Hk. specialize (HC (S k) ltac:(lia)). cbn [unroll] in HC. rewrite E in HC.
      replace (nth k (tl pss) []) with (nth (S k) pss []) by (destruct pss; [destruct k|]; reflexivity). exact HC.
Qed.
Lemma forever : exists f, f 0 = worker_new wdefault six /\
  (forall n, rounds wid wstats wcfg wdefault (f n) (f (S n))) /\
  over wstats wcfg (w_levels (f 0)) 0 /\ map (map wid) (w_levels (f 5)) = [[]; []; [15]]%N.
Proof.
  exists (unroll wdefault default_rounds (worker_new wdefault six)). split; [reflexivity|]. split.
  - intros n. apply unroll_step.
    + intros k. destruct (le_lt_dec (length default_rounds) k).
      * rewrite nth_overflow by auto. constructor.
      * assert (HN : In (nth k default_rounds []) default_rounds) by (now apply nth_In).
        apply faultlessb_ok. revert HN. generalize (nth k default_rounds []). apply Forall_forall.
        repeat constructor.
    + intros k Hk.
      assert (G : forall j, let w := unroll wdefault default_rounds (worker_new wdefault six) (5 + j) in
                w_queue w = [] /\ w_levels w = [[]; []; [wf 15 0 9]]).
      { assert (G1 : forall j w, w_queue w = [] -> w_levels w = [[]; []; [wf 15 0 9]] ->
          cycle wid wstats wcfg wdefault [] w <> None /\ w_queue (unroll wdefault [] w j) = [] /\ w_levels (unroll wdefault [] w j) = [[]; []; [wf 15 0 9]]).
        { assert (GC : forall w, w_queue w = [] -> w_levels w = [[]; []; [wf 15 0 9]] ->
            exists w', cycle wid wstats wcfg wdefault [] w = Some (w', false) /\ w_queue w' = [] /\ w_levels w' = [[]; []; [wf 15 0 9]]).
          { intros [wl wh wq wca wk]. simpl. intros -> ->. unfold cycle, take_jobs.
            set (p := plan_version _ _ _ _ _) || idtac. eexists. split; [vm_compute; reflexivity|]. split; reflexivity. }
          induction j as [|j IHj]; intros w H1 H2; destruct (GC w H1 H2) as (w' & C1 & C2 & C3).
          - rewrite C1. split; [discriminate|]. auto.
          - rewrite C1. split; [discriminate|]. cbn [unroll hd tl]. rewrite C1. apply IHj; auto. }
        intros j. cbv zeta.
        destruct (G1 j (unroll wdefault default_rounds (worker_new wdefault six) 5)) as (_ & G2); [vm_compute; reflexivity..|].
        assert (UA : forall a b pss w, (forall k, k < a -> cycle wid wstats wcfg wdefault (nth k pss []) (unroll wdefault pss w k) <> None) ->
           unroll wdefault pss w (a + b) = unroll wdefault (skipn a pss) (unroll wdefault pss w a) b).
        { induction a as [|a IHa]; intros b pss w HU; [reflexivity|]. pose proof (HU 0 ltac:(lia)) as H0. cbn [unroll] in H0.
          replace (nth 0 pss []) with (hd [] pss) in H0 by (destruct pss; reflexivity).
          cbn [unroll Nat.add]. destruct (cycle wid wstats wcfg wdefault (hd [] pss) w) as [[w' x]|] eqn:E; [|congruence].
          rewrite IHa; [destruct pss; [now rewrite !skipn_nil|reflexivity]|].
          intros k' Hk'. specialize (HU (S k') ltac:(lia)). cbn [unroll] in HU. rewrite E in HU.
          replace (nth k' (tl pss) []) with (nth (S k') pss []) by (destruct pss; [destruct k'|]; reflexivity). exact HU. }
        rewrite UA; [exact G2|].
        intros k' Hk'. do 5 (destruct k' as [|k']; [vm_compute; discriminate|]). lia. }
      destruct (le_lt_dec 5 k) as [L|L].
      * rewrite nth_overflow by exact L. replace k with (5 + (k - 5)) by lia.
        destruct (G (k - 5)) as [Q1 Q2]. destruct (unroll _ _ _ _) as [wl wh wq wca wk]. simpl in Q1, Q2. subst.
        vm_compute. discriminate.
      * do 5 (destruct k as [|k]; [vm_compute; discriminate|]). lia.
  - split; [|vm_compute; reflexivity]. split; [discriminate|]. left. vm_compute. lia.
Qed.

(** No follow-up is allowed, and files still go through two levels at one instant. *)
Definition wnofollow : wconf := mkWConf 1 1 0 500.
Definition two : list (list wfile) := [[wf 1 0 5; wf 2 1 6]].
Lemma chained : exists w0 w1 w2 again,
  wc_follow wnofollow = 0 /\ take_kick (worker_new wnofollow two) = Some w0 /\
  cycle wid wstats wcfg wnofollow [out 11 10] w0 = Some (w1, true) /\
  cycle wid wstats wcfg wnofollow [out 12 10] w1 = Some (w2, again) /\
  map (map wid) (w_levels w0) = [[1; 2]]%N /\ map (map wid) (w_levels w1) = [[]; [11]]%N /\
  map (map wid) (w_levels w2) = [[]; []; [12]]%N.
Proof. do 4 eexists. split; [reflexivity|]. split; [reflexivity|]. split; [vm_compute; reflexivity|]. split; [vm_compute; reflexivity|]. vm_compute. auto. Qed.

Definition wlong : wconf := mkWConf 1 2 1 25.
Lemma some_follows : follow_ups wid wstats wcfg wlong 0 roomy_rounds (worker_new wlong six) = [(0, 10%N); (3, 40%N)].
Proof. vm_compute. reflexivity. Qed.
