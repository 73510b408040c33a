(** Properties of the background compaction worker: C64, C65, C66. *)
From Coq Require Import List NArith Bool Arith.
From Verif Require Import Base.Order Model.Version Model.Planner Model.Worker Spec.Plan Spec.RestSpec
     Proof.Demo Proof.RestProps Proof.RestWit.
Import ListNotations.

(** *** C64: without writes, a worker that keeps being triggered stops changing the levels,
    with every level within its limits, whatever files its merges write. *)
Theorem C64_rest :
  forall (K : Type) (KO : KeyOrd K) (E : Type) (eid : E -> N) (estats : E -> option (option K * option K * nat))
         (cfg : pconf) (wc : wconf) (f : nat -> worker K E) ls,
    f 0 = worker_new wc ls ->
    (forall n, rounds eid estats cfg wc (f n) (f (S n))) ->        (* no merge fails, nobody else writes *)
    exists n, rests estats cfg (w_levels (f n)) /\ forall m, n <= m -> w_levels (f m) = w_levels (f n).
Proof. exact @comes_to_rest. Qed.
Print Assumptions C64_rest.

Example C64_applies : exists f, f 0 = worker_new wdefault six /\
  (forall n, rounds wid wstats wcfg wdefault (f n) (f (S n))) /\
  over wstats wcfg (w_levels (f 0)) 0 /\ map (map wid) (w_levels (f 5)) = [[]; []; [15]]%N.
Proof. exact forever. Qed.

(** *** C65: one trigger is enough, when the queue is not longer than the number of jobs
    run together (as by default). *)
Theorem C65_awake_partial :
  forall (K : Type) (KO : KeyOrd K) (E : Type) (eid : E -> N) (estats : E -> option (option K * option K * nat))
         (cfg : pconf) (wc : wconf) ls w,
    wc_queue wc <= Nat.max (wc_jobs wc) 1 ->
    asleep eid estats cfg wc ls w -> rests estats cfg (w_levels w).
Proof. exact @asleep_rests. Qed.
Print Assumptions C65_awake_partial.

Example C65_applies : exists w, asleep wid wstats wcfg wdefault six w /\
  map (map wid) (w_levels w) = [[]; []; [15]]%N /\ wc_queue wdefault <= Nat.max (wc_jobs wdefault) 1.
Proof. exact default_asleep. Qed.

(** With a longer queue the worker falls asleep with level 0 over its limit, a job waiting
    in its queue and nobody to wake it. *)
Theorem C65_asleep_refuted :
  exists w, asleep wid wstats wcfg wroomy six w /\ over wstats wcfg (w_levels w) 0 /\ length (w_queue w) = 1.
Proof. exact roomy_asleep. Qed.
Print Assumptions C65_asleep_refuted.

(** *** C66: follow-ups stay within their budget and cooldown. *)
Theorem C66_follow_partial :
  forall (K : Type) (KO : KeyOrd K) (E : Type) (eid : E -> N) (estats : E -> option (option K * option K * nat))
         (cfg : pconf) (wc : wconf) ls pss,
    let gs := follow_ups eid estats cfg wc 0 pss (worker_new wc ls) in few wc gs /\ spaced wc gs.
Proof. exact @follow_limits. Qed.
Print Assumptions C66_follow_partial.

Example C66_applies : follow_ups wid wstats wcfg wlong 0 roomy_rounds (worker_new wlong six) = [(0, 10%N); (3, 40%N)].
Proof. exact some_follows. Qed.

(** Chained compactions are not held back: with no follow-up allowed, rows go from level 0
    through level 1 to level 2 at one instant, after one trigger. *)
Theorem C66_chain_refuted : exists w0 w1 w2 again,
  wc_follow wnofollow = 0 /\ take_kick (worker_new wnofollow two) = Some w0 /\
  cycle wid wstats wcfg wnofollow [out 11 10] w0 = Some (w1, true) /\
  cycle wid wstats wcfg wnofollow [out 12 10] w1 = Some (w2, again) /\
  map (map wid) (w_levels w0) = [[1; 2]]%N /\ map (map wid) (w_levels w1) = [[]; [11]]%N /\
  map (map wid) (w_levels w2) = [[]; []; [12]]%N.
Proof. exact chained. Qed.
Print Assumptions C66_chain_refuted.
