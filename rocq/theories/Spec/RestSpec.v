(** What is expected of the background compaction worker when nothing else writes. *)
From Coq Require Import List NArith Bool Arith.
From Verif Require Import Base.Order Model.Version Model.Planner Model.Worker Spec.Plan.
Import ListNotations.

Section Rest.
  Context {K : Type} {KO : KeyOrd K} {E : Type}.
  Variable eid : E -> N.
  Variable estats : E -> option (option K * option K * nat).
  Variable cfg : pconf.
  Variable wc : wconf.

  (** Every level is within its limits. *)
  Definition rests (ls : list (list E)) : Prop := forall l, ~ over estats cfg ls l.

  (** No merge fails. *)
  Definition faultless (ps : list (@pick E)) : Prop := Forall (fun p => p_outs p <> None) ps.

  Definition with_kicks (n : nat) (w : worker K E) : worker K E :=
    mkWorker (w_levels w) (w_head w) (w_queue w) (w_cascade w) n.

  (** The worker goes round once, for whatever reason it does. *)
  Definition rounds (w w' : worker K E) : Prop :=
    exists ps w1 again n, faultless ps /\ cycle eid estats cfg wc ps w = Some (w1, again) /\ w' = with_kicks n w1.

  (** A worker over [ls] that is woken by the builder and then by nobody but itself: it goes
      round at once when the last round says so, and otherwise when a trigger waits.  The
      [bool]: it will go round at once. *)
  Inductive alone (ls : list (list E)) : worker K E -> bool -> Prop :=
  | alone_new : alone ls (worker_new wc ls) false
  | alone_again w ps w' again :
      alone ls w true -> faultless ps -> cycle eid estats cfg wc ps w = Some (w', again) -> alone ls w' again
  | alone_kick w w0 ps w' again :
      alone ls w false -> take_kick w = Some w0 -> faultless ps ->
      cycle eid estats cfg wc ps w0 = Some (w', again) -> alone ls w' again.
  (** It waits, and only somebody else can wake it. *)
  Definition asleep (ls : list (list E)) (w : worker K E) : Prop := alone ls w false /\ w_kicks w = 0.

  (** The clock readings at which running jobs queue a follow-up, which also sets off a
      trigger. *)
  Fixpoint sends (ps : list (@pick E)) (jobs : list (job K)) (w : worker K E) : list N :=
    match ps with
    | [] => []
    | p :: r =>
        match nth_error jobs (p_index p) with
        | None => []
        | Some j =>
            let w1 := fst (run_job eid estats cfg wc p j w) in
            (if Nat.eqb (w_kicks w1) (w_kicks w) then [] else [p_now p]) ++
            sends r (firstn (p_index p) jobs ++ skipn (S (p_index p)) jobs) w1
        end
    end.
  (** The follow-ups of a whole life, with the number of the round each belongs to. *)
  Fixpoint follow_ups (round : nat) (pss : list (list (@pick E))) (w : worker K E) : list (nat * N) :=
    match pss with
    | [] => []
    | ps :: r =>
        map (pair round) (sends ps (fst (take_jobs eid estats cfg wc w)) (snd (take_jobs eid estats cfg wc w))) ++
        match cycle eid estats cfg wc ps w with
        | Some (w', _) => follow_ups (S round) r w'
        | None => []
        end
    end.
  (** Not more than the configured number in one round, and each at least the cooldown after
      those before. *)
  Definition few (gs : list (nat * N)) : Prop :=
    forall r, length (filter (fun g => Nat.eqb (fst g) r) gs) <= wc_follow wc.
  Definition spaced (gs : list (nat * N)) : Prop :=
    ForallOrdPairs (fun a b => (wc_cooldown wc <= snd b - snd a)%N) gs.
End Rest.

