(** What the log writer has to do with a sequence of commands. *)
From Coq Require Import List NArith Bool.
From Verif Require Import Model.WalScan Model.WalWriter.
Import ListNotations.
Local Open Scope N_scope.

Section WriterSpec.
  Context {A : Type}.
  Variable size : A -> N.
  Variable commit_of : A -> option N.

  (** Append a record; start a new segment. *)
  Inductive wcmd := Append (a : A) | NewSegment.
  Definition appended (cmds : list wcmd) : list A :=
    flat_map (fun c => match c with Append a => [a] | NewSegment => [] end) cmds.

  (** The commands in order, with the acknowledgement of each append. *)
  Fixpoint wexec (cf : wconf) (cmds : list wcmd) (w : writer A) : option (writer A * list (N * N)) :=
    match cmds with
    | [] => Some (w, [])
    | Append a :: r =>
        match enqueue size commit_of cf a w with
        | None => None
        | Some (w1, k) => match wexec cf r w1 with None => None | Some (w2, ks) => Some (w2, k :: ks) end
        end
    | NewSegment :: r => match rotate_now cf w with None => None | Some w1 => wexec cf r w1 end
    end.

  (** The [i]-th record (from 0) has number [i + 1]. *)
  Definition numbered_from_1 (frames : list (frame A)) (l : list A) : Prop :=
    forall i, nth_error frames i = option_map (fun a => (1 + N.of_nat i, a)) (nth_error l i).
  Definition acks_from_1 (acks : list (N * N)) (l : list A) : Prop :=
    forall i, nth_error acks i = option_map (fun _ => (1 + N.of_nat i, 1 + N.of_nat i)) (nth_error l i).
End WriterSpec.
Arguments wcmd A : clear implicits.

(** A log over its whole life: commands, deletion of old files by the database, and restarts.
    [WCrash i]: the process dies, [i] being the command it was handling and how far it got,
    and the log is opened again from the files and the persisted state. *)
Section WriterLife.
  Context {A : Type}.
  Variable size : A -> N.
  Variable commit_of : A -> option N.
  Inductive wlife := WCmd (c : wcmd A) | WPrune (floor : option seg_ref) (n : nat) | WCrash (during : option (stage * A)).

  Definition at_crash (cf : wconf) (during : option (stage * A)) (w : writer A) : option (writer A) :=
    match during with None => Some w | Some (st, a) => enqueue_until size commit_of cf st a w end.
  Definition wlife_step (cf : wconf) (e : wlife) (w : writer A) : option (writer A) :=
    match e with
    | WCmd c => option_map fst (wexec size commit_of cf [c] w)
    | WPrune floor n => Some (prune floor n w)
    | WCrash during =>
        match at_crash cf during w with
        | Some w1 => open size cf (w_files w1) (w_disk w1)
        | None => None
        end
    end.
  Fixpoint wlife_run (cf : wconf) (es : list wlife) (w : writer A) : option (writer A) :=
    match es with
    | [] => Some w
    | e :: r => match wlife_step cf e w with Some w1 => wlife_run cf r w1 | None => None end
    end.

  (** A restart at which the last number given out can be found: the newest file has frames,
      or the saved state names it. *)
  Definition number_known (cf : wconf) (w : writer A) : Prop :=
    w_cur w <> [] \/
    c_state cf = true /\ forall f, In f (flat (w_files w)) -> exists n, ws_frame (w_disk w) = Some n /\ fst f <= n.
  Fixpoint numbers_known (cf : wconf) (es : list wlife) (w : writer A) : Prop :=
    match es with
    | [] => True
    | e :: r => match e with
                | WCrash during => match at_crash cf during w with Some w1 => number_known cf w1 | None => True end
                | _ => True
                end /\
                match wlife_step cf e w with Some w1 => numbers_known cf r w1 | None => True end
    end.

  (** No command is interrupted. *)
  Definition orderly (e : wlife) : Prop :=
    match e with WCrash (Some (Written, _)) | WCrash (Some (Rotated, _)) => False | _ => True end.
End WriterLife.
Arguments wlife A : clear implicits.
