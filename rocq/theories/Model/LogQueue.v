(** The task that writes the log and the channel that feeds it: who is
    answered what, in which order, and what becomes of the requests when the
    writer fails or is shut down.

    Simplifications.  The channel is the one of the futures crate: each call
    sends through its own clone of the sender (src/wal/mod.rs:458-460, 552,
    568, 583), so that a call's message is queued at once if the channel is
    open and the receiver exists, and the call is refused otherwise; the bound
    [queue_size] of the channel only makes the caller wait afterwards.  What a
    command writes is the subject of Model/WalWriter.v and Model/WalSync.v;
    here a command either takes effect or fails, as an oracle says.  One
    message round of the loop is one step: a call or a shutdown that happens
    during the round has the same effect as just before it, because the number
    of waiting messages a round sees is itself arbitrary.  Times and metrics
    other than the queue depth are left out. *)
From Coq Require Import List Arith Bool.
From Verif Require Import Spec.QueueSpec.
Import ListNotations.

(** src/wal/writer.rs:49-75: [WriterMsg]; the number stands for the one-shot
    channel of the call. *)
Definition msg := (nat * req)%type.

(** What happens to one request in the writer: success; an error before
    anything of it is in the log (src/wal/writer.rs:623-633, encoding, or the
    write itself); an error after it is in the log (flush, rotation, sync or
    state record, src/wal/writer.rs:651-662). *)
Inductive outcome : Type := OutOk | FailBefore | FailAfter.

(** Is the writer task still there (src/wal/writer.rs:177-461)? *)
Inductive life : Type := Running | EndedOk | EndedErr.

(** src/wal/mod.rs:427-436 ([WalHandleInner]) and the receiver's end of the
    channel.  [q_join] is true while the join handle has not been taken;
    [q_shut] is true while a shutdown call waits for the task. *)
Record qstate := QState {
  q_open : bool;
  q_wait : list msg;
  q_depth : nat;
  q_life : life;
  q_next : nat;
  q_join : bool;
  q_shut : bool
}.

(** src/wal/writer.rs:123-162: [spawn_writer]. *)
Definition q_init : qstate := QState true [] 0 Running 0 true false.

(** src/wal/writer.rs:682-704: [handle_enqueue_batch] with
    [handle_enqueue] (613-680): the commands of the batch are handled one
    after another and the first error ends the loop.  Returns the commands
    that took effect and whether all of them succeeded. *)
Fixpoint write_all (out : nat -> outcome) (b : list msg) : list msg * bool :=
  match b with
  | [] => ([], true)
  | m :: r =>
      match out (fst m) with
      | OutOk => let (w, ok) := write_all out r in (m :: w, ok)
      | FailBefore => ([], false)
      | FailAfter => ([m], false)
      end
  end.

(** src/wal/writer.rs:235-249 and 344-363: further messages that are already
    there are added to the batch until the batch has reached the limit or a
    message is no command; that one is set aside.  [n] is the number of
    messages that are seen to be there.  The limit is looked at only after a
    message has been added. *)
Fixpoint collect (n limit : nat) (batch wait : list msg)
  : list msg * option msg * list msg :=
  match n with
  | O => (batch, None, wait)
  | S n' =>
      match wait with
      | [] => (batch, None, [])
      | m :: rest =>
          match snd m with
          | RCmd =>
              let b := batch ++ [m] in
              if limit <=? List.length b then (b, None, rest)
              else collect n' limit b rest
          | _ => (batch, Some m, rest)
          end
      end
  end.

(** The messages dropped with the receiver: the one-shot channel of each is
    dropped, which its caller sees as the writer having gone
    (src/wal/mod.rs:575-577, 590-592, 722-727). *)
Definition gone (l : list msg) : trace :=
  map (fun m : msg => EAnswer (fst m) AGone) l.

Definition answered (a : answer) (l : list msg) : trace :=
  map (fun m : msg => EAnswer (fst m) a) l.

Definition effects (l : list msg) : trace :=
  map (fun m : msg => EDone (fst m) (snd m)) l.

(** The number of commands among the messages: only they are counted in
    [queue_depth] (src/wal/mod.rs:543, 566-593). *)
Fixpoint commands (l : list msg) : nat :=
  match l with
  | [] => 0
  | (_, RCmd) :: r => S (commands r)
  | _ :: r => commands r
  end.

(** The task returns; the shutdown call that waits for it, if there is one,
    returns its result (src/wal/mod.rs:596-617). *)
Definition finish (s : qstate) (ok : bool) (depth : nat) (wait : list msg)
  : qstate * trace :=
  (QState (q_open s) [] depth (if ok then EndedOk else EndedErr) (q_next s)
     (q_join s) false,
   gone wait ++ EEnd ok :: (if q_shut s then [EShut ok] else [])).

(** A rotation or snapshot request (src/wal/writer.rs:270-298, 300-323,
    387-416, 419-439).  A snapshot cannot fail. *)
Definition other_msg (out : nat -> outcome) (s : qstate) (m : msg)
    (depth : nat) (wait : list msg) : qstate * trace :=
  let keep := QState (q_open s) wait depth Running (q_next s) (q_join s)
                (q_shut s) in
  match snd m, out (fst m) with
  | RSnapshot, _ | _, OutOk => (keep, effects [m] ++ answered AOk [m])
  | _, FailBefore =>
      let (s', t) := finish s false depth wait in
      (s', answered AErr [m] ++ t)
  | _, FailAfter =>
      let (s', t) := finish s false depth wait in
      (s', effects [m] ++ answered AErr [m] ++ t)
  end.

(** src/wal/writer.rs:226-328 and 331-441: one message round of [run_writer_loop].  The
    two copies of the round, with and without a timer, differ in the limit of
    the batch: 64, or the size of the queue. *)
Definition round (limit n : nat) (out : nat -> outcome) (s : qstate)
  : qstate * trace :=
  match q_wait s with
  | [] => (s, [])
  | m :: rest =>
      match snd m with
      | RCmd =>
          let '(b, d, rest') := collect n limit [m] rest in
          let depth := q_depth s - commands b in
          let (w, ok) := write_all out b in
          if ok then
            let s1 := QState (q_open s) rest' depth Running (q_next s)
                        (q_join s) (q_shut s) in
            let t1 := effects w ++ answered AOk b in
            match d with
            | None => (s1, t1)
            | Some d =>
                let (s2, t2) := other_msg out s d depth rest' in
                (s2, t1 ++ t2)
            end
          else
            let (s', t) := finish s false depth
                             (match d with Some d => d :: rest' | None => rest' end) in
            (s', effects w ++ answered AErr b ++ t)
      | _ => other_msg out s m (q_depth s) rest
      end
  end.

(** What can happen. *)
Inductive qlabel : Type :=
| QSend (r : req)                        (* a client calls *)
| QShutdown                              (* a client shuts the log down *)
| QDrop                                  (* the last handle is dropped *)
| QRound (timer : bool) (n : nat) (out : nat -> outcome)
| QTimer (ok : bool)                     (* the timer of the writer elapses *)
| QStop (ok : bool).                     (* the loop sees the closed channel *)

Definition running (s : qstate) : bool :=
  match q_life s with Running => true | _ => false end.

(** [queue_size] is the setting of that name (src/wal/mod.rs: [WalConfig]). *)
Definition qstep (queue_size : nat) (l : qlabel) (s : qstate) : qstate * trace :=
  match l with
  | QSend r =>
      (* src/wal/mod.rs:535-563, 566-578, 581-593: [enqueue_command],
         [rotate], [snapshot] *)
      let c := q_next s in
      if q_open s && running s then
        (QState true (q_wait s ++ [(c, r)])
           (match r with RCmd => S (q_depth s) | _ => q_depth s end)
           (q_life s) (S c) (q_join s) (q_shut s),
         [EAccept c r])
      else
        (QState (q_open s) (q_wait s) (q_depth s) (q_life s) (S c)
           (q_join s) (q_shut s),
         [ERefuse c])
  | QShutdown =>
      (* src/wal/mod.rs:596-617: the channel is closed; the first caller
         waits for the task, a later one finds no join handle *)
      if q_join s then
        match q_life s with
        | Running =>
            (QState false (q_wait s) (q_depth s) Running (q_next s) false true,
             [EClose])
        | e =>
            (QState false (q_wait s) (q_depth s) e (q_next s) false false,
             [EClose; EShut (match e with EndedOk => true | _ => false end)])
        end
      else
        (QState false (q_wait s) (q_depth s) (q_life s) (q_next s) false
           (q_shut s),
         [EClose; EShut true])
  | QDrop =>
      (* the channel closes when its last sender is dropped *)
      (QState false (q_wait s) (q_depth s) (q_life s) (q_next s) (q_join s)
         (q_shut s),
       [EClose])
  | QRound timer n out =>
      if running s then round (if timer then 64 else queue_size) n out s
      else (s, [])
  | QTimer ok =>
      (* src/wal/writer.rs:212-225; an error while the task starts
         (194-203) is the same with nothing handled before *)
      if running s && negb ok then finish s false (q_depth s) (q_wait s)
      else (s, [])
  | QStop ok =>
      (* src/wal/writer.rs:324-326, 440 ([None => break]) and 445-460: the loop is
         left when the channel is closed and empty; the final flush may fail *)
      match q_wait s with
      | [] =>
          if running s && negb (q_open s) then
            finish s ok (if ok then 0 else q_depth s) []
          else (s, [])
      | _ => (s, [])
      end
  end.

Fixpoint qrun (queue_size : nat) (ls : list qlabel) (s : qstate)
  : qstate * trace :=
  match ls with
  | [] => (s, [])
  | l :: r =>
      let (s1, t1) := qstep queue_size l s in
      let (s2, t2) := qrun queue_size r s1 in
      (s2, t1 ++ t2)
  end.

(** How many shutdown calls a schedule has (used in statements only; it models nothing in
    /repo). *)
Definition is_shutdown (l : qlabel) : bool :=
  match l with QShutdown => true | _ => false end.

Definition shutdowns (ls : list qlabel) : nat :=
  List.length (filter is_shutdown ls).

(** A schedule in which the storage never fails (used in statements only). *)
Definition sound (l : qlabel) : Prop :=
  match l with
  | QRound _ _ out => forall c, out c = OutOk
  | QTimer ok | QStop ok => ok = true
  | _ => True
  end.
