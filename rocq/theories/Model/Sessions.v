(** Sessions on a manifest store (the external crate fusio-manifest, as used by
    src/manifest/driver.rs).  Definitions only.

    Contract of the crate, part of the trusted base: a store maps keys to values; a session
    reads the store as it was when the session was opened ([session_write],
    [session_read]); [commit] makes all writes of a session visible at once, and only if
    the store has not changed since the session was opened (the manifest head is replaced
    by compare-and-swap), otherwise it fails and writes nothing; a session that is dropped
    or ended writes nothing.  Checkpoints, leases and segment files are not modelled. *)
From Coq Require Import List NArith Bool.
Import ListNotations.

Section Sessions.
  Context {Key Val Req Res : Type}.
  Variable key_eqb : Key -> Key -> bool.

  (** The content of a store, one entry per key, in no particular order. *)
  Definition store := list (Key * Val).
  (** [session.get] *)
  Fixpoint kget (k : Key) (s : store) : option Val :=
    match s with
    | [] => None
    | (k', v) :: r => if key_eqb k' k then Some v else kget k r
    end.
  Definition kdel (k : Key) (s : store) : store := filter (fun e => negb (key_eqb (fst e) k)) s.
  Definition kput (k : Key) (v : Val) (s : store) : store := (k, v) :: kdel k s.
  (** A staged [put] or [delete]. *)
  Definition swrite := (Key * option Val)%type.
  Definition kwrite (s : store) (w : swrite) : store :=
    match snd w with Some v => kput (fst w) v s | None => kdel (fst w) s end.
  Definition kapply (ws : list swrite) (s : store) : store := fold_left kwrite ws s.

  (** How a call uses its session: it ends it with a result, or it stages writes and has
      this result if they can be committed. *)
  Inductive outcome := Ended (r : Res) | Staged (ws : list swrite) (r : Res).
  Variable exec : Req -> store -> outcome.

  (** An open session: its call, what it read, the state of the store it read. *)
  Record session := mkSess { s_req : Req; s_tag : N; s_writes : list swrite; s_res : Res }.
  Record mstore := mkMS { m_kv : store; m_tag : N; m_open : list (N * session) }.
  Definition mstart : mstore := mkMS [] 0 [].

  (** [c] names the caller (task, process or thread). *)
  Inductive event := EOpen (c : N) (q : Req) | ECommit (c : N) | EDrop (c : N).
  (** What a call returns: its result, or a failed precondition. *)
  Inductive reply := Returned (r : Res) | Precondition.

  Definition find_open (c : N) (s : mstore) : option session :=
    match find (fun e => N.eqb (fst e) c) (m_open s) with Some e => Some (snd e) | None => None end.
  Definition close (c : N) (l : list (N * session)) := filter (fun e => negb (N.eqb (fst e) c)) l.

  (** A caller has one call at a time: opening again drops the call before. *)
  Definition mstep (s : mstore) (e : event) : mstore * option (Req * reply) :=
    match e with
    | EOpen c q =>
        match exec q (m_kv s) with
        | Ended r => (mkMS (m_kv s) (m_tag s) (close c (m_open s)), Some (q, Returned r))
        | Staged ws r => (mkMS (m_kv s) (m_tag s) ((c, mkSess q (m_tag s) ws r) :: close c (m_open s)), None)
        end
    | ECommit c =>
        match find_open c s with
        | None => (s, None)
        | Some x =>
            if N.eqb (s_tag x) (m_tag s)
            then (mkMS (kapply (s_writes x) (m_kv s)) (m_tag s + 1) (close c (m_open s)), Some (s_req x, Returned (s_res x)))
            else (mkMS (m_kv s) (m_tag s) (close c (m_open s)), Some (s_req x, Precondition))
        end
    | EDrop c => (mkMS (m_kv s) (m_tag s) (close c (m_open s)), None)
    end.
  Fixpoint mrun (s : mstore) (es : list event) : mstore :=
    match es with [] => s | e :: r => mrun (fst (mstep s e)) r end.
End Sessions.
Arguments store Key Val : clear implicits.
Arguments outcome Key Val Res : clear implicits.
Arguments mstore Key Val Req Res : clear implicits.
Arguments event Req : clear implicits.
Arguments reply Res : clear implicits.
