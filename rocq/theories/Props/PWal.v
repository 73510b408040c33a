(** The write-ahead log: frames (C14), torn tails (C15), transactions (C16), the commit
    timestamp column (C45). *)
From Coq Require Import String List NArith Bool.
From Verif Require Import Model.Columns Model.Frame Model.WalScan Model.Replay Spec.WalSpec Spec.ReplaySpec
     Proof.ColumnFacts Proof.FrameFacts Proof.ReplayFacts Proof.WalDemo.
Import ListNotations.
Local Open Scope N_scope.

(** *** C14: decoding returns what was encoded. *)
(** Frames with a payload below 2^32 bytes (the missing part is refuted below), followed
    by arbitrary bytes. *)
Theorem C14_frame_partial :
  forall f rest, frame_ok f ->
    exists h, decode_from (wbytes f ++ rest) = Ok (h, rest) /\
      h_type h = wf_type f /\ h_seq h = wf_seq f /\ h_len h = N.of_nat (List.length (wf_payload f)) /\
      slice (wbytes f ++ rest) HEADER_SIZE (HEADER_SIZE + List.length (wf_payload f)) = wf_payload f.
Proof. exact c14_frame. Qed.
Print Assumptions C14_frame_partial.
Theorem C14_payload :
  forall array array_len ipc_write ipc_read c e, means array array_len ipc_write ipc_read c e ->
    exists t p, encode_command array array_len ipc_write c = Ok (t, p) /\
      decode_frame array array_len ipc_read t p = Ok e /\ Forall byte_ok p.
Proof. exact payload_round. Qed.
Print Assumptions C14_payload.
(** A payload of 2^32 bytes or more is written with a truncated length and never read
    back. *)
Theorem C14_oversized_refuted :
  exists f, 1 <= wf_seq f /\ wf_seq f < 2 ^ 64 /\ Forall byte_ok (wf_payload f) /\
    forall h, decode_from (wbytes f) <> Ok (h, []).
Proof. exact (ex_intro _ huge_frame huge_lost). Qed.
Print Assumptions C14_oversized_refuted.
Theorem C14_every_oversized_refuted :
  forall seq t p h rest, 2 ^ 32 <= N.of_nat (List.length p) -> seq < 2 ^ 64 -> Forall byte_ok p ->
    decode_from (frame_bytes seq t p) = Ok (h, rest) -> h_len h < N.of_nat (List.length p) /\ rest <> [].
Proof. exact oversized. Qed.
Print Assumptions C14_every_oversized_refuted.
Example C14_applies :
  Forall frame_ok demo_frames /\ Forall2 (means unit demo_len demo_write demo_read) demo_cmds demo_events /\
  crc32c [49; 50; 51; 52; 53; 54; 55; 56; 57] = 3808858755.
Proof. split; [exact demo_frames_ok|]. split; [exact demo_means|]. vm_compute. reflexivity. Qed.

(** *** C15: torn tails. *)
Theorem C15_frames :
  forall l k n, Forall frame_ok l -> (k <= List.length (log_bytes l))%nat -> whole_frames l k n ->
    exists e, segment_frames (firstn k (log_bytes l)) =
      (map (fun f => (header_new (wf_seq f) (wf_type f) (wf_payload f), wf_payload f)) (firstn n l), e) /\
      (e = AtEnd \/ e = Torn).
Proof. exact c15_segment. Qed.
Print Assumptions C15_frames.
(** [whole_frames] determines exactly one number of frames. *)
Theorem C15_cut :
  forall l k, (k <= List.length (log_bytes l))%nat -> exists n, whole_frames l k n /\ forall m, whole_frames l k m -> m = n.
Proof. exact whole_unique. Qed.
Print Assumptions C15_cut.
(** The whole log: full segments and a last one that was cut. *)
Theorem C15_log :
  forall array array_len ipc_write ipc_read floor segs s last k n evs,
    Forall (fun x => Forall frame_ok (snd x)) segs -> Forall frame_ok last ->
    (k <= List.length (log_bytes last))%nat -> whole_frames last k n ->
    Forall2 (carries array array_len ipc_write ipc_read) (kept_frames floor (segs ++ [(s, firstn n last)])) evs ->
    scan_segments array array_len ipc_read floor (dir_of segs ++ [(s, firstn k (log_bytes last))]) = Ok evs.
Proof. exact scan_cut. Qed.
Print Assumptions C15_log.
(** Opening the log for writing cuts the torn bytes off and finds the last whole frame. *)
Theorem C15_repair :
  forall segs s last k n, Forall frame_ok last ->
    Forall (fun f => match wf_type f with TxnAppend | TxnCommit => (8 <= List.length (wf_payload f))%nat | _ => True end) last ->
    (k <= List.length (log_bytes last))%nat -> whole_frames last k n ->
    exists tm, tail_metadata (segs ++ [(s, firstn k (log_bytes last))]) = Ok (Some tm, segs ++ [(s, log_bytes (firstn n last))]) /\
      tm_active tm = s /\ tm_bytes tm = List.length (log_bytes (firstn n last)) /\
      tm_last_frame tm = match rev (firstn n last) with f :: _ => Some (wf_seq f) | [] => None end.
Proof. exact c15_repair. Qed.
Print Assumptions C15_repair.
Example C15_applies :
  exists n, whole_frames demo_frames 180 n /\ n = 4%nat /\ (180 <= List.length (log_bytes demo_frames))%nat /\
    Forall frame_ok demo_frames /\
    Forall2 (carries unit demo_len demo_write demo_read) (kept_frames (Some (mkRef 3 2 7)) ([(2, demo_frames)] ++ [(3, firstn n demo_frames)]))
      (firstn 3 (skipn 1 demo_events)).
Proof. exact c15_demo. Qed.

(** *** C16: all or nothing. *)
Theorem C16_transactions :
  forall (P S : Type) (apply : P -> N -> S -> option S) l s, log_wf l ->
    replay apply l [] None s =
      match apply_all apply (committed l) s with
      | Some s' => Some (s', newest (commit_times l))
      | None => None
      end.
Proof. exact @c16. Qed.
Print Assumptions C16_transactions.
(** What is applied: the mutations of the transactions with a commit record, with the
    timestamp of that record; there is one. *)
Theorem C16_exactly :
  forall (P : Type) (l : list (wrec P)) p ts,
    In (p, ts) (committed l) <-> exists id, In (RCommit id ts) l /\ In (RPay id p) l.
Proof. exact @committed_In. Qed.
Print Assumptions C16_exactly.
Theorem C16_one_timestamp :
  forall (P : Type) (l : list (wrec P)) id t1 t2, log_wf l -> In (RCommit id t1) l -> In (RCommit id t2) l -> t1 = t2.
Proof. exact @commit_once. Qed.
Print Assumptions C16_one_timestamp.
(** Identifiers may be used again: [own] is the log with a name of its own for each
    transaction, [idof] the identifiers written.  Missing: a transaction with the identifier of
    one that has not finished; refuted below. *)
Theorem C16_reused_partial :
  forall (P S : Type) (apply : P -> N -> S -> option S) idof own s, log_wf own -> one_at_a_time idof own ->
    replay apply (map (rename idof) own) [] None s =
      match apply_all apply (committed own) s with
      | Some s' => Some (s', newest (commit_times own))
      | None => None
      end.
Proof. exact @c16_reused. Qed.
Print Assumptions C16_reused_partial.
Example C16_reused_applies :
  log_wf reuse_own /\ one_at_a_time reuse_id reuse_own /\ committed reuse_own = [(10%nat, 5); (20%nat, 6); (40%nat, 7)].
Proof. exact reuse_ok. Qed.
(** If an identifier is used again while its first transaction has not finished, the mutations of
    the unfinished transaction are applied with the commit of the other.  C44 shows a history
    that leads there. *)
Theorem C16_unfinished_refuted :
  exists (own : list (wrec nat)) idof, log_wf own /\ committed own = [(20%nat, 6)] /\
    replay (fun p ts l => Some (l ++ [(p, ts)])) (map (rename idof) own) [] None [] = Some ([(10%nat, 6); (20%nat, 6)], Some 6).
Proof.
  exact (ex_intro _ stolen_own (ex_intro _ (fun _ => 7) (conj (proj1 stolen) (proj2 (proj2 stolen))))).
Qed.
Print Assumptions C16_unfinished_refuted.

(** From the bytes on disk after a crash at any byte.  What is missing is what
    C16_reused_partial misses. *)
Theorem C16_crash_partial :
  forall (S : Type) array array_len ipc_write ipc_read (apply : wpayload array -> N -> S -> option S)
         floor segs s last k n evs idof own st,
    Forall (fun x => Forall frame_ok (snd x)) segs -> Forall frame_ok last ->
    (k <= List.length (log_bytes last))%nat -> whole_frames last k n ->
    Forall2 (carries array array_len ipc_write ipc_read) (kept_frames floor (segs ++ [(s, last)])) evs ->
    map to_wrec evs = map (rename idof) own -> log_wf own -> one_at_a_time idof own ->
    exists found lost, evs = found ++ lost /\
      Forall2 (carries array array_len ipc_write ipc_read) (kept_frames floor (segs ++ [(s, firstn n last)])) found /\
      scan_segments array array_len ipc_read floor (dir_of segs ++ [(s, firstn k (log_bytes last))]) = Ok found /\
      replay apply (map to_wrec found) [] None st =
        match apply_all apply (committed (firstn (List.length found) own)) st with
        | Some st' => Some (st', newest (commit_times (firstn (List.length found) own)))
        | None => None
        end.
Proof. exact @c16_disk. Qed.
Print Assumptions C16_crash_partial.
Example C16_applies :
  log_wf (map to_wrec demo_events) /\
  map to_wrec demo_events = map (rename (fun t => t)) (map to_wrec demo_events) /\ one_at_a_time (fun t => t) (map to_wrec demo_events) /\
  committed (map to_wrec demo_events) =
    [(PUpsert (demo_batch 12) (U64 [Some 8]) (Some 8), 8);
     (PUpsert (demo_batch 11) (U64 [Some 9]) (Some 9), 9); (PDelete (demo_wal 13 9) (Some 9), 9)] /\
  committed (map to_wrec (firstn 6 demo_events)) = [(PUpsert (demo_batch 12) (U64 [Some 8]) (Some 8), 8)] /\
  newest (commit_times (map to_wrec demo_events)) = Some 9.
Proof. exact (conj demo_wf (conj (proj1 (own_ids _)) (conj (proj2 (own_ids _)) (conj eq_refl (conj eq_refl eq_refl))))). Qed.

(** *** C45: the commit timestamp column. *)
Theorem C45_round_trip :
  forall array array_len (b : batch array) ts,
    batch_valid array array_len b -> has_field commit_col b = false -> has_field tombstone_col b = false ->
    exists w, append_commit_column array array_len b (ts_column ts (b_rows b)) = COk w /\ batch_valid array array_len w /\
      split_commit_column array array_len w =
        COk (b, match b_rows b with O => None | S _ => Some ts end, U64 (repeat (Some ts) (b_rows b))).
Proof. exact c45. Qed.
Print Assumptions C45_round_trip.
(** A table that has a column of one of the reserved names cannot write to the log. *)
Theorem C45_reserved_refuted :
  forall array array_len (b : batch array) ts,
    batch_valid array array_len b -> has_field commit_col b = true \/ has_field tombstone_col b = true ->
    exists e, append_commit_column array array_len b (ts_column ts (b_rows b)) = CErr e.
Proof. exact c45_reject. Qed.
Print Assumptions C45_reserved_refuted.
Example C45_applies :
  batch_valid unit demo_len (demo_batch 5) /\ has_field commit_col (demo_batch 5) = false /\ b_rows (demo_batch 5) = 1%nat /\
  batch_valid unit demo_len (demo_wal 5 6) /\ has_field commit_col (demo_wal 5 6) = true.
Proof. repeat split; try discriminate; repeat constructor. Qed.
