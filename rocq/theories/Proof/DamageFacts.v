(** Damage at the end of the log: proofs. *)
From Coq Require Import List NArith PeanoNat Bool Lia.
From Verif Require Import Model.Columns Model.Frame Model.WalScan Spec.WalSpec Spec.DamageSpec
     Proof.FrameFacts Proof.WalDemo Proof.LogStockFacts.
Import ListNotations.
Local Open Scope N_scope.

Section Damage.
  Variable array : Type.
  Variable array_len : array -> nat.
  Variable ipc_write : batch array -> bytes.
  Variable ipc_read : bytes -> option (list (batch array)).
  Notation carries := (carries array array_len ipc_write ipc_read).
  Notation events_of := (events_of array array_len ipc_read).
  Notation scan := (scan_segments array array_len ipc_read).

  Definition seg_floor (floor : option seg_ref) (s : N) : option N :=
    match floor with Some f => if s =? r_seq f then Some (r_first f) else None | None => None end.
  Lemma events_app ff a b evs : events_of ff a = (evs, None) ->
    events_of ff (a ++ b) = (evs ++ fst (events_of ff b), snd (events_of ff b)).
  Proof.
    revert evs. induction a as [|[h p] a IH]; intros evs H; cbn [app WalScan.events_of] in *.
    - injection H as <-. now destruct (events_of ff b).
    - destruct (match ff with Some f => h_seq h <? f | None => false end); [now apply IH|].
      destruct (decode_frame array array_len ipc_read (h_type h) p) as [ev|e]; [|discriminate].
      destruct (events_of ff a) as [es x]. injection H as <- ->. rewrite (IH es eq_refl). reflexivity.
  Qed.

  (** The result of scanning a log with a damaged end, in terms of the damaged part alone. *)
  Lemma scan_damaged floor segs s good d evs :
    Forall (fun x => Forall frame_ok (snd x)) segs -> Forall frame_ok good ->
    Forall2 carries (kept_frames floor (segs ++ [(s, good)])) evs ->
    scan floor (damaged segs s good d) =
      if match floor with Some f => s <? r_seq f | None => false end then Ok evs
      else
        let l := fst (segment_frames d) in
        match snd (events_of (seg_floor floor s) l) with
        | Some x => Err x
        | None => match snd (segment_frames d) with
                  | Broken x => Err x
                  | _ => Ok (evs ++ fst (events_of (seg_floor floor s) l))
                  end
        end.
  Proof.
    intros HS HG. revert evs. unfold damaged. induction HS as [|[q l] segs Hq HS IH]; intros evs HE.
    - cbn [dir_of map app scan_segments]. rewrite app_nil_l in HE. rewrite kept_one in HE.
      destruct (match floor with Some f => s <? r_seq f | None => false end) eqn:B.
      + destruct floor as [f|]; [|discriminate]. unfold kept_seg in HE. rewrite B in HE. inversion HE. reflexivity.
      + rewrite frames_log by exact HG. fold (seg_floor floor s).
        pose proof (events_seg array array_len ipc_write ipc_read floor s good evs B HE) as E. fold (seg_floor floor s) in E.
        rewrite (events_app _ _ _ _ E). destruct (events_of (seg_floor floor s) (fst (segment_frames d))) as [more x]. cbn [fst snd].
        destruct x; [reflexivity|]. destruct (snd (segment_frames d)); [|reflexivity|reflexivity].
        now rewrite app_nil_r.
    - cbn [dir_of map app scan_segments fst snd]. fold (dir_of segs).
      cbn [app] in HE. rewrite kept_cons in HE. apply Forall2_split in HE as (x & y & -> & H1 & H2).
      specialize (IH y H2).
      destruct (match floor with Some f => q <? r_seq f | None => false end) eqn:B.
      + destruct floor as [f|]; [|discriminate]. unfold kept_seg in H1. rewrite B in H1. inversion H1. exact IH.
      + cbn in Hq. rewrite <- (app_nil_r (log_bytes l)), frames_log by exact Hq.
        change (segment_frames []) with (@nil (header * bytes), AtEnd). cbn [fst snd]. rewrite app_nil_r.
        rewrite (events_seg array array_len ipc_write ipc_read floor q l x B H1), IH.
        destruct (match floor with Some f => s <? r_seq f | None => false end); [reflexivity|].
        cbv zeta. destruct (snd (events_of (seg_floor floor s) (fst (segment_frames d)))); [reflexivity|].
        destruct (snd (segment_frames d)); [now rewrite app_assoc|now rewrite app_assoc|reflexivity].
  Qed.
  Lemma looked floor s : looked_at floor s -> (match floor with Some f => s <? r_seq f | None => false end) = false.
  Proof. destruct floor as [f|]; [|reflexivity]. cbn. intros H. apply N.ltb_ge. exact H. Qed.

  Theorem c76_prefix floor segs s good d evs :
    Forall (fun x => Forall frame_ok (snd x)) segs -> Forall frame_ok good ->
    Forall2 carries (kept_frames floor (segs ++ [(s, good)])) evs ->
    (exists e, scan floor (damaged segs s good d) = Err e) \/
    (exists more, scan floor (damaged segs s good d) = Ok (evs ++ more)).
  Proof.
    intros HS HG HE. rewrite (scan_damaged floor segs s good d evs HS HG HE).
    destruct (match floor with Some f => s <? r_seq f | None => false end).
    - right. exists []. now rewrite app_nil_r.
    - cbv zeta. destruct (snd (events_of _ _)); [left; eauto|]. destruct (snd (segment_frames d)); eauto.
  Qed.
End Damage.

(** *** Kinds of damage *)
Lemma zeros_frames n : (24 <= n)%nat -> segment_frames (repeat 0 n) = ([], Broken BadMagic).
Proof.
  intros H. do 24 (destruct n as [|n]; [lia|]). unfold segment_frames. cbn [repeat length frames_of]. reflexivity.
Qed.
Lemma few_frames d : d <> [] -> (length d < 24)%nat -> segment_frames d = ([], Torn).
Proof.
  intros NE H. unfold segment_frames. destruct d as [|b t]; [congruence|]. cbn [length frames_of].
  unfold decode_from, HEADER_SIZE. cbn [length] in *. destruct (Nat.ltb_spec (S (length t)) 24); [reflexivity|lia].
Qed.
Lemma cons_frames d : d <> [] -> segment_frames d =
  match decode_from d with
  | Err TruncHeader => ([], Torn)
  | Err TruncPayload => ([], Torn)
  | Err e => ([], Broken e)
  | Ok (h, _) => let n := (HEADER_SIZE + N.to_nat (h_len h))%nat in
                 ((h, slice d HEADER_SIZE n) :: fst (segment_frames (skipn n d)), snd (segment_frames (skipn n d)))
  end.
Proof.
  intros NE. unfold segment_frames at 1. destruct d as [|b t]; [congruence|]. cbn [length frames_of].
  destruct (decode_from (b :: t)) as [[h r]|[]]; try reflexivity.
  rewrite (frames_fuel _ (length (skipn (HEADER_SIZE + N.to_nat (h_len h)) (b :: t)))); [| |lia].
  - fold (segment_frames (skipn (HEADER_SIZE + N.to_nat (h_len h)) (b :: t))). cbv zeta.
    destruct (segment_frames _). reflexivity.
  - rewrite skipn_length. unfold HEADER_SIZE. cbn [length]. lia.
Qed.
Lemma header_nonempty h p : encode_header h ++ p <> [].
Proof. intros E. apply (f_equal (@length N)) in E. rewrite app_length, header_length in E. cbn in E. lia. Qed.
Lemma payload_frames f p rest : frame_ok f -> length p = length (wf_payload f) -> crc32c p <> crc32c (wf_payload f) ->
  segment_frames (other_payload f p ++ rest) = ([], Broken BadCrc).
Proof.
  intros H HL HC. pose proof H as (A & _). destruct (frame_header_ok f H) as (B1 & B2 & B3 & B4).
  unfold other_payload. fold (wheader f). rewrite <- app_assoc.
  rewrite cons_frames by apply header_nonempty.
  destruct (header_fields (wheader f) (p ++ rest) B1 B2 B3) as (F1 & F2 & F3 & F4 & F5 & F6 & F7).
  unfold decode_from. rewrite app_length, header_length. unfold HEADER_SIZE.
  destruct (Nat.ltb_spec (24 + length (p ++ rest)) 24); [lia|].
  rewrite F1, F2, F3, F4, F5, F6, F7. rewrite !N.eqb_refl. cbn [negb].
  rewrite ftype_round. destruct (N.eqb_spec (h_seq (wheader f)) 0) as [E|_]; [cbn in E; lia|].
  rewrite B4, app_length. destruct (N.ltb_spec (N.of_nat (length p + length rest)) (N.of_nat (length (wf_payload f)))); [lia|].
  rewrite Nat2N.id, <- HL, firstn_app, firstn_all, Nat.sub_diag. cbn [firstn]. rewrite app_nil_r.
  change (h_crc (wheader f)) with (crc32c (wf_payload f)). destruct (N.eqb_spec (crc32c p) (crc32c (wf_payload f))); [congruence|reflexivity].
Qed.
Lemma length_frames f len rest : frame_ok f -> len < 2 ^ 32 -> N.of_nat (length (wf_payload f ++ rest)) < len ->
  segment_frames (other_length f len ++ rest) = ([], Torn).
Proof.
  intros H HL HC. pose proof H as (A & _). destruct (frame_header_ok f H) as (B1 & B2 & B3 & B4).
  unfold other_length. cbv zeta. fold (wheader f). rewrite <- app_assoc.
  set (h := mkHeader (h_type (wheader f)) (h_seq (wheader f)) len (h_crc (wheader f))).
  rewrite cons_frames by apply header_nonempty.
  destruct (header_fields h (wf_payload f ++ rest) B1 HL B3) as (F1 & F2 & F3 & F4 & F5 & F6 & F7).
  unfold decode_from. rewrite app_length, header_length. unfold HEADER_SIZE.
  destruct (Nat.ltb_spec (24 + length (wf_payload f ++ rest)) 24); [lia|].
  rewrite F1, F2, F3, F4, F5, F6, F7. rewrite !N.eqb_refl. cbn [negb].
  rewrite ftype_round. destruct (N.eqb_spec (h_seq h) 0) as [E|_]; [cbn in E; lia|].
  change (h_len h) with len. destruct (N.ltb_spec (N.of_nat (length (wf_payload f ++ rest))) len); [reflexivity|lia].
Qed.

Section Kinds.
  Variable array : Type.
  Variable array_len : array -> nat.
  Variable ipc_write : batch array -> bytes.
  Variable ipc_read : bytes -> option (list (batch array)).
  Variable floor : option seg_ref.
  Variable segs : list (N * list wframe).
  Variable s : N.
  Variable good : list wframe.
  Variable evs : list (event array).
  Hypothesis HS : Forall (fun x => Forall frame_ok (snd x)) segs.
  Hypothesis HG : Forall frame_ok good.
  Hypothesis HE : Forall2 (carries array array_len ipc_write ipc_read) (kept_frames floor (segs ++ [(s, good)])) evs.
  Hypothesis HL : looked_at floor s.
  Notation scan := (scan_segments array array_len ipc_read).

  Lemma scan_broken d x : segment_frames d = ([], Broken x) -> scan floor (damaged segs s good d) = Err x.
  Proof.
    intros E. rewrite (scan_damaged array array_len ipc_write ipc_read floor segs s good d evs HS HG HE).
    rewrite (looked floor s HL), E. reflexivity.
  Qed.
  Lemma scan_torn d : segment_frames d = ([], Torn) -> scan floor (damaged segs s good d) = Ok evs.
  Proof.
    intros E. rewrite (scan_damaged array array_len ipc_write ipc_read floor segs s good d evs HS HG HE).
    rewrite (looked floor s HL), E. cbn. now rewrite app_nil_r.
  Qed.
End Kinds.

Lemma tail_broken segs s good d x : Forall frame_ok good -> segment_frames d = ([], Broken x) ->
  tail_metadata (damaged segs s good d) = Err x.
Proof.
  intros HG E. unfold tail_metadata, damaged. rewrite rev_app_distr. cbn [rev app].
  rewrite frames_log, E by exact HG. reflexivity.
Qed.
Lemma tail_torn segs s good d : Forall frame_ok good -> Forall tail_ok good -> segment_frames d = ([], Torn) ->
  exists tm, tail_metadata (damaged segs s good d) = Ok (Some tm, dir_of segs ++ [(s, log_bytes good)]).
Proof.
  intros HG HT E. unfold tail_metadata, damaged. rewrite rev_app_distr. cbn [rev app].
  rewrite frames_log, E by exact HG. cbn [fst snd]. rewrite app_nil_r, (tail_all good 0 None HT). cbn [Nat.add].
  rewrite rev_involutive, firstn_app, firstn_all, Nat.sub_diag. cbn [firstn]. rewrite app_nil_r. eauto.
Qed.

Theorem c76_short array array_len ipc_write ipc_read floor segs s good evs d :
  Forall (fun x => Forall frame_ok (snd x)) segs -> Forall frame_ok good ->
  Forall2 (carries array array_len ipc_write ipc_read) (kept_frames floor (segs ++ [(s, good)])) evs ->
  looked_at floor s -> d <> [] -> (length d < 24)%nat ->
  scan_segments array array_len ipc_read floor (damaged segs s good d) = Ok evs.
Proof.
  intros HS HG HE HL NE HD. apply (scan_torn array array_len ipc_write ipc_read floor segs s good evs HS HG HE HL).
  now apply few_frames.
Qed.
Theorem c76_zeros array array_len ipc_write ipc_read floor segs s good evs n :
  Forall (fun x => Forall frame_ok (snd x)) segs -> Forall frame_ok good ->
  Forall2 (carries array array_len ipc_write ipc_read) (kept_frames floor (segs ++ [(s, good)])) evs ->
  looked_at floor s -> (24 <= n)%nat ->
  scan_segments array array_len ipc_read floor (damaged segs s good (repeat 0 n)) = Err BadMagic /\
  tail_metadata (damaged segs s good (repeat 0 n)) = Err BadMagic.
Proof.
  intros HS HG HE HL HN. split.
  - apply (scan_broken array array_len ipc_write ipc_read floor segs s good evs HS HG HE HL). now apply zeros_frames.
  - apply tail_broken; [exact HG|]. now apply zeros_frames.
Qed.
Theorem c76_payload array array_len ipc_write ipc_read floor segs s good evs f p rest :
  Forall (fun x => Forall frame_ok (snd x)) segs -> Forall frame_ok good ->
  Forall2 (carries array array_len ipc_write ipc_read) (kept_frames floor (segs ++ [(s, good)])) evs ->
  looked_at floor s -> frame_ok f -> length p = length (wf_payload f) -> crc32c p <> crc32c (wf_payload f) ->
  scan_segments array array_len ipc_read floor (damaged segs s good (other_payload f p ++ rest)) = Err BadCrc /\
  tail_metadata (damaged segs s good (other_payload f p ++ rest)) = Err BadCrc.
Proof.
  intros HS HG HE HL HF H1 H2. split.
  - apply (scan_broken array array_len ipc_write ipc_read floor segs s good evs HS HG HE HL). now apply payload_frames.
  - apply tail_broken; [exact HG|]. now apply payload_frames.
Qed.
Theorem c76_length array array_len ipc_write ipc_read floor segs s good evs f len rest :
  Forall (fun x => Forall frame_ok (snd x)) segs -> Forall frame_ok good ->
  Forall (fun f => match wf_type f with TxnAppend | TxnCommit => (8 <= length (wf_payload f))%nat | _ => True end) good ->
  Forall2 (carries array array_len ipc_write ipc_read) (kept_frames floor (segs ++ [(s, good)])) evs ->
  looked_at floor s -> frame_ok f -> Forall frame_ok rest ->
  N.of_nat (length (wf_payload f ++ log_bytes rest)) < len -> len < 2 ^ 32 ->
  scan_segments array array_len ipc_read floor (damaged segs s good (other_length f len ++ log_bytes rest)) = Ok evs /\
  exists tm, tail_metadata (damaged segs s good (other_length f len ++ log_bytes rest)) =
    Ok (Some tm, dir_of segs ++ [(s, log_bytes good)]).
Proof.
  intros HS HG HT HE HL HF HR H1 H2. split.
  - apply (scan_torn array array_len ipc_write ipc_read floor segs s good evs HS HG HE HL). now apply length_frames.
  - apply tail_torn; [exact HG|exact HT|]. now apply length_frames.
Qed.

Lemma c76_demo :
  Forall frame_ok demo_frames /\
  Forall2 (carries unit demo_len demo_write demo_read) (kept_frames None ([(2, demo_frames)] ++ [(3, firstn 3 demo_frames)]))
    (demo_events ++ firstn 3 demo_events) /\
  scan_segments unit demo_len demo_read None (damaged [(2, demo_frames)] 3 (firstn 3 demo_frames) [7; 7; 7])
    = Ok (demo_events ++ firstn 3 demo_events).
Proof.
  assert (C : Forall2 (carries unit demo_len demo_write demo_read)
                (kept_frames None ([(2, demo_frames)] ++ [(3, firstn 3 demo_frames)])) (demo_events ++ firstn 3 demo_events)).
  { change (kept_frames None ([(2, demo_frames)] ++ [(3, firstn 3 demo_frames)])) with (demo_frames ++ firstn 3 demo_frames).
    apply Forall2_app; [exact demo_carries|]. pose proof demo_carries as H. unfold demo_events in *.
    inversion H as [|? ? ? ? A0 H1]; subst. inversion H1 as [|? ? ? ? A1 H2]; subst. inversion H2 as [|? ? ? ? A2 H3]; subst.
    apply Forall2_cons; [exact A0|]. apply Forall2_cons; [exact A1|]. apply Forall2_cons; [exact A2|]. apply Forall2_nil. }
  split; [exact demo_frames_ok|]. split; [exact C|].
  apply (c76_short unit demo_len demo_write demo_read None [(2, demo_frames)] 3 (firstn 3 demo_frames)).
  - constructor; [exact demo_frames_ok|constructor].
  - pose proof demo_frames_ok as H. rewrite <- (firstn_skipn 3 demo_frames) in H. apply Forall_app in H. apply H.
  - exact C.
  - exact I.
  - discriminate.
  - cbn. lia.
Qed.
Lemma c76_kinds :
  frame_ok fr1 /\ List.length (map (fun x => (x + 1) mod 256) (wf_payload fr1)) = List.length (wf_payload fr1) /\
  crc32c (map (fun x => (x + 1) mod 256) (wf_payload fr1)) <> crc32c (wf_payload fr1) /\
  N.of_nat (List.length (wf_payload fr1 ++ log_bytes [fr2])) < 1000.
Proof.
  destruct fr_sound as [[F _] _]. split; [exact F|]. split; [apply map_length|]. split; [vm_compute; discriminate|reflexivity].
Qed.
