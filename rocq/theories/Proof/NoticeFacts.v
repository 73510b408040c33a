(** Damage that recovery notices and damage that it does not: proofs. *)
From Coq Require Import List NArith PeanoNat Bool Lia.
From Verif Require Import Model.Columns Model.Frame Model.WalScan Spec.WalSpec Spec.DamageSpec
     Proof.FrameFacts Proof.WalDemo Proof.LogStockFacts Proof.DamageFacts Proof.CrcFacts.
Import ListNotations.
Local Open Scope N_scope.

Lemma frame_payload_ok f : frame_ok f -> Forall byte_ok (wf_payload f).
Proof. intros (_ & _ & _ & H). exact H. Qed.

Theorem c85_burst array array_len ipc_write ipc_read floor segs s good evs f pre mid mid' post rest :
  Forall (fun x => Forall frame_ok (snd x)) segs -> Forall frame_ok good ->
  Forall2 (carries array array_len ipc_write ipc_read) (kept_frames floor (segs ++ [(s, good)])) evs ->
  looked_at floor s -> frame_ok f -> wf_payload f = pre ++ mid ++ post ->
  length mid' = length mid -> (length mid <= 4)%nat -> mid' <> mid -> Forall byte_ok mid' ->
  scan_segments array array_len ipc_read floor (damaged segs s good (other_payload f (pre ++ mid' ++ post) ++ rest)) = Err BadCrc /\
  tail_metadata (damaged segs s good (other_payload f (pre ++ mid' ++ post) ++ rest)) = Err BadCrc.
Proof.
  intros HS HG HE HL HF EP EL E4 NE HM. pose proof (frame_payload_ok f HF) as HP. rewrite EP in HP.
  apply Forall_app in HP as [P1 P2]. apply Forall_app in P2 as [P2 P3].
  apply (c76_payload array array_len ipc_write ipc_read floor segs s good evs); auto.
  - rewrite EP, !app_length. lia.
  - rewrite EP. now apply crc_burst.
Qed.

Lemma checksum_frames f crc rest : frame_ok f -> crc < 2 ^ 32 -> crc <> crc32c (wf_payload f) ->
  segment_frames (other_checksum f crc ++ rest) = ([], Broken BadCrc).
Proof.
  intros H HB HC. pose proof H as (A & _). destruct (frame_header_ok f H) as (B1 & B2 & B3 & B4).
  unfold other_checksum. cbv zeta. fold (wheader f). rewrite <- app_assoc.
  rewrite cons_frames by apply header_nonempty.
  set (h := mkHeader (h_type (wheader f)) (h_seq (wheader f)) (h_len (wheader f)) crc).
  destruct (header_fields h (wf_payload f ++ rest) B1 B2 HB) as (F1 & F2 & F3 & F4 & F5 & F6 & F7).
  unfold decode_from. rewrite app_length, header_length. unfold HEADER_SIZE.
  destruct (Nat.ltb_spec (24 + length (wf_payload f ++ rest)) 24); [lia|].
  rewrite F1, F2, F3, F4, F5, F6, F7. rewrite !N.eqb_refl. cbn [negb].
  rewrite ftype_round. destruct (N.eqb_spec (h_seq h) 0) as [E|_]; [cbn in E; lia|].
  change (h_len h) with (h_len (wheader f)). rewrite B4, app_length.
  destruct (N.ltb_spec (N.of_nat (length (wf_payload f) + length rest)) (N.of_nat (length (wf_payload f)))); [lia|].
  rewrite Nat2N.id, firstn_app, firstn_all, Nat.sub_diag. cbn [firstn]. rewrite app_nil_r.
  change (h_crc h) with crc. destruct (N.eqb_spec (crc32c (wf_payload f)) crc); [congruence|reflexivity].
Qed.
Theorem c85_checksum array array_len ipc_write ipc_read floor segs s good evs f crc rest :
  Forall (fun x => Forall frame_ok (snd x)) segs -> Forall frame_ok good ->
  Forall2 (carries array array_len ipc_write ipc_read) (kept_frames floor (segs ++ [(s, good)])) evs ->
  looked_at floor s -> frame_ok f -> crc < 2 ^ 32 -> crc <> crc32c (wf_payload f) ->
  scan_segments array array_len ipc_read floor (damaged segs s good (other_checksum f crc ++ rest)) = Err BadCrc /\
  tail_metadata (damaged segs s good (other_checksum f crc ++ rest)) = Err BadCrc.
Proof.
  intros HS HG HE HL HF H1 H2. split.
  - apply (scan_broken array array_len ipc_write ipc_read floor segs s good evs HS HG HE HL). now apply checksum_frames.
  - apply tail_broken; [exact HG|]. now apply checksum_frames.
Qed.

(** The number of a frame is not covered by the checksum. *)
Lemma number_bytes f n : other_number f n = wbytes (mkFrame n (wf_type f) (wf_payload f)).
Proof. reflexivity. Qed.
Theorem c85_number array array_len ipc_write ipc_read fl segs s good evs f n :
  Forall (fun x => Forall frame_ok (snd x)) segs -> Forall frame_ok good ->
  Forall2 (carries array array_len ipc_write ipc_read) (kept_frames (Some fl) (segs ++ [(s, good)])) evs ->
  frame_ok f -> r_seq fl = s -> 1 <= n -> n < r_first fl -> n < 2 ^ 64 ->
  scan_segments array array_len ipc_read (Some fl) (damaged segs s good (other_number f n)) = Ok evs.
Proof.
  intros HS HG HE HF ES H1 H2 H3. rewrite number_bytes. set (g := mkFrame n (wf_type f) (wf_payload f)).
  assert (Hg : frame_ok g) by (destruct HF as (_ & _ & A & B); repeat split; assumption).
  rewrite (scan_damaged array array_len ipc_write ipc_read (Some fl) segs s good (wbytes g) evs HS HG HE).
  subst s. rewrite N.ltb_irrefl. cbv zeta.
  rewrite <- (app_nil_r (wbytes g)).
  assert (E : segment_frames (wbytes g ++ []) = ([(wheader g, wf_payload g)], AtEnd)).
  { replace (wbytes g) with (log_bytes [g]) by (unfold log_bytes; cbn [map concat]; apply app_nil_r).
    rewrite frames_log by (constructor; [exact Hg|constructor]).
    change (segment_frames []) with (@nil (header * bytes), AtEnd). reflexivity. }
  rewrite E. cbn [fst snd]. unfold seg_floor. rewrite N.eqb_refl. cbn [events_of].
  change (h_seq (wheader g)) with n. destruct (N.ltb_spec n (r_first fl)); [|lia]. cbn [fst snd]. now rewrite app_nil_r.
Qed.

(** Another type does not fit the payload. *)
Lemma append_length array ipc_write id m b : length (encode_append array ipc_write id m b) = (16 + length (ipc_write b))%nat.
Proof. unfold encode_append. rewrite !app_length, le_length. cbn [length repeat]. lia. Qed.
Lemma append_other array array_len ipc_write ipc_read id m b t : ipc_write b <> [] -> t <> TxnAppend ->
  exists e, decode_frame array array_len ipc_read t (encode_append array ipc_write id m b) = Err e.
Proof.
  intros HN HT. pose proof (append_length array ipc_write id m b) as HL.
  assert (0 < length (ipc_write b))%nat by (destruct (ipc_write b); [congruence|cbn; lia]).
  destruct t; cbn [decode_frame]; try congruence; try (eexists; reflexivity);
    repeat match goal with
    | |- context [Nat.eqb ?x ?y] => destruct (Nat.eqb_spec x y); [lia|eexists; reflexivity]
    end.
Qed.
Lemma short_other array array_len ipc_read id t : t <> TxnBegin -> t <> TxnAbort ->
  exists e, decode_frame array array_len ipc_read t (le_bytes 8 id) = Err e.
Proof.
  intros H1 H2. destruct t; cbn [decode_frame]; try congruence; try (eexists; reflexivity); rewrite ?le_length; try (eexists; reflexivity).
Qed.
Lemma commit_other array array_len ipc_read id ts t : t <> TxnCommit ->
  exists e, decode_frame array array_len ipc_read t (le_bytes 8 id ++ le_bytes 8 ts) = Err e.
Proof.
  intros H. assert (HL : length (le_bytes 8 id ++ le_bytes 8 ts) = 16%nat) by (rewrite app_length, !le_length; reflexivity).
  destruct t; cbn [decode_frame]; try congruence; try (eexists; reflexivity); rewrite ?HL; cbn [Nat.eqb Nat.ltb Nat.leb APPEND_PREFIX];
    try (eexists; reflexivity).
  change (Nat.ltb 16 APPEND_PREFIX) with false. cbv iota.
  set (p := le_bytes 8 id ++ le_bytes 8 ts) in *.
  destruct (1 <? nth 9 p 0); [eexists; reflexivity|].
  assert (E : skipn APPEND_PREFIX p = []) by (apply skipn_all2; rewrite HL; unfold APPEND_PREFIX; lia).
  rewrite E. destruct (nth 8 p 0) as [|[q|q|]]; cbn [decode_dyn_append]; eauto.
Qed.
Lemma type_decode array array_len ipc_write ipc_read f ev t :
  carries array array_len ipc_write ipc_read f ev -> t <> wf_type f -> ~ alike (wf_type f) t ->
  exists e, decode_frame array array_len ipc_read t (wf_payload f) = Err e.
Proof.
  intros (HF & c & HE & HM) HT HA. destruct HM; cbn [encode_command] in HE.
  - injection HE as Et Ep. rewrite <- Ep. apply short_other; [congruence|]. intros ->. apply HA. left. auto.
  - destruct (append_commit_column array array_len b (ts_column ts (b_rows b))) as [w|] eqn:E; [|discriminate].
    injection HE as Et Ep. rewrite <- Ep. apply append_other; [|congruence]. apply (H3 w eq_refl).
  - injection HE as Et Ep. rewrite <- Ep. apply append_other; [|congruence]. apply H0.
  - injection HE as Et Ep. rewrite <- Ep. apply commit_other. congruence.
  - injection HE as Et Ep. rewrite <- Ep. apply short_other; [|congruence]. intros ->. apply HA. right. auto.
Qed.
Theorem c85_type array array_len ipc_write ipc_read floor segs s good evs f ev t rest :
  Forall (fun x => Forall frame_ok (snd x)) segs -> Forall frame_ok good ->
  Forall2 (carries array array_len ipc_write ipc_read) (kept_frames floor (segs ++ [(s, good)])) evs ->
  carries array array_len ipc_write ipc_read f ev -> kept_frames floor [(s, [f])] = [f] ->
  t <> wf_type f -> ~ alike (wf_type f) t ->
  exists e, scan_segments array array_len ipc_read floor (damaged segs s good (other_type f t ++ rest)) = Err e.
Proof.
  intros HS HG HE HC HK HT HA. pose proof (proj1 HC) as HF.
  destruct (type_decode array array_len ipc_write ipc_read f ev t HC HT HA) as [x Hx].
  assert (EB : other_type f t = wbytes (mkFrame (wf_seq f) t (wf_payload f))) by reflexivity.
  rewrite EB. set (g := mkFrame (wf_seq f) t (wf_payload f)).
  assert (Hg : frame_ok g) by (destruct HF as (A & B & C & D); repeat split; assumption).
  rewrite (scan_damaged array array_len ipc_write ipc_read floor segs s good (wbytes g ++ rest) evs HS HG HE).
  assert (HL : (match floor with Some fl => s <? r_seq fl | None => false end) = false /\
               match seg_floor floor s with Some k => wf_seq f <? k | None => false end = false).
  { destruct floor as [fl|]; [|split; reflexivity]. cbn [kept_frames map concat fst snd] in HK. unfold seg_floor.
    destruct (s <? r_seq fl); [discriminate|]. split; [reflexivity|]. destruct (s =? r_seq fl); [|reflexivity].
    cbn [filter] in HK. destruct (N.leb_spec (r_first fl) (wf_seq f)); [|discriminate]. apply N.ltb_ge. assumption. }
  destruct HL as [HL1 HL2]. rewrite HL1. cbv zeta.
  replace (wbytes g) with (log_bytes [g]) by (unfold log_bytes; cbn [map concat]; apply app_nil_r).
  rewrite frames_log by (constructor; [exact Hg|constructor]). cbn [map app fst snd events_of read_back].
  change (h_seq (wheader g)) with (wf_seq f). rewrite HL2.
  change (h_type (wheader g)) with t. change (wf_payload g) with (wf_payload f). rewrite Hx. cbn [snd]. eauto.
Qed.
