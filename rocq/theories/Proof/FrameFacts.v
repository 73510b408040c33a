(** Proofs about WAL frames as bytes. *)
From Coq Require Import List NArith Bool Lia Arith.
From Verif Require Import Model.Columns Model.Frame Model.WalScan Spec.WalSpec Proof.ColumnFacts.
Import ListNotations.
Local Open Scope N_scope.

(** *** Numbers as bytes *)
Lemma le_length n x : length (le_bytes n x) = n.
Proof. revert x. induction n; intros; cbn; auto. Qed.
Lemma le_round n : forall x, x < 256 ^ N.of_nat n -> le_value (le_bytes n x) = x.
Proof.
  induction n as [|n IH]; intros x H.
  - cbn in *. lia.
  - cbn [le_bytes le_value]. rewrite Nat2N.inj_succ, N.pow_succ_r' in H. rewrite IH.
    + pose proof (N.div_mod x 256). lia.
    + apply N.div_lt_upper_bound; lia.
Qed.
Lemma le_ok n : forall x, Forall byte_ok (le_bytes n x).
Proof. induction n; intros; constructor; auto. unfold byte_ok. apply N.mod_lt. lia. Qed.

(** *** The checksum fits 32 bits *)
Lemma lxor_bound a b k : a < 2 ^ k -> b < 2 ^ k -> N.lxor a b < 2 ^ k.
Proof.
  intros Ha Hb. destruct (N.eq_dec (N.lxor a b) 0) as [E|E]; [rewrite E; lia|].
  apply N.log2_lt_pow2; [lia|]. eapply N.le_lt_trans; [apply N.log2_lxor|].
  assert (K : 0 < k). { destruct k; [|lia]. cbn in *. assert (a = 0) by lia. assert (b = 0) by lia. subst. now cbn in E. }
  apply N.max_lub_lt.
  - destruct (N.eq_dec a 0) as [->|]; [now cbn|apply N.log2_lt_pow2; lia].
  - destruct (N.eq_dec b 0) as [->|]; [now cbn|apply N.log2_lt_pow2; lia].
Qed.
Lemma crc_bit_bound c : c < 2 ^ 32 -> crc_bit c < 2 ^ 32.
Proof.
  intros H. unfold crc_bit. assert (c / 2 < 2 ^ 32).
  { apply N.div_lt_upper_bound; [lia|]. eapply N.lt_le_trans; [exact H|]. vm_compute. discriminate. }
  destruct (N.odd c); auto. apply lxor_bound; auto. reflexivity.
Qed.
Lemma crc_byte_bound c b : c < 2 ^ 32 -> byte_ok b -> crc_byte c b < 2 ^ 32.
Proof.
  intros H B. unfold crc_byte. assert (X : N.lxor c b < 2 ^ 32).
  { apply lxor_bound; auto. unfold byte_ok in B. eapply N.lt_trans; [exact B|]. reflexivity. }
  revert X. generalize (N.lxor c b). intros x X. cbn [Nat.iter nat_rect].
  repeat apply crc_bit_bound. exact X.
Qed.
Lemma crc_bound bs : Forall byte_ok bs -> crc32c bs < 2 ^ 32.
Proof.
  intros H. unfold crc32c. apply lxor_bound; [|reflexivity].
  assert (G : forall l c, Forall byte_ok l -> c < 2 ^ 32 -> fold_left crc_byte l c < 2 ^ 32).
  { induction l as [|b l IH]; intros c HL Hc; auto. cbn. inversion HL; subst. apply IH; auto. now apply crc_byte_bound. }
  apply G; auto. reflexivity.
Qed.

(** *** Slices *)
Lemma slice_mid pre mid post i j : length pre = i -> length mid = (j - i)%nat -> slice (pre ++ mid ++ post) i j = mid.
Proof.
  intros <- H. unfold slice. rewrite skipn_app, skipn_all, Nat.sub_diag. cbn [skipn app].
  rewrite <- H, firstn_app, firstn_all, Nat.sub_diag. cbn. now rewrite app_nil_r.
Qed.

(** *** Frames *)
Definition wheader (f : wframe) : header := header_new (wf_seq f) (wf_type f) (wf_payload f).
Lemma header_length h : length (encode_header h) = 24%nat.
Proof. unfold encode_header. now rewrite !app_length, !le_length. Qed.
Lemma wbytes_length f : length (wbytes f) = (24 + length (wf_payload f))%nat.
Proof. unfold wbytes, frame_bytes. now rewrite app_length, header_length. Qed.

Lemma ftype_round t : ftype_of (ftype_code t) = Some t.
Proof. now destruct t. Qed.

(** The header fields read back from any bytes that start with an encoded header. *)
Lemma header_fields h rest : h_seq h < 2 ^ 64 -> h_len h < 2 ^ 32 -> h_crc h < 2 ^ 32 ->
  let bs := encode_header h ++ rest in
  le_value (slice bs 0 4) = FRAME_MAGIC /\ le_value (slice bs 4 6) = FRAME_VERSION /\
  le_value (slice bs 6 8) = ftype_code (h_type h) /\ le_value (slice bs 8 16) = h_seq h /\
  le_value (slice bs 16 20) = h_len h /\ le_value (slice bs 20 24) = h_crc h /\ skipn 24 bs = rest.
Proof.
  intros H1 H2 H3 bs. unfold bs, encode_header.
  set (a := le_bytes 4 FRAME_MAGIC). set (b := le_bytes 2 FRAME_VERSION). set (c := le_bytes 2 (ftype_code (h_type h))).
  set (d := le_bytes 8 (h_seq h)). set (e := le_bytes 4 (h_len h)). set (f := le_bytes 4 (h_crc h)).
  assert (La : length a = 4%nat) by apply le_length. assert (Lb : length b = 2%nat) by apply le_length.
  assert (Lc : length c = 2%nat) by apply le_length. assert (Ld : length d = 8%nat) by apply le_length.
  assert (Le : length e = 4%nat) by apply le_length. assert (Lf : length f = 4%nat) by apply le_length.
  assert (S1 : (a ++ b ++ c ++ d ++ e ++ f) ++ rest = [] ++ a ++ (b ++ c ++ d ++ e ++ f ++ rest)) by (now rewrite <- !app_assoc).
  assert (S2 : (a ++ b ++ c ++ d ++ e ++ f) ++ rest = a ++ b ++ (c ++ d ++ e ++ f ++ rest)) by (now rewrite <- !app_assoc).
  assert (S3 : (a ++ b ++ c ++ d ++ e ++ f) ++ rest = (a ++ b) ++ c ++ (d ++ e ++ f ++ rest)) by (now rewrite <- !app_assoc).
  assert (S4 : (a ++ b ++ c ++ d ++ e ++ f) ++ rest = (a ++ b ++ c) ++ d ++ (e ++ f ++ rest)) by (now rewrite <- !app_assoc).
  assert (S5 : (a ++ b ++ c ++ d ++ e ++ f) ++ rest = (a ++ b ++ c ++ d) ++ e ++ (f ++ rest)) by (now rewrite <- !app_assoc).
  assert (S6 : (a ++ b ++ c ++ d ++ e ++ f) ++ rest = (a ++ b ++ c ++ d ++ e) ++ f ++ rest) by (now rewrite <- !app_assoc).
  split; [|split; [|split; [|split; [|split; [|split]]]]].
  - rewrite S1, slice_mid; auto.
  - rewrite S2, slice_mid; auto.
  - rewrite S3, slice_mid; rewrite ?app_length; auto; try lia. try (unfold c; destruct (h_type h); reflexivity).
  - rewrite S4, slice_mid; rewrite ?app_length; auto; try lia. apply le_round. exact H1.
  - rewrite S5, slice_mid; rewrite ?app_length; auto; try lia. apply le_round. exact H2.
  - rewrite S6, slice_mid; rewrite ?app_length; auto; try lia. apply le_round. exact H3.
  - rewrite skipn_app, skipn_all2 by (rewrite !app_length; lia).
    replace (24 - length (a ++ b ++ c ++ d ++ e ++ f))%nat with 0%nat by (rewrite !app_length; lia). reflexivity.
Qed.

Lemma frame_header_ok f : frame_ok f -> h_seq (wheader f) < 2 ^ 64 /\ h_len (wheader f) < 2 ^ 32 /\ h_crc (wheader f) < 2 ^ 32 /\
  h_len (wheader f) = N.of_nat (length (wf_payload f)).
Proof.
  intros (A & B & C & D). cbn. split; auto. rewrite N.mod_small by exact C. repeat split; auto. now apply crc_bound.
Qed.

(** A complete frame decodes to its header, whatever follows it. *)
Lemma decode_complete f rest : frame_ok f -> decode_from (wbytes f ++ rest) = Ok (wheader f, rest).
Proof.
  intros H. pose proof H as (A & _). destruct (frame_header_ok f H) as (B1 & B2 & B3 & B4).
  unfold wbytes, frame_bytes. fold (wheader f). rewrite <- app_assoc.
  destruct (header_fields (wheader f) (wf_payload f ++ rest) B1 B2 B3) as (F1 & F2 & F3 & F4 & F5 & F6 & F7).
  unfold decode_from. rewrite app_length, header_length. unfold HEADER_SIZE.
  destruct (Nat.ltb_spec (24 + length (wf_payload f ++ rest)) 24); [lia|].
  rewrite F1, F2, F3, F4, F5, F6, F7. rewrite N.eqb_refl, N.eqb_refl. cbn [negb].
  rewrite ftype_round. destruct (N.eqb_spec (h_seq (wheader f)) 0) as [E|_]; [cbn in E; lia|].
  rewrite B4, app_length. destruct (N.ltb_spec (N.of_nat (length (wf_payload f) + length rest)) (N.of_nat (length (wf_payload f)))); [lia|].
  rewrite Nat2N.id. rewrite firstn_app, firstn_all, Nat.sub_diag. cbn [firstn]. rewrite app_nil_r.
  rewrite skipn_app, skipn_all, Nat.sub_diag. cbn [skipn app].
  assert (E : crc32c (wf_payload f) = h_crc (wheader f)) by reflexivity.
  rewrite <- E, N.eqb_refl. cbn [negb]. rewrite <- B4, E. destruct (wheader f) eqn:W. cbn. reflexivity.
Qed.

(** The payload of a complete frame. *)
Lemma payload_slice f rest : slice (wbytes f ++ rest) HEADER_SIZE (HEADER_SIZE + length (wf_payload f)) = wf_payload f.
Proof.
  unfold wbytes, frame_bytes. rewrite <- app_assoc. apply slice_mid.
  - apply header_length.
  - unfold HEADER_SIZE. lia.
Qed.

(** A frame cut anywhere is reported as truncated. *)
Lemma decode_torn f k : frame_ok f -> (k < length (wbytes f))%nat ->
  decode_from (firstn k (wbytes f)) = Err TruncHeader \/ decode_from (firstn k (wbytes f)) = Err TruncPayload.
Proof.
  intros H K. pose proof H as (A & _). destruct (frame_header_ok f H) as (B1 & B2 & B3 & B4).
  rewrite wbytes_length in K. destruct (Nat.lt_ge_cases k 24) as [L|L].
  - left. unfold decode_from, HEADER_SIZE. rewrite firstn_length_le by (rewrite wbytes_length; lia).
    destruct (Nat.ltb_spec k 24); [reflexivity|lia].
  - right. unfold wbytes, frame_bytes. fold (wheader f).
    rewrite firstn_app, header_length, firstn_all2 by (rewrite header_length; lia).
    set (p := firstn (k - 24) (wf_payload f)).
    assert (Lp : length p = (k - 24)%nat) by (unfold p; rewrite firstn_length; lia).
    destruct (header_fields (wheader f) p B1 B2 B3) as (F1 & F2 & F3 & F4 & F5 & F6 & F7).
    unfold decode_from. rewrite app_length, header_length. unfold HEADER_SIZE.
    destruct (Nat.ltb_spec (24 + length p) 24); [lia|].
    rewrite F1, F2, F3, F4, F5, F6, F7. rewrite !N.eqb_refl. cbn [negb].
    rewrite ftype_round. destruct (N.eqb_spec (h_seq (wheader f)) 0) as [E|_]; [cbn in E; lia|].
    rewrite B4. destruct (N.ltb_spec (N.of_nat (length p)) (N.of_nat (length (wf_payload f)))); [reflexivity|lia].
Qed.

(** *** A segment *)
Definition read_back (f : wframe) : header * bytes := (wheader f, wf_payload f).

Lemma frames_fuel : forall m n bs, (length bs <= m)%nat -> (length bs <= n)%nat -> frames_of m bs = frames_of n bs.
Proof.
  induction m as [|m IH]; intros n bs Hm Hn.
  - destruct bs; [|cbn in Hm; lia]. destruct n; reflexivity.
  - destruct bs as [|b bs]; [destruct n; reflexivity|]. destruct n as [|n]; [cbn in Hn; lia|].
    cbn [frames_of]. destruct (decode_from (b :: bs)) as [[h r]|[]]; try reflexivity.
    rewrite (IH n); auto; rewrite skipn_length; unfold HEADER_SIZE; cbn [length] in *; lia.
Qed.

Lemma frames_cons f rest : frame_ok f ->
  segment_frames (wbytes f ++ rest) = (read_back f :: fst (segment_frames rest), snd (segment_frames rest)).
Proof.
  intros H. unfold segment_frames. rewrite app_length, wbytes_length.
  replace (24 + length (wf_payload f) + length rest)%nat with (S (23 + length (wf_payload f) + length rest)) by lia.
  assert (NE : exists b t, wbytes f ++ rest = b :: t).
  { destruct (wbytes f ++ rest) eqn:E; eauto. apply (f_equal (@length N)) in E. rewrite app_length, wbytes_length in E. cbn in E. lia. }
  destruct NE as (b & t & E). cbn [frames_of]. rewrite E. rewrite <- E. rewrite (decode_complete f rest H).
  destruct (frame_header_ok f H) as (_ & _ & _ & B4). rewrite B4, Nat2N.id.
  rewrite payload_slice.
  assert (SK : skipn (HEADER_SIZE + length (wf_payload f)) (wbytes f ++ rest) = rest).
  { rewrite skipn_app, skipn_all2 by (rewrite wbytes_length; unfold HEADER_SIZE; lia).
    rewrite wbytes_length. unfold HEADER_SIZE. now rewrite Nat.sub_diag. }
  rewrite SK. rewrite (frames_fuel _ (length rest) rest) by lia.
  destruct (frames_of (length rest) rest). reflexivity.
Qed.
Lemma frames_log l rest : Forall frame_ok l ->
  segment_frames (log_bytes l ++ rest) = (map read_back l ++ fst (segment_frames rest), snd (segment_frames rest)).
Proof.
  induction 1 as [|f l Hf Hl IH].
  - change (log_bytes [] ++ rest) with rest. cbn [map app]. now destruct (segment_frames rest).
  - unfold log_bytes. cbn [map concat]. rewrite <- app_assoc, frames_cons by auto. fold (log_bytes l). rewrite IH. reflexivity.
Qed.
Lemma frames_torn f k : frame_ok f -> (0 < k < length (wbytes f))%nat -> segment_frames (firstn k (wbytes f)) = ([], Torn).
Proof.
  intros H K. unfold segment_frames.
  assert (L : length (firstn k (wbytes f)) = k) by (rewrite firstn_length; lia). rewrite L.
  destruct k as [|k]; [lia|].
  destruct (firstn (S k) (wbytes f)) as [|b t] eqn:E; [cbn in L; lia|].
  cbn [frames_of]. rewrite <- E. destruct (decode_torn f (S k) H ltac:(lia)) as [->| ->]; reflexivity.
Qed.

Lemma log_app a b : log_bytes (a ++ b) = log_bytes a ++ log_bytes b.
Proof. unfold log_bytes. now rewrite map_app, concat_app. Qed.
Lemma firstn_S_nth {A} n (l : list A) : (n < length l)%nat -> exists x, firstn (S n) l = firstn n l ++ [x] /\ l = firstn n l ++ x :: skipn (S n) l.
Proof.
  revert l. induction n as [|n IH]; intros [|a l] H; cbn in H; try lia.
  - exists a. split; reflexivity.
  - destruct (IH l ltac:(lia)) as (x & E1 & E2). exists x. split.
    + cbn [firstn app]. f_equal. exact E1.
    + cbn [firstn app skipn]. f_equal. exact E2.
Qed.
Lemma c15_frames l k n : Forall frame_ok l -> (k <= length (log_bytes l))%nat -> whole_frames l k n ->
  segment_frames (firstn k (log_bytes l)) =
    (map read_back (firstn n l), if Nat.eqb k (length (log_bytes (firstn n l))) then AtEnd else Torn).
Proof.
  intros H K (N1 & N2 & N3).
  assert (HF : Forall frame_ok (firstn n l)).
  { rewrite <- (firstn_skipn n l) in H. apply Forall_app in H. tauto. }
  destruct (Nat.eqb_spec k (length (log_bytes (firstn n l)))) as [E|E].
  - assert (F : firstn k (log_bytes l) = log_bytes (firstn n l)).
    { rewrite <- (firstn_skipn n l) at 1. rewrite log_app, E, firstn_app, firstn_all, Nat.sub_diag. cbn. apply app_nil_r. }
    rewrite F. rewrite <- (app_nil_r (log_bytes _)), frames_log by auto. cbn. now rewrite app_nil_r.
  - assert (NL : (n < length l)%nat).
    { destruct N3 as [->|N3]; [rewrite firstn_all in *; lia|].
      destruct (Nat.eq_dec n (length l)) as [->|]; [rewrite firstn_all in *; lia|lia]. }
    destruct N3 as [->|N3]; [lia|].
    destruct (firstn_S_nth n l NL) as (f & E1 & E2). rewrite E1 in N3. rewrite log_app, app_length in N3.
    assert (LF : length (log_bytes [f]) = length (wbytes f)) by (unfold log_bytes; cbn; now rewrite app_nil_r).
    rewrite LF in N3.
    assert (OF : frame_ok f). { rewrite E2 in H. apply Forall_app in H as [_ H]. now inversion H. }
    set (j := (k - length (log_bytes (firstn n l)))%nat).
    assert (F : firstn k (log_bytes l) = log_bytes (firstn n l) ++ firstn j (wbytes f)).
    { rewrite E2 at 1. rewrite log_app, firstn_app, firstn_all2 by lia. f_equal. fold j.
      change (f :: skipn (S n) l) with ([f] ++ skipn (S n) l). rewrite log_app, firstn_app.
      unfold log_bytes at 1. cbn [map concat]. rewrite app_nil_r.
      replace (j - length (log_bytes [f]))%nat with 0%nat by (rewrite LF; unfold j; lia). cbn [firstn]. now rewrite app_nil_r. }
    rewrite F, frames_log by auto. rewrite (frames_torn f j OF) by (unfold j; lia). cbn. now rewrite app_nil_r.
Qed.
Lemma whole_exists l k : (k <= length (log_bytes l))%nat -> exists n, whole_frames l k n.
Proof.
  revert k. induction l as [|f l IH]; intros k K.
  - exists 0%nat. split; [cbn; lia|]. split; [cbn; lia|]. left. reflexivity.
  - destruct (Nat.lt_ge_cases k (length (wbytes f))) as [L|L].
    + exists 0%nat. split; [cbn; lia|]. split; [cbn; lia|]. right. cbn. unfold log_bytes. cbn. rewrite app_nil_r. exact L.
    + assert (LC : forall x, length (log_bytes (f :: x)) = (length (wbytes f) + length (log_bytes x))%nat).
      { intros x. unfold log_bytes. cbn. now rewrite app_length. }
      rewrite LC in K. destruct (IH (k - length (wbytes f))%nat ltac:(lia)) as (n & N1 & N2 & N3).
      exists (S n). split; [cbn; lia|]. cbn [firstn]. rewrite LC. split; [lia|].
      destruct N3 as [->|N3]; [left; reflexivity|right]. destruct l as [|g l]; [cbn in *; lia|].
      change (match n with 0%nat => [] | S _ => _ end) with (firstn n (g :: l)) in *. cbn [firstn] in *. rewrite LC. lia.
Qed.

(** *** Payloads *)
Section Payloads.
  Variable array : Type.
  Variable array_len : array -> nat.
  Variable ipc_write : batch array -> bytes.
  Variable ipc_read : bytes -> option (list (batch array)).
  Notation means := (means array array_len ipc_write ipc_read).
  Notation carries := (carries array array_len ipc_write ipc_read).
  Notation decode_frame := (decode_frame array array_len ipc_read).
  Notation encode_command := (encode_command array array_len ipc_write).

  Lemma append_shape id m (b : batch array) :
    encode_append array ipc_write id m b = le_bytes 8 id ++ [0; m] ++ repeat 0 6 ++ ipc_write b /\
    length (le_bytes 8 id ++ [0; m] ++ repeat 0 6) = 16%nat.
  Proof. split; [reflexivity|]. now rewrite !app_length, le_length. Qed.
  Lemma decode_append id m b : u64_ok id -> m <= 1 -> ipc_ok array ipc_write ipc_read b ->
    decode_frame TxnAppend (encode_append array ipc_write id m b) =
      if m =? 0 then
        match split_commit_column array array_len b with COk (s, hint, col) => Ok (EvAppend id s hint col) | CErr _ => Err Codec end
      else match delete_commit_hint b with COk hint => Ok (EvDelete id b hint) | CErr _ => Err Codec end.
  Proof.
    intros HI HM (E1 & E2 & E3). unfold encode_append. unfold decode_frame.
    set (p := le_bytes 8 id ++ [0; m] ++ repeat 0 6 ++ ipc_write b).
    assert (LP : (length p = 16 + length (ipc_write b))%nat).
    { unfold p. rewrite !app_length, le_length. cbn. lia. }
    rewrite LP. unfold APPEND_PREFIX. destruct (Nat.ltb_spec (16 + length (ipc_write b)) 16); [lia|].
    assert (ID : slice p 0 8 = le_bytes 8 id).
    { unfold p. change (slice ([] ++ le_bytes 8 id ++ ([0; m] ++ repeat 0 6 ++ ipc_write b)) 0 8 = le_bytes 8 id).
      apply slice_mid; [reflexivity|apply le_length]. }
    rewrite ID. assert (IV : le_value (le_bytes 8 id) = id) by (apply le_round; exact HI).
    assert (NB : forall k, nth (8 + k) p 0 = nth k ([0; m] ++ repeat 0 6 ++ ipc_write b) 0).
    { intros k. unfold p. rewrite app_nth2; rewrite le_length; [|lia]. f_equal. lia. }
    assert (N8 : nth 8 p 0 = 0) by exact (NB 0%nat). assert (N9 : nth 9 p 0 = m) by exact (NB 1%nat). rewrite N8, N9.
    destruct (N.ltb_spec 1 m); [lia|].
    assert (SK : skipn 16 p = ipc_write b).
    { unfold p. assert (A : le_bytes 8 id ++ [0; m] ++ repeat 0 6 ++ ipc_write b = (le_bytes 8 id ++ [0; m] ++ repeat 0 6) ++ ipc_write b)
        by (now rewrite <- !app_assoc).
      rewrite A, skipn_app, skipn_all2 by (rewrite !app_length, le_length; cbn; lia).
      rewrite !app_length, le_length. reflexivity. }
    rewrite SK. unfold decode_dyn_append. rewrite E1, IV. destruct (ipc_write b); [congruence|]. reflexivity.
  Qed.

  Theorem payload_round c e : means c e ->
    exists t p, encode_command c = Ok (t, p) /\ decode_frame t p = Ok e /\ Forall byte_ok p.
  Proof.
    intros H. destruct H as [id HI|id b ts HI HV H1 H2 HC|id b i f ts HI HC HP HN|id ts HI HT|id HI].
    - exists TxnBegin, (le_bytes 8 id). split; [reflexivity|]. split; [|apply le_ok]. unfold decode_frame.
      rewrite le_length. cbn [Nat.eqb]. rewrite le_round by exact HI. reflexivity.
    - destruct (c45 array array_len b ts HV H1 H2) as (w & E1 & _ & E2).
      exists TxnAppend, (encode_append array ipc_write id 0 w). split; [|split].
      + unfold encode_command. now rewrite E1.
      + rewrite decode_append; auto; [|lia]. cbn [N.eqb]. now rewrite E2.
      + unfold encode_append. apply Forall_app. split; [apply le_ok|]. apply Forall_app. split.
        * repeat constructor.
        * apply Forall_app. split; [repeat constructor|]. destruct (HC w E1) as (_ & _ & ?). auto.
    - exists TxnAppend, (encode_append array ipc_write id 1 b). split; [reflexivity|]. split.
      + rewrite decode_append; auto; [|lia]. cbn [N.eqb Pos.eqb]. unfold delete_commit_hint. rewrite HP, HN.
        rewrite ts_value. reflexivity.
      + unfold encode_append. apply Forall_app. split; [apply le_ok|]. apply Forall_app. split.
        * repeat constructor.
        * apply Forall_app. split; [repeat constructor|]. destruct HC as (_ & _ & ?). auto.
    - exists TxnCommit, (le_bytes 8 id ++ le_bytes 8 ts). split; [reflexivity|]. split.
      + unfold decode_frame. rewrite app_length, !le_length. cbn [Nat.eqb Nat.add].
        assert (A : slice (le_bytes 8 id ++ le_bytes 8 ts) 0 8 = le_bytes 8 id).
        { change (slice ([] ++ le_bytes 8 id ++ le_bytes 8 ts) 0 8 = le_bytes 8 id). apply slice_mid; [reflexivity|apply le_length]. }
        assert (B : slice (le_bytes 8 id ++ le_bytes 8 ts) 8 16 = le_bytes 8 ts).
        { rewrite <- (app_nil_r (le_bytes 8 ts)) at 1. apply slice_mid; [apply le_length|apply le_length]. }
        rewrite A, B, !le_round by assumption. reflexivity.
      + apply Forall_app. split; apply le_ok.
    - exists TxnAbort, (le_bytes 8 id). split; [reflexivity|]. split; [|apply le_ok]. unfold decode_frame.
      rewrite le_length. cbn [Nat.eqb]. rewrite le_round by exact HI. reflexivity.
  Qed.
  Lemma carries_decode f e : carries f e -> decode_frame (wf_type f) (wf_payload f) = Ok e.
  Proof.
    intros [_ (c & E & M)]. destruct (payload_round c e M) as (t & p & E1 & E2 & _).
    rewrite E in E1. inversion E1; subst. exact E2.
  Qed.

  (** *** Scanning *)
  Lemma events_all l evs : Forall2 carries l evs -> events_of array array_len ipc_read None (map read_back l) = (evs, None).
  Proof.
    induction 1 as [|f e l evs H HF IH]; [reflexivity|]. cbn [map events_of read_back wheader header_new h_type].
    rewrite (carries_decode f e H). cbn in IH. now rewrite IH.
  Qed.
  Lemma events_floor fl l evs : Forall2 carries (filter (fun w => fl <=? wf_seq w) l) evs ->
    events_of array array_len ipc_read (Some fl) (map read_back l) = (evs, None).
  Proof.
    revert evs. induction l as [|f l IH]; intros evs; cbn [filter map events_of read_back wheader header_new h_type h_seq].
    - intros H. inversion H. reflexivity.
    - destruct (N.leb_spec fl (wf_seq f)).
      + intros H1. inversion H1; subst. destruct (N.ltb_spec (wf_seq f) fl); [lia|].
        erewrite carries_decode by eauto. cbn in IH. erewrite IH by eauto. reflexivity.
      + intros H1. destruct (N.ltb_spec (wf_seq f) fl); [|lia]. cbn in IH. now apply IH.
  Qed.
  Lemma kept_app floor a b : kept_frames floor (a ++ b) = kept_frames floor a ++ kept_frames floor b.
  Proof. destruct floor; unfold kept_frames; now rewrite map_app, concat_app. Qed.
  Lemma Forall2_split {A B} (R : A -> B -> Prop) a b l : Forall2 R (a ++ b) l ->
    exists x y, l = x ++ y /\ Forall2 R a x /\ Forall2 R b y.
  Proof. intros H. apply Forall2_app_inv_l in H as (x & y & H1 & H2 & ->). eauto 6. Qed.

  (** The frames of one segment that recovery looks at. *)
  Definition kept_seg (floor : option seg_ref) (s : N) (l : list wframe) : list wframe :=
    match floor with
    | None => l
    | Some f => if s <? r_seq f then [] else if s =? r_seq f then filter (fun w => r_first f <=? wf_seq w) l else l
    end.
  Lemma kept_cons floor s l r : kept_frames floor ((s, l) :: r) = kept_seg floor s l ++ kept_frames floor r.
  Proof. destruct floor; reflexivity. Qed.
  Lemma kept_one floor s l : kept_frames floor [(s, l)] = kept_seg floor s l.
  Proof. rewrite kept_cons. destruct floor; cbn; apply app_nil_r. Qed.
  Lemma events_seg floor s l evs : (match floor with Some f => s <? r_seq f | None => false end) = false ->
    Forall2 carries (kept_seg floor s l) evs ->
    events_of array array_len ipc_read
      (match floor with Some f => if s =? r_seq f then Some (r_first f) else None | None => None end) (map read_back l) = (evs, None).
  Proof.
    intros HB HF. destruct floor as [f|]; [|now apply events_all]. unfold kept_seg in HF. rewrite HB in HF.
    destruct (s =? r_seq f); [now apply events_floor|now apply events_all].
  Qed.

  Theorem scan_cut floor segs s last k n evs :
    Forall (fun x => Forall frame_ok (snd x)) segs -> Forall frame_ok last ->
    (k <= length (log_bytes last))%nat -> whole_frames last k n ->
    Forall2 carries (kept_frames floor (segs ++ [(s, firstn n last)])) evs ->
    scan_segments array array_len ipc_read floor (dir_of segs ++ [(s, firstn k (log_bytes last))]) = Ok evs.
  Proof.
    intros HS HL HK HW. revert evs. induction HS as [|[q l] segs Hq HS IH]; intros evs HE.
    - cbn [dir_of map app scan_segments]. rewrite app_nil_l in HE. rewrite kept_one in HE.
      destruct (match floor with Some f => s <? r_seq f | None => false end) eqn:B.
      + destruct floor as [f|]; [|discriminate]. unfold kept_seg in HE. rewrite B in HE. inversion HE. reflexivity.
      + rewrite (c15_frames last k n HL HK HW). rewrite (events_seg floor s _ evs B HE).
        destruct (Nat.eqb k (length (log_bytes (firstn n last)))); [now rewrite app_nil_r|reflexivity].
    - cbn [dir_of map app scan_segments fst snd]. fold (dir_of segs).
      cbn [app] in HE. rewrite kept_cons in HE. apply Forall2_split in HE as (x & y & -> & H1 & H2).
      specialize (IH y H2).
      destruct (match floor with Some f => q <? r_seq f | None => false end) eqn:B.
      + destruct floor as [f|]; [|discriminate]. unfold kept_seg in H1. rewrite B in H1. inversion H1. exact IH.
      + cbn in Hq. rewrite <- (app_nil_r (log_bytes l)), frames_log by exact Hq.
        change (segment_frames []) with (@nil (header * bytes), AtEnd). cbn [fst snd]. rewrite app_nil_r.
        rewrite (events_seg floor q l x B H1), IH. reflexivity.
  Qed.
End Payloads.

(** *** Repairing the tail *)
Definition tail_ok (f : wframe) : Prop :=
  match wf_type f with TxnAppend | TxnCommit => (8 <= length (wf_payload f))%nat | _ => True end.
Definition tail_id (f : wframe) : option N :=
  match wf_type f with TxnAppend | TxnCommit => Some (le_value (slice (wf_payload f) 0 8)) | _ => None end.
Lemma tail_all l : forall off lst, Forall tail_ok l ->
  tail_of (map read_back l) off lst =
    (match rev l with [] => lst | f :: _ => Some (wf_seq f, tail_id f) end, off + length (log_bytes l))%nat.
Proof.
  induction l as [|f l IH]; intros off lst H.
  - cbn. f_equal. lia.
  - inversion H as [|? ? H1 H2]; subst. cbn [map tail_of read_back wheader header_new h_type h_seq].
    assert (E : (match wf_type f with
                 | TxnAppend | TxnCommit => if Nat.ltb (length (wf_payload f)) 8 then None else Some (Some (le_value (slice (wf_payload f) 0 8)))
                 | _ => Some None end) = Some (tail_id f)).
    { unfold tail_ok in H1. unfold tail_id. destruct (wf_type f); auto;
        (destruct (Nat.ltb_spec (length (wf_payload f)) 8); [lia|reflexivity]). }
    rewrite E. rewrite (IH _ _ H2). f_equal.
    + cbn [rev]. destruct (rev l) as [|x r]; reflexivity.
    + unfold log_bytes. cbn [map concat]. rewrite app_length, wbytes_length. unfold HEADER_SIZE. lia.
Qed.
Theorem tail_repair segs s last k n : Forall frame_ok last -> Forall tail_ok last ->
  (k <= length (log_bytes last))%nat -> whole_frames last k n ->
  tail_metadata (segs ++ [(s, firstn k (log_bytes last))]) =
    Ok (Some (mkTail s (length (log_bytes (firstn n last)))
                (match rev (firstn n last) with f :: _ => Some (wf_seq f) | [] => None end)
                (match rev (firstn n last) with f :: _ => tail_id f | [] => None end)),
        segs ++ [(s, log_bytes (firstn n last))]).
Proof.
  intros HF HT HK HW. unfold tail_metadata. rewrite rev_app_distr. cbn [rev app].
  rewrite (c15_frames last k n HF HK HW).
  assert (HT' : Forall tail_ok (firstn n last)).
  { rewrite <- (firstn_skipn n last) in HT. apply Forall_app in HT. tauto. }
  assert (G : firstn (length (log_bytes (firstn n last))) (firstn k (log_bytes last)) = log_bytes (firstn n last)).
  { destruct HW as (W1 & W2 & _). rewrite firstn_firstn, Nat.min_l by exact W2.
    rewrite <- (firstn_skipn n last) at 2. rewrite log_app, firstn_app, firstn_all, Nat.sub_diag. cbn. apply app_nil_r. }
  destruct (Nat.eqb k (length (log_bytes (firstn n last)))).
  - rewrite (tail_all _ 0 None HT'). cbn [Nat.add]. rewrite G, rev_involutive.
    destruct (rev (firstn n last)); reflexivity.
  - rewrite (tail_all _ 0 None HT'). cbn [Nat.add]. rewrite G, rev_involutive.
    destruct (rev (firstn n last)); reflexivity.
Qed.
Lemma bounds_all l : Forall frame_ok l ->
  frame_bounds (log_bytes l) = Ok (match l with [] => None | f :: _ => Some (wf_seq f, wf_seq (List.last l f)) end).
Proof.
  intros H. unfold frame_bounds. rewrite <- (app_nil_r (log_bytes l)), frames_log by exact H.
  change (segment_frames []) with (@nil (header * bytes), AtEnd). cbn [fst snd]. rewrite app_nil_r.
  destruct l as [|f l]; [reflexivity|]. cbn [map]. unfold read_back at 1. cbn [wheader header_new h_seq]. f_equal. f_equal. f_equal.
  change (read_back f :: map read_back l) with (map read_back (f :: l)).
  assert (G : forall m d d', m <> [] -> h_seq (fst (List.last (map read_back m) d)) = wf_seq (List.last m d')).
  { induction m as [|x m IH]; intros d d' NE; [congruence|]. destruct m as [|y m]; [reflexivity|].
    cbn [map List.last] in *. apply IH. discriminate. }
  apply G. discriminate.
Qed.

(** A payload of 2^32 bytes or more is never read back. *)
Lemma oversized seq t p h rest : 2 ^ 32 <= N.of_nat (length p) -> seq < 2 ^ 64 -> Forall byte_ok p ->
  decode_from (frame_bytes seq t p) = Ok (h, rest) -> h_len h < N.of_nat (length p) /\ rest <> [].
Proof.
  intros HL HS HB. unfold frame_bytes. set (hd := header_new seq t p).
  assert (B2 : h_len hd < 2 ^ 32) by (cbn; apply N.mod_lt; discriminate).
  destruct (header_fields hd p HS B2 (crc_bound p HB)) as (F1 & F2 & F3 & F4 & F5 & F6 & F7).
  assert (L : h_len hd < N.of_nat (length p)) by (eapply N.lt_le_trans; eauto).
  clearbody hd. unfold decode_from. destruct (Nat.ltb _ _); [discriminate|]. unfold HEADER_SIZE.
  rewrite F1, F2, F3, F4, F5, F6, F7, !N.eqb_refl. cbn [negb]. rewrite ftype_round.
  destruct (N.eqb (h_seq hd) 0); [discriminate|]. destruct (N.ltb (N.of_nat (length p)) (h_len hd)); [discriminate|].
  destruct (negb _); [discriminate|]. intros [= <- <-]. cbn [h_len]. split; [exact L|].
  intros E. apply (f_equal (@length N)) in E. rewrite skipn_length in E. cbn [length] in E. lia.
Qed.

(** *** As stated *)
Lemma c14_frame f rest : frame_ok f ->
  exists h, decode_from (wbytes f ++ rest) = Ok (h, rest) /\
    h_type h = wf_type f /\ h_seq h = wf_seq f /\ h_len h = N.of_nat (length (wf_payload f)) /\
    slice (wbytes f ++ rest) HEADER_SIZE (HEADER_SIZE + length (wf_payload f)) = wf_payload f.
Proof.
  intros H. exists (wheader f). split; [now apply decode_complete|]. split; [reflexivity|]. split; [reflexivity|]. split.
  - apply N.mod_small. apply H.
  - apply payload_slice.
Qed.
Lemma c15_segment l k n : Forall frame_ok l -> (k <= length (log_bytes l))%nat -> whole_frames l k n ->
  exists e, segment_frames (firstn k (log_bytes l)) =
    (map (fun f => (header_new (wf_seq f) (wf_type f) (wf_payload f), wf_payload f)) (firstn n l), e) /\ (e = AtEnd \/ e = Torn).
Proof.
  intros H1 H2 H3. rewrite (c15_frames l k n H1 H2 H3). eexists. split; [reflexivity|]. destruct (Nat.eqb _ _); auto.
Qed.
Lemma log_firstn_le l a b : (a <= b)%nat -> (length (log_bytes (firstn a l)) <= length (log_bytes (firstn b l)))%nat.
Proof.
  intros H. rewrite <- (firstn_skipn a (firstn b l)), log_app, firstn_firstn, Nat.min_l, app_length by exact H. lia.
Qed.
Lemma whole_unique l k : (k <= length (log_bytes l))%nat -> exists n, whole_frames l k n /\ forall m, whole_frames l k m -> m = n.
Proof.
  intros K. destruct (whole_exists l k K) as (n & H). exists n. split; auto. intros m H'.
  assert (G : forall a b, whole_frames l k a -> whole_frames l k b -> (a <= b)%nat).
  { intros a b (A1 & A2 & A3) (B1 & B2 & B3). destruct (Nat.le_gt_cases a b); auto. exfalso.
    destruct B3 as [->|B3]; [lia|]. pose proof (log_firstn_le l (S b) a ltac:(lia)). lia. }
  pose proof (G n m H H'). pose proof (G m n H' H). lia.
Qed.
Lemma c15_repair segs s last k n : Forall frame_ok last ->
  Forall (fun f => match wf_type f with TxnAppend | TxnCommit => (8 <= length (wf_payload f))%nat | _ => True end) last ->
  (k <= length (log_bytes last))%nat -> whole_frames last k n ->
  exists tm, tail_metadata (segs ++ [(s, firstn k (log_bytes last))]) = Ok (Some tm, segs ++ [(s, log_bytes (firstn n last))]) /\
    tm_active tm = s /\ tm_bytes tm = length (log_bytes (firstn n last)) /\
    tm_last_frame tm = match rev (firstn n last) with f :: _ => Some (wf_seq f) | [] => None end.
Proof. intros H1 H2 H3 H4. rewrite (tail_repair segs s last k n H1 H2 H3 H4). eexists. split; [reflexivity|]. repeat split. Qed.
