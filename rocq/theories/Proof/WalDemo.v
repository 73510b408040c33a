(** Concrete logs for the WAL theorems. *)
From Coq Require Import String List NArith Bool Lia.
From Verif Require Import Model.Columns Model.Frame Model.WalScan Model.Replay Spec.WalSpec Spec.ReplaySpec Proof.ColumnFacts
     Proof.FrameFacts Proof.ReplayFacts.
Import ListNotations.
Local Open Scope N_scope.

(** A toy IPC format for batches with one UInt64 column named "id" or a delete batch with
    "id" and "_commit_ts", two rows at most; enough for the examples. *)
Definition demo_batch (v : N) : batch unit := mkBatch [(mkField "id" false, U64 [Some v])] 1 [].
Definition demo_wal (v ts : N) : batch unit :=
  mkBatch [(mkField "id" false, U64 [Some v]); (mkField commit_col false, U64 [Some ts])] 1 [].
Definition one_value (c : column unit) : N := match c with U64 [Some v] => v | _ => 0 end.
Definition demo_write (b : batch unit) : bytes := 77 :: map (fun fc : field * column unit => one_value (snd fc)) (b_cols b).
Definition demo_read (bs : bytes) : option (list (batch unit)) :=
  match bs with [77; v; ts] => Some [demo_wal v ts] | _ => None end.
Definition demo_len (_ : unit) : nat := 1%nat.

Definition demo_cmds : list (command unit) :=
  [CmdBegin 4; CmdRows 4 (demo_batch 11) (ts_column 9 1); CmdRows 5 (demo_batch 12) (ts_column 8 1);
   CmdDelete 4 (demo_wal 13 9); CmdCommit 5 8; CmdAbort 6; CmdCommit 4 9].
Definition demo_frame (seq : N) (c : command unit) : wframe :=
  match encode_command unit demo_len demo_write c with
  | Ok (t, p) => mkFrame seq t p
  | Err _ => mkFrame seq SealMarker []
  end.
Definition demo_frames : list wframe := map (fun p => demo_frame (fst p) (snd p)) (combine [1;2;3;4;5;6;7] demo_cmds).
Definition demo_events : list (event unit) :=
  [EvBegin 4; EvAppend 4 (demo_batch 11) (Some 9) (U64 [Some 9]); EvAppend 5 (demo_batch 12) (Some 8) (U64 [Some 8]);
   EvDelete 4 (demo_wal 13 9) (Some 9); EvCommit 5 8; EvAbort 6; EvCommit 4 9].

Lemma demo_frames_ok : Forall frame_ok demo_frames.
Proof.
  unfold demo_frames. cbn [combine demo_cmds map fst snd].
  repeat apply Forall_cons; try apply Forall_nil; unfold frame_ok; (split; [vm_compute; discriminate|]);
    (split; [vm_compute; reflexivity|]); (split; [vm_compute; reflexivity|]); vm_compute; repeat constructor.
Qed.
Lemma demo_ipc v ts : v < 256 -> ts < 256 -> ipc_ok unit demo_write demo_read (demo_wal v ts).
Proof. intros H1 H2. split; [reflexivity|]. split; [discriminate|]. cbn. repeat constructor; auto. Qed.
Lemma demo_rows_means id v ts : id < 2 ^ 64 -> v < 256 -> ts < 256 ->
  means unit demo_len demo_write demo_read (CmdRows id (demo_batch v) (ts_column ts 1)) (EvAppend id (demo_batch v) (Some ts) (U64 [Some ts])).
Proof.
  intros H0 H1 H2. apply (mn_rows unit demo_len demo_write demo_read id (demo_batch v) ts); auto.
  - split; [discriminate|]. repeat constructor.
  - intros w E. rewrite append_ok in E; [|split; [discriminate|repeat constructor]|reflexivity|reflexivity].
    inversion E. apply (demo_ipc v ts); auto.
Qed.
Lemma demo_means : Forall2 (means unit demo_len demo_write demo_read) demo_cmds demo_events.
Proof.
  unfold demo_cmds, demo_events.
  repeat apply Forall2_cons; try apply Forall2_nil.
  - apply mn_begin. reflexivity.
  - apply demo_rows_means; reflexivity.
  - apply demo_rows_means; reflexivity.
  - apply (mn_delete unit demo_len demo_write demo_read 4 (demo_wal 13 9) 1 (mkField commit_col false) 9); try reflexivity.
    apply demo_ipc; reflexivity.
  - apply mn_commit; reflexivity.
  - apply mn_abort; reflexivity.
  - apply mn_commit; reflexivity.
Qed.
Lemma demo_carries : Forall2 (carries unit demo_len demo_write demo_read) demo_frames demo_events.
Proof.
  assert (G : forall cs fs evs, Forall frame_ok fs -> Forall2 (means unit demo_len demo_write demo_read) cs evs ->
     Forall2 (fun c f => encode_command unit demo_len demo_write c = Ok (wf_type f, wf_payload f)) cs fs ->
     Forall2 (carries unit demo_len demo_write demo_read) fs evs).
  { induction cs as [|c cs IH]; intros fs evs H1 H2 H3; inversion H2; inversion H3; subst; [constructor|].
    inversion H1; subst. constructor; [|apply IH; auto]. split; auto. eauto. }
  apply (G demo_cmds); [apply demo_frames_ok|apply demo_means|].
  unfold demo_cmds, demo_frames. cbn [combine demo_cmds map fst snd].
  repeat apply Forall2_cons; try apply Forall2_nil; vm_compute; reflexivity.
Qed.
Lemma demo_wf : log_wf (map to_wrec demo_events).
Proof.
  intros a r b id E F. cbn in E.
  assert (G : forall (l : list (wrec (wpayload unit))),
    (fix chk (l : list (wrec (wpayload unit))) : bool :=
      match l with
      | [] => true
      | r :: b => match finishes r with
                  | Some i => forallb (fun x => match x with RBegin j | RPay j _ | RCommit j _ | RAbort j => negb (j =? i) | RSeal => true end) b
                  | None => true end && chk b
      end) l = true -> log_wf l).
  { clear. induction l as [|x l IH]; intros H a r b id E F.
    - destruct a; discriminate.
    - apply andb_true_iff in H as [H1 H2]. destruct a as [|y a]; inversion E; subst.
      + rewrite F in H1. apply Forall_forall. intros x Hx Ha. rewrite forallb_forall in H1. specialize (H1 x Hx).
        destruct x; cbn in Ha; subst; try (rewrite N.eqb_refl in H1; discriminate); auto.
      + eapply IH; eauto. }
  revert a r b id E F. change (log_wf (map to_wrec demo_events)). apply G. reflexivity.
Qed.

(** A frame whose payload does not fit the 32-bit length field. *)
Definition huge_frame : wframe := mkFrame 1 TxnAppend (repeat 0 (N.to_nat (2 ^ 32))).
Lemma huge_lost : 1 <= wf_seq huge_frame /\ wf_seq huge_frame < 2 ^ 64 /\ Forall byte_ok (wf_payload huge_frame) /\
  forall h, decode_from (wbytes huge_frame) <> Ok (h, []).
Proof.
  split; [cbn; lia|]. split; [reflexivity|].
  assert (B : Forall byte_ok (wf_payload huge_frame)).
  { unfold huge_frame. cbn [wf_payload]. apply Forall_forall. intros x Hx. apply repeat_spec in Hx. subst. reflexivity. }
  split; [exact B|]. intros h E. unfold wbytes in E. apply oversized in E.
  - destruct E as [_ E]. congruence.
  - unfold huge_frame. cbn [wf_payload]. rewrite repeat_length, N2Nat.id. apply N.le_refl.
  - reflexivity.
  - exact B.
Qed.

Lemma c15_demo : exists n, whole_frames demo_frames 180 n /\ n = 4%nat /\ (180 <= List.length (log_bytes demo_frames))%nat /\
    Forall frame_ok demo_frames /\
    Forall2 (carries unit demo_len demo_write demo_read) (kept_frames (Some (mkRef 3 2 7)) ([(2, demo_frames)] ++ [(3, firstn n demo_frames)]))
      (firstn 3 (skipn 1 demo_events)).
Proof.
  exists 4%nat. split; [|split; [reflexivity|split; [vm_compute; repeat constructor|split; [exact demo_frames_ok|]]]].
  - split; [vm_compute; repeat constructor|]. split; [vm_compute; repeat constructor|]. right. vm_compute. repeat constructor.
  - pose proof demo_carries as H. unfold demo_events in H.
    change (kept_frames (Some (mkRef 3 2 7)) ([(2, demo_frames)] ++ [(3, firstn 4 demo_frames)])) with (firstn 3 (skipn 1 demo_frames)).
    inversion H as [|? ? ? ? _ H1]; subst. cbn [skipn firstn demo_events].
    inversion H1 as [|? ? ? ? A1 H2]; subst. inversion H2 as [|? ? ? ? A2 H3]; subst. inversion H3 as [|? ? ? ? A3 H4]; subst.
    apply Forall2_cons; [exact A1|]. apply Forall2_cons; [exact A2|]. apply Forall2_cons; [exact A3|]. apply Forall2_nil.
Qed.

(** A log in which identifier 7 is used twice, one transaction after the other, with a third
    transaction in between; and a log in which the first user never finished. *)
Definition reuse_own : list (wrec nat) :=
  [RBegin 1; RPay 1 10%nat; RPay 3 30%nat; RCommit 1 5; RBegin 2; RPay 2 20%nat; RPay 3 31%nat; RCommit 2 6; RAbort 3; RPay 4 40%nat; RCommit 4 7].
Definition reuse_id (t : N) : N := if t =? 3 then 9 else 7.
Definition log_wf_b {P} : list (wrec P) -> bool :=
  fix chk (l : list (wrec P)) : bool :=
      match l with
      | [] => true
      | r :: b => match finishes r with
                  | Some i => forallb (fun x => match x with RBegin j | RPay j _ | RCommit j _ | RAbort j => negb (j =? i) | RSeal => true end) b
                  | None => true end && chk b
      end.
Lemma log_wf_b_ok {P} (l : list (wrec P)) : log_wf_b l = true -> log_wf l.
Proof.
  induction l as [|x l IH]; intros H a r b id E F.
  - destruct a; discriminate.
  - apply andb_true_iff in H as [H1 H2]. destruct a as [|y a]; inversion E; subst.
    + rewrite F in H1. apply Forall_forall. intros x Hx Ha. rewrite forallb_forall in H1. specialize (H1 x Hx).
      destruct x; cbn in Ha; subst; try (rewrite N.eqb_refl in H1; discriminate); auto.
    + eapply IH; eauto.
Qed.
Definition owner {P} (r : wrec P) : option N := match r with RBegin j | RPay j _ | RCommit j _ | RAbort j => Some j | RSeal => None end.
Lemma owner_about {P} t (r : wrec P) : about t r <-> owner r = Some t.
Proof. destruct r; cbn; split; congruence || tauto. Qed.
Definition one_at_a_time_b {P} (idof : N -> N) : list (wrec P) -> list (wrec P) -> bool :=
  fix chk (a l : list (wrec P)) : bool :=
    match l with
    | [] => true
    | r :: b => match owner r with
                | Some t => forallb (fun x => match owner x with
                                              | Some o => (o =? t) || negb (idof o =? idof t) ||
                                                          existsb (fun y => match finishes y with Some f => f =? o | None => false end) a
                                              | None => true end) a
                | None => true end && chk (a ++ [r]) b
    end.
Lemma one_at_a_time_b_ok {P} idof (l : list (wrec P)) : one_at_a_time_b idof [] l = true -> one_at_a_time idof l.
Proof.
  assert (G : forall l a0 : list (wrec P), one_at_a_time_b idof a0 l = true ->
    forall a r b t other, l = a ++ r :: b -> about t r -> other <> t -> idof other = idof t ->
      (exists x, In x (a0 ++ a) /\ about other x) -> exists x, In x (a0 ++ a) /\ finishes x = Some other).
  { clear. induction l as [|x l IH]; intros a0 H a r b t o E HA HN HI HX; [destruct a; discriminate|].
    cbn [one_at_a_time_b] in H. apply andb_true_iff in H as [H1 H2]. destruct a as [|y a]; inversion E; subst.
    - rewrite app_nil_r in *. apply owner_about in HA. rewrite HA in H1. destruct HX as (x & Hx & HO). apply owner_about in HO.
      rewrite forallb_forall in H1. specialize (H1 x Hx). rewrite HO in H1.
      destruct (N.eqb_spec o t); [contradiction|]. rewrite HI, N.eqb_refl in H1. cbn in H1. apply existsb_exists in H1 as (y & Hy & H1).
      exists y. split; auto. destruct (finishes y); [|discriminate]. apply N.eqb_eq in H1. congruence.
    - specialize (IH (a0 ++ [y]) H2 a r b t o eq_refl HA HN HI). rewrite <- app_assoc in IH. cbn in IH. auto. }
  intros H a r b t o. apply (G l [] H).
Qed.
Lemma reuse_ok : log_wf reuse_own /\ one_at_a_time reuse_id reuse_own /\ committed reuse_own = [(10%nat, 5); (20%nat, 6); (40%nat, 7)].
Proof. split; [now apply log_wf_b_ok|]. split; [now apply one_at_a_time_b_ok|reflexivity]. Qed.

Definition stolen_own : list (wrec nat) := [RBegin 1; RPay 1 10%nat; RBegin 2; RPay 2 20%nat; RCommit 2 6].
Lemma stolen : log_wf stolen_own /\ ~ one_at_a_time (fun _ => 7) stolen_own /\ committed stolen_own = [(20%nat, 6)] /\
  replay (fun p ts l => Some (l ++ [(p, ts)])) (map (rename (fun _ => 7)) stolen_own) [] None [] =
    Some ([(10%nat, 6); (20%nat, 6)], Some 6).
Proof.
  split; [now apply log_wf_b_ok|]. split; [|split; reflexivity]. intros H.
  destruct (H [RBegin 1; RPay 1 10%nat] (RBegin 2) [RPay 2 20%nat; RCommit 2 6] 2 1 eq_refl eq_refl) as (x & Hx & F);
    [discriminate|reflexivity|exists (RBegin 1); split; [now left|reflexivity]|].
  destruct Hx as [<-|[<-|[]]]; discriminate.
Qed.
Lemma own_ids {P} (l : list (wrec P)) : l = map (rename (fun t => t)) l /\ one_at_a_time (fun t => t) l.
Proof.
  split; [|intros a r b t o _ _ H1 H2; contradiction]. induction l as [|r l IH]; auto. cbn [map]. rewrite <- IH. now destruct r.
Qed.
