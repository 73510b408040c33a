(** A log with damaged records. *)
From Coq Require Import List NArith.
From Verif Require Import Model.Columns Model.Frame Model.WalScan Spec.WalSpec Spec.DamageSpec
     Proof.FrameFacts Proof.WalDemo.
Import ListNotations.
Local Open Scope N_scope.

Lemma Forall2_firstn {A B} (R : A -> B -> Prop) n : forall l l', Forall2 R l l' -> Forall2 R (firstn n l) (firstn n l').
Proof. induction n as [|n IH]; intros l l' H; [constructor|]. inversion H; subst; constructor; auto. Qed.
Lemma Forall2_skipn {A B} (R : A -> B -> Prop) n : forall l l', Forall2 R l l' -> Forall2 R (skipn n l) (skipn n l').
Proof. induction n as [|n IH]; intros l l' H; [exact H|]. inversion H; subst; cbn [skipn]; [constructor|auto]. Qed.

Lemma c85_demo :
  let good := firstn 6 demo_frames in let f := demo_frame 7 (CmdCommit 4 9) in
  Forall frame_ok good /\ frame_ok f /\
  Forall2 (carries unit demo_len demo_write demo_read) (kept_frames None ([(2, demo_frames)] ++ [(3, good)])) (demo_events ++ firstn 6 demo_events) /\
  Forall2 (carries unit demo_len demo_write demo_read) (kept_frames (Some (mkRef 3 5 7)) ([(2, demo_frames)] ++ [(3, good)])) [EvCommit 5 8; EvAbort 6] /\
  wf_payload f = [4; 0; 0; 0; 0; 0; 0] ++ [0; 9] ++ [0; 0; 0; 0; 0; 0; 0] /\
  scan_segments unit demo_len demo_read None
    (damaged [(2, demo_frames)] 3 good (other_payload f ([4; 0; 0; 0; 0; 0; 0] ++ [1; 8] ++ [0; 0; 0; 0; 0; 0; 0]))) = Err BadCrc /\
  scan_segments unit demo_len demo_read (Some (mkRef 3 5 7)) (damaged [(2, demo_frames)] 3 good (wbytes f))
    = Ok [EvCommit 5 8; EvAbort 6; EvCommit 4 9] /\
  scan_segments unit demo_len demo_read (Some (mkRef 3 5 7)) (damaged [(2, demo_frames)] 3 good (other_number f 3))
    = Ok [EvCommit 5 8; EvAbort 6].
Proof.
  cbv zeta. pose proof demo_frames_ok as HO. pose proof demo_carries as HC.
  split; [|split; [|split; [|split; [|split; [|split; [|split]]]]]].
  - rewrite <- (firstn_skipn 6 demo_frames) in HO. apply Forall_app in HO. apply HO.
  - rewrite <- (firstn_skipn 6 demo_frames) in HO. apply Forall_app in HO as [_ HO]. now inversion HO.
  - replace (kept_frames None ([(2, demo_frames)] ++ [(3, firstn 6 demo_frames)])) with (demo_frames ++ firstn 6 demo_frames)
      by (vm_compute; reflexivity).
    apply Forall2_app; [exact HC|]. now apply Forall2_firstn.
  - replace (kept_frames (Some (mkRef 3 5 7)) ([(2, demo_frames)] ++ [(3, firstn 6 demo_frames)])) with (skipn 4 (firstn 6 demo_frames))
      by (vm_compute; reflexivity).
    apply (Forall2_skipn _ 4 _ (firstn 6 demo_events)). now apply Forall2_firstn.
  - vm_compute. reflexivity.
  - vm_compute. reflexivity.
  - vm_compute. reflexivity.
  - vm_compute. reflexivity.
Qed.

Lemma c85_type_demo :
  let f := demo_frame 7 (CmdCommit 4 9) in let b := demo_frame 7 (CmdBegin 4) in
  carries unit demo_len demo_write demo_read f (EvCommit 4 9) /\
  kept_frames (Some (mkRef 3 5 7)) [(3, [f])] = [f] /\
  (forall t, t <> TxnCommit -> t <> wf_type f /\ ~ alike (wf_type f) t) /\
  map (fun t => scan_segments unit demo_len demo_read None (damaged [] 3 [] (other_type f t))) [TxnBegin; TxnAppend; SealMarker]
    = [Err BadPayload; Err BadPayload; Err BadPayload] /\
  scan_segments unit demo_len demo_read None (damaged [] 3 [] (other_type b TxnAbort)) = Ok [EvAbort 4].
Proof.
  cbv zeta. pose proof demo_carries as HC.
  split; [|split; [|split; [|split]]].
  - apply (Forall2_skipn _ 6) in HC. inversion HC; subst. assumption.
  - vm_compute. reflexivity.
  - intros t H. split; [exact H|]. unfold alike. intros [[A _]|[A _]]; discriminate A.
  - vm_compute. reflexivity.
  - vm_compute. reflexivity.
Qed.
