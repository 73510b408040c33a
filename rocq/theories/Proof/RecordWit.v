(** Concrete records. *)
From Coq Require Import List NArith ZArith QArith Bool String Lia Sorted.
From Verif Require Import Spec.Ieee Model.Key Model.UnionKey Model.Records Spec.RecordSpec Proof.RecordFacts Proof.RecordLost.
Import ListNotations.
Local Open Scope N_scope.

(** Two files with keys of a string, an integer and a float; the second has deletes. *)
Definition wal7 : rwal := mkRW 7 (2 ^ 127 + 5) 100 222.
Definition bound (n : Z) (f : N) : ukey := [UPlain (CStr [98; 233]); UPlain (CI64 n); UPlain (CF64 f)].
Definition file_a : rentry :=
  mkRE (lit "sst/L0/1.parquet") None 1 (Some (mkRS 10 400 0 (Some (bound (-5) 4609434218613702656)) (Some (bound 9 0)) (Some 3) (Some 8))) (Some [5; 2 ^ 128 - 1]).
Definition file_b : rentry :=
  mkRE (lit "sst/L1/2.parquet") (Some (lit "sst/L1/2.delete.parquet")) 2 (Some (mkRS 1 40 1 (Some (bound 3 0)) (Some (bound 4 0)) None (Some 2))) None.
Definition version_ab : rversion := mkRV (2 ^ 100) 12 [[file_a]; []; [file_b]] [wal7; mkRW 8 9 223 300] (Some wal7) (Some 6).

Ltac fits := repeat match goal with
  | |- _ /\ _ => split | |- Forall _ _ => constructor | |- opt_all _ None => intros ? ?; discriminate
  | |- opt_all _ (Some _) => let E := fresh in intros ? E; injection E as <-
  | |- path_fits _ _ => reflexivity | |- u64 _ => reflexivity | |- u128 _ => reflexivity | |- u32 _ => reflexivity
  | |- True => exact I end.
Lemma version_ab_fits : value_fits Some (RVersion version_ab) /\ Forall finite_scalar (value_bounds (RVersion version_ab)) /\
  List.length (value_bounds (RVersion version_ab)) = 12%nat /\ exact_reader (fun b => b) (fun b => b).
Proof.
  split; [|split; [|split; [reflexivity|split; reflexivity]]].
  - cbn [value_fits]. unfold version_fits, version_ab, file_a, file_b, wal7. cbn [v_table v_commit v_ssts v_wals v_low v_tomb]. fits;
      unfold entry_fits, stats_fit, wal_fits, bounds_of, bound; cbn [w_seq w_id w_first w_last s_rows s_bytes s_tombs s_min s_max s_min_ts s_max_ts List.app e_data e_delete e_sst e_stat e_wals]; fits;
      cbn [w_seq w_id w_first w_last s_rows s_bytes s_tombs s_min s_max s_min_ts s_max_ts List.app e_data e_delete e_sst e_stat e_wals]; fits; cbn [cell_fits]; try reflexivity; try exact I; try (split; [discriminate|reflexivity]).
  - cbn [value_bounds]. unfold version_bounds. cbn [version_ab v_ssts List.concat List.app flat_map file_a file_b e_stat]. unfold bounds_of, bound. cbn [s_min s_max List.app].
    repeat (apply Forall_cons; [cbn [finite_scalar]; first [exact I | (eexists; vm_compute; reflexivity)]|]). constructor.
Qed.

(** A file whose greatest key is the infinity of a float column; one with a union key. *)
Definition infinity : N := 9218868437227405312.
Definition file_of (k : ukey) (p : chars) : rentry := mkRE p None 1 (Some (mkRS 1 40 0 (Some k) (Some k) (Some 3) (Some 3))) None.
Definition version_of (k : ukey) (p : chars) : rversion := mkRV 5 12 [[file_of k p]] [] None None.
Lemma infinity_is : f64_value infinity = FInf false. Proof. vm_compute. reflexivity. Qed.
Lemma version_of_fits parse_path k p : parse_path p = Some p -> Forall cell_fits k -> version_fits parse_path (version_of k p).
Proof.
  intros HP HK. unfold version_fits, version_of. cbn [v_table v_commit v_ssts v_wals v_low v_tomb]. fits.
  unfold entry_fits, file_of. cbn [e_data e_delete e_sst e_stat e_wals]. split; [exact HP|]. fits. unfold stats_fit, bounds_of. cbn. fits. apply Forall_app. auto.
Qed.
Theorem infinity_lost parse_path reread32 reread64 p : parse_path p = Some p ->
  exists k j, Forall cell_fits k /\ value_fits parse_path (RVersion (version_of k p)) /\
    e_value (RVersion (version_of k p)) = Some j /\ d_value parse_path reread32 reread64 j = None.
Proof.
  intros HP. set (k := [UPlain (CF64 infinity)]).
  assert (F : Forall cell_fits k) by (constructor; [reflexivity|constructor]).
  destruct (proj2 (value_written (RVersion (version_of k p)))) as (j & J); [repeat constructor|].
  exists k, j. split; auto. split; [cbn [value_fits]; apply version_of_fits; auto|]. split; auto.
  apply (value_lost parse_path reread32 reread64 (RVersion (version_of k p)) j); auto.
  left. cbn [finite_scalar]. rewrite infinity_is. intros (q & H). discriminate.
Qed.
Theorem union_refused parse_path p : parse_path p = Some p ->
  exists k, Forall cell_fits k /\ value_fits parse_path (RVersion (version_of k p)) /\ e_value (RVersion (version_of k p)) = None.
Proof.
  intros HP. exists [UUnion 0 (CI64 5)]. assert (F : Forall cell_fits [UUnion 0 (CI64 5)]) by (constructor; [exact I|constructor]).
  split; auto. split; [cbn [value_fits]; apply version_of_fits; auto|reflexivity].
Qed.

Definition demo_plan : rplan := mkRP [mkRG 1 0 (lit "a") None; mkRG 2 1 (lit "b") (Some (lit "c"))] [wal7].
Lemma demo_plan_fits : plan_fits Some demo_plan.
Proof. unfold plan_fits, demo_plan. cbn [p_ssts p_wals]. fits; unfold gone_fits, wal_fits, wal7; cbn [g_id g_level g_data g_delete w_seq w_id w_first w_last]; fits. Qed.
Definition demo_catalog : rcatalog := mkRC [(3, lit "users"); (2 ^ 90, lit "orders")] 2.
Definition demo_table : rtable := mkRT (2 ^ 90) (lit "orders") (lit "v1:ab") [lit "id"; lit "day"] (Some (5, (43200, 7))) 1.
Lemma demo_cat_fits : cat_fits (RCatalog demo_catalog) /\ cat_fits (RTable demo_table).
Proof.
  split; cbn [cat_fits].
  - unfold catalog_fits, demo_catalog. cbn [c_tables c_ordinal map fst]. fits. repeat constructor.
  - unfold table_fits, demo_table. cbn [t_table t_keep t_version]. fits. unfold keep_fits. cbn [fst snd]. fits. reflexivity.
Qed.
Definition demo_state : rstate := mkRState (Some 7) (Some 300) (Some 44) [wal7] (Some (mkRW 8 9 223 300)).
Lemma demo_state_fits : state_fits demo_state.
Proof. unfold state_fits, demo_state. cbn [st_segment st_frame st_commit st_sealed st_active]. fits; unfold wal_fits, wal7; cbn [w_seq w_id w_first w_last]; fits. Qed.

Lemma filter_all {A} (l : list A) : filter (fun _ => true) l = l.
Proof. induction l as [|x l IH]; cbn [filter]; [reflexivity|now rewrite IH]. Qed.
Theorem state_back s : state_fits s -> load_state (Value (e_state s)) = Some s.
Proof.
  intros F. pose proof (state_fields_back (fun _ => true) s F) as H. cbn beta iota in H. rewrite filter_all in H.
  unfold e_state. rewrite H. now destruct s.
Qed.

Lemma version_ab_read : exists j, e_version version_ab = Some (VObj j) /\
  d_version Some (fun b => b) (fun b => b) (VObj j) = Some version_ab.
Proof.
  destruct version_ab_fits as (A & B & _ & C).
  destruct (version_back Some (fun b => b) (fun b => b) version_ab C A B) as (j & J & K).
  pose proof J as E. unfold e_version in E. destruct (traverse _ (v_ssts version_ab)) as [ls|]; cbn [bind] in E; [|discriminate].
  injection E as <-. eauto.
Qed.
