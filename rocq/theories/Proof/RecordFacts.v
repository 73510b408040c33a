(** Records written as JSON are read back as they were. *)
From Coq Require Import List NArith ZArith Bool String Ascii Lia Sorted.
From Verif Require Import Spec.Ieee Model.Key Model.UnionKey Model.Records Spec.RecordSpec.
Import ListNotations.
Local Open Scope N_scope.

Ltac mem := unfold need, need_opt, need_or; cbn [members bind];
  repeat (cbn [member];
    match goal with |- context [chars_eqb (lit ?a) (lit ?b)] =>
      let v := eval vm_compute in (chars_eqb (lit a) (lit b)) in change (chars_eqb (lit a) (lit b)) with v; cbv iota end);
  cbn [bind].

(** *** Building blocks *)
Lemma u_back bits n : n < 2 ^ bits -> d_u bits (e_u n) = Some n.
Proof.
  intros H. unfold d_u, e_u. assert (Z.of_N n < 2 ^ Z.of_N bits)%Z by (rewrite <- (N2Z.inj_pow 2); lia).
  destruct (Z.leb_spec 0 (Z.of_N n)); [|lia]. destruct (Z.ltb_spec (Z.of_N n) (2 ^ Z.of_N bits)); [|lia]. cbn. now rewrite N2Z.id.
Qed.
Lemma i_back bits z : signed (Z.of_N bits) z -> d_i bits (VInt z) = Some z.
Proof.
  intros [A B]. unfold d_i. destruct (Z.leb_spec (- 2 ^ (Z.of_N bits - 1)) z); [|lia].
  destruct (Z.ltb_spec z (2 ^ (Z.of_N bits - 1))); [|lia]. reflexivity.
Qed.
Lemma opt_back {A} (e : A -> jv) d o : (forall x, e x <> VNull) -> opt_all (fun x => d (e x) = Some x) o -> d_opt d (e_opt e o) = Some o.
Proof.
  intros NN H. destruct o as [x|]; cbn [e_opt]; [|reflexivity]. specialize (H x eq_refl). cbn beta in H. unfold d_opt. specialize (NN x).
  destruct (e x); try (now rewrite H). congruence.
Qed.
Lemma list_back {A} (e : A -> jv) d l : Forall (fun x => d (e x) = Some x) l -> d_list d (VArr (map e l)) = Some l.
Proof. cbn [d_list]. induction 1 as [|x l H _ IH]; cbn [map traverse]; [reflexivity|]. now rewrite H, IH. Qed.
Lemma traverse_back {A} (e : A -> option jv) d l : Forall (fun x => exists j, e x = Some j /\ d j = Some x) l ->
  exists js, traverse e l = Some js /\ traverse d js = Some l.
Proof.
  induction 1 as [|x l (j & H1 & H2) _ (js & IH1 & IH2)]; cbn [traverse]; [exists []; auto|].
  exists (j :: js). rewrite H1, IH1. cbn [traverse]. now rewrite H2, IH2.
Qed.
Lemma optf_back {A} (e : A -> option jv) d o : opt_all (fun x => exists j, e x = Some j /\ d j = Some x /\ j <> VNull) o ->
  exists j, e_optf e o = Some j /\ d_opt d j = Some o.
Proof.
  intros H. destruct o as [x|]; cbn [e_optf]; [|exists VNull; auto]. destruct (H x eq_refl) as (j & H1 & H2 & H3).
  exists j. split; auto. unfold d_opt. destruct j; try (now rewrite H2). congruence.
Qed.
Lemma opt_all_impl {A} (P Q : A -> Prop) o : (forall x, P x -> Q x) -> opt_all P o -> opt_all Q o.
Proof. intros H K x E. auto. Qed.

(** *** ULIDs *)
Lemma alphabet_back d : d < 32 -> index (nth (N.to_nat d) alphabet 0) alphabet 0 = Some d.
Proof.
  intros H. assert (E : forallb (fun k => match index (nth k alphabet 0) alphabet 0 with Some x => x =? N.of_nat k | None => false end) (seq 0 32) = true) by (vm_compute; reflexivity).
  rewrite forallb_forall in E. specialize (E (N.to_nat d)). assert (I : In (N.to_nat d) (seq 0 32)) by (apply in_seq; lia).
  apply E in I. destruct (index (nth (N.to_nat d) alphabet 0) alphabet 0) as [x|]; [|discriminate]. apply N.eqb_eq in I. subst. f_equal. lia.
Qed.
Lemma digits_small k : forall n, Forall (fun d => d < 32) (digits32 k n).
Proof.
  induction k as [|k IH]; intros n; cbn [digits32]; [constructor|]. apply Forall_app. split; auto. constructor; [|constructor]. apply N.mod_lt. lia.
Qed.
Lemma digits_length k : forall n, List.length (digits32 k n) = k.
Proof. induction k as [|k IH]; intros n; cbn [digits32]; [reflexivity|]. rewrite app_length, IH. cbn. lia. Qed.
Lemma digits_value k : forall n, n < 32 ^ N.of_nat k -> n < 2 ^ 128 ->
  fold_left (fun a d => (a * 32 + d) mod 2 ^ 128) (digits32 k n) 0 = n.
Proof.
  induction k as [|k IH]; intros n H L.
  - cbn in *. lia.
  - cbn [digits32]. rewrite fold_left_app. cbn [fold_left].
    assert (D : n / 32 < 32 ^ N.of_nat k).
    { apply N.div_lt_upper_bound; [lia|]. replace (N.of_nat (S k)) with (N.succ (N.of_nat k)) in H by lia. now rewrite N.pow_succ_r' in H. }
    rewrite IH; auto.
    + rewrite (N.mul_comm (n / 32)). rewrite <- N.div_mod by lia. now apply N.mod_small.
    + eapply N.le_lt_trans; [|exact L]. apply N.div_le_upper_bound; lia.
Qed.
Lemma ulid_back n : u128 n -> d_ulid_chars (e_ulid n) = Some n.
Proof.
  intros H. unfold d_ulid_chars, e_ulid. rewrite map_length, digits_length. cbn [Nat.eqb].
  assert (T : forall ds, Forall (fun d => d < 32) ds -> traverse (fun c => index c alphabet 0) (map (fun d => nth (N.to_nat d) alphabet 0) ds) = Some ds).
  { induction 1 as [|d ds A _ IH]; cbn [map traverse]; [reflexivity|]. now rewrite (alphabet_back d A), IH. }
  rewrite T by apply digits_small. cbn [bind]. rewrite digits_value; auto. unfold u128 in H. eapply N.lt_trans; [exact H|]. vm_compute. reflexivity.
Qed.
Lemma ulid_str_back n : u128 n -> d_ulid (VStr (e_ulid n)) = Some n.
Proof. intros H. unfold d_ulid. cbn [d_str bind]. now apply ulid_back. Qed.

(** *** Floats *)
Lemma number_finite mb eb b : a_number (ieee mb eb b) -> ((b / 2 ^ mb) mod 2 ^ eb =? 2 ^ eb - 1) = false.
Proof. intros (q & H). unfold ieee in H. destruct (_ =? 2 ^ eb - 1) in *; [|reflexivity]. destruct (_ =? 0) in H; discriminate. Qed.

Lemma wal_back w : wal_fits w -> d_wal (e_wal w) = Some w.
Proof.
  destruct w as [s i f l]. intros (A & B & C & D). cbn [w_seq w_id w_first w_last] in *. unfold d_wal, e_wal. cbn [w_seq w_id w_first w_last]. mem.
  rewrite u_back by exact A. cbn [bind]. rewrite ulid_str_back by exact B. cbn [bind]. rewrite !u_back by assumption. reflexivity.
Qed.
Lemma e_wal_nn w : e_wal w <> VNull. Proof. discriminate. Qed.
Lemma wals_back l : Forall wal_fits l -> d_list d_wal (VArr (map e_wal l)) = Some l.
Proof. intros H. apply list_back. eapply Forall_impl; [|exact H]. intros. now apply wal_back. Qed.
Lemma wal_opt_back o : opt_all wal_fits o -> d_opt d_wal (e_opt e_wal o) = Some o.
Proof. intros H. apply opt_back; [apply e_wal_nn|]. eapply opt_all_impl; [|exact H]. intros. now apply wal_back. Qed.
Lemma u_opt_back o : opt_all u64 o -> d_opt (d_u 64) (e_opt e_u o) = Some o.
Proof. intros H. apply opt_back; [discriminate|]. eapply opt_all_impl; [|exact H]. intros. now apply u_back. Qed.

Section Back.
  Variable parse_path : chars -> option chars.
  Variable reread32 reread64 : N -> N.

  Lemma cell_back c : exact_reader reread32 reread64 -> cell_fits c -> finite_scalar c ->
    exists j, e_cell c = Some j /\ d_cell reread32 reread64 j = Some c.
  Proof.
    intros [X32 X64] F S. destruct c as [c|]; [|destruct S]. unfold e_cell. eexists. split; [reflexivity|].
    destruct c as [b|z|z|z|z|n|n|n|n|b|b|s|s]; cbn [cell_fits finite_scalar] in F, S; unfold variant, d_cell;
      repeat match goal with |- context [chars_eqb (lit ?a) (lit ?b)] =>
        let v := eval vm_compute in (chars_eqb (lit a) (lit b)) in change (chars_eqb (lit a) (lit b)) with v; cbv iota end;
      try (rewrite u_back by exact F; reflexivity); try (rewrite i_back by exact F; reflexivity); try reflexivity.
    - unfold finite32. unfold f32_value in S. apply number_finite in S as S'. change 255 with (2 ^ 8 - 1). rewrite S'. cbn [negb]. now rewrite X32.
    - unfold finite64. unfold f64_value in S. apply number_finite in S as S'. change 2047 with (2 ^ 11 - 1). rewrite S'. cbn [negb]. now rewrite X64.
    - rewrite list_back; [reflexivity|]. eapply Forall_impl; [|exact F]. intros a H. now apply u_back.
  Qed.
  Lemma key_back k : exact_reader reread32 reread64 -> Forall cell_fits k -> Forall finite_scalar k ->
    exists j, e_key k = Some j /\ d_key reread32 reread64 j = Some k /\ j <> VNull.
  Proof.
    intros X F S. destruct (traverse_back e_cell (d_cell reread32 reread64) k) as (js & A & B).
    { rewrite Forall_forall in *. intros c Hc. apply cell_back; auto. }
    exists (VArr js). unfold e_key, d_key. rewrite A. cbn [option_map d_list]. split; auto. split; auto. discriminate.
  Qed.
  Lemma stats_back s : exact_reader reread32 reread64 -> stats_fit s -> Forall finite_scalar (bounds_of s) ->
    exists j, e_stats s = Some j /\ d_stats reread32 reread64 j = Some s /\ j <> VNull.
  Proof.
    destruct s as [r b t mn mx mt xt]. intros X (A & B & C & D & E & F) S. unfold bounds_of in *. cbn [s_rows s_bytes s_tombs s_min s_max s_min_ts s_max_ts] in *.
    apply Forall_app in D as [D1 D2]. apply Forall_app in S as [S1 S2].
    destruct (optf_back e_key (d_key reread32 reread64) mn) as (j1 & J1 & K1). { intros k ->. now apply key_back. }
    destruct (optf_back e_key (d_key reread32 reread64) mx) as (j2 & J2 & K2). { intros k ->. now apply key_back. }
    unfold e_stats. cbn [s_rows s_bytes s_tombs s_min s_max s_min_ts s_max_ts]. rewrite J1, J2. cbn [bind].
    eexists. split; [reflexivity|]. split; [|discriminate]. unfold d_stats. mem. rewrite u_back by exact A. cbn [bind]. rewrite u_back by exact B. cbn [bind].
    rewrite u_back by exact C. cbn [bind]. rewrite K1. cbn [bind]. rewrite K2. cbn [bind]. rewrite u_opt_back by exact E. cbn [bind].
    rewrite u_opt_back by exact F. reflexivity.
  Qed.
  Lemma path_back p : path_fits parse_path p -> d_path parse_path (VStr p) = Some p.
  Proof. intros H. unfold d_path. cbn. exact H. Qed.
  Lemma path_opt_back o : opt_all (path_fits parse_path) o -> d_opt (d_path parse_path) (e_opt VStr o) = Some o.
  Proof. intros H. apply opt_back; [discriminate|]. eapply opt_all_impl; [|exact H]. intros. now apply path_back. Qed.
  Lemma entry_back e : exact_reader reread32 reread64 -> entry_fits parse_path e ->
    Forall finite_scalar (match e_stat e with Some s => bounds_of s | None => [] end) ->
    exists j, e_entry e = Some j /\ d_entry parse_path reread32 reread64 j = Some e.
  Proof.
    destruct e as [p q i s w]. intros X (A & B & C & D & E) S. cbn [e_data e_delete e_sst e_stat e_wals] in *.
    destruct (optf_back e_stats (d_stats reread32 reread64) s) as (j1 & J1 & K1). { intros k ->. apply stats_back; auto. }
    unfold e_entry. cbn [e_data e_delete e_sst e_stat e_wals]. rewrite J1. cbn [bind]. eexists. split; [reflexivity|].
    unfold d_entry. mem. rewrite path_back by exact A. cbn [bind]. rewrite path_opt_back by exact B. cbn [bind]. rewrite u_back by exact C. cbn [bind].
    rewrite K1. cbn [bind]. rewrite opt_back; [reflexivity|discriminate|]. intros l ->. apply (list_back (fun i => VStr (e_ulid i))).
    eapply Forall_impl; [|exact (E l eq_refl)]. intros. now apply ulid_str_back.
  Qed.
  Lemma version_back v : exact_reader reread32 reread64 -> version_fits parse_path v -> Forall finite_scalar (version_bounds v) ->
    exists j, e_version v = Some j /\ d_version parse_path reread32 reread64 j = Some v.
  Proof.
    destruct v as [t c ss ws lo tb]. intros X (A & B & C & D & E & F) S. unfold version_bounds in S. cbn [v_table v_commit v_ssts v_wals v_low v_tomb] in *.
    destruct (traverse_back (fun lv => option_map VArr (traverse e_entry lv)) (d_list (d_entry parse_path reread32 reread64)) ss) as (js & J & K).
    { clear - X C S. induction C as [|lv ss H _ IH]; constructor.
      - cbn [List.concat] in S. rewrite flat_map_app in S. apply Forall_app in S as [S _]. clear IH.
        destruct (traverse_back e_entry (d_entry parse_path reread32 reread64) lv) as (js & J & K).
        { induction H as [|e lv H _ IH]; constructor; cbn [flat_map] in S; apply Forall_app in S as [S1 S2]; auto. now apply entry_back. }
        exists (VArr js). rewrite J. auto.
      - apply IH. cbn [List.concat] in S. rewrite flat_map_app in S. apply Forall_app in S as [_ S]. exact S. }
    unfold e_version. cbn [v_table v_commit v_ssts v_wals v_low v_tomb]. rewrite J. cbn [bind]. eexists. split; [reflexivity|].
    unfold d_version. mem. rewrite ulid_str_back by exact A. cbn [bind]. rewrite u_back by exact B. cbn [bind d_list]. rewrite K. cbn [bind].
    change (traverse d_wal (map e_wal ws)) with (d_list d_wal (VArr (map e_wal ws))). rewrite wals_back by exact D. cbn [bind].
    rewrite wal_opt_back by exact E. cbn [bind]. rewrite u_opt_back by exact F. reflexivity.
  Qed.
  Lemma head_back h : head_fits h -> d_head (e_head h) = Some h.
  Proof.
    destruct h as [t s f l]. intros (A & B & C & D). cbn [h_table h_schema h_floor h_last] in *. unfold d_head, e_head. cbn [h_table h_schema h_floor h_last]. mem.
    rewrite ulid_str_back by exact A. cbn [bind]. rewrite u_back by exact B. cbn [bind]. rewrite wal_opt_back by exact C. cbn [bind].
    rewrite u_opt_back by exact D. reflexivity.
  Qed.
  Ltac kind := repeat match goal with |- context [chars_eqb (lit ?a) (lit ?b)] =>
        let v := eval vm_compute in (chars_eqb (lit a) (lit b)) in change (chars_eqb (lit a) (lit b)) with v; cbv iota end.
  Theorem value_back v : exact_reader reread32 reread64 -> value_fits parse_path v -> Forall finite_scalar (value_bounds v) ->
    exists j, e_value v = Some j /\ d_value parse_path reread32 reread64 j = Some v.
  Proof.
    intros X F S. destruct v as [h|v|w]; cbn [value_fits value_bounds e_value] in *.
    - eexists. split; [reflexivity|]. unfold d_value, tagged. mem. cbn [d_str bind]. kind. now rewrite head_back.
    - destruct (version_back v X F S) as (j & J & K). rewrite J. cbn [option_map]. eexists. split; [reflexivity|].
      unfold d_value, tagged. mem. cbn [d_str bind]. kind. now rewrite K.
    - eexists. split; [reflexivity|]. unfold d_value, tagged. mem. cbn [d_str bind]. kind. now rewrite wal_back.
  Qed.
  Lemma gone_back g : gone_fits parse_path g -> d_gone parse_path (e_gone g) = Some g.
  Proof.
    destruct g as [i l p q]. intros (A & B & C & D). cbn [g_id g_level g_data g_delete] in *. unfold d_gone, e_gone. cbn [g_id g_level g_data g_delete]. mem.
    rewrite u_back by exact A. cbn [bind]. rewrite u_back by exact B. cbn [bind]. rewrite path_back by exact C. cbn [bind]. rewrite path_opt_back by exact D. reflexivity.
  Qed.
  Theorem plan_back p : plan_fits parse_path p -> d_plan parse_path (e_plan p) = Some p.
  Proof.
    destruct p as [s w]. intros (A & B). cbn [p_ssts p_wals] in *. unfold d_plan, e_plan, tagged. cbn [p_ssts p_wals]. mem. cbn [d_str bind]. kind. mem.
    rewrite list_back; [|eapply Forall_impl; [|exact A]; intros; now apply gone_back]. cbn [bind]. now rewrite wals_back by exact B.
  Qed.

  (** A version written before the log segments were recorded. *)
  Theorem version_without_segments v j : e_version v = Some (VObj j) -> d_version parse_path reread32 reread64 (VObj j) = Some v ->
    d_version parse_path reread32 reread64 (VObj (filter (fun p => negb (chars_eqb (fst p) (lit "wal_segments"))) j)) =
      Some (mkRV (v_table v) (v_commit v) (v_ssts v) [] (v_low v) (v_tomb v)).
  Proof.
    destruct v as [t c ss ws lo tb]. cbn [v_table v_commit v_ssts v_low v_tomb]. unfold e_version. cbn [v_table v_commit v_ssts v_wals v_low v_tomb].
    destruct (traverse _ ss) as [ls|]; cbn [bind]; [|discriminate]. intros H. injection H as <-. cbn [filter fst]. kind. cbn [negb].
    unfold d_version. mem.
    destruct (d_ulid (VStr (e_ulid t))); cbn [bind]; [|discriminate]. destruct (d_u 64 (e_u c)); cbn [bind]; [|discriminate].
    destruct (d_list (d_list (d_entry parse_path reread32 reread64)) (VArr ls)); cbn [bind]; [|discriminate].
    destruct (d_list d_wal (VArr (map e_wal ws))); cbn [bind]; [|discriminate].
    destruct (d_opt d_wal (e_opt e_wal lo)); cbn [bind]; [|discriminate]. destruct (d_opt (d_u 64) (e_opt e_u tb)); cbn [bind]; [|discriminate].
    intros H. injection H as <- <- <- <- <- <-. reflexivity.
  Qed.

  (** *** Catalog *)
  Lemma keep_back k : keep_fits k -> d_keep (e_keep k) = Some k.
  Proof.
    destruct k as [m [s n]]. intros (A & B & C). cbn [fst snd] in *. unfold d_keep, e_keep. cbn [fst snd]. mem. rewrite u_back by exact A. cbn [bind members]. mem.
    rewrite u_back by exact B. cbn [bind]. assert (n < 2 ^ 32) by (eapply N.lt_trans; [exact C|vm_compute; reflexivity]). rewrite u_back by assumption. cbn [bind].
    rewrite N.div_small by exact C. rewrite N.mod_small by exact C. rewrite N.add_0_r. destruct (N.ltb_spec s (2 ^ 64)); [reflexivity|]. unfold u64 in B. lia.
  Qed.
  Lemma table_back t : table_fits t -> d_table (e_table t) = Some t.
  Proof.
    destruct t as [i n f k r v]. intros (A & B & C). cbn [t_table t_keep t_version] in *. unfold d_table, e_table. cbn [t_table t_name t_print t_keys t_keep t_version]. mem.
    rewrite ulid_str_back by exact A. cbn [bind d_str]. rewrite list_back; [|apply Forall_forall; reflexivity]. cbn [bind].
    rewrite opt_back; [|discriminate|eapply opt_all_impl; [|exact B]; intros; now apply keep_back]. cbn [bind]. now rewrite u_back by exact C.
  Qed.
  Lemma insert_last i s : forall l, Forall (fun p => fst p < i) l -> map_insert i s l = l ++ [(i, s)].
  Proof.
    induction l as [|[j t] l IH]; intros H; cbn [map_insert]; [reflexivity|]. inversion H as [|? ? A B]; subst. cbn in A.
    destruct (N.ltb_spec i j); [lia|]. destruct (N.eqb_spec i j); [lia|]. cbn [List.app]. now rewrite IH.
  Qed.
  Lemma insert_all : forall l acc, StronglySorted N.lt (map fst l) -> (forall p q, In p acc -> In q l -> fst p < fst q) ->
    fold_left (fun a p => map_insert (fst p) (snd p) a) l acc = acc ++ l.
  Proof.
    induction l as [|[i s] l IH]; intros acc HS HB; cbn [fold_left]; [now rewrite app_nil_r|]. cbn [map fst snd] in *. inversion HS as [|? ? A B]; subst.
    rewrite insert_last; [|apply Forall_forall; intros p Hp; apply (HB p (i, s) Hp); now left]. rewrite IH; auto.
    - now rewrite <- app_assoc.
    - intros p q Hp Hq. apply in_app_iff in Hp as [Hp|[<-|[]]]; [apply HB; auto; now right|]. cbn. rewrite Forall_forall in B. apply B. now apply in_map.
  Qed.
  Lemma catalog_back c : catalog_fits c -> d_catalog (e_catalog c) = Some c.
  Proof.
    destruct c as [ts o]. intros (A & B & C). cbn [c_tables c_ordinal] in *. unfold d_catalog, e_catalog. cbn [c_tables c_ordinal]. mem. cbn [members bind].
    assert (T : traverse d_named
                  (map (fun p => (e_ulid (fst p), VObj [(lit "logical_table_name", VStr (snd p))])) ts) = Some ts).
    { clear B. induction ts as [|[i s] ts IH]; [reflexivity|]. cbn [map fst snd] in A. inversion A; subst. cbn [map traverse]. unfold d_named at 1. cbn [fst snd]. rewrite ulid_back by assumption. cbn [bind members].
      mem. cbn [d_str bind]. now rewrite IH. }
    rewrite T. cbn [bind]. rewrite u_back by exact C. cbn [bind]. rewrite insert_all; auto; try reflexivity. intros p q [].
  Qed.
  Theorem cat_back c : cat_fits c -> d_cat (e_cat c) = Some c.
  Proof.
    intros F. destruct c as [c|t]; cbn [cat_fits e_cat] in *; unfold d_cat, tagged; mem; cbn [d_str bind]; kind; [now rewrite catalog_back|now rewrite table_back].
  Qed.

  (** *** The state file of the log, also when written by a version that knew fewer fields. *)
  Theorem state_fields_back (keep : chars -> bool) s : state_fits s ->
    load_state (Value (VObj (filter (fun p => keep (fst p)) (e_state_fields s)))) =
      Some (mkRState (if keep (lit "last_segment_seq") then st_segment s else None) (if keep (lit "last_frame_seq") then st_frame s else None)
                     (if keep (lit "last_commit_ts") then st_commit s else None) (if keep (lit "sealed_segments") then st_sealed s else [])
                     (if keep (lit "active_segment") then st_active s else None)).
  Proof.
    destruct s as [a b c d e]. intros (A & B & C & D & E). cbn [st_segment st_frame st_commit st_sealed st_active] in *. cbn [load_state]. unfold d_state, e_state_fields.
    cbn [st_segment st_frame st_commit st_sealed st_active filter fst].
    destruct (keep (lit "last_segment_seq")), (keep (lit "last_frame_seq")), (keep (lit "last_commit_ts")), (keep (lit "sealed_segments")), (keep (lit "active_segment"));
      mem; rewrite ?u_opt_back by assumption; cbn [bind]; rewrite ?u_opt_back by assumption; cbn [bind]; rewrite ?u_opt_back by assumption; cbn [bind];
      rewrite ?wals_back by assumption; cbn [bind]; rewrite ?wal_opt_back by assumption; reflexivity.
  Qed.
End Back.
