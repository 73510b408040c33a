(** The text of a JSON value determines it, and canonical forms are equal exactly for values
    that say the same thing. *)
From Coq Require Import List NArith ZArith Bool Arith Lia Permutation Decimal DecimalN.
From Verif Require Import Base.Lex Model.Json Spec.JsonSpec.
Import ListNotations.
Local Open Scope N_scope.

Section JsonInd.
  Variable P : json -> Prop.
  Hypothesis Hnull : P JNull.
  Hypothesis Hbool : forall b, P (JBool b).
  Hypothesis Hint : forall z, P (JInt z).
  Hypothesis Hstr : forall s, P (JStr s).
  Hypothesis Harr : forall l, Forall P l -> P (JArr l).
  Hypothesis Hobj : forall l, Forall (fun p => P (snd p)) l -> P (JObj l).
  Fixpoint json_nested (v : json) : P v :=
    match v with
    | JNull => Hnull
    | JBool b => Hbool b
    | JInt z => Hint z
    | JStr s => Hstr s
    | JArr l => Harr l ((fix go (l : list json) : Forall P l :=
        match l with [] => Forall_nil _ | x :: r => Forall_cons _ (json_nested x) (go r) end) l)
    | JObj l => Hobj l ((fix go (l : list (chars * json)) : Forall (fun p => P (snd p)) l :=
        match l with [] => Forall_nil _ | x :: r => Forall_cons _ (json_nested (snd x)) (go r) end) l)
    end.
End JsonInd.

(** *** Strings *)
Fixpoint differ (a b : chars) : bool :=
  match a, b with
  | x :: a, y :: b => negb (x =? y) || differ a b
  | _, _ => false
  end.
Lemma differ_app a : forall b x y, differ a b = true -> a ++ x <> b ++ y.
Proof.
  induction a as [|c a IH]; intros [|d b] x y H; try discriminate. cbn [differ] in H. intros E. cbn [Datatypes.app] in E.
  inversion E; subst. rewrite N.eqb_refl in H. cbn [negb orb] in H. exact (IH _ _ _ H H2).
Qed.
Definition specials : list N := map N.of_nat (seq 0 32) ++ [34; 92].
Lemma specials_differ : forallb (fun c => forallb (fun d => (c =? d) || differ (escape_char c) (escape_char d)) specials) specials = true.
Proof. vm_compute. reflexivity. Qed.
Lemma specials_slash : forallb (fun c => match escape_char c with x :: _ => x =? 92 | [] => false end) specials = true.
Proof. vm_compute. reflexivity. Qed.
Lemma ordinary c : In c specials \/ (escape_char c = [c] /\ c <> 92 /\ c <> 34).
Proof.
  destruct (N.ltb_spec c 32) as [H|H].
  - left. apply in_or_app. left. apply in_map_iff. exists (N.to_nat c). rewrite N2Nat.id. split; auto. apply in_seq. lia.
  - destruct (N.eq_dec c 34) as [->|H34]; [left; apply in_or_app; right; now left|].
    destruct (N.eq_dec c 92) as [->|H92]; [left; apply in_or_app; right; right; now left|].
    right. split; auto. unfold escape_char. destruct (N.eqb_spec c 34); [congruence|]. destruct (N.eqb_spec c 92); [congruence|].
    repeat match goal with |- context [c =? ?n] => destruct (N.eqb_spec c n); [lia|] end.
    destruct (N.ltb_spec c 32); [lia|reflexivity].
Qed.
Lemma special_head c : In c specials -> exists r, escape_char c = 92 :: r.
Proof.
  intros H. pose proof specials_slash as X. rewrite forallb_forall in X. specialize (X c H).
  destruct (escape_char c) as [|x r]; [discriminate|]. apply N.eqb_eq in X. subst x. eauto.
Qed.
Lemma escape_prefix c d x y : escape_char c ++ x = escape_char d ++ y -> c = d /\ x = y.
Proof.
  intros E. assert (EC : c = d).
  { destruct (ordinary c) as [HC|(EC & C92 & _)]; destruct (ordinary d) as [HD|(ED & D92 & _)].
    - pose proof specials_differ as X. rewrite forallb_forall in X. specialize (X c HC). rewrite forallb_forall in X. specialize (X d HD).
      apply orb_prop in X as [X|X]; [now apply N.eqb_eq in X|]. now apply (differ_app _ _ x y) in X.
    - destruct (special_head c HC) as (r & ER). rewrite ER, ED in E. cbn [Datatypes.app] in E. inversion E. congruence.
    - destruct (special_head d HD) as (r & ER). rewrite ER, EC in E. cbn [Datatypes.app] in E. inversion E. congruence.
    - rewrite EC, ED in E. cbn [Datatypes.app] in E. inversion E. auto. }
  subst d. split; auto. eapply app_inv_head; eauto.
Qed.
Lemma escape_head c : exists x r, escape_char c = x :: r /\ x <> 34.
Proof.
  destruct (ordinary c) as [H|(E & _ & H)]; [|eauto]. destruct (special_head c H) as (r & ->). exists 92, r. split; [auto|lia].
Qed.
Lemma quoted_prefix s : forall t x y, escape s ++ 34 :: x = escape t ++ 34 :: y -> s = t /\ x = y.
Proof.
  unfold escape. induction s as [|c s IH]; intros [|d t] x y E; cbn [flat_map Datatypes.app] in E.
  - inversion E; auto.
  - destruct (escape_head d) as (z & r & ED & HZ). rewrite ED in E. cbn [Datatypes.app] in E. inversion E. congruence.
  - destruct (escape_head c) as (z & r & EC & HZ). rewrite EC in E. cbn [Datatypes.app] in E. inversion E. congruence.
  - rewrite <- !app_assoc in E. apply escape_prefix in E as [-> E]. apply IH in E as [-> ->]. auto.
Qed.
Lemma quoted_inj s t x y : quoted s ++ x = quoted t ++ y -> s = t /\ x = y.
Proof.
  unfold quoted. cbn [Datatypes.app].
  rewrite <- !app_assoc. cbn [Datatypes.app]. intros E. apply quoted_prefix. congruence.
Qed.

(** *** Numbers *)
(** What follows a value inside a text: nothing, a comma or a closing bracket. *)
Definition delim (a : chars) : Prop := match a with [] => True | c :: _ => c = 44 \/ c = 93 \/ c = 125 end.
Lemma uint_prefix d : forall e x y, delim x -> delim y -> uint_chars d ++ x = uint_chars e ++ y -> d = e /\ x = y.
Proof.
  induction d; intros e x y HX HY E; destruct e; cbn [uint_chars Datatypes.app] in E;
    try (inversion E as [[E1]]; apply IHd in E1 as [-> ->]; auto; fail);
    try discriminate; auto;
    try (subst x; cbn [delim] in HX; lia); try (subst y; cbn [delim] in HY; lia).
Qed.
Lemma uint_head d : d <> Nil -> exists c r, uint_chars d = c :: r /\ 48 <= c <= 57.
Proof. destruct d; [congruence|..]; intros _; cbn [uint_chars]; eexists; eexists; (split; [reflexivity|lia]). Qed.
Lemma to_uint_not_nil n : N.to_uint n <> Nil.
Proof. destruct n as [|p]; [discriminate|]. apply DecimalPos.Unsigned.to_uint_nonnil. Qed.
Lemma int_split z : int_chars z = (if (z <? 0)%Z then [45] else []) ++ uint_chars (N.to_uint (Z.abs_N z)).
Proof. destruct z; reflexivity. Qed.
Lemma int_head z : exists c r, int_chars z = c :: r /\ (c = 45 \/ 48 <= c <= 57).
Proof.
  rewrite int_split. destruct (uint_head _ (to_uint_not_nil (Z.abs_N z))) as (c & r & -> & H).
  destruct (z <? 0)%Z; cbn [Datatypes.app]; eauto.
Qed.
Lemma int_prefix z w x y : delim x -> delim y -> int_chars z ++ x = int_chars w ++ y -> z = w /\ x = y.
Proof.
  intros HX HY. rewrite !int_split.
  destruct (uint_head _ (to_uint_not_nil (Z.abs_N z))) as (c & r & EC & HC).
  destruct (uint_head _ (to_uint_not_nil (Z.abs_N w))) as (d & q & ED & HD).
  destruct (Z.ltb_spec z 0); destruct (Z.ltb_spec w 0); cbn [Datatypes.app]; intros E.
  - inversion E as [[E1]]. apply uint_prefix in E1 as [E1 ->]; auto. split; auto. apply DecimalN.Unsigned.to_uint_inj in E1. lia.
  - rewrite ED in E. cbn [Datatypes.app] in E. inversion E. lia.
  - rewrite EC in E. cbn [Datatypes.app] in E. inversion E. lia.
  - apply uint_prefix in E as [E1 ->]; auto. split; auto. apply DecimalN.Unsigned.to_uint_inj in E1. lia.
Qed.

(** *** Values *)
Fixpoint items (first : bool) (l : list json) : chars :=
  match l with
  | [] => [93]
  | x :: r => (if first then [] else [44]) ++ text x ++ items false r
  end.
Fixpoint members (first : bool) (l : list (chars * json)) : chars :=
  match l with
  | [] => [125]
  | (k, x) :: r => (if first then [] else [44]) ++ quoted k ++ 58 :: text x ++ members false r
  end.
Lemma text_arr l : text (JArr l) = 91 :: items true l.
Proof. reflexivity. Qed.
Lemma text_obj l : text (JObj l) = 123 :: members true l.
Proof. reflexivity. Qed.
Lemma items_delim l x : delim (items false l ++ x).
Proof. destruct l; cbn; auto. Qed.
Lemma members_delim l x : delim (members false l ++ x).
Proof. destruct l as [|[k v] l]; cbn; auto. Qed.

(** The first character of a text tells its kind. *)
Definition kind (v : json) (c : N) : Prop :=
  match v with
  | JNull => c = 110
  | JBool true => c = 116
  | JBool false => c = 102
  | JInt _ => c = 45 \/ 48 <= c <= 57
  | JStr _ => c = 34
  | JArr _ => c = 91
  | JObj _ => c = 123
  end.
Lemma text_head v : exists c r, text v = c :: r /\ kind v c.
Proof.
  destruct v as [|[|]|z|s|l|l]; cbn [kind]; try (eexists; eexists; split; reflexivity).
  apply int_head.
Qed.

Lemma items_prefix l : Forall (fun v => forall w x y, delim x -> delim y -> text v ++ x = text w ++ y -> v = w /\ x = y) l ->
  forall b m x y, items b l ++ x = items b m ++ y -> l = m /\ x = y.
Proof.
  induction 1 as [|v l HV HF IH]; intros b [|w m] x y E; cbn [items] in E.
  - inversion E; auto.
  - exfalso. destruct (text_head w) as (c & r & EW & HK). rewrite EW in E. destruct b; cbn [Datatypes.app] in E; inversion E.
    subst c. destruct w as [|[|]| | | |]; cbn [kind] in HK; lia.
  - exfalso. destruct (text_head v) as (c & r & EW & HK). rewrite EW in E. destruct b; cbn [Datatypes.app] in E; inversion E.
    subst c. destruct v as [|[|]| | | |]; cbn [kind] in HK; lia.
  - rewrite <- !app_assoc in E. apply app_inv_head in E. apply HV in E as [-> E]; auto using items_delim.
    apply IH in E as [-> ->]. auto.
Qed.
Lemma members_prefix l : Forall (fun p => forall w x y, delim x -> delim y -> text (snd p) ++ x = text w ++ y -> snd p = w /\ x = y) l ->
  forall b m x y, members b l ++ x = members b m ++ y -> l = m /\ x = y.
Proof.
  induction 1 as [|[k v] l HV HF IH]; intros b [|[k' w] m] x y E; cbn [members] in E.
  - inversion E; auto.
  - exfalso. unfold quoted in E. destruct b; cbn [Datatypes.app] in E; inversion E.
  - exfalso. unfold quoted in E. destruct b; cbn [Datatypes.app] in E; inversion E.
  - rewrite <- !app_assoc in E. apply app_inv_head in E. apply quoted_inj in E as [-> E]. cbn [Datatypes.app] in E.
    assert (E2 : text v ++ members false l ++ x = text w ++ members false m ++ y).
    { rewrite !app_assoc. congruence. }
    cbn [snd] in HV. apply HV in E2 as [-> E2]; auto using members_delim. apply IH in E2 as [-> ->]. auto.
Qed.

Lemma text_prefix v : forall w x y, delim x -> delim y -> text v ++ x = text w ++ y -> v = w /\ x = y.
Proof.
  assert (HK : forall v w x y, text v ++ x = text w ++ y -> exists c, kind v c /\ kind w c).
  { intros u w x y E. destruct (text_head u) as (c & r & EU & KU). destruct (text_head w) as (d & q & EW & KW).
    rewrite EU, EW in E. cbn [Datatypes.app] in E. inversion E; subst. eauto. }
  induction v as [|b|z|s|l IH|l IH] using json_nested; intros w x y HX HY E; destruct (HK _ _ _ _ E) as (c & KV & KW).
  - destruct w as [|[|]| | | |]; cbn [kind] in *; try lia. cbn [text Datatypes.app] in E. inversion E; auto.
  - destruct b; destruct w as [|[|]| | | |]; cbn [kind] in *; try lia; cbn [text Datatypes.app] in E; inversion E; auto.
  - destruct w as [|[|]| | | |]; cbn [kind] in *; try lia. cbn [text] in E. apply int_prefix in E as [-> ->]; auto.
  - destruct w as [|[|]| | | |]; cbn [kind] in *; try lia. cbn [text] in E. apply quoted_inj in E as [-> ->]; auto.
  - destruct w as [|[|]| | | |]; cbn [kind] in *; try lia. rewrite !text_arr in E. cbn [Datatypes.app] in E.
    assert (E2 : items true l ++ x = items true l0 ++ y) by congruence. apply items_prefix in E2 as [-> ->]; auto.
  - destruct w as [|[|]| | | |]; cbn [kind] in *; try lia. rewrite !text_obj in E. cbn [Datatypes.app] in E.
    assert (E2 : members true l ++ x = members true l0 ++ y) by congruence. apply members_prefix in E2 as [-> ->]; auto.
Qed.
Theorem text_inj v w : text v = text w -> v = w.
Proof.
  intros E. assert (X : text v ++ [] = text w ++ []) by now rewrite E. now apply text_prefix in X as [X _].
Qed.

(** *** Canonical forms *)
Lemma insert_perm m l : Permutation (m :: l) (insert_member m l).
Proof.
  induction l as [|p l IH]; [reflexivity|]. cbn [insert_member]. destruct (lexN (fst m) (fst p)); try reflexivity.
  etransitivity; [apply perm_swap|]. now constructor.
Qed.
Lemma sort_perm l : Permutation l (sort_members l).
Proof.
  induction l as [|m l IH]; [reflexivity|]. change (sort_members (m :: l)) with (insert_member m (sort_members l)).
  etransitivity; [|apply insert_perm]. now constructor.
Qed.
Lemma insert_swap a b l : fst a <> fst b -> insert_member a (insert_member b l) = insert_member b (insert_member a l).
Proof.
  intros HN. assert (HE : forall p q : chars * json, lexN (fst p) (fst q) = Eq -> fst p = fst q) by (intros p q; apply lexN_eq).
  assert (HO : lexN (fst b) (fst a) = CompOpp (lexN (fst a) (fst b))) by apply lexN_opp.
  induction l as [|p l IH]; cbn [insert_member].
  - rewrite HO. destruct (lexN (fst a) (fst b)) eqn:E; cbn [CompOpp]; auto. apply HE in E. congruence.
  - destruct (lexN (fst b) (fst p)) eqn:EB; destruct (lexN (fst a) (fst p)) eqn:EA; cbn [insert_member];
      rewrite ?EA, ?EB; cbn [insert_member]; rewrite ?HO; try (now rewrite IH).
    + apply HE in EA, EB. congruence.
    + apply HE in EB. rewrite EB. rewrite EA. reflexivity.
    + apply HE in EB. rewrite EB. rewrite EA. reflexivity.
    + apply HE in EA. rewrite EA. rewrite (lexN_opp (fst b) (fst p)), EB. reflexivity.
    + destruct (lexN (fst a) (fst b)) eqn:E; cbn [CompOpp insert_member]; rewrite ?EA, ?EB; auto. apply HE in E. congruence.
    + assert (X : lexN (fst a) (fst b) = Gt).
      { apply (lexN_trans _ _ (fst p)); auto. rewrite lexN_opp, EB. reflexivity. }
      rewrite X. reflexivity.
    + apply HE in EA. rewrite EA, (lexN_opp (fst b) (fst p)), EB. reflexivity.
    + assert (X : lexN (fst a) (fst b) = Lt).
      { apply (lexN_trans _ _ (fst p)); auto. rewrite lexN_opp, EB. reflexivity. }
      rewrite X. reflexivity.
Qed.
Lemma sort_unique l m : Permutation l m -> NoDup (map fst l) -> sort_members l = sort_members m.
Proof.
  induction 1 as [|x l m HP IH|x y l|l m k HP1 IH1 HP2 IH2]; intros HN.
  - reflexivity.
  - inversion HN; subst. change (insert_member x (sort_members l) = insert_member x (sort_members m)). now rewrite IH.
  - change (insert_member y (insert_member x (sort_members l)) = insert_member x (insert_member y (sort_members l))).
    apply insert_swap. intros E. inversion HN as [|? ? HX]; subst. apply HX. left. auto.
  - rewrite IH1 by assumption. apply IH2. eapply Permutation_NoDup; [|exact HN]. now apply Permutation_map.
Qed.

Lemma canon_same v : forall w, canon v = canon w -> same v w.
Proof.
  induction v as [|b|z|s|l IH|l IH] using json_nested; intros w E; destruct w as [| | | |m|m]; cbn [canon] in E; try discriminate;
    try (inversion E; constructor; fail).
  - inversion E as [E1]. constructor. clear E. revert m E1. induction IH as [|v l HV HF IH2]; intros [|w m] E1; cbn [map] in E1; try discriminate; constructor.
    + apply HV. congruence.
    + apply IH2. congruence.
  - inversion E as [E1].
    assert (HP : Permutation (map (fun p => (fst p, canon (snd p))) m) (map (fun p => (fst p, canon (snd p))) l)).
    { etransitivity; [apply sort_perm|]. rewrite <- E1. symmetry. apply sort_perm. }
    apply Permutation_map_inv in HP as (l' & EM & HP).
    apply (same_obj l l' m); auto.
    assert (IH' : Forall (fun p => forall w, canon (snd p) = canon w -> same (snd p) w) l').
    { apply Forall_forall. intros p Hp. rewrite Forall_forall in IH. apply IH. eapply Permutation_in; [symmetry; exact HP|exact Hp]. }
    clear - EM IH'. revert m EM. induction IH' as [|[k v] l HV HF IH2]; intros [|[k' w] m] E1; cbn [map fst snd] in E1; try discriminate; constructor.
    + cbn [fst snd] in *. split; [congruence|]. apply HV. congruence.
    + apply IH2. congruence.
Qed.
Lemma same_canon v : forall w, uniq v -> same v w -> canon v = canon w.
Proof.
  induction v as [|b|z|s|l IH|l IH] using json_nested; intros w HU HS; inversion HS; subst; auto.
  - cbn [canon]. f_equal. inversion HU as [| | | |? HF|]; subst. clear HU HS.
    match goal with H : Forall2 _ _ _ |- _ => induction H as [|x y l m HX H2 IH2]; [reflexivity|] end.
    inversion IH; subst. inversion HF; subst. cbn [map]. f_equal; auto.
  - inversion HU as [| | | | |? HN HF]; subst. cbn [canon]. f_equal.
    match goal with HP : Permutation l ?l', H2 : Forall2 _ ?l' ?m |- _ => rename HP into HP0; rename H2 into H20; set (k := l') in *; clearbody k end.
    rewrite (sort_unique _ (map (fun p => (fst p, canon (snd p))) k)).
    + f_equal. assert (HI : Forall (fun p => forall w, uniq (snd p) -> same (snd p) w -> canon (snd p) = canon w) k /\ Forall (fun p => uniq (snd p)) k).
      { split; eapply Permutation_Forall; eauto. }
      destruct HI as [I1 I2]. clear - H20 I1 I2. induction H20 as [|[x v] [y w] l m [E HX] H2 IH2]; [reflexivity|].
      inversion I1; subst. inversion I2; subst. cbn [map fst snd] in *. f_equal; [|auto]. subst y. f_equal. auto.
    + now apply Permutation_map.
    + rewrite map_map. cbn [fst]. exact HN.
Qed.

Theorem canon_text v w : uniq v -> (text (canon v) = text (canon w) <-> same v w).
Proof.
  intros HU. split; intros H.
  - apply canon_same. now apply text_inj.
  - f_equal. now apply same_canon.
Qed.
