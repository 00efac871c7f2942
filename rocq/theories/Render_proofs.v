(** Injectivity of the rendered identifiers (C06). *)
From Coq Require Import ZArith List Bool String Ascii Lia Decimal DecimalString DecimalZ.
From Verif Require Import Base NdArray NdArray_proofs Config Spec Config_proofs Model Render.
Import ListNotations.
Open Scope string_scope.
Open Scope Z_scope.

Fixpoint allc (p : ascii -> bool) (s : string) : bool :=
  match s with EmptyString => true | String c r => p c && allc p r end.

(** [s] is empty or starts with a character outside [p]. *)
Definition stops (p : ascii -> bool) (s : string) : Prop :=
  match s with EmptyString => True | String c _ => p c = false end.

Definition digit (c : ascii) : bool :=
  existsb (Ascii.eqb c) ["0"; "1"; "2"; "3"; "4"; "5"; "6"; "7"; "8"; "9"]%char.
Definition numch (c : ascii) : bool :=
  digit c || Ascii.eqb c "-"%char || Ascii.eqb c "."%char.

Lemma app_s_assoc : forall a b c : string, ((a ++ b) ++ c)%string = (a ++ (b ++ c))%string.
Proof. induction a; simpl; intros; auto. rewrite IHa. auto. Qed.

Lemma app_s_nil : forall a : string, (a ++ "")%string = a.
Proof. induction a; simpl; auto. rewrite IHa. auto. Qed.

Lemma split_stop : forall p s1 s2 r1 r2, allc p s1 = true -> allc p s2 = true ->
  stops p r1 -> stops p r2 -> (s1 ++ r1)%string = (s2 ++ r2)%string -> s1 = s2 /\ r1 = r2.
Proof.
  induction s1; destruct s2; simpl; intros r1 r2 A1 A2 S1 S2 E.
  - auto.
  - subst. simpl in S1. apply andb_true_iff in A2. destruct A2. congruence.
  - subst. simpl in S2. apply andb_true_iff in A1. destruct A1. congruence.
  - injection E as <- E. apply andb_true_iff in A1. apply andb_true_iff in A2.
    destruct (IHs1 s2 r1 r2) as [-> ->]; tauto.
Qed.

Lemma allc_app : forall p a b, allc p (a ++ b) = allc p a && allc p b.
Proof. induction a; simpl; intros; auto. rewrite IHa. rewrite andb_assoc. auto. Qed.

Lemma allc_imp : forall (p q : ascii -> bool) s, (forall c, p c = true -> q c = true) ->
  allc p s = true -> allc q s = true.
Proof.
  induction s; simpl; intros; auto. apply andb_true_iff in H0. rewrite H, IHs; tauto.
Qed.

(* ---------- integers ---------- *)

Lemma string_of_uint_digits : forall d, allc digit (NilEmpty.string_of_uint d) = true.
Proof. induction d; simpl; auto. Qed.

Lemma nz_digits : forall d, allc digit (NilZero.string_of_uint d) = true.
Proof. destruct d; try apply string_of_uint_digits. reflexivity. Qed.

Lemma nz_nonempty : forall d, NilZero.string_of_uint d <> "".
Proof. destruct d; simpl; discriminate. Qed.

Lemma to_int_nonneg : forall z, 0 <= z -> exists d, Z.to_int z = Pos d.
Proof. destruct z; simpl; intros; eauto; lia. Qed.

Lemma str_int_nonneg_digits : forall z, 0 <= z -> allc digit (str_int z) = true.
Proof.
  intros. destruct (to_int_nonneg z H) as [d E]. unfold str_int. rewrite E. apply nz_digits.
Qed.

Lemma numch_digit : forall c, digit c = true -> numch c = true.
Proof. unfold numch. intros c ->. auto. Qed.

Lemma str_int_numch : forall z, allc numch (str_int z) = true.
Proof.
  intros. unfold str_int. destruct (Z.to_int z); simpl.
  - eapply allc_imp; [apply numch_digit|]. apply nz_digits.
  - eapply allc_imp; [apply numch_digit|]. apply nz_digits.
Qed.

Lemma str_int_nonempty : forall z, str_int z <> "".
Proof.
  intros. unfold str_int. destruct (Z.to_int z); simpl; [apply nz_nonempty|discriminate].
Qed.

Lemma to_int_not_nil : forall z, Z.to_int z <> Pos Nil /\ Z.to_int z <> Neg Nil.
Proof.
  intros z. split; intros E; pose proof (of_to z) as H; rewrite E in H; simpl in H; subst z; discriminate.
Qed.

Lemma str_int_inj : forall x y, str_int x = str_int y -> x = y.
Proof.
  intros x y E. unfold str_int in E.
  destruct (to_int_not_nil x). destruct (to_int_not_nil y).
  pose proof (NilZero.isi (Z.to_int x)) as Hx. pose proof (NilZero.isi (Z.to_int y)) as Hy.
  rewrite E, Hy in Hx by auto. specialize (Hx ltac:(auto) ltac:(auto)). injection Hx as Hx.
  rewrite <- (of_to x), <- (of_to y), Hx. auto.
Qed.

(* ---------- half integers ---------- *)

Lemma str_half_numch : forall z, allc numch (str_half z) = true.
Proof.
  intros. unfold str_half. rewrite !allc_app, str_int_numch. destruct (z <? 0), (Z.even z); auto.
Qed.

Lemma app_nonempty : forall a b : string, b <> "" -> (a ++ b)%string <> "".
Proof. destruct a; simpl; auto. discriminate. Qed.

Lemma str_half_nonempty : forall z, str_half z <> "".
Proof.
  intros. unfold str_half. apply app_nonempty. apply app_nonempty. destruct (Z.even z); discriminate.
Qed.

Lemma digits_then_dot : forall x y b1 b2, 0 <= x -> 0 <= y ->
  (str_int x ++ (if b1 : bool then ".0" else ".5"))%string = (str_int y ++ (if b2 : bool then ".0" else ".5"))%string ->
  x = y /\ b1 = b2.
Proof.
  intros x y b1 b2 Hx Hy E. apply (split_stop digit) in E.
  - destruct E as [E1 E2]. apply str_int_inj in E1. split; auto. destruct b1, b2; auto; discriminate.
  - apply str_int_nonneg_digits; auto.
  - apply str_int_nonneg_digits; auto.
  - destruct b1; reflexivity.
  - destruct b2; reflexivity.
Qed.

Lemma str_int_head : forall x r s, 0 <= x -> (str_int x ++ r)%string <> String "-" s.
Proof.
  intros x r s Hx E. pose proof (str_int_nonneg_digits x Hx). pose proof (str_int_nonempty x).
  destruct (str_int x); [easy|]. simpl in E. injection E as -> _. simpl in H. discriminate.
Qed.

Lemma even_abs_inj : forall x y, Z.abs x / 2 = Z.abs y / 2 -> Z.even x = Z.even y -> Z.abs x = Z.abs y.
Proof.
  intros x y E P. rewrite (Z.div_mod (Z.abs x) 2), (Z.div_mod (Z.abs y) 2) by lia.
  rewrite E. f_equal.
  rewrite !Zmod_even. 
  replace (Z.even (Z.abs x)) with (Z.even x) by (destruct x; auto).
  replace (Z.even (Z.abs y)) with (Z.even y) by (destruct y; auto).
  rewrite P. auto.
Qed.

Lemma str_half_inj : forall x y, str_half x = str_half y -> x = y.
Proof.
  intros x y E. unfold str_half in E.
  assert (Px : 0 <= Z.abs x / 2) by (apply Z.div_pos; lia).
  assert (Py : 0 <= Z.abs y / 2) by (apply Z.div_pos; lia).
  destruct (x <? 0) eqn:Ex, (y <? 0) eqn:Ey; cbn [append] in E.
  - injection E as E. apply digits_then_dot in E; auto. destruct E as [E1 E2].
    pose proof (even_abs_inj x y E1 E2). lia.
  - exfalso. symmetry in E. eapply str_int_head; [|exact E]; auto.
  - exfalso. eapply str_int_head; [|exact E]; auto.
  - apply digits_then_dot in E; auto. destruct E as [E1 E2].
    pose proof (even_abs_inj x y E1 E2). lia.
Qed.

(* ---------- lists ---------- *)

Definition closer (s : string) : Prop :=
  match s with EmptyString => True | String c _ => numch c = false /\ c <> ","%char end.

Lemma join_inj : forall l1 l2 r1 r2,
  Forall (fun s => allc numch s = true /\ s <> "") l1 ->
  Forall (fun s => allc numch s = true /\ s <> "") l2 ->
  closer r1 -> closer r2 -> (join l1 ++ r1)%string = (join l2 ++ r2)%string -> l1 = l2 /\ r1 = r2.
Proof.
  assert (St : forall r, closer r -> stops numch r).
  { destruct r; simpl; tauto. }
  induction l1 as [|x l1 IH]; intros l2 r1 r2 F1 F2 C1 C2 E.
  - destruct l2 as [|y l2]; auto. inversion F2; subst. destruct H1 as [A N].
    destruct y; [easy|]. assert (r1 = String a (match l2 with [] => y | _ => y ++ ", " ++ join l2 end ++ r2)).
    { destruct l2; simpl in E; auto. }
    subst r1. simpl in A. apply andb_true_iff in A. destruct C1. destruct A. congruence.
  - inversion F1; subst. destruct H1 as [Ax Nx]. destruct l2 as [|y l2].
    + destruct x; [easy|]. assert (r2 = String a (match l1 with [] => x | _ => x ++ ", " ++ join l1 end ++ r1)).
      { destruct l1; simpl in E; auto. }
      subst r2. simpl in Ax. apply andb_true_iff in Ax. destruct C2. destruct Ax. congruence.
    + inversion F2; subst. destruct H1 as [Ay Ny].
      destruct l1 as [|x' l1], l2 as [|y' l2].
      * simpl in E. apply (split_stop numch) in E; [|exact Ax|exact Ay|apply St; auto|apply St; auto].
        destruct E as [-> ->]. auto.
      * exfalso. cbn [join] in E. rewrite app_s_assoc in E.
        apply (split_stop numch) in E; [|exact Ax|exact Ay|apply St; auto|reflexivity].
        destruct E as [_ E]. destruct r1; [discriminate|]. simpl in E. injection E as Ea _. destruct C1 as [_ Q]. apply Q; auto.
      * exfalso. cbn [join] in E. rewrite app_s_assoc in E.
        apply (split_stop numch) in E; [|exact Ax|exact Ay|reflexivity|apply St; auto].
        destruct E as [_ E]. destruct r2; [discriminate|]. simpl in E. injection E as Ea _. destruct C2 as [_ Q]. apply Q; auto.
      * change (join (x :: x' :: l1)) with (x ++ ", " ++ join (x' :: l1))%string in E.
        change (join (y :: y' :: l2)) with (y ++ ", " ++ join (y' :: l2))%string in E.
        rewrite !app_s_assoc in E. apply (split_stop numch) in E; auto; try reflexivity.
        destruct E as [-> E]. injection E as E.
        destruct (IH (y' :: l2) r1 r2) as [-> ->]; auto.
Qed.

Lemma Forall_map_int : forall l, Forall (fun s => allc numch s = true /\ s <> "") (map str_int l).
Proof. induction l; constructor; auto. split; [apply str_int_numch|apply str_int_nonempty]. Qed.

Lemma Forall_map_half : forall l, Forall (fun s => allc numch s = true /\ s <> "") (map str_half l).
Proof. induction l; constructor; auto. split; [apply str_half_numch|apply str_half_nonempty]. Qed.

Lemma map_inj : forall {A B} (f : A -> B) l l', (forall x y, f x = f y -> x = y) -> map f l = map f l' -> l = l'.
Proof.
  induction l; destruct l'; simpl; intros H E; try easy. injection E as E1 E2.
  f_equal; auto.
Qed.

Lemma str_list_split : forall l1 l2 r1 r2,
  Forall (fun s => allc numch s = true /\ s <> "") l1 ->
  Forall (fun s => allc numch s = true /\ s <> "") l2 ->
  (str_list l1 ++ r1)%string = (str_list l2 ++ r2)%string -> l1 = l2 /\ r1 = r2.
Proof.
  intros l1 l2 r1 r2 F1 F2 E. unfold str_list in E. cbn [append] in E. injection E as E.
  rewrite !app_s_assoc in E. apply join_inj in E; auto.
  - destruct E as [-> E]. injection E as ->. auto.
  - simpl. split; [reflexivity|discriminate].
  - simpl. split; [reflexivity|discriminate].
Qed.

Lemma str_tuple_inj : forall l1 l2 r1 r2, (2 <= List.length l1)%nat -> (2 <= List.length l2)%nat ->
  Forall (fun s => allc numch s = true /\ s <> "") l1 ->
  Forall (fun s => allc numch s = true /\ s <> "") l2 ->
  (str_tuple l1 ++ r1)%string = (str_tuple l2 ++ r2)%string -> l1 = l2 /\ r1 = r2.
Proof.
  intros l1 l2 r1 r2 L1 L2 F1 F2 E.
  assert (Q : forall l, (2 <= List.length l)%nat -> str_tuple l = ("(" ++ join l ++ ")")%string).
  { destruct l as [|? [|]]; simpl; intros; auto; lia. }
  rewrite !Q in E by auto. cbn [append] in E. injection E as E. rewrite !app_s_assoc in E.
  apply join_inj in E; auto.
  - destruct E as [-> E]. injection E as ->. auto.
  - simpl. split; [reflexivity|discriminate].
  - simpl. split; [reflexivity|discriminate].
Qed.

Definition same_config (a b : nd) : Prop := (phonon_free a /\ phonon_free b) \/ a = b.

Lemma config_id_split : forall a b r1 r2, valid_cloud a -> valid_cloud b ->
  stops (fun c => negb (Ascii.eqb c "}")) r1 -> stops (fun c => negb (Ascii.eqb c "}")) r2 ->
  (config_id a ++ r1)%string = (config_id b ++ r2)%string -> same_config a b /\ r1 = r2.
Proof.
  intros a b r1 r2 Va Vb S1 S2 E. unfold config_id in E. unfold same_config.
  assert (Hz : forall x, valid_cloud x -> total x = 0 -> phonon_free x).
  { intros x [W [R [N _]]] T. apply phonon_free_total; auto; [lia|]. apply occ_nonneg; auto; lia. }
  destruct (total a =? 0) eqn:Ta, (total b =? 0) eqn:Tb.
  - simpl in E. injection E as ->. split; auto. left. split; apply Hz; auto; lia.
  - discriminate.
  - discriminate.
  - rewrite !app_s_assoc in E. apply str_list_split in E; try apply Forall_map_int.
    destruct E as [E1 E2]. apply map_inj in E1; [|apply str_int_inj].
    rewrite <- (map_map Z.of_nat str_int (shp a)), <- (map_map Z.of_nat str_int (shp b)) in E2.
    apply str_tuple_inj in E2; try apply Forall_map_int;
      try (rewrite !map_length; apply Va); try (rewrite !map_length; apply Vb).
    destruct E2 as [E2 ->]. apply map_inj in E2; [|apply str_int_inj]. apply map_inj in E2; [|intros; lia].
    split; auto. right. destruct a, b; simpl in *; congruence.
Qed.

Lemma valid_total_free : forall a, valid_cloud a -> (total a = 0 <-> phonon_free a).
Proof.
  intros a [W [R [N _]]]. symmetry. apply phonon_free_total; auto; [lia|]. apply occ_nonneg; auto; lia.
Qed.

Lemma config_id_spec : forall a b, valid_cloud a -> valid_cloud b ->
  (config_id a = config_id b <-> (phonon_free a /\ phonon_free b) \/ a = b).
Proof.
  intros a b Va Vb. split.
  - intros E. destruct (config_id_split a b "" "" Va Vb) as [H _]; simpl; auto. rewrite !app_s_nil. auto.
  - intros [[Fa Fb]|E]; [|subst; auto]. unfold config_id.
    apply valid_total_free in Fa; auto. apply valid_total_free in Fb; auto. rewrite Fa, Fb. auto.
Qed.

Lemma f_arg_id_inj : forall f g, f_arg_id f = f_arg_id g -> option_map v2 f = option_map v2 g.
Proof.
  intros [f|] [g|] E; simpl in *; auto; try discriminate.
  f_equal. assert (E' : (str_list (map str_half (v2 f)) ++ "" = str_list (map str_half (v2 g)) ++ "")%string) by (rewrite !app_s_nil; auto).
  apply str_list_split in E'; try apply Forall_map_half. destruct E' as [E1 _].
  apply map_inj in E1; auto. apply str_half_inj.
Qed.

Lemma f_arg_id_ext : forall f g, option_map v2 f = option_map v2 g -> f_arg_id f = f_arg_id g.
Proof. intros [f|] [g|] E; simpl in *; auto; try discriminate. congruence. Qed.

Lemma term_id_split : forall a b r1 r2, valid_cloud a -> valid_cloud b ->
  (phonon_config_id a ++ r1)%string = (phonon_config_id b ++ r2)%string -> config_id a = config_id b /\ r1 = r2.
Proof.
  intros a b r1 r2 Va Vb E. unfold phonon_config_id in E. cbn [append] in E. injection E as E.
  rewrite !app_s_assoc in E. apply config_id_split in E; auto; [|reflexivity|reflexivity].
  destruct E as [H E]. injection E as ->. split; auto. apply config_id_spec; auto.
Qed.

Lemma phonon_config_id_spec : forall a b, valid_cloud a -> valid_cloud b ->
  (phonon_config_id a = phonon_config_id b <-> (phonon_free a /\ phonon_free b) \/ a = b).
Proof.
  intros a b Va Vb. rewrite <- config_id_spec by auto. split.
  - intros E. apply (term_id_split a b "" ""); auto. rewrite !app_s_nil. auto.
  - intros E. unfold phonon_config_id. rewrite E. auto.
Qed.

Lemma term_id_spec : forall a b f g, valid_cloud a -> valid_cloud b ->
  (term_id a f = term_id b g <->
   ((phonon_free a /\ phonon_free b) \/ a = b) /\ option_map v2 f = option_map v2 g).
Proof.
  intros a b f g Va Vb. unfold term_id. rewrite <- config_id_spec by auto. split.
  - intros E. apply term_id_split in E; auto. destruct E as [E1 E2]. split; auto. apply f_arg_id_inj; auto.
  - intros [E1 E2]. unfold phonon_config_id. rewrite E1, (f_arg_id_ext _ _ E2). auto.
Qed.
