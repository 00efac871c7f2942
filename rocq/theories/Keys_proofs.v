(** Lemmas on Keys.v: renderings with ten decimals. *)
From Coq Require Import String Ascii ZArith QArith Qabs List Bool Lia.
From Verif Require Import Base Render Render_proofs Keys Utils_proofs.
Import ListNotations.
Open Scope list_scope.
Open Scope Z_scope.

Lemma round_near : forall n d, 0 < d -> 2 * Z.abs (n - d * round_half_even n d) <= d.
Proof.
  intros n d D. unfold round_half_even.
  pose proof (Z.div_mod n d ltac:(lia)) as E. pose proof (Z.mod_pos_bound n d D) as B.
  destruct (Z.ltb_spec (2 * (n mod d)) d); [lia|].
  destruct (Z.ltb_spec d (2 * (n mod d))); [nia|].
  destruct (Z.even (n / d)); nia.
Qed.

Lemma round_nonneg : forall n d, 0 < d -> 0 <= n -> 0 <= round_half_even n d.
Proof.
  intros n d D N. unfold round_half_even. pose proof (Z.div_pos n d N D).
  destruct (2 * (n mod d) <? d); [lia|]. destruct (d <? 2 * (n mod d)); [lia|]. destruct (Z.even (n / d)); lia.
Qed.

Lemma round_scale : forall n d c, 0 < d -> 0 < c -> round_half_even (n * c) (d * c) = round_half_even n d.
Proof.
  intros n d c D C. unfold round_half_even.
  rewrite Z.div_mul_cancel_r by lia. rewrite Z.mul_mod_distr_r by lia.
  remember (n mod d) as r. remember (n / d) as q.
  destruct (Z.ltb_spec (2 * r) d), (Z.ltb_spec (2 * (r * c)) (d * c)); try nia; try reflexivity.
  destruct (Z.ltb_spec d (2 * r)), (Z.ltb_spec (d * c) (2 * (r * c))); try nia; reflexivity.
Qed.

Lemma one_digit : forall z, 0 <= z < 10 -> exists c, str_int z = String c EmptyString.
Proof.
  intros z H. assert (C : In z [0;1;2;3;4;5;6;7;8;9]) by (simpl; lia).
  simpl in C. repeat (destruct C as [<- | C]; [eexists; reflexivity|]). destruct C.
Qed.

Lemma append_char_inj : forall a b c c', append a (String c EmptyString) = append b (String c' EmptyString) -> a = b /\ c = c'.
Proof.
  induction a as [|x a IH]; intros [|y b] c c' E.
  - injection E. intros; subst; auto.
  - simpl in E. injection E as E1 E2. destruct b; discriminate.
  - simpl in E. injection E as E1 E2. destruct a; discriminate.
  - simpl in E. injection E as E1 E2. destruct (IH _ _ _ E2). subst. auto.
Qed.

Lemma digits_inj : forall k n m, 0 <= n < 10 ^ Z.of_nat k -> 0 <= m < 10 ^ Z.of_nat k -> digits k n = digits k m -> n = m.
Proof.
  induction k as [|k IH]; intros n m N M E; [simpl in N, M; lia|].
  cbn [digits] in E.
  assert (Hn : 0 <= n mod 10 < 10) by (apply Z.mod_pos_bound; lia).
  assert (Hm : 0 <= m mod 10 < 10) by (apply Z.mod_pos_bound; lia).
  destruct (one_digit _ Hn) as [c C], (one_digit _ Hm) as [c' C']. rewrite C, C' in E.
  destruct (append_char_inj _ _ _ _ E) as [E1 E2]. subst c'.
  assert (n mod 10 = m mod 10) by (apply str_int_inj; congruence).
  rewrite Nat2Z.inj_succ, Z.pow_succ_r in N, M by lia.
  assert (n / 10 = m / 10).
  { apply IH; auto; split; try (apply Z.div_pos; lia); apply Z.div_lt_upper_bound; lia. }
  rewrite (Z.div_mod n 10), (Z.div_mod m 10) by lia. congruence.
Qed.

Lemma digits_numch : forall k n, allc numch (digits k n) = true.
Proof.
  induction k; intros n; cbn [digits]; [reflexivity|]. rewrite allc_app, IHk. apply str_int_numch.
Qed.

Lemma fmt10_numch : forall x, allc numch (fmt10 x) = true.
Proof.
  intros x. unfold fmt10. rewrite !allc_app, str_int_numch, digits_numch. destruct (Qnum x <? 0); reflexivity.
Qed.

Definition units (x : Q) : Z := round_half_even (Z.abs (Qnum x) * ten10) (Z.pos (Qden x)).

Lemma units_nonneg : forall x, 0 <= units x.
Proof. intros x. apply round_nonneg; [lia|]. apply Z.mul_nonneg_nonneg; [lia|]. unfold ten10; lia. Qed.

Lemma string_tail : forall c c' a b, String c a = String c' b -> a = b.
Proof. congruence. Qed.

Lemma tail_inj : forall n m, 0 <= n -> 0 <= m ->
  append (str_int (n / ten10)) (append "." (digits 10 (n mod ten10))) =
  append (str_int (m / ten10)) (append "." (digits 10 (m mod ten10))) -> n = m.
Proof.
  intros n m N M E.
  assert (T : 0 < ten10) by (unfold ten10; lia).
  assert (D : forall z, 0 <= z -> 0 <= z / ten10) by (intros; apply Z.div_pos; lia).
  apply (split_stop digit) in E; try (apply str_int_nonneg_digits; auto); try reflexivity.
  destruct E as [E1 E2].
  apply str_int_inj in E1. cbn [append] in E2.
  assert (E3 : digits 10 (n mod ten10) = digits 10 (m mod ten10)) by congruence.
  apply digits_inj in E3; try (change (10 ^ Z.of_nat 10) with ten10; apply Z.mod_pos_bound; lia).
  rewrite (Z.div_mod n ten10), (Z.div_mod m ten10) by lia. congruence.
Qed.

Lemma fmt10_eq : forall x y, fmt10 x = fmt10 y <-> (Qnum x <? 0) = (Qnum y <? 0) /\ units x = units y.
Proof.
  intros x y. split.
  - intros E. unfold fmt10 in E. fold (units x) in E. fold (units y) in E.
    pose proof (units_nonneg x) as X. pose proof (units_nonneg y) as Y.
    assert (P : forall z, 0 <= z -> 0 <= z / ten10) by (intros; apply Z.div_pos; unfold ten10; lia).
    destruct (Qnum x <? 0), (Qnum y <? 0); cbn [append] in E.
    + split; [reflexivity|]. apply tail_inj; auto. apply (string_tail _ _ _ _ E).
    + symmetry in E. exfalso. exact (str_int_head _ _ _ (P _ Y) E).
    + exfalso. exact (str_int_head _ _ _ (P _ X) E).
    + split; [reflexivity|]. apply tail_inj; auto.
  - intros [S U]. unfold fmt10. fold (units x). fold (units y). rewrite S, U. reflexivity.
Qed.

(** Equal numbers have equal renderings. *)
Lemma fmt10_compat : forall x y, (x == y)%Q -> fmt10 x = fmt10 y.
Proof.
  intros x y E. unfold Qeq in E. apply fmt10_eq. split.
  - destruct (Z.ltb_spec (Qnum x) 0), (Z.ltb_spec (Qnum y) 0); auto; nia.
  - unfold units. rewrite <- (round_scale _ (Z.pos (Qden x)) (Z.pos (Qden y))) by lia.
    rewrite <- (round_scale (Z.abs (Qnum y) * ten10) (Z.pos (Qden y)) (Z.pos (Qden x))) by lia.
    f_equal; [|lia].
    assert (A : Z.abs (Qnum x) * Z.pos (Qden y) = Z.abs (Qnum y) * Z.pos (Qden x)) by nia.
    transitivity (Z.abs (Qnum x) * Z.pos (Qden y) * ten10); [ring|]. rewrite A. ring.
Qed.

(** Numbers with equal renderings are close. *)
Lemma fmt10_close : forall x y, fmt10 x = fmt10 y -> (Qabs (x - y) <= 1 # 10000000000)%Q.
Proof.
  intros x y E. apply fmt10_eq in E. destruct E as [S U].
  pose proof (round_near (Z.abs (Qnum x) * ten10) (Z.pos (Qden x)) ltac:(lia)) as A. fold (units x) in A.
  pose proof (round_near (Z.abs (Qnum y) * ten10) (Z.pos (Qden y)) ltac:(lia)) as B. fold (units y) in B.
  rewrite U in A. remember (units y) as u. clear Hequ U.
  destruct x as [a p], y as [b q]. cbn [Qnum Qden] in *.
  unfold Qabs, Qminus, Qplus, Qopp, Qle. cbn [Qnum Qden]. 
  rewrite Pos2Z.inj_mul.
  change 10000000000 with ten10.
  remember (Z.pos p) as P. remember (Z.pos q) as R.
  assert (0 < P) by lia. assert (0 < R) by lia. assert (T : 0 < ten10) by (unfold ten10; lia).
  assert (C : 2 * Z.abs (Z.abs a * ten10 * R - Z.abs b * ten10 * P) <= 2 * (P * R)).
  { assert (2 * Z.abs (Z.abs a * ten10 - P * u) * R <= P * R) by nia.
    assert (2 * Z.abs (Z.abs b * ten10 - R * u) * P <= R * P) by nia.
    replace (Z.abs a * ten10 * R - Z.abs b * ten10 * P) with ((Z.abs a * ten10 - P * u) * R - (Z.abs b * ten10 - R * u) * P) by ring.
    remember (Z.abs a * ten10 - P * u) as f. remember (Z.abs b * ten10 - R * u) as g. nia. }
  assert (D : Z.abs (a * R + - b * P) * ten10 <= P * R).
  { replace (Z.abs (a * R + - b * P) * ten10) with (Z.abs (Z.abs a * ten10 * R - Z.abs b * ten10 * P)); [lia|].
    destruct (Z.ltb_spec a 0), (Z.ltb_spec b 0); try discriminate; nia. }
  lia.
Qed.

Lemma name_split3 : forall fa fb ga gb ha hb, allc numch fa = true -> allc numch fb = true -> allc numch ga = true -> allc numch gb = true ->
  forall s t r, stops numch s -> stops numch t -> s <> EmptyString -> t <> EmptyString ->
  append fa (append s (append ga (append t (append ha r)))) = append fb (append s (append gb (append t (append hb r)))) ->
  fa = fb /\ ga = gb /\ ha = hb.
Proof.
  intros fa fb ga gb ha hb A B C D s t r S T SN TN E.
  assert (St : forall u v, stops numch u -> u <> EmptyString -> stops numch (append u v)).
  { intros [|c u] v X Y; [congruence|]. exact X. }
  destruct (split_stop numch _ _ _ _ A B (St _ _ S SN) (St _ _ S SN) E) as [E1 E2].
  assert (Ap : forall u v w : string, append u v = append u w -> v = w).
  { induction u; simpl; intros v w X; auto. apply IHu. congruence. }
  apply Ap in E2.
  destruct (split_stop numch _ _ _ _ C D (St _ _ T TN) (St _ _ T TN) E2) as [E3 E4].
  apply Ap in E4. apply append_inj_r in E4. auto.
Qed.

Lemma result_name_inj : forall k w e k' w' e', result_name fmt10 k w e = result_name fmt10 k' w' e' ->
  fmt10 k = fmt10 k' /\ fmt10 w = fmt10 w' /\ fmt10 e = fmt10 e'.
Proof.
  intros k w e k' w' e' E. unfold result_name in E.
  apply name_split3 in E; auto using fmt10_numch; try discriminate; reflexivity.
Qed.

Lemma matrix_name_inj : forall k w e k' w' e', matrix_name fmt10 k w e = matrix_name fmt10 k' w' e' ->
  fmt10 k = fmt10 k' /\ fmt10 w = fmt10 w' /\ fmt10 e = fmt10 e'.
Proof.
  intros k w e k' w' e' E. unfold matrix_name in E.
  do 10 apply string_tail in E. cbn [append] in E. rename E into L.
  apply (name_split3 _ _ _ _ _ _ (fmt10_numch _) (fmt10_numch _) (fmt10_numch _) (fmt10_numch _) "_w_" "_e_" ".pkl") in L; auto; try discriminate; reflexivity.
Qed.
