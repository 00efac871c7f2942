(** Lemmas for C64. *)
From Coq Require Import String Ascii ZArith QArith Qabs Decimal DecimalString DecimalPos List Bool Lia.
From Verif Require Import Base Render Render_proofs Keys Keys_proofs Spec_names.
Import ListNotations.
Open Scope list_scope.
Open Scope Z_scope.

Lemma dv_app : forall s r acc, digits_value acc (s ++ r) = match digits_value acc s with Some v => digits_value v r | None => None end.
Proof. induction s as [|c s IH]; intros r acc; [reflexivity|]. cbn [append digits_value]. destruct (digit_value c); [apply IH|reflexivity]. Qed.

Lemma dv_pos : forall d p, digits_value (Z.pos p) (NilEmpty.string_of_uint d) = Some (Z.pos (Pos.of_uint_acc d p)).
Proof.
  induction d; intros p; [reflexivity|..]; cbn [NilEmpty.string_of_uint digits_value Pos.of_uint_acc];
    match goal with |- context [digit_value ?c] => let v := eval vm_compute in (digit_value c) in change (digit_value c) with v end; cbv iota;
    match goal with |- digits_value (10 * Z.pos p + ?k) _ = Some (Z.pos (Pos.of_uint_acc _ ?q)) => replace (10 * Z.pos p + k) with (Z.pos q) by lia end; auto.
Qed.

Lemma dv_uint : forall d, digits_value 0 (NilEmpty.string_of_uint d) = Some (Z.of_N (Pos.of_uint d)).
Proof.
  induction d; [reflexivity|exact IHd|..]; cbn [NilEmpty.string_of_uint digits_value Pos.of_uint Z.of_N];
    match goal with |- context [digit_value ?c] => let v := eval vm_compute in (digit_value c) in change (digit_value c) with v end; cbv iota; apply dv_pos.
Qed.

Lemma dv_int : forall z, 0 <= z -> digits_value 0 (str_int z) = Some z.
Proof.
  intros z H. unfold str_int. rewrite <- (DecimalZ.of_to z) at 2. destruct z as [|p|p]; [reflexivity| |lia].
  unfold Z.to_int. cbn [NilZero.string_of_int]. change (Z.of_int (Pos (Pos.to_uint p))) with (Z.of_N (Pos.of_uint (Pos.to_uint p))).
  rewrite <- dv_uint. pose proof (DecimalPos.Unsigned.to_uint_nonnil p) as N. destruct (Pos.to_uint p); [contradiction|reflexivity..].
Qed.

Lemma str_digit : forall z, 0 <= z < 10 -> forall acc, digits_value acc (str_int z) = Some (10 * acc + z) /\ String.length (str_int z) = 1%nat.
Proof.
  intros z H acc. assert (C : List.In z [0;1;2;3;4;5;6;7;8;9]) by (simpl; lia).
  cbn [List.In] in C. repeat (destruct C as [<- | C]; [split; reflexivity|]). destruct C.
Qed.

Lemma length_app : forall a b, String.length (a ++ b) = (String.length a + String.length b)%nat.
Proof. induction a as [|c a IH]; intros b; [reflexivity|]. cbn [append String.length]. rewrite IH. reflexivity. Qed.

Lemma dv_digits : forall k n acc, 0 <= n < 10 ^ Z.of_nat k -> digits_value acc (digits k n) = Some (acc * 10 ^ Z.of_nat k + n) /\ String.length (digits k n) = k.
Proof.
  induction k as [|k IH]; intros n acc H.
  - cbn [digits digits_value String.length]. change (10 ^ Z.of_nat 0) with 1 in *. split; [f_equal; lia|reflexivity].
  - cbn [digits]. rewrite Nat2Z.inj_succ, Z.pow_succ_r in * by lia. pose proof (Z.mod_pos_bound n 10 ltac:(lia)) as M. pose proof (Z.div_mod n 10 ltac:(lia)) as DM.
    assert (D : 0 <= n / 10 < 10 ^ Z.of_nat k) by (split; [apply Z.div_pos; lia|apply Z.div_lt_upper_bound; lia]).
    destruct (IH (n / 10) acc D) as [A B]. rewrite dv_app, A, length_app, B. destruct (str_digit (n mod 10) M (acc * 10 ^ Z.of_nat k + n / 10)) as [E F].
    rewrite E, F. split; [f_equal; lia|lia].
Qed.

Lemma point_digits : forall a b, allc digit a = true -> at_point (a ++ String "." b) = Some (a, b).
Proof.
  induction a as [|c a IH]; intros b H; [reflexivity|]. cbn [allc] in H. apply andb_true_iff in H. destruct H as [H1 H2].
  cbn [append at_point]. rewrite (IH b H2). destruct (Ascii.eqb_spec c "."); [subst; discriminate H1|reflexivity].
Qed.

Lemma read_fmt : forall x, read_decimal (fmt10 x) = Some (Qnum x <? 0, units x, 10%nat).
Proof.
  intros x. unfold fmt10. fold (units x). pose proof (units_nonneg x) as U. assert (T : 0 < ten10) by (unfold ten10; lia).
  pose proof (Z.div_pos (units x) ten10 U T) as D. pose proof (Z.mod_pos_bound (units x) ten10 T) as M.
  assert (G : forall neg : bool, match at_point (append (str_int (units x / ten10)) (append "." (digits 10 (units x mod ten10)))) with
    | Some (a, b) => match digits_value 0 (a ++ b) with Some v => Some (neg, v, String.length b) | None => None end | None => None end = Some (neg, units x, 10%nat)).
  { intros neg. change (append "." (digits 10 (units x mod ten10))) with (String "." (digits 10 (units x mod ten10))).
    rewrite point_digits by (apply str_int_nonneg_digits; exact D). rewrite dv_app, dv_int by exact D.
    destruct (dv_digits 10 (units x mod ten10) (units x / ten10)) as [A B]; [change (10 ^ Z.of_nat 10) with ten10; exact M|]. rewrite A, B.
    change (10 ^ Z.of_nat 10) with ten10. rewrite (Z.div_mod (units x) ten10) at 3 by lia. do 3 f_equal. ring. }
  pose proof (fun r => str_int_head (units x / ten10) (append "." (digits 10 (units x mod ten10))) r D) as H.
  remember (append (str_int (units x / ten10)) (append "." (digits 10 (units x mod ten10)))) as t eqn:E. clear E.
  unfold read_decimal. destruct (Qnum x <? 0); cbn [append]; [apply G|]. destruct t as [|c r]; [apply (G false)|].
  assert (N : c <> "-"%char) by (intros ->; exact (H r eq_refl)).
  destruct c as [[] [] [] [] [] [] [] []]; try apply (G false). contradiction N. reflexivity.
Qed.

Lemma round_tie : forall n d, 0 < d -> 2 * Z.abs (n - d * round_half_even n d) = d -> Z.Even (round_half_even n d).
Proof.
  intros n d D. unfold round_half_even.
  pose proof (Z.div_mod n d ltac:(lia)) as E. pose proof (Z.mod_pos_bound n d D) as B.
  destruct (Z.ltb_spec (2 * (n mod d)) d); [intros; exfalso; nia|].
  destruct (Z.ltb_spec d (2 * (n mod d))); [intros; exfalso; nia|].
  intros _. destruct (Z.even (n / d)) eqn:V; [apply Z.even_spec; exact V|]. apply Z.even_spec. rewrite Z.even_add, V. reflexivity.
Qed.

(** The error in units, as integers. *)
Lemma err_eq : forall x u, (Qabs (Qabs x * inject_Z 10000000000 - inject_Z u) == Z.abs (Z.abs (Qnum x) * ten10 - Z.pos (Qden x) * u) # Qden x)%Q.
Proof.
  intros [a p] u. unfold Qeq, Qabs, Qminus, Qplus, Qopp, Qmult, inject_Z. cbn [Qnum Qden]. rewrite !Pos.mul_1_r, Z.mul_1_r.
  change 10000000000 with ten10. f_equal. f_equal. ring.
Qed.

Lemma units_nearest : forall x, nearest x (units x).
Proof.
  intros x. unfold nearest. cbv zeta. rewrite err_eq. split.
  - unfold Qle. cbn [Qnum Qden]. pose proof (round_near (Z.abs (Qnum x) * ten10) (Z.pos (Qden x)) ltac:(lia)) as A. fold (units x) in A. lia.
  - intros H. apply round_tie; [lia|]. fold (units x). unfold Qeq in H. cbn [Qnum Qden] in H. lia.
Qed.

Lemma nearest_unique : forall x u v, nearest x u -> nearest x v -> u = v.
Proof.
  intros x u v [A B] [C D]. rewrite err_eq in A, B, C, D. unfold Qle, Qeq in *. cbn [Qnum Qden] in *.
  remember (Z.abs (Qnum x) * ten10) as n. remember (Z.pos (Qden x)) as d. assert (0 < d) by lia.
  destruct (Z.eq_dec u v) as [E|NE]; [exact E|]. exfalso.
  assert (X : 2 * Z.abs (n - d * u) <= d) by lia. assert (Y : 2 * Z.abs (n - d * v) <= d) by lia.
  assert (W : Z.abs (u - v) = 1) by nia.
  assert (2 * Z.abs (n - d * u) = d) by nia. assert (2 * Z.abs (n - d * v) = d) by nia.
  destruct B as [b Hb]; [lia|]. destruct D as [c Hc]; [lia|]. lia.
Qed.

Lemma neg_iff : forall x, (x < 0)%Q <-> (Qnum x <? 0) = true.
Proof. intros x. rewrite Z.ltb_lt. unfold Qlt. cbn [Qnum Qden]. lia. Qed.

Lemma fmt10_alike : forall x y, fmt10 x = fmt10 y <-> alike x y.
Proof.
  intros x y. rewrite fmt10_eq. unfold alike. rewrite !neg_iff. split.
  - intros [S U]. rewrite S. split; [tauto|]. exists (units x). split; [apply units_nearest|]. rewrite U. apply units_nearest.
  - intros [S [u [A B]]]. split; [destruct (Qnum x <? 0), (Qnum y <? 0); intuition|].
    rewrite <- (nearest_unique _ _ _ A (units_nearest x)). apply (nearest_unique _ _ _ B (units_nearest y)).
Qed.

Lemma result_alike : forall k w e k' w' e', result_name fmt10 k w e = result_name fmt10 k' w' e' <-> alike k k' /\ alike w w' /\ alike e e'.
Proof.
  intros. rewrite <- !fmt10_alike. split; [apply result_name_inj|]. intros (A & B & C). unfold result_name. rewrite A, B, C. reflexivity.
Qed.
Lemma matrix_alike : forall k w e k' w' e', matrix_name fmt10 k w e = matrix_name fmt10 k' w' e' <-> alike k k' /\ alike w w' /\ alike e e'.
Proof.
  intros. rewrite <- !fmt10_alike. split; [apply matrix_name_inj|]. intros (A & B & C). unfold matrix_name. rewrite A, B, C. reflexivity.
Qed.

Lemma names_disjoint : forall k w e k' w' e', result_name fmt10 k w e <> matrix_name fmt10 k' w' e'.
Proof.
  intros k w e k' w' e' E. unfold result_name, matrix_name in E. pose proof (fmt10_numch k) as N.
  destruct (fmt10 k) as [|c r]; cbn [append] in E; [discriminate E|]. injection E as -> _. discriminate N.
Qed.
