(** Lemmas for C90. *)
From Coq Require Import Reals List Lra Lia.
From Verif Require Import Base Physics Curve Spec_curve.
Import ListNotations.
Open Scope R_scope.

Lemma dev_ge0 : forall f ws As p, 0 <= deviation2 f ws As p.
Proof. intros f ws As p. unfold deviation2. induction (combine ws As) as [|x l IH]; cbn [map fold_right]; [lra|]. pose proof (pow2_ge_0 (f (fst x) p - snd x)). lra. Qed.

Lemma dev_zero : forall f ws g p, deviation2 f ws (map g ws) p <= 0 -> forall w, In w ws -> f w p = g w.
Proof.
  intros f ws g p. induction ws as [|x l IH]; intros H w I; [destruct I|].
  change (deviation2 f (x :: l) (map g (x :: l)) p) with ((f x p - g x) ^ 2 + deviation2 f l (map g l) p) in H.
  pose proof (pow2_ge_0 (f x p - g x)). pose proof (dev_ge0 f l (map g l) p). destruct I as [<- |I]; [|apply IH; [lra|exact I]].
  assert (Z : (f x p - g x) * (f x p - g x) = 0) by (replace ((f x p - g x) * (f x p - g x)) with ((f x p - g x) ^ 2) by ring; lra). apply Rmult_integral in Z. destruct Z; lra.
Qed.

Lemma dev_exact : forall f ws p, deviation2 f ws (map (fun w => f w p) ws) p = 0.
Proof.
  intros f ws p. induction ws as [|x l IH]; [reflexivity|].
  change (deviation2 f (x :: l) (map (fun w => f w p) (x :: l)) p) with ((f x p - f x p) ^ 2 + deviation2 f l (map (fun w => f w p) l) p). rewrite IH. ring.
Qed.

Lemma flip_at : forall w p, line_at w (flip p) = line_at w p.
Proof. intros w p. unfold line_at, flip, lorentzian. cbn [l_loc l_scale l_eta]. replace (- l_eta p * - l_eta p) with (l_eta p * l_eta p) by ring. unfold Rdiv. ring. Qed.

Lemma dev_ext : forall f ws As p q, (forall w, f w p = f w q) -> deviation2 f ws As p = deviation2 f ws As q.
Proof. intros f ws As p q H. unfold deviation2. f_equal. apply map_ext. intros x. rewrite H. reflexivity. Qed.

(** A quadratic polynomial with three zeros. *)
Lemma quad_zero : forall a b c x y z, x <> y -> x <> z -> y <> z -> a * (x * x) + b * x + c = 0 -> a * (y * y) + b * y + c = 0 -> a * (z * z) + b * z + c = 0 -> a = 0 /\ b = 0 /\ c = 0.
Proof.
  intros a b c x y z Nxy Nxz Nyz Ex Ey Ez.
  assert (P : a * (x + y) + b = 0). { assert (M : (x - y) * (a * (x + y) + b) = 0) by (replace ((x - y) * (a * (x + y) + b)) with ((a * (x * x) + b * x + c) - (a * (y * y) + b * y + c)) by ring; lra). apply Rmult_integral in M. destruct M; [exfalso; lra|assumption]. }
  assert (Q : a * (x + z) + b = 0). { assert (M : (x - z) * (a * (x + z) + b) = 0) by (replace ((x - z) * (a * (x + z) + b)) with ((a * (x * x) + b * x + c) - (a * (z * z) + b * z + c)) by ring; lra). apply Rmult_integral in M. destruct M; [exfalso; lra|assumption]. }
  assert (A : a = 0). { assert (M : (y - z) * a = 0) by (replace ((y - z) * a) with ((a * (x + y) + b) - (a * (x + z) + b)) by ring; lra). apply Rmult_integral in M. destruct M; [exfalso; lra|assumption]. }
  subst a. assert (b = 0) by lra. subst b. lra.
Qed.

Lemma line_unique : forall p q ws, three ws -> 0 < l_scale q -> 0 < l_eta q -> (forall w, In w ws -> line_at w p = line_at w q) -> p = q \/ p = flip q.
Proof.
  intros [l s e] [E W h] ws (x & y & z & Ix & Iy & Iz & Nxy & Nxz & Nyz) HW Hh H. cbn [l_scale l_eta] in HW, Hh. pose proof PI_RGT_0 as PP.
  unfold line_at in H. cbn [l_loc l_scale l_eta] in H.
  assert (Hp : forall w, 0 < (w - E) * (w - E) + h * h) by (intros w; pose proof (Rle_0_sqr (w - E)) as S; unfold Rsqr in S; assert (0 < h * h) by (apply Rmult_lt_0_compat; lra); lra).
  assert (Pos : forall w, 0 < lorentzian w E W h) by (intros w; unfold lorentzian; apply Rdiv_lt_0_compat; [apply Rmult_lt_0_compat; [lra|apply Rdiv_lt_0_compat; lra]|apply Hp]).
  assert (Ne : e <> 0). { intros ->. specialize (H x Ix). specialize (Pos x). rewrite <- H in Pos. unfold lorentzian, Rdiv in Pos. rewrite Rmult_0_l, Rmult_0_r, Rmult_0_l in Pos. lra. }
  assert (He : forall w, 0 < (w - l) * (w - l) + e * e) by (intros w; pose proof (Rle_0_sqr (w - l)) as S; unfold Rsqr in S; pose proof (Rsqr_pos_lt e Ne) as S'; unfold Rsqr in S'; lra).
  assert (Q : forall w, In w ws -> (s * e - W * h) * (w * w) + (2 * (W * h * l) - 2 * (s * e * E)) * w + (s * e * (E * E + h * h) - W * h * (l * l + e * e)) = 0).
  { intros w I. specialize (H w I). unfold lorentzian in H. pose proof (He w) as D1. pose proof (Hp w) as D2.
    assert (M : s * e * ((w - E) * (w - E) + h * h) = W * h * ((w - l) * (w - l) + e * e)).
    { set (D1' := (w - l) * (w - l) + e * e) in *. set (D2' := (w - E) * (w - E) + h * h) in *. replace (s * e * D2') with (s * (e / PI) / D1' * (PI * D1' * D2')) by (field; split; lra). rewrite H. field. split; lra. }
    replace ((s * e - W * h) * (w * w) + (2 * (W * h * l) - 2 * (s * e * E)) * w + (s * e * (E * E + h * h) - W * h * (l * l + e * e)))
      with (s * e * ((w - E) * (w - E) + h * h) - W * h * ((w - l) * (w - l) + e * e)) by ring. lra. }
  destruct (quad_zero _ _ _ x y z Nxy Nxz Nyz (Q x Ix) (Q y Iy) (Q z Iz)) as [Q1 [Q2 Q3]].
  assert (Wh : 0 < W * h) by (apply Rmult_lt_0_compat; assumption). assert (S : s * e = W * h) by lra. rewrite S in Q2, Q3.
  assert (El : l = E). { assert (M : W * h * (l - E) = 0) by (replace (W * h * (l - E)) with ((2 * (W * h * l) - 2 * (W * h * E)) / 2) by field; lra). apply Rmult_integral in M. destruct M; lra. }
  subst l. assert (Ee : e * e = h * h). { assert (M : W * h * (h * h - e * e) = 0) by (replace (W * h * (h * h - e * e)) with (W * h * (E * E + h * h) - W * h * (E * E + e * e)) by ring; lra). apply Rmult_integral in M. destruct M; lra. }
  assert (F : (e - h) * (e + h) = 0) by (replace ((e - h) * (e + h)) with (e * e - h * h) by ring; lra). apply Rmult_integral in F. destruct F as [F|F].
  - left. assert (e = h) by lra. subst e. f_equal. apply (Rmult_eq_reg_r h); lra.
  - right. unfold flip. cbn [l_loc l_scale l_eta]. assert (e = - h) by lra. subst e. f_equal. apply (Rmult_eq_reg_r h); lra.
Qed.
