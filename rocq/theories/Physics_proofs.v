(** Lemmas on complex numbers and the formulas of Physics.v. *)
From Coq Require Import String Reals ZArith List Lra Lia Psatz.
From Verif Require Import Base Model HModel Spec_model Ring Coef Cplx Physics.
Import ListNotations.
Open Scope list_scope.
Open Scope R_scope.

Lemma Cnorm2_pos : forall z, z <> C0 -> 0 < Cnorm2 z.
Proof.
  intros z H. assert (0 <= Cnorm2 z) by (unfold Cnorm2; nra). destruct (Req_EM_T (Cnorm2 z) 0) as [E|E]; [|lra].
  exfalso. apply H. apply Cnorm2_0. exact E.
Qed.

Lemma Cabs_pos : forall z, z <> C0 -> 0 < Cabs z.
Proof. intros z H. apply sqrt_lt_R0. apply Cnorm2_pos. exact H. Qed.

Lemma Cabs_sq : forall z, Cabs z * Cabs z = Cnorm2 z.
Proof. intros z. apply sqrt_sqrt. unfold Cnorm2. nra. Qed.

Lemma Cabs_ge0 : forall z, 0 <= Cabs z. Proof. intros. apply sqrt_pos. Qed.

Lemma Cabs_re : forall z, - Cabs z <= Re z <= Cabs z.
Proof.
  intros z. pose proof (Cabs_sq z) as H. pose proof (Cabs_ge0 z) as P. unfold Cnorm2 in H. split; nra.
Qed.

(** Uniqueness of nonnegative roots *)
Lemma sq_inj : forall x y, 0 <= x -> 0 <= y -> x * x = y * y -> x = y.
Proof. intros. nra. Qed.

Lemma Csqrt_sq : forall z, Cmul (Csqrt z) (Csqrt z) = z.
Proof.
  intros z. pose proof (Cabs_re z) as B. pose proof (Cabs_sq z) as Q. pose proof (Cabs_ge0 z) as P. unfold Cnorm2 in Q.
  set (p := sqrt ((Cabs z + Re z) / 2)). set (q := sqrt ((Cabs z - Re z) / 2)).
  assert (Hp : p * p = (Cabs z + Re z) / 2) by (apply sqrt_sqrt; lra).
  assert (Hq : q * q = (Cabs z - Re z) / 2) by (apply sqrt_sqrt; lra).
  assert (P0 : 0 <= p) by apply sqrt_pos. assert (Q0 : 0 <= q) by apply sqrt_pos.
  assert (PQ : 2 * (p * q) = Rabs (Im z)).
  { apply sq_inj; [nra|apply Rabs_pos|]. rewrite <- Rabs_mult, (Rabs_right (Im z * Im z)) by nra.
    replace (2 * (p * q) * (2 * (p * q))) with (4 * ((p * p) * (q * q))) by ring. rewrite Hp, Hq. nra. }
  unfold Csqrt. fold p q. apply Ceq; unfold Cmul, Re, Im; cbn.
  - fold (Re z). destruct (Rle_dec 0 (snd z)); nra.
  - fold (Im z). change (snd z) with (Im z). destruct (Rle_dec 0 (Im z)) as [H|H].
    + rewrite Rabs_right in PQ by lra. lra.
    + rewrite Rabs_left in PQ by lra. lra.
Qed.

Lemma Csqrt_re : forall z, 0 <= Re (Csqrt z). Proof. intros. apply sqrt_pos. Qed.

Lemma RtoC_mul : forall x y, RtoC (x * y) = Cmul (RtoC x) (RtoC y).
Proof. intros. apply Ceq; unfold RtoC, Cmul, Re, Im; cbn; ring. Qed.
Lemma RtoC_add : forall x y, RtoC (x + y) = Cadd (RtoC x) (RtoC y).
Proof. intros. apply Ceq; unfold RtoC, Cadd, Re, Im; cbn; ring. Qed.
Lemma RtoC_0 : forall x, x <> 0 -> RtoC x <> C0.
Proof. intros x H E. apply H. change (Re (RtoC x) = Re C0). rewrite E. reflexivity. Qed.

Lemma Cnorm2_mul : forall z w, Cnorm2 (Cmul z w) = Cnorm2 z * Cnorm2 w.
Proof. intros. unfold Cnorm2, Cmul, Re, Im. cbn. ring. Qed.

Lemma Cabs_mul : forall z w, Cabs (Cmul z w) = Cabs z * Cabs w.
Proof. intros. unfold Cabs. rewrite Cnorm2_mul. apply sqrt_mult; unfold Cnorm2; nra. Qed.

(** The principal root scales with positive factors. *)
Lemma Csqrt_scale : forall B z, 0 < B -> Csqrt (Cmul (RtoC (B * B)) z) = Cmul (RtoC B) (Csqrt z).
Proof.
  intros B z HB. assert (HB2 : 0 < B * B) by nra.
  assert (R1 : Re (Cmul (RtoC (B * B)) z) = B * B * Re z) by (unfold RtoC, Cmul, Re, Im; cbn; ring).
  assert (R2 : Im (Cmul (RtoC (B * B)) z) = B * B * Im z) by (unfold RtoC, Cmul, Re, Im; cbn; ring).
  assert (R3 : Cabs (Cmul (RtoC (B * B)) z) = B * B * Cabs z).
  { rewrite Cabs_mul. f_equal. unfold Cabs, Cnorm2, RtoC, Re, Im. cbn. rewrite Rmult_0_l, Rplus_0_r. apply sqrt_square. lra. }
  pose proof (Cabs_re z) as BD.
  assert (SB : forall x, 0 <= x -> sqrt (B * B * x) = B * sqrt x).
  { intros x Hx. rewrite sqrt_mult by lra. rewrite sqrt_square by lra. reflexivity. }
  apply Ceq.
  - unfold Csqrt. unfold Re at 1. cbn [fst]. rewrite R1, R3. replace ((B * B * Cabs z + B * B * Re z) / 2) with (B * B * ((Cabs z + Re z) / 2)) by field.
    rewrite SB by lra. unfold Cmul, RtoC, Re, Im. cbn. ring.
  - unfold Csqrt. unfold Im at 1. cbn [snd]. rewrite R1, R2, R3. replace ((B * B * Cabs z - B * B * Re z) / 2) with (B * B * ((Cabs z - Re z) / 2)) by field.
    rewrite SB by lra. unfold Cmul, RtoC, Re, Im. cbn. change (snd z) with (Im z).
    destruct (Rle_dec 0 (B * B * Im z)) as [H|H]; destruct (Rle_dec 0 (Im z)) as [H'|H']; try ring; exfalso; nra.
Qed.

(** Polar form *)
Lemma Carg_ok : forall z, z <> C0 -> Cabs z * cos (Carg z) = Re z /\ Cabs z * sin (Carg z) = Im z.
Proof.
  intros z H. pose proof (Cabs_pos z H) as P. pose proof (Cabs_re z) as B. pose proof (Cabs_sq z) as Q. unfold Cnorm2 in Q.
  set (c := Re z / Cabs z). assert (Ec : c * Cabs z = Re z) by (unfold c; field; lra).
  assert (D : -1 <= c <= 1).
  { split; apply (Rmult_le_reg_r (Cabs z)); try exact P; lra. }
  assert (S : sqrt (1 - c²) * Cabs z = Rabs (Im z)).
  { apply sq_inj; [apply Rmult_le_pos; [apply sqrt_pos|lra]|apply Rabs_pos|].
    replace (sqrt (1 - c²) * Cabs z * (sqrt (1 - c²) * Cabs z)) with (sqrt (1 - c²) * sqrt (1 - c²) * (Cabs z * Cabs z)) by ring.
    rewrite sqrt_sqrt by (unfold Rsqr; nra). rewrite <- Rabs_mult, (Rabs_right (Im z * Im z)) by nra. rewrite Q. unfold Rsqr.
    replace (1 - c * c) with (1 - c * c) by ring. rewrite <- Q. replace ((1 - c * c) * (Cabs z * Cabs z)) with (Cabs z * Cabs z - (c * Cabs z) * (c * Cabs z)) by ring.
    rewrite Ec, Q. ring. }
  unfold Carg. fold c. destruct (Rle_dec 0 (Im z)) as [I|I].
  - rewrite cos_acos, sin_acos by exact D. rewrite Rabs_right in S by lra. split; lra.
  - rewrite cos_neg, sin_neg, cos_acos, sin_acos by exact D. rewrite Rabs_left in S by lra. split; lra.
Qed.

Fixpoint Cpown (z : C) (n : nat) : C := match n with O => C1 | S m => Cmul z (Cpown z m) end.

Lemma Cpow_nat : forall z n, z <> C0 -> Cpow z (INR n) = Cpown z n.
Proof.
  intros z n H. pose proof (Cabs_pos z H) as P. destruct (Carg_ok z H) as [E1 E2]. unfold Cpow. rewrite Rpower_pow by exact P.
  induction n as [|n IH].
  - cbn. rewrite Rmult_0_l, cos_0, sin_0. apply Ceq; cbn; ring.
  - cbn [Cpown]. rewrite <- IH. rewrite S_INR, Rmult_plus_distr_r, Rmult_1_l, cos_plus, sin_plus. cbn [pow].
    unfold Cmul. rewrite <- E1, <- E2. apply Ceq; unfold Re, Im; cbn [fst snd]; ring.
Qed.

Lemma Cpow_abs : forall z p, z <> C0 -> Cabs (Cpow z p) = Rpower (Cabs z) p.
Proof.
  intros z p H. unfold Cabs at 1, Cnorm2, Cpow, Re, Im. cbn [fst snd].
  pose proof (sin2_cos2 (p * Carg z)) as T. unfold Rsqr in T.
  set (r := Rpower (Cabs z) p). assert (0 < r) by apply exp_pos. set (s := sin (p * Carg z)) in *. set (c := cos (p * Carg z)) in *.
  replace (r * c * (r * c) + r * s * (r * s)) with (r * r * (s * s + c * c)) by ring. rewrite T, Rmult_1_r. apply sqrt_square. lra.
Qed.

Lemma Cpow_nz : forall z p, z <> C0 -> Cpow z p <> C0.
Proof.
  intros z p H E. pose proof (Cpow_abs z p H) as A. rewrite E in A. assert (Cabs C0 = 0). { unfold Cabs, Cnorm2, C0, Re, Im. cbn. rewrite Rmult_0_l, Rplus_0_r. apply sqrt_0. }
  pose proof (exp_pos (p * ln (Cabs z))). unfold Rpower in A. lra.
Qed.

(** The base of the propagator. *)
Definition base (x : C) : C := Cadd (Copp x) (Cmul Ci (Csqrt (Csub C1 (Cmul x x)))).

Lemma root_parts : forall s x, Cmul s s = Csub C1 (Cmul x x) ->
  Re s * Re s - Im s * Im s = 1 - Re x * Re x + Im x * Im x /\ Re s * Im s = - (Re x * Im x).
Proof.
  intros [p q] [u v] H. unfold Cmul, Csub, C1, Re, Im in *. cbn [fst snd] in *.
  assert (H1 : p * p - q * q = 1 - (u * u - v * v)) by congruence. assert (H2 : p * q + q * p = 0 - (u * v + v * u)) by congruence. split; lra.
Qed.

Section Base.
Variable x : C.
Hypothesis V : 0 < Im x.
Let s := Csqrt (Csub C1 (Cmul x x)).

Lemma s_sq : Cmul s s = Csub C1 (Cmul x x). Proof. apply Csqrt_sq. Qed.

Lemma s_parts : Re s * Re s - Im s * Im s = 1 - Re x * Re x + Im x * Im x /\ Re s * Im s = - (Re x * Im x).
Proof. apply root_parts. exact s_sq. Qed.

Lemma s_pos : 0 < Re s.
Proof.
  destruct s_parts as [H1 H2]. pose proof (Csqrt_re (Csub C1 (Cmul x x))) as P. fold s in P.
  destruct (Req_EM_T (Re s) 0) as [E|E]; [|lra]. rewrite E in H1, H2. assert (Re x = 0) by nra. nra.
Qed.

Lemma s_nz : s <> C0. Proof. intros E. pose proof s_pos as P. rewrite E in P. cbn in P. lra. Qed.

Lemma base_quadratic : Cadd (Cadd (Cmul (base x) (base x)) (Cmul (Cmul (RtoC 2) x) (base x))) C1 = C0.
Proof.
  unfold base. fold s. replace (RtoC 2) with (Cadd C1 C1) by (apply Ceq; unfold RtoC, Cadd, C1, Re, Im; cbn; ring).
  assert (I : Cmul Ci Ci = Copp C1) by (apply Ceq; unfold Cmul, Ci, Copp, C1, Re, Im; cbn; ring).
  transitivity (Cadd (Cadd (Copp (Cmul x x)) (Cmul (Cmul Ci Ci) (Cmul s s))) C1); [ring|]. rewrite I, s_sq. ring.
Qed.

Lemma base_nz : base x <> C0.
Proof.
  intros E. pose proof base_quadratic as Q. rewrite E in Q. apply C1_neq_C0. rewrite <- Q. ring.
Qed.

Lemma base_lt1 : Cabs (base x) < 1.
Proof.
  pose proof base_quadratic as Q. destruct s_parts as [H1 H2]. pose proof s_pos as P.
  (* the two roots have product 1; the other one is longer *)
  set (b := base x). set (b' := Cadd (Copp x) (Copp (Cmul Ci s))).
  assert (BB : Cmul b b' = C1).
  { unfold b, b', base. fold s. assert (I : Cmul Ci Ci = Copp C1) by (apply Ceq; unfold Cmul, Ci, Copp, C1, Re, Im; cbn; ring).
    transitivity (Csub (Cmul x x) (Cmul (Cmul Ci Ci) (Cmul s s))); [ring|]. rewrite I, s_sq. ring. }
  assert (N : Cnorm2 b * Cnorm2 b' = 1). { rewrite <- Cnorm2_mul, BB. unfold Cnorm2, C1, Re, Im. cbn. ring. }
  assert (D : Cnorm2 b' - Cnorm2 b = 4 * (Im x * Re s - Re x * Im s)).
  { unfold b, b', base. fold s. unfold Cnorm2, Cadd, Copp, Cmul, Ci, Re, Im. cbn. ring. }
  assert (G : 0 < Im x * Re s - Re x * Im s).
  { apply (Rmult_lt_reg_r (Re s)); [exact P|]. rewrite Rmult_0_l.
    replace ((Im x * Re s - Re x * Im s) * Re s) with (Im x * (Re s * Re s) - Re x * (Re s * Im s)) by ring. rewrite H2. nra. }
  assert (0 <= Cnorm2 b) by (unfold Cnorm2; nra). assert (Cnorm2 b < 1) by nra.
  unfold Cabs. rewrite <- sqrt_1. apply sqrt_lt_1; lra.
Qed.
End Base.

(** The propagator, for non-zero hopping and a positive imaginary part. *)
Section G0.
Variables (omega : C) (eta t : R).
Hypothesis V : 0 < Im omega + eta.
Hypothesis T0 : t <> 0.
Let z := Cadd omega (Cmul (RtoC eta) Ci).
Let B := 2 * Rabs t.
Let x := Cdiv z (RtoC B).
Let s := Csqrt (Csub C1 (Cmul x x)).

Lemma Bpos : 0 < B. Proof. unfold B. pose proof (Rabs_pos_lt t T0). lra. Qed.

Lemma xpos : 0 < Im x.
Proof.
  pose proof Bpos. assert (E : Im x = (Im omega + eta) / B).
  { unfold x, z, Cdiv, Cmul, Cinv, Cadd, RtoC, Ci, Cnorm2, Re, Im. cbn. field. lra. }
  rewrite E. apply Rdiv_lt_0_compat; assumption.
Qed.

Lemma Bx : Cmul (RtoC B) x = z.
Proof. unfold x. pose proof Bpos. assert (RtoC B <> C0) by (apply RtoC_0; lra). field. assumption. Qed.

Lemma g0_form : forall delta a, g0_delta_omega delta omega a eta t 1 0 = Cmul (Cpow (base x) (Rabs (delta * a))) (Cdiv (Copp Ci) (Cmul (RtoC B) s)).
Proof.
  intros delta a. unfold g0_delta_omega. destruct (Req_EM_T t 0) as [E|_]; [contradiction|]. cbv zeta. fold z B.
  replace (Csub z (RtoC 0)) with z by (apply Ceq; unfold Csub, RtoC, Re, Im; cbn; ring). fold x.
  replace (Cmul (RtoC 1) Ci) with Ci by (apply Ceq; unfold Cmul, RtoC, Ci, Re, Im; cbn; ring).
  replace (Cmul (Copp (RtoC 1)) Ci) with (Copp Ci) by (apply Ceq; unfold Cmul, Copp, RtoC, Ci, Re, Im; cbn; ring).
  fold (base x). unfold s. rewrite <- (Csqrt_scale B _ Bpos). do 3 f_equal. rewrite <- Bx. rewrite RtoC_mul. ring.
Qed.

Lemma g0_even : forall delta a, g0_delta_omega (- delta) omega a eta t 1 0 = g0_delta_omega delta omega a eta t 1 0.
Proof. intros. rewrite !g0_form. rewrite Ropp_mult_distr_l_reverse, Rabs_Ropp. reflexivity. Qed.

Lemma g0_nat : forall n, g0_delta_omega (INR n) omega 1 eta t 1 0 = Cmul (Cpown (base x) n) (Cdiv (Copp Ci) (Cmul (RtoC B) s)).
Proof.
  intros n. rewrite g0_form, Rmult_1_r, (Rabs_right (INR n)) by (pose proof (pos_INR n); lra).
  rewrite Cpow_nat by (apply base_nz; exact xpos). reflexivity.
Qed.

Lemma g0_Z : forall d : Z, g0_delta_omega (IZR d) omega 1 eta t 1 0 = Cmul (Cpown (base x) (Z.abs_nat d)) (Cdiv (Copp Ci) (Cmul (RtoC B) s)).
Proof.
  intros d. rewrite <- g0_nat. rewrite INR_IZR_INZ, Zabs2Nat.id_abs. destruct (Z.abs_eq_or_opp d) as [-> | ->]; [reflexivity|].
  rewrite opp_IZR, g0_even. reflexivity.
Qed.

Let p := Cdiv (Copp Ci) (Cmul (RtoC B) s).

(** z + |t| (b + 1/b) = 0 *)
Lemma recurrence : forall n, Cadd (Cmul z (Cpown (base x) (S n))) (Cmul (RtoC (Rabs t)) (Cadd (Cpown (base x) (S (S n))) (Cpown (base x) n))) = C0.
Proof.
  intros n. cbn [Cpown]. pose proof (base_quadratic x) as Q. set (b := base x) in *. set (bn := Cpown b n).
  assert (E : RtoC B = Cmul (RtoC 2) (RtoC (Rabs t))) by (unfold B; apply RtoC_mul).
  rewrite <- Bx, E.
  transitivity (Cmul (Cmul (RtoC (Rabs t)) bn) (Cadd (Cadd (Cmul b b) (Cmul (Cmul (RtoC 2) x) b)) C1)); [ring|]. rewrite Q. ring.
Qed.

Lemma at_zero : Cmul p (Cadd z (Cmul (RtoC (2 * Rabs t)) (base x))) = C1.
Proof.
  fold B. unfold p, base. fold s. pose proof Bpos. assert (RtoC B <> C0) by (apply RtoC_0; lra).
  assert (S : s <> C0) by (apply s_nz; exact xpos).
  rewrite <- Bx. assert (I : Cmul Ci Ci = Copp C1) by (apply Ceq; unfold Cmul, Ci, Copp, C1, Re, Im; cbn; ring).
  transitivity (Copp (Cmul Ci Ci)); [field; split; assumption|]. rewrite I. ring.
Qed.

Lemma g0_lattice : forall d : Z,
  Cadd (Cmul z (g0_delta_omega (IZR d) omega 1 eta t 1 0))
       (Cmul (RtoC (Rabs t)) (Cadd (g0_delta_omega (IZR (d + 1)) omega 1 eta t 1 0) (g0_delta_omega (IZR (d - 1)) omega 1 eta t 1 0)))
  = if Z.eq_dec d 0 then C1 else C0.
Proof.
  intros d. rewrite !g0_Z. fold p. destruct (Z.eq_dec d 0) as [->|D].
  - change (Z.abs_nat 0) with 0%nat. change (Z.abs_nat (0 + 1)) with 1%nat. change (Z.abs_nat (0 - 1)) with 1%nat. cbn [Cpown].
    transitivity (Cmul p (Cadd z (Cmul (RtoC (2 * Rabs t)) (base x)))); [|exact at_zero]. rewrite RtoC_mul. replace (RtoC 2) with (Cadd C1 C1) by (apply Ceq; unfold RtoC, Cadd, C1, Re, Im; cbn; ring). ring.
  - set (n := (Z.abs_nat d - 1)%nat).
    assert (E : (Z.abs_nat d = S n /\ ((Z.abs_nat (d + 1) = S (S n) /\ Z.abs_nat (d - 1) = n) \/ (Z.abs_nat (d + 1) = n /\ Z.abs_nat (d - 1) = S (S n))))%nat).
    { unfold n. split; [lia|]. destruct (Z.lt_trichotomy d 0) as [H|[H|H]]; [right|contradiction|left]; lia. }
    destruct E as [-> E].
    transitivity (Cmul p (Cadd (Cmul z (Cpown (base x) (S n))) (Cmul (RtoC (Rabs t)) (Cadd (Cpown (base x) (S (S n))) (Cpown (base x) n))))).
    + destruct E as [[-> ->]|[-> ->]]; ring.
    + rewrite recurrence. ring.
Qed.

Lemma p_nz : p <> C0.
Proof. intros E. apply C1_neq_C0. transitivity (Cmul p (Cadd z (Cmul (RtoC (2 * Rabs t)) (base x)))); [symmetry; exact at_zero|]. rewrite E. ring. Qed.

Lemma g0_nz : forall delta a, g0_delta_omega delta omega a eta t 1 0 <> C0.
Proof.
  intros delta a E. rewrite g0_form in E. fold p in E. pose proof (base_nz x) as b0. pose proof (Cpow_nz (base x) (Rabs (delta * a)) b0) as c0.
  apply c0. pose proof p_nz as P. transitivity (Cmul (Cmul (Cpow (base x) (Rabs (delta * a))) p) (Cinv p)); [field; exact P|]. rewrite E. ring.
Qed.
End G0.

(** C34 *)
Lemma prefactor_exp : forall T O, 0 < T -> 0 < O -> exists q, 0 < q < 1 /\ q * q = exp (- (O / T)) /\
  tfd_prefactors Rnum T O = (cosh (Ratanh q), sinh (Ratanh q)).
Proof.
  intros T O HT HO. exists (exp (- (1 / T) * O / 2)). split; [|split].
  - split; [apply exp_pos|]. assert (P : 0 < 1 / T * O) by (apply Rmult_lt_0_compat; [apply Rdiv_lt_0_compat; lra|lra]).
    assert (E : - (1 / T) * O / 2 < 0) by (replace (- (1 / T) * O / 2) with (- (1 / T * O) / 2) by (field; lra); lra).
    apply exp_increasing in E. rewrite exp_0 in E. exact E.
  - rewrite <- exp_plus. f_equal. field. lra.
  - unfold tfd_prefactors. cbn [n_ltb n_0 n_1 n_2 n_div n_mul n_opp n_exp n_atanh n_cosh n_sinh Rnum]. destruct (Rlt_dec 0 T); [reflexivity|lra].
Qed.

Lemma atanh_squares : forall q, 0 < q < 1 -> cosh (Ratanh q) * cosh (Ratanh q) = 1 / (1 - q * q) /\
  sinh (Ratanh q) * sinh (Ratanh q) = q * q / (1 - q * q) /\ 0 < cosh (Ratanh q) /\ 0 < sinh (Ratanh q).
Proof.
  intros q Q. unfold Ratanh. set (r := (1 + q) / (1 - q)). assert (R1 : 1 < r).
  { unfold r. apply (Rmult_lt_reg_r (1 - q)); [lra|]. replace ((1 + q) / (1 - q) * (1 - q)) with (1 + q) by (field; lra). lra. }
  set (e := exp (ln r / 2)). assert (E0 : 0 < e) by apply exp_pos.
  assert (E2 : e * e = r). { unfold e. rewrite <- exp_plus. replace (ln r / 2 + ln r / 2) with (ln r) by field. apply exp_ln. lra. }
  assert (Ei : exp (- (ln r / 2)) = / e) by apply exp_Ropp.
  assert (E1 : 1 < e) by nra.
  assert (ei : / e < 1). { rewrite <- Rinv_1. apply Rinv_lt_contravar; lra. }
  assert (ip : 0 < / e) by (apply Rinv_0_lt_compat; lra).
  assert (EE : / e * / e = / r). { rewrite <- E2. field. lra. }
  assert (er : e * / e = 1) by (field; lra).
  unfold cosh, sinh. fold e. rewrite Ei. split; [|split; [|split; lra]].
  - replace ((e + / e) / 2 * ((e + / e) / 2)) with ((e * e + 2 * (e * / e) + / e * / e) / 4) by (field; lra). rewrite EE, E2, er. unfold r. field. repeat split; nra.
  - replace ((e - / e) / 2 * ((e - / e) / 2)) with ((e * e - 2 * (e * / e) + / e * / e) / 4) by (field; lra). rewrite EE, E2, er. unfold r. field. repeat split; nra.
Qed.

Lemma prefactors : forall T O c s, 0 < T -> 0 < O -> tfd_prefactors Rnum T O = (c, s) ->
  c * c - s * s = 1 /\ c * c = 1 + 1 / (exp (O / T) - 1) /\ s * s = 1 / (exp (O / T) - 1) /\ 1 <= c /\ 0 < s.
Proof.
  intros T O c s HT HO H. destruct (prefactor_exp T O HT HO) as [q [Q [Q2 E]]]. rewrite E in H. injection H as <- <-.
  destruct (atanh_squares q Q) as [H1 [H2 [H3 H4]]]. rewrite exp_Ropp in Q2.
  assert (X : 1 < exp (O / T)). { rewrite <- exp_0. apply exp_increasing. apply Rdiv_lt_0_compat; assumption. }
  set (y := exp (O / T)) in *. rewrite H1, H2, Q2. assert (D : 1 - / y <> 0) by (rewrite <- Q2; nra).
  assert (C1' : 1 <= cosh (Ratanh q) * cosh (Ratanh q)).
  { rewrite H1, Q2. apply (Rmult_le_reg_r (1 - / y)); [rewrite <- Q2; nra|]. replace (1 / (1 - / y) * (1 - / y)) with 1 by (field; split; lra). rewrite <- Q2. nra. }
  split; [field; split; lra|]. split; [field; repeat split; lra|]. split; [field; repeat split; lra|]. split; [nra|exact H4].
Qed.

Lemma low_temperature : forall T O c s, 0 < T -> 0 < O -> tfd_prefactors Rnum T O = (c, s) ->
  0 < s * s <= T / O /\ 1 < c * c <= 1 + T / O.
Proof.
  intros T O c s HT HO H. destruct (prefactors T O c s HT HO H) as [H1 [H2 [H3 [H4 H5]]]].
  assert (X : 0 < O / T) by (apply Rdiv_lt_0_compat; assumption).
  pose proof (exp_ineq1 (O / T) ltac:(lra)) as I.
  assert (S : s * s <= T / O).
  { rewrite H3. replace (T / O) with (/ (O / T)) by (field; lra). unfold Rdiv at 1. rewrite Rmult_1_l. apply Rinv_le_contravar; lra. }
  nra.
Qed.

(** C36 *)
Lemma G0_inverse : forall k omega a eta t, 0 < Im omega + eta ->
  Cmul (G0_k_omega k omega a eta t) (Cadd (Cadd omega (Cmul Ci (RtoC eta))) (RtoC (2 * t * cos (k * a)))) = C1 /\
  Im (G0_k_omega k omega a eta t) < 0.
Proof.
  intros k omega a eta t H. unfold G0_k_omega. set (d := Cadd (Cadd omega (Cmul Ci (RtoC eta))) (RtoC (2 * t * cos (k * a)))).
  assert (I : Im d = Im omega + eta) by (unfold d, Cadd, Cmul, Ci, RtoC, Re, Im; cbn; ring).
  assert (D : d <> C0) by (intros E; rewrite E in I; cbn in I; lra).
  split; [field; exact D|]. replace (Im (Cdiv C1 d)) with (- (Im d / Cnorm2 d)).
  - pose proof (Cnorm2_pos d D). assert (0 < Im d / Cnorm2 d) by (apply Rdiv_lt_0_compat; lra). lra.
  - pose proof (Cnorm2_pos d D). unfold Cdiv, Cmul, C1, Cinv. unfold Re at 2, Im at 2 3. cbn [fst snd]. unfold Re, Im. cbn [fst snd]. field. lra.
Qed.

(** C37 *)
Section Site.
Variables (omega : C) (eta : R).
Hypothesis V : 0 < Im omega + eta.
Let z := Cadd omega (Cmul (RtoC eta) Ci).
Definition res (g : Z -> C) (z : C) (t : R) : Prop := forall d : Z,
  Cadd (Cmul z (g d)) (Cmul (RtoC t) (Cadd (g (d + 1)%Z) (g (d - 1)%Z))) = if Z.eq_dec d 0 then C1 else C0.
Let g (a t : R) (d : Z) : C := g0_delta_omega (IZR d) omega a eta t 1 0.

Lemma z_nz : z <> C0.
Proof. intros E. assert (I : Im z = 0) by (rewrite E; reflexivity). unfold z, Cadd, Cmul, RtoC, Ci, Re, Im in I. cbn in I. unfold Im in V. lra. Qed.

Lemma resolvent_0 : forall a, res (g a 0) z 0.
Proof.
  intros a d. pose proof z_nz as Z0. unfold g, g0_delta_omega. destruct (Req_EM_T 0 0) as [_|N]; [|lra]. fold z.
  destruct (Z.eq_dec d 0) as [->|D].
  - destruct (Req_EM_T 0 0) as [_|N]; [|lra]. replace (RtoC 0) with C0 by reflexivity.
    set (u := if Req_EM_T (IZR (0 + 1)) 0 then _ else _). set (v := if Req_EM_T (IZR (0 - 1)) 0 then _ else _). field. exact Z0.
  - destruct (Req_EM_T (IZR d) 0) as [E|_]; [apply eq_IZR in E; contradiction|]. replace (RtoC 0) with C0 by reflexivity. ring.
Qed.

Lemma resolvent_abs : forall t, t <> 0 -> res (g 1 t) z (Rabs t).
Proof. intros t T d. apply (g0_lattice omega eta t V T d). Qed.

Lemma resolvent_ok : forall t, 0 <= t -> res (g 1 t) z t.
Proof.
  intros t T. destruct (Req_EM_T t 0) as [->|N]; [apply resolvent_0|]. pose proof (resolvent_abs t N) as H. rewrite Rabs_right in H by lra. exact H.
Qed.

Lemma C_cancel : forall u v w : C, Cadd u v = Cadd u w -> v = w.
Proof. intros u v w H. transitivity (Csub (Cadd u v) u); [ring|]. rewrite H. ring. Qed.

Lemma C_integral : forall u v : C, u <> C0 -> Cmul u v = C0 -> v = C0.
Proof. intros u v U H. transitivity (Cmul (Cinv u) (Cmul u v)); [field; exact U|]. rewrite H. ring. Qed.

Lemma site_even : forall a t d, g a t (- d) = g a t d.
Proof.
  intros a t d. unfold g. rewrite opp_IZR. destruct (Req_EM_T t 0) as [->|N]; [|apply g0_even; assumption].
  unfold g0_delta_omega. destruct (Req_EM_T 0 0); [|lra]. destruct (Req_EM_T (- IZR d) 0), (Req_EM_T (IZR d) 0); try reflexivity; lra.
Qed.

Lemma resolvent_neg : forall t, t < 0 -> ~ res (g 1 t) z t /\ res (g 1 t) z (Rabs t).
Proof.
  intros t T. assert (N : t <> 0) by lra. pose proof (resolvent_abs t N) as H. split; [|exact H]. intros H'.
  specialize (H 0%Z). specialize (H' 0%Z). rewrite <- H in H'. apply C_cancel in H'.
  assert (S : Cadd (g 1 t (0 + 1)) (g 1 t (0 - 1)) = Cmul (RtoC 2) (g 1 t 1)).
  { change (0 - 1)%Z with (- (1))%Z. rewrite site_even. change (0 + 1)%Z with 1%Z.
    replace (RtoC 2) with (Cadd C1 C1) by (apply Ceq; unfold RtoC, Cadd, C1, Re, Im; cbn; ring). ring. }
  rewrite S in H'. assert (X : Cmul (Cmul (RtoC (Rabs t - t)) (RtoC 2)) (g 1 t 1) = C0).
  { assert (E : RtoC (Rabs t - t) = Csub (RtoC (Rabs t)) (RtoC t)) by (apply Ceq; unfold RtoC, Csub, Re, Im; cbn; ring).
    rewrite E. transitivity (Csub (Cmul (RtoC (Rabs t)) (Cmul (RtoC 2) (g 1 t 1))) (Cmul (RtoC t) (Cmul (RtoC 2) (g 1 t 1)))); [ring|]. rewrite H'. ring. }
  rewrite <- RtoC_mul in X. apply C_integral in X; [|apply RtoC_0; rewrite Rabs_left by lra; lra]. revert X. apply (g0_nz omega eta t V N).
Qed.

Lemma resolvent_a : forall a t, 0 < t -> 0 < a -> a <> 1 -> ~ res (g a t) z t.
Proof.
  intros a t T A A1 H. assert (N : t <> 0) by lra. pose proof (resolvent_ok t ltac:(lra)) as H1. specialize (H 0%Z). specialize (H1 0%Z).
  assert (E0 : g a t 0 = g 1 t 0). { unfold g. rewrite !(g0_form omega eta t N). rewrite !Rmult_0_l. reflexivity. }
  rewrite <- H1, E0 in H. apply C_cancel in H.
  assert (S : forall b, Cadd (g b t (0 + 1)) (g b t (0 - 1)) = Cmul (RtoC 2) (g b t 1)).
  { intros b. change (0 - 1)%Z with (- (1))%Z. rewrite site_even. change (0 + 1)%Z with 1%Z.
    replace (RtoC 2) with (Cadd C1 C1) by (apply Ceq; unfold RtoC, Cadd, C1, Re, Im; cbn; ring). ring. }
  rewrite !S in H. assert (X : Cmul (RtoC (t * 2)) (Csub (g a t 1) (g 1 t 1)) = C0).
  { rewrite RtoC_mul. transitivity (Csub (Cmul (RtoC t) (Cmul (RtoC 2) (g a t 1))) (Cmul (RtoC t) (Cmul (RtoC 2) (g 1 t 1)))); [ring|]. rewrite H. ring. }
  apply C_integral in X; [|apply RtoC_0; lra]. unfold g in X. rewrite !(g0_form omega eta t N) in X.
  set (x := Cdiv (Cadd omega (Cmul (RtoC eta) Ci)) (RtoC (2 * Rabs t))) in *.
  pose proof (p_nz omega eta t V N) as P. cbv zeta in P. fold x in P. set (p := Cdiv (Copp Ci) _) in *.
  assert (Y : Cpow (base x) (Rabs (1 * a)) = Cpow (base x) (Rabs (1 * 1))).
  { assert (Q : Cmul p (Csub (Cpow (base x) (Rabs (1 * a))) (Cpow (base x) (Rabs (1 * 1)))) = C0) by (rewrite <- X; ring).
    apply C_integral in Q; [|exact P]. transitivity (Cadd (Csub (Cpow (base x) (Rabs (1 * a))) (Cpow (base x) (Rabs (1 * 1)))) (Cpow (base x) (Rabs (1 * 1)))); [ring|]. rewrite Q. ring. }
  apply (f_equal Cabs) in Y. rewrite !Cpow_abs in Y by apply base_nz. rewrite !Rmult_1_l, Rabs_R1, (Rabs_right a) in Y by lra.
  pose proof (base_lt1 x (xpos omega eta t V N)) as L. pose proof (Cabs_pos _ (base_nz x)) as L0.
  unfold Rpower in Y. apply exp_inv in Y. assert (ln (Cabs (base x)) < 0) by (rewrite <- ln_1; apply ln_increasing; lra). nra.
Qed.

Lemma site_decay : forall a t, 0 < a -> exists r c, 0 < r < 1 /\ 0 < c /\ forall d, Cabs (g a t d) <= c * r ^ Z.abs_nat d.
Proof.
  intros a t A. destruct (Req_EM_T t 0) as [->|N].
  - exists (1 / 2), (1 + Cabs (Cdiv C1 z)). pose proof (Cabs_ge0 (Cdiv C1 z)) as P. split; [lra|]. split; [lra|]. intros d. unfold g, g0_delta_omega.
    destruct (Req_EM_T 0 0) as [_|N]; [|lra]. fold z. destruct (Req_EM_T (IZR d) 0) as [E|E].
    + apply eq_IZR in E. subst. cbn. lra.
    + assert (Cabs C0 = 0). { unfold Cabs, Cnorm2, C0, Re, Im. cbn. rewrite Rmult_0_l, Rplus_0_r. apply sqrt_0. } rewrite H.
      apply Rmult_le_pos; [lra|apply pow_le; lra].
  - set (x := Cdiv (Cadd omega (Cmul (RtoC eta) Ci)) (RtoC (2 * Rabs t))).
    pose proof (base_lt1 x (xpos omega eta t V N)) as L. pose proof (Cabs_pos _ (base_nz x)) as L0.
    pose proof (p_nz omega eta t V N) as P. cbv zeta in P. fold x in P. set (p := Cdiv (Copp Ci) _) in P.
    assert (LN : ln (Cabs (base x)) < 0) by (rewrite <- ln_1; apply ln_increasing; lra).
    exists (Rpower (Cabs (base x)) a), (Cabs p). assert (R : 0 < Rpower (Cabs (base x)) a < 1).
    { split; [apply exp_pos|]. unfold Rpower. rewrite <- exp_0. apply exp_increasing. nra. }
    split; [exact R|]. split; [apply Cabs_pos; exact P|]. intros d. unfold g. rewrite (g0_form omega eta t N). fold x p.
    rewrite Cabs_mul, Cpow_abs by apply base_nz. rewrite <- Rpower_pow by apply R. rewrite Rpower_mult, INR_IZR_INZ, Zabs2Nat.id_abs.
    rewrite Rabs_mult, (Rabs_right a) by lra. rewrite abs_IZR, (Rmult_comm a). lra.
Qed.
End Site.

Lemma Cabs_triangle : forall u v, Cabs (Cadd u v) <= Cabs u + Cabs v.
Proof.
  intros u v. pose proof (Cabs_ge0 u). pose proof (Cabs_ge0 v). pose proof (Cabs_ge0 (Cadd u v)).
  pose proof (Cabs_sq u) as U. pose proof (Cabs_sq v) as W. pose proof (Cabs_sq (Cadd u v)) as S.
  assert (X : Re u * Re v + Im u * Im v <= Cabs u * Cabs v).
  { assert (Y : (Re u * Re v + Im u * Im v) * (Re u * Re v + Im u * Im v) <= (Cabs u * Cabs v) * (Cabs u * Cabs v)).
    { replace (Cabs u * Cabs v * (Cabs u * Cabs v)) with ((Cabs u * Cabs u) * (Cabs v * Cabs v)) by ring. rewrite U, W. unfold Cnorm2.
      assert (0 <= (Re u * Im v - Im u * Re v) * (Re u * Im v - Im u * Re v)) by apply Rle_0_sqr.
      replace ((Re u * Re u + Im u * Im u) * (Re v * Re v + Im v * Im v)) with ((Re u * Re v + Im u * Im v) * (Re u * Re v + Im u * Im v) + (Re u * Im v - Im u * Re v) * (Re u * Im v - Im u * Re v)) by ring. lra. }
    assert (0 <= Cabs u * Cabs v) by nra. nra. }
  assert (S' : Cnorm2 (Cadd u v) = Cnorm2 u + Cnorm2 v + 2 * (Re u * Re v + Im u * Im v)) by (unfold Cnorm2, Cadd, Re, Im; cbn; ring).
  rewrite S', <- U, <- W in S. nra.
Qed.

Lemma Cabs_opp : forall u, Cabs (Copp u) = Cabs u.
Proof. intros u. unfold Cabs. f_equal. unfold Cnorm2, Copp, Re, Im. cbn. ring. Qed.

Lemma Cabs_R : forall x, Cabs (RtoC x) = Rabs x.
Proof. intros x. unfold Cabs, Cnorm2, RtoC, Re, Im. cbn. rewrite Rmult_0_l, Rplus_0_r. apply sqrt_Rsqr_abs. Qed.

Fixpoint fsum (g : Z -> C) (k : R) (n : nat) : C :=
  match n with
  | O => g 0%Z
  | S m => Cadd (fsum g k m) (Cadd (Cmul (g (Z.of_nat n)) (Cexpi (k * INR n))) (Cmul (g (- Z.of_nat n)%Z) (Cexpi (- (k * INR n)))))
  end.

Section Fourier.
Variables (g : Z -> C) (z : C) (t k : R).
Hypothesis H : res g z t.
Hypothesis Ev : forall d, g (- d)%Z = g d.
Let c (n : nat) : C := RtoC (2 * cos (k * INR n)).

Lemma c_exp : forall n, Cadd (Cexpi (k * INR n)) (Cexpi (- (k * INR n))) = c n.
Proof. intros n. unfold c, Cexpi. rewrite cos_neg, sin_neg. apply Ceq; unfold Cadd, RtoC, Re, Im; cbn; ring. Qed.

Lemma c_step : forall n, Cadd (c (S (S n))) (c n) = Cmul (c 1) (c (S n)).
Proof.
  intros n. unfold c. rewrite <- RtoC_add, <- RtoC_mul. f_equal. rewrite !S_INR. cbn [INR]. rewrite Rplus_0_l.
  replace (k * (INR n + 1 + 1)) with (k * (INR n + 1) + k * 1) by ring. replace (k * INR n) with (k * (INR n + 1) - k * 1) by ring.
  rewrite cos_plus, cos_minus. ring.
Qed.

Lemma fsum_closed : forall n, Cmul (Cadd z (Cmul (RtoC t) (c 1))) (fsum g k n) =
  Cadd C1 (Cmul (RtoC t) (Csub (Cmul (g (Z.of_nat n)) (c (S n))) (Cmul (g (Z.of_nat (S n))) (c n)))).
Proof.
  induction n as [|n IH].
  - cbn [fsum]. pose proof (H 0%Z) as E. destruct (Z.eq_dec 0 0) as [_|N]; [|congruence]. change (0 - 1)%Z with (- (1))%Z in E. rewrite Ev in E.
    change (0 + 1)%Z with 1%Z in E. change (Z.of_nat 0) with 0%Z. change (Z.of_nat 1) with 1%Z.
    assert (C00 : c 0 = Cadd C1 C1). { unfold c. cbn. rewrite Rmult_0_r, cos_0. apply Ceq; unfold RtoC, Cadd, C1, Re, Im; cbn; ring. }
    rewrite C00. transitivity (Cadd (Cadd (Cmul z (g 0%Z)) (Cmul (RtoC t) (Cadd (g 1%Z) (g 1%Z)))) (Cmul (RtoC t) (Csub (Cmul (g 0%Z) (c 1)) (Cmul (g 1%Z) (Cadd C1 C1))))); [ring|].
    rewrite E. reflexivity.
  - cbn [fsum]. rewrite Ev. set (m := Z.of_nat (S n)). pose proof (H m) as E. destruct (Z.eq_dec m 0) as [N|_]; [unfold m in N; lia|].
    replace (m - 1)%Z with (Z.of_nat n) in E by (unfold m; lia). replace (m + 1)%Z with (Z.of_nat (S (S n))) in E by (unfold m; lia).
    transitivity (Cadd (Cmul (Cadd z (Cmul (RtoC t) (c 1))) (fsum g k n)) (Cmul (Cadd z (Cmul (RtoC t) (c 1))) (Cmul (g m) (Cadd (Cexpi (k * INR (S n))) (Cexpi (- (k * INR (S n)))))))); [ring|].
    rewrite c_exp, IH. fold m.
    transitivity (Cadd (Cadd C1 (Cmul (RtoC t) (Csub (Cmul (g (Z.of_nat n)) (c (S n))) (Cmul (g m) (c n)))))
      (Cadd (Cmul (Cmul z (g m)) (c (S n))) (Cmul (Cmul (RtoC t) (g m)) (Cmul (c 1) (c (S n)))))); [ring|].
    rewrite <- c_step. assert (Z1 : Cmul z (g m) = Copp (Cmul (RtoC t) (Cadd (g (Z.of_nat (S (S n)))) (g (Z.of_nat n))))).
    { transitivity (Csub (Cadd (Cmul z (g m)) (Cmul (RtoC t) (Cadd (g (Z.of_nat (S (S n)))) (g (Z.of_nat n))))) (Cmul (RtoC t) (Cadd (g (Z.of_nat (S (S n)))) (g (Z.of_nat n))))); [ring|]. rewrite E. ring. }
    rewrite Z1. ring.
Qed.

Lemma c_abs : forall n, Cabs (c n) <= 2.
Proof. intros n. unfold c. rewrite Cabs_R, Rabs_mult, (Rabs_right 2) by lra. pose proof (COS_bound (k * INR n)). assert (Rabs (cos (k * INR n)) <= 1) by (apply Rabs_le; lra). lra. Qed.
End Fourier.

Lemma fourier_ok : forall omega eta t k, 0 < Im omega + eta -> 0 <= t -> forall eps, 0 < eps ->
  exists n0, forall n, (n0 <= n)%nat -> Cabs (Csub (fsum (fun d => g0_delta_omega (IZR d) omega 1 eta t 1 0) k n) (G0_k_omega k omega 1 eta t)) < eps.
Proof.
  intros omega eta t k V T eps HE. set (g := fun d => g0_delta_omega (IZR d) omega 1 eta t 1 0). set (z := Cadd omega (Cmul (RtoC eta) Ci)).
  set (G := G0_k_omega k omega 1 eta t).
  pose proof (resolvent_ok omega eta V t T) as H. pose proof (site_even omega eta 1 t) as Ev.
  destruct (site_decay omega eta V 1 t Rlt_0_1) as [r [b [R [B D]]]].
  destruct (G0_inverse k omega 1 eta t V) as [I _]. fold G in I.
  assert (ZZ : Cadd (Cadd omega (Cmul Ci (RtoC eta))) (RtoC (2 * t * cos (k * 1))) = Cadd z (Cmul (RtoC t) (RtoC (2 * cos (k * INR 1))))).
  { unfold z. replace (2 * t * cos (k * 1)) with (t * (2 * cos (k * INR 1))) by (cbn; ring). rewrite RtoC_mul. ring. }
  rewrite ZZ in I.
  assert (BD : forall n, Cabs (Csub (fsum g k n) G) <= Cabs G * t * (4 * b) * r ^ n).
  { intros n. pose proof (fsum_closed g z t k H Ev n) as F. cbn zeta in F.
    set (err := Csub (Cmul (g (Z.of_nat n)) (RtoC (2 * cos (k * INR (S n))))) (Cmul (g (Z.of_nat (S n))) (RtoC (2 * cos (k * INR n))))) in *.
    assert (E : Csub (fsum g k n) G = Cmul (Cmul G (RtoC t)) err).
    { transitivity (Csub (Cmul (Cmul G (Cadd z (Cmul (RtoC t) (RtoC (2 * cos (k * INR 1)))))) (fsum g k n)) G); [rewrite I; ring|].
      transitivity (Csub (Cmul G (Cmul (Cadd z (Cmul (RtoC t) (RtoC (2 * cos (k * INR 1))))) (fsum g k n))) G); [ring|]. rewrite F. ring. }
    rewrite E, !Cabs_mul, Cabs_R, (Rabs_right t) by lra. rewrite !Rmult_assoc. apply Rmult_le_compat_l; [apply Cabs_ge0|]. apply Rmult_le_compat_l; [exact T|].
    assert (P : 0 <= r ^ n) by (apply pow_le; lra).
    assert (E1 : Cabs (Cmul (g (Z.of_nat n)) (RtoC (2 * cos (k * INR (S n))))) <= b * r ^ n * 2).
    { rewrite Cabs_mul. apply Rmult_le_compat; [apply Cabs_ge0|apply Cabs_ge0| |apply c_abs]. pose proof (D (Z.of_nat n)) as Dn. rewrite Zabs2Nat.id in Dn. exact Dn. }
    assert (E2 : Cabs (Cmul (g (Z.of_nat (S n))) (RtoC (2 * cos (k * INR n)))) <= b * r ^ n * 2).
    { rewrite Cabs_mul. apply Rmult_le_compat; [apply Cabs_ge0|apply Cabs_ge0| |apply c_abs]. pose proof (D (Z.of_nat (S n))) as Dn. rewrite Zabs2Nat.id in Dn.
      cbn [pow] in Dn. eapply Rle_trans; [exact Dn|]. apply Rmult_le_compat_l; [lra|]. nra. }
    unfold err. replace (Csub (Cmul (g (Z.of_nat n)) (RtoC (2 * cos (k * INR (S n))))) (Cmul (g (Z.of_nat (S n))) (RtoC (2 * cos (k * INR n)))))
      with (Cadd (Cmul (g (Z.of_nat n)) (RtoC (2 * cos (k * INR (S n))))) (Copp (Cmul (g (Z.of_nat (S n))) (RtoC (2 * cos (k * INR n)))))) by ring.
    eapply Rle_trans; [apply Cabs_triangle|]. rewrite Cabs_opp. lra. }
  set (K := Cabs G * t * (4 * b)) in *. assert (K0 : 0 <= K). { unfold K. pose proof (Cabs_ge0 G). apply Rmult_le_pos; [apply Rmult_le_pos; lra|lra]. }
  destruct (pow_lt_1_zero r) with (y := eps / (K + 1)) as [n0 Hn]; [rewrite Rabs_right; lra|apply Rdiv_lt_0_compat; lra|].
  exists n0. intros n Ln. eapply Rle_lt_trans; [apply BD|]. specialize (Hn n ltac:(lia)). rewrite Rabs_right in Hn by (apply Rle_ge, pow_le; lra).
  assert (P : 0 <= r ^ n) by (apply pow_le; lra). apply Rle_lt_trans with ((K + 1) * r ^ n); [nra|].
  apply (Rmult_lt_compat_l (K + 1)) in Hn; [|lra]. replace ((K + 1) * (eps / (K + 1))) with eps in Hn by (field; lra). exact Hn.
Qed.

(** C38 *)
Section Peak.
Variables (w E W eta eta' : R).
Hypotheses (HW : 0 < W) (H1 : 0 < eta) (H2 : 0 < eta') (NE : eta <> eta').
Let A := lorentzian w E W eta.
Let A' := lorentzian w E W eta'.
Let D := (w - E) * (w - E).

Lemma peak_abs : w <> E -> Rabs (sqrt (eta * eta') * (A * eta - A' * eta') / sqrt ((A' * eta - A * eta') * (A * eta - A' * eta'))) = Rabs (w - E).
Proof.
  intros N. pose proof PI_RGT_0 as HP. assert (D0 : 0 < D) by (unfold D; nra).
  assert (P1 : 0 < D + eta * eta) by nra. assert (P2 : 0 < D + eta' * eta') by nra.
  set (Q := W / PI / ((D + eta * eta) * (D + eta' * eta'))).
  assert (Q0 : 0 < Q) by (unfold Q; apply Rdiv_lt_0_compat; [apply Rdiv_lt_0_compat; lra|apply Rmult_lt_0_compat; lra]).
  assert (N2 : A * eta - A' * eta' = Q * D * (eta * eta - eta' * eta')).
  { unfold A, A', lorentzian, Q. fold D. field. repeat split; lra. }
  assert (N1 : A' * eta - A * eta' = Q * (eta * eta') * (eta * eta - eta' * eta')).
  { unfold A, A', lorentzian, Q. fold D. field. repeat split; lra. }
  rewrite N1, N2. set (m := eta * eta - eta' * eta'). assert (M : m <> 0) by (unfold m; nra).
  assert (EE : 0 < eta * eta') by nra.
  replace (Q * (eta * eta') * m * (Q * D * m)) with ((Q * m) * (Q * m) * ((eta * eta') * D)) by ring.
  rewrite (sqrt_mult (Q * m * (Q * m)) (eta * eta' * D)) by nra. rewrite (sqrt_mult (eta * eta') D) by lra.
  assert (SQ : sqrt (Q * m * (Q * m)) = Rabs (Q * m)) by apply sqrt_Rsqr_abs.
  assert (SD : sqrt D = Rabs (w - E)) by apply sqrt_Rsqr_abs.
  rewrite SQ, SD. assert (AW : 0 < Rabs (w - E)) by (apply Rabs_pos_lt; lra). assert (AQ : 0 < Rabs (Q * m)) by (apply Rabs_pos_lt; nra).
  assert (SE : 0 < sqrt (eta * eta')) by (apply sqrt_lt_R0; exact EE).
  assert (DD : D = Rabs (w - E) * Rabs (w - E)) by (rewrite <- Rabs_mult; unfold D; rewrite Rabs_right; nra).
  replace (sqrt (eta * eta') * (Q * D * m) / (Rabs (Q * m) * (sqrt (eta * eta') * Rabs (w - E)))) with (Q * m / Rabs (Q * m) * Rabs (w - E)).
  - rewrite Rabs_mult, Rabs_Rabsolu. unfold Rdiv. rewrite Rabs_mult, Rabs_inv, Rabs_Rabsolu. field. lra.
  - rewrite DD. field. repeat split; lra.
Qed.

Lemma peak_area : PI * A * (D + eta * eta) / eta = W.
Proof. pose proof PI_RGT_0 as HP. assert (P : 0 < D + eta * eta) by (pose proof (Rle_0_sqr (w - E)) as SQ; unfold Rsqr in SQ; unfold D; clear -SQ H1; nra). unfold A, lorentzian. fold D. field. repeat split; lra. Qed.

Lemma peak_ok : E < w -> peak_location_and_weight w A A' eta eta' = (E, W).
Proof.
  intros L. unfold peak_location_and_weight. rewrite peak_abs by lra. rewrite Rabs_right by lra. replace (w - (w - E)) with E by ring.
  fold D. rewrite peak_area. reflexivity.
Qed.

Lemma peak_below : w < E -> peak_location_and_weight w A A' eta eta' = (2 * w - E, W).
Proof.
  intros L. unfold peak_location_and_weight. rewrite peak_abs by lra. rewrite Rabs_left by lra. replace (w - - (w - E)) with (2 * w - E) by ring.
  replace ((w - (2 * w - E)) * (w - (2 * w - E))) with D by (unfold D; ring). rewrite peak_area. reflexivity.
Qed.
End Peak.

Section Wstep.
Variables (w w' E W eta : R).
Hypotheses (HW : 0 < W) (H1 : 0 < eta).
Let A := lorentzian w E W eta.
Let A' := lorentzian w' E W eta.
Hypothesis NE : A <> A'.
Let M := (w * A - w' * A') / (A - A').
Let F := A * A' * ((w - w') * (w - w')) / ((A - A') * (A - A')) - eta * eta.
Let area (l : R) : R := PI * A * ((w - l) * (w - l) + eta * eta) / eta.

Lemma on_curve : forall x l, (x - l) * (x - l) + eta * eta <> 0. Proof. intros. pose proof (Rle_0_sqr (x - l)) as SQ; unfold Rsqr in SQ. clear -SQ H1. nra. Qed.

Lemma lor_eq : forall u l a, lorentzian u l a eta = a * eta / PI / ((u - l) * (u - l) + eta * eta).
Proof. intros. unfold lorentzian. pose proof PI_RGT_0. pose proof (on_curve u l). field. split; lra. Qed.

(** [l] is a root iff the two values belong to one Lorentzian centred at [l]. *)
Lemma root_iff : forall l, (l - M) * (l - M) = F <-> A * ((w - l) * (w - l) + eta * eta) = A' * ((w' - l) * (w' - l) + eta * eta).
Proof.
  intros l. assert (D : A - A' <> 0) by lra.
  assert (X : ((l - M) * (l - M) - F) * (A - A') = A * ((w - l) * (w - l) + eta * eta) - A' * ((w' - l) * (w' - l) + eta * eta)).
  { unfold M, F. field. exact D. }
  split; intros H.
  - replace ((l - M) * (l - M) - F) with 0 in X by lra. lra.
  - assert (Y : ((l - M) * (l - M) - F) * (A - A') = 0) by (rewrite X; lra). apply Rmult_integral in Y. destruct Y; lra.
Qed.

Lemma area_point : forall l, lorentzian w l (area l) eta = A.
Proof. intros l. unfold area. rewrite lor_eq. pose proof PI_RGT_0. pose proof (on_curve w l). field. repeat split; lra. Qed.

Lemma area_point' : forall l, (l - M) * (l - M) = F -> lorentzian w' l (area l) eta = A'.
Proof.
  intros l H. apply root_iff in H. unfold area. rewrite lor_eq. pose proof PI_RGT_0. pose proof (on_curve w' l) as C.
  replace (PI * A * ((w - l) * (w - l) + eta * eta) / eta) with (PI * (A * ((w - l) * (w - l) + eta * eta)) / eta) by (field; lra). rewrite H. field. repeat split; lra.
Qed.

Lemma any_lorentzian : forall l a, lorentzian w l a eta = A -> lorentzian w' l a eta = A' -> (l - M) * (l - M) = F /\ a = area l.
Proof.
  intros l a P P'. rewrite lor_eq in P, P'. pose proof PI_RGT_0 as HP. pose proof (on_curve w l) as C. pose proof (on_curve w' l) as C'. split.
  - apply root_iff. rewrite <- P, <- P'. field. repeat split; lra.
  - unfold area. rewrite <- P. field. repeat split; lra.
Qed.

Lemma roots : forall l, (l - M) * (l - M) = F -> l = M + sqrt F \/ l = M - sqrt F.
Proof.
  intros l H. assert (F0 : 0 <= F) by (rewrite <- H; apply Rle_0_sqr). pose proof (sqrt_sqrt F F0) as SS.
  assert (X : (l - M - sqrt F) * (l - M + sqrt F) = 0) by (replace ((l - M - sqrt F) * (l - M + sqrt F)) with ((l - M) * (l - M) - sqrt F * sqrt F) by ring; rewrite SS, H; ring). apply Rmult_integral in X. destruct X; [left|right]; lra.
Qed.

Lemma E_root : (E - M) * (E - M) = F.
Proof. apply (any_lorentzian E W); reflexivity. Qed.

Lemma root_plus : (M + sqrt F - M) * (M + sqrt F - M) = F.
Proof. replace (M + sqrt F - M) with (sqrt F) by ring. apply sqrt_sqrt. rewrite <- E_root. apply Rle_0_sqr. Qed.
Lemma root_minus : (M - sqrt F - M) * (M - sqrt F - M) = F.
Proof. replace ((M - sqrt F - M) * (M - sqrt F - M)) with (sqrt F * sqrt F) by ring. apply sqrt_sqrt. rewrite <- E_root. apply Rle_0_sqr. Qed.

Lemma wstep_form : peak_location_and_weight_wstep w w' A A' eta =
  if Rlt_dec 1 (area (M + sqrt F)) then (M - sqrt F, area (M - sqrt F)) else (M + sqrt F, area (M + sqrt F)).
Proof. reflexivity. Qed.

Lemma wstep_ok :
  let r := peak_location_and_weight_wstep w w' A A' eta in
  (lorentzian w (fst r) (snd r) eta = A /\ lorentzian w' (fst r) (snd r) eta = A') /\
  (W <= 1 -> (forall E' W', lorentzian w E' W' eta = A -> lorentzian w' E' W' eta = A' -> E' <> E -> 1 < W') -> r = (E, W)).
Proof.
  cbv zeta. rewrite wstep_form. pose proof root_plus as RP. pose proof root_minus as RM.
  assert (WE : W = area E) by (apply (any_lorentzian E W); reflexivity).
  destruct (Rlt_dec 1 (area (M + sqrt F))) as [L|L]; cbn [fst snd].
  - split; [split; [apply area_point|apply area_point'; exact RM]|]. intros W1 _.
    destruct (roots E E_root) as [Q|Q]; [rewrite <- Q in L; lra|]. rewrite <- Q, <- WE. reflexivity.
  - split; [split; [apply area_point|apply area_point'; exact RP]|]. intros W1 O.
    destruct (Req_EM_T (M + sqrt F) E) as [Q|Q]; [rewrite Q, <- WE; reflexivity|]. exfalso. apply L.
    apply (O (M + sqrt F)); [apply area_point|apply area_point'; exact RP|exact Q].
Qed.
End Wstep.

Lemma wstep_wrong : exists w w' E W eta, 0 < W <= 1 /\ 0 < eta /\ lorentzian w E W eta <> lorentzian w' E W eta /\
  fst (peak_location_and_weight_wstep w w' (lorentzian w E W eta) (lorentzian w' E W eta) eta) <> E.
Proof.
  exists 2, 3, 0, 1, 1. pose proof PI_RGT_0 as HP. split; [lra|]. split; [lra|].
  assert (A : lorentzian 2 0 1 1 = / PI / 5) by (unfold lorentzian; field; lra). assert (A' : lorentzian 3 0 1 1 = / PI / 10) by (unfold lorentzian; field; lra).
  assert (IP : 0 < / PI) by (apply Rinv_0_lt_compat; exact HP).
  rewrite A, A'. split; [lra|]. unfold peak_location_and_weight_wstep.
  replace (/ PI / 5 * (/ PI / 10) * ((2 - 3) * (2 - 3)) / ((/ PI / 5 - / PI / 10) * (/ PI / 5 - / PI / 10)) - 1 * 1) with 1 by (field; lra).
  rewrite sqrt_1. replace ((2 * (/ PI / 5) - 3 * (/ PI / 10)) / (/ PI / 5 - / PI / 10)) with 1 by (field; lra).
  replace (PI * (/ PI / 5) * ((2 - (1 + 1)) * (2 - (1 + 1)) + 1 * 1) / 1) with (1 / 5) by (field; lra).
  destruct (Rlt_dec 1 (1 / 5)); cbn [fst]; lra.
Qed.
