(** The propagators at complex conjugate frequencies (C81). *)
From Coq Require Import Reals ZArith List Lra Lia Field.
From Verif Require Import Base Cplx Physics Physics_proofs Toeplitz_proofs.
Open Scope R_scope.

Ltac conj_eq := apply Ceq; unfold Cconj, Cadd, Csub, Cmul, Copp, RtoC, Ci, C0, C1, Re, Im; cbn [fst snd]; ring.
Lemma cj_mul : forall u v, Cconj (Cmul u v) = Cmul (Cconj u) (Cconj v). Proof. intros. conj_eq. Qed.
Lemma cj_add : forall u v, Cconj (Cadd u v) = Cadd (Cconj u) (Cconj v). Proof. intros. conj_eq. Qed.
Lemma cj_sub : forall u v, Cconj (Csub u v) = Csub (Cconj u) (Cconj v). Proof. intros. conj_eq. Qed.
Lemma cj_opp : forall u, Cconj (Copp u) = Copp (Cconj u). Proof. intros. conj_eq. Qed.
Lemma cj_R : forall x, Cconj (RtoC x) = RtoC x. Proof. intros. conj_eq. Qed.
Lemma cj_i : Cconj Ci = Copp Ci. Proof. conj_eq. Qed.
Lemma cj_1 : Cconj C1 = C1. Proof. conj_eq. Qed.
Lemma cj_cj : forall u, Cconj (Cconj u) = u. Proof. intros. conj_eq. Qed.
Lemma norm_cj : forall u, Cnorm2 (Cconj u) = Cnorm2 u. Proof. intros. unfold Cnorm2, Cconj, Re, Im. cbn [fst snd]. ring. Qed.
Lemma abs_cj : forall u, Cabs (Cconj u) = Cabs u. Proof. intros. unfold Cabs. rewrite norm_cj. reflexivity. Qed.
Lemma cj_inv : forall u, Cconj (Cinv u) = Cinv (Cconj u).
Proof. intros u. unfold Cinv. rewrite norm_cj. unfold Cconj, Re, Im. cbn [fst snd]. f_equal. unfold Rdiv. ring. Qed.
Lemma cj_div : forall u v, Cconj (Cdiv u v) = Cdiv (Cconj u) (Cconj v).
Proof. intros. unfold Cdiv. rewrite cj_mul, cj_inv. reflexivity. Qed.
Lemma cj_nz : forall u, u <> C0 -> Cconj u <> C0.
Proof. intros u H E. apply H. rewrite <- (cj_cj u), E. conj_eq. Qed.
Lemma cj_pown : forall u n, Cconj (Cpown u n) = Cpown (Cconj u) n.
Proof. intros u n. induction n as [|n IH]; [apply cj_1|]. cbn [Cpown]. rewrite cj_mul, IH. reflexivity. Qed.

(** Off the branch cut. *)
Lemma cj_sqrt : forall u, Im u <> 0 \/ 0 < Re u -> Csqrt (Cconj u) = Cconj (Csqrt u).
Proof.
  intros u H. unfold Csqrt. rewrite abs_cj. change (Re (Cconj u)) with (Re u). change (Im (Cconj u)) with (- Im u).
  apply Ceq; unfold Cconj, Re, Im; cbn [fst snd]; fold (Re u) (Im u); [reflexivity|]. destruct (Req_EM_T (Im u) 0) as [E|E].
  - destruct H as [H|H]; [contradiction|]. assert (A : Cabs u = Re u).
    { unfold Cabs, Cnorm2. rewrite E. replace (Re u * Re u + 0 * 0) with (Re u * Re u) by ring. apply sqrt_square. lra. }
    rewrite A. replace ((Re u - Re u) / 2) with 0 by field. rewrite sqrt_0. ring.
  - destruct (Rle_dec 0 (Im u)) as [L|L], (Rle_dec 0 (- Im u)) as [L'|L']; try lra; ring.
Qed.
Lemma cj_arg : forall u, Im u <> 0 -> Carg (Cconj u) = - Carg u.
Proof.
  intros u H. unfold Carg. rewrite abs_cj. change (Re (Cconj u)) with (Re u). change (Im (Cconj u)) with (- Im u).
  destruct (Rle_dec 0 (Im u)) as [L|L], (Rle_dec 0 (- Im u)) as [L'|L']; try lra; ring.
Qed.
Lemma cj_pow : forall u p, Im u <> 0 -> Cpow (Cconj u) p = Cconj (Cpow u p).
Proof.
  intros u p H. unfold Cpow. rewrite abs_cj, (cj_arg u H). apply Ceq; unfold Cconj, Re, Im; cbn [fst snd].
  - replace (p * - Carg u) with (- (p * Carg u)) by ring. rewrite cos_neg. reflexivity.
  - replace (p * - Carg u) with (- (p * Carg u)) by ring. rewrite sin_neg. ring.
Qed.
Lemma pow_zero : forall u, Cpow u 0 = C1.
Proof. intros u. unfold Cpow. rewrite Rmult_0_l, cos_0, sin_0. unfold Rpower. rewrite Rmult_0_l, exp_0. apply Ceq; unfold C1, Re, Im; cbn [fst snd]; ring. Qed.

(** Squares of numbers in the upper half plane stay off the cut. *)
Lemma off_cut : forall B u, 0 < Im u -> Im (Csub (RtoC (B * B)) (Cmul u u)) <> 0 \/ 0 < Re (Csub (RtoC (B * B)) (Cmul u u)).
Proof.
  intros B [x y] H. unfold Csub, RtoC, Cmul, Re, Im in *. cbn [fst snd] in *. destruct (Req_EM_T x 0) as [E|E].
  - right. subst x. pose proof (Rle_0_sqr B). unfold Rsqr in *. pose proof (Rmult_lt_0_compat y y H H). lra.
  - left. intros Z. assert (x * y = 0) by lra. apply Rmult_integral in H0. lra.
Qed.
Lemma base_im : forall x, 0 < Im x -> Im (base x) <> 0.
Proof.
  intros x H E. pose proof (base_quadratic x) as Q. pose proof (base_nz x) as N. set (b := base x) in *. apply (f_equal Im) in Q.
  assert (Z : 2 * Im x * Re b = 0) by (revert Q; unfold Cadd, Cmul, RtoC, C0, C1, Re, Im in *; cbn [fst snd] in *; rewrite E; lra).
  assert (Re b = 0) by (apply Rmult_integral in Z; destruct Z as [Z|Z]; [lra|exact Z]). apply N. apply Ceq; assumption.
Qed.

(** * The retarded and the other propagator *)
Section Both.
Variables (omega : C) (eta t : R).
Hypothesis V : 0 < Im omega + eta.
Hypothesis T0 : t <> 0.

(** Both signs reversed: the conjugate. *)
Lemma both_signs : forall delta a e0, g0_delta_omega delta (Cconj omega) a (- eta) t (-1) e0 = Cconj (g0_delta_omega delta omega a eta t 1 e0).
Proof.
  intros delta a e0. unfold g0_delta_omega. destruct (Req_EM_T t 0) as [E|_]; [contradiction|]. cbv zeta.
  set (B := 2 * Rabs t). assert (BP : 0 < B) by (unfold B; pose proof (Rabs_pos_lt t T0); lra).
  set (z := Csub (Cadd omega (Cmul (RtoC eta) Ci)) (RtoC e0)).
  assert (Z : Csub (Cadd (Cconj omega) (Cmul (RtoC (- eta)) Ci)) (RtoC e0) = Cconj z) by (unfold z; conj_eq).
  assert (Zp : 0 < Im z) by (unfold z, Csub, Cadd, Cmul, RtoC, Ci, Re, Im in *; cbn [fst snd] in *; lra).
  rewrite Z. set (x := Cdiv z (RtoC B)). assert (X : Cdiv (Cconj z) (RtoC B) = Cconj x) by (unfold x; rewrite cj_div, cj_R; reflexivity). rewrite X.
  assert (Xp : 0 < Im x).
  { assert (E : Im x = Im z / B) by (unfold x, Cdiv, Cmul, Cinv, RtoC, Cnorm2, Re, Im; cbn [fst snd]; field; lra). rewrite E. apply Rdiv_lt_0_compat; assumption. }
  rewrite cj_mul. f_equal.
  - assert (Es : Csqrt (Csub C1 (Cmul (Cconj x) (Cconj x))) = Cconj (Csqrt (Csub C1 (Cmul x x)))).
    { rewrite <- cj_sqrt; [f_equal; rewrite cj_sub, cj_1, cj_mul; reflexivity|]. pose proof (off_cut 1 x Xp) as O. replace (RtoC (1 * 1)) with C1 in O by (apply Ceq; unfold RtoC, C1, Re, Im; cbn [fst snd]; ring). exact O. }
    rewrite Es. set (s := Csqrt (Csub C1 (Cmul x x))). rewrite <- cj_pow.
    + f_equal. conj_eq.
    + replace (Cadd (Copp x) (Cmul (Cmul (RtoC 1) Ci) s)) with (base x) by (unfold base; fold s; conj_eq). apply base_im. exact Xp.
  - assert (Es : Csqrt (Csub (RtoC (B * B)) (Cmul (Cconj z) (Cconj z))) = Cconj (Csqrt (Csub (RtoC (B * B)) (Cmul z z)))).
    { rewrite <- cj_sqrt; [f_equal; rewrite cj_sub, cj_R, cj_mul; reflexivity|]. apply off_cut. exact Zp. }
    rewrite Es, cj_div. f_equal. conj_eq.
Qed.

(** Only the broadening reversed. *)
Let z := Cadd omega (Cmul (RtoC eta) Ci).
Let B := 2 * Rabs t.
Let x := Cdiv z (RtoC B).
Let s := Csqrt (Csub C1 (Cmul x x)).
Let q := Cdiv (Copp Ci) (Cmul (RtoC B) s).

Lemma Bp : 0 < B. Proof. unfold B. pose proof (Rabs_pos_lt t T0). lra. Qed.
Lemma xp : 0 < Im x. Proof. exact (xpos omega eta t V T0). Qed.
Lemma s_cj : Csqrt (Csub C1 (Cmul (Cconj x) (Cconj x))) = Cconj s.
Proof.
  unfold s. rewrite <- cj_sqrt; [f_equal; rewrite cj_sub, cj_1, cj_mul; reflexivity|]. pose proof (off_cut 1 x xp) as O.
  replace (RtoC (1 * 1)) with C1 in O by (apply Ceq; unfold RtoC, C1, Re, Im; cbn [fst snd]; ring). exact O.
Qed.
Lemma base_cj : Cmul (base (Cconj x)) (Cconj (base x)) = C1.
Proof.
  unfold base. rewrite s_cj. fold s. rewrite cj_add, cj_opp, cj_mul, cj_i.
  assert (I : Cmul Ci Ci = Copp C1) by (apply Ceq; unfold Cmul, Ci, Copp, C1, Re, Im; cbn [fst snd]; ring).
  transitivity (Csub (Cmul (Cconj x) (Cconj x)) (Cmul (Cmul Ci Ci) (Cmul (Cconj s) (Cconj s)))); [ring|]. rewrite I, <- !cj_mul.
  assert (S : Cmul s s = Csub C1 (Cmul x x)) by apply Csqrt_sq. rewrite S, cj_sub, cj_1. ring.
Qed.

Lemma other_form : forall delta a, g0_delta_omega delta (Cconj omega) a (- eta) t 1 0 = Copp (Cmul (Cpow (base (Cconj x)) (Rabs (delta * a))) (Cconj q)).
Proof.
  intros delta a. unfold g0_delta_omega. destruct (Req_EM_T t 0) as [E|_]; [contradiction|]. cbv zeta. fold B.
  assert (Z : Csub (Cadd (Cconj omega) (Cmul (RtoC (- eta)) Ci)) (RtoC 0) = Cconj z) by (unfold z; conj_eq). rewrite Z.
  assert (X : Cdiv (Cconj z) (RtoC B) = Cconj x) by (unfold x; rewrite cj_div, cj_R; reflexivity). rewrite X.
  replace (Cadd (Copp (Cconj x)) (Cmul (Cmul (RtoC 1) Ci) (Csqrt (Csub C1 (Cmul (Cconj x) (Cconj x)))))) with (base (Cconj x)) by (unfold base; conj_eq).
  set (P := Cpow _ _). pose proof Bp as BP. assert (Bx : Cmul (RtoC B) x = z) by exact (Bx omega eta t T0).
  assert (Es : Csqrt (Csub (RtoC (B * B)) (Cmul (Cconj z) (Cconj z))) = Cmul (RtoC B) (Cconj s)).
  { rewrite <- s_cj, <- (Csqrt_scale B _ BP). f_equal. rewrite <- Bx, cj_mul, cj_R, RtoC_mul. ring. }
  rewrite Es. unfold q. rewrite cj_div, cj_opp, cj_i, cj_mul, cj_R. set (D := Cmul (RtoC B) (Cconj s)). unfold Cdiv.
  replace (Cmul (Copp (RtoC 1)) Ci) with (Copp Ci) by conj_eq. ring.
Qed.

Lemma other_zero : forall a, g0_delta_omega 0 (Cconj omega) a (- eta) t 1 0 = Copp (Cconj (g0_delta_omega 0 omega a eta t 1 0)).
Proof.
  intros a. rewrite other_form, (g0_form omega eta t T0). fold z B x s q. rewrite Rmult_0_l, Rabs_R0, !pow_zero. rewrite cj_mul, cj_1. reflexivity.
Qed.

Lemma other_abs : forall delta a,
  Cabs (g0_delta_omega delta (Cconj omega) a (- eta) t 1 0) * Cabs (g0_delta_omega delta omega a eta t 1 0) =
  Cabs (g0_delta_omega 0 omega a eta t 1 0) * Cabs (g0_delta_omega 0 omega a eta t 1 0).
Proof.
  intros delta a. rewrite other_form, !(g0_form omega eta t T0). fold z B x s q. rewrite Cabs_opp, !Cabs_mul, abs_cj. rewrite Rmult_0_l, Rabs_R0, pow_zero.
  assert (b0 : base x <> C0) by apply base_nz. assert (b1 : base (Cconj x) <> C0) by apply base_nz.
  rewrite (Cpow_abs _ _ b0), (Cpow_abs _ _ b1). set (p := Rabs (delta * a)).
  assert (E : Cabs (base (Cconj x)) * Cabs (base x) = 1).
  { rewrite <- (abs_cj (base x)), <- Cabs_mul, base_cj. unfold Cabs, Cnorm2, C1, Re, Im. cbn [fst snd]. replace (1 * 1 + 0 * 0) with 1 by ring. apply sqrt_1. }
  assert (R1 : Rpower (Cabs (base (Cconj x))) p * Rpower (Cabs (base x)) p = 1).
  { rewrite Rpower_mult_distr by (apply Cabs_pos; assumption). rewrite E. unfold Rpower. rewrite ln_1, Rmult_0_r. apply exp_0. }
  assert (O : Cabs C1 = 1) by (unfold Cabs, Cnorm2, C1, Re, Im; cbn [fst snd]; replace (1 * 1 + 0 * 0) with 1 by ring; apply sqrt_1). rewrite O.
  transitivity ((Rpower (Cabs (base (Cconj x))) p * Rpower (Cabs (base x)) p) * (Cabs q * Cabs q)); [ring|]. rewrite R1. ring.
Qed.

Lemma q_nz : q <> C0.
Proof.
  pose proof Bp as BP. assert (Sn : s <> C0) by exact (s_nz x xp). assert (Bn : RtoC B <> C0) by (apply RtoC_0; lra). intros E. unfold q in E.
  assert (D : Copp Ci = C0) by (transitivity (Cmul (Cmul (RtoC B) s) (Cdiv (Copp Ci) (Cmul (RtoC B) s))); [field; split; assumption|rewrite E; ring]).
  apply (f_equal Im) in D. unfold Copp, Ci, C0, Im in D. cbn [snd] in D. lra.
Qed.
Lemma other_differs : forall delta a, g0_delta_omega delta (Cconj omega) a (- eta) t 1 0 <> Cconj (g0_delta_omega delta omega a eta t 1 0).
Proof.
  intros delta a E. pose proof q_nz as Q. pose proof (other_abs delta a) as A. rewrite E, abs_cj, !(g0_form omega eta t T0) in A. fold z B x s q in A.
  rewrite !Cabs_mul, Rmult_0_l, Rabs_R0 in A. rewrite !(Cpow_abs _ _ (base_nz x)) in A. pose proof (Cabs_pos q Q) as QP. pose proof (base_lt1 x xp) as L1. pose proof (Cabs_pos _ (base_nz x)) as B0.
  set (b := Cabs (base x)) in *. set (e := Rabs (delta * a)) in *. set (y := Cabs q) in *. assert (R0 : Rpower b 0 = 1) by (apply Rpower_O; exact B0). rewrite R0 in A.
  pose proof (exp_pos (e * ln b)) as RP. fold (Rpower b e) in RP. assert (R1 : Rpower b e = 1) by
    (set (r := Rpower b e) in *; assert (0 < y * y) by (apply Rmult_lt_0_compat; assumption);
     assert (M : (r - 1) * ((r + 1) * (y * y)) = 0) by (transitivity (r * y * (r * y) - 1 * y * (1 * y)); [ring|lra]); apply Rmult_integral in M; destruct M as [M|M]; [lra|];
     assert (0 < (r + 1) * (y * y)) by (apply Rmult_lt_0_compat; lra); lra).
  assert (LN : ln b < 0) by (rewrite <- ln_1; apply ln_increasing; lra).
  assert (E0 : e * ln b = 0) by (apply exp_inv; rewrite exp_0; exact R1). assert (Z0 : e = 0) by (apply Rmult_integral in E0; destruct E0; lra).
  rewrite other_form, (g0_form omega eta t T0) in E. fold z B x s q in E. fold e in E. rewrite Z0, !pow_zero, cj_mul, cj_1 in E.
  apply (cj_nz _ Q). set (v := Cconj q) in *. apply Ceq.
  - apply (f_equal Re) in E. unfold Copp, Cmul, C0, C1, Re, Im in *. cbn [fst snd] in *. lra.
  - apply (f_equal Im) in E. unfold Copp, Cmul, C0, C1, Re, Im in *. cbn [fst snd] in *. lra.
Qed.

(** It solves the same equation. *)
Lemma other_Z : forall d : Z, g0_delta_omega (IZR d) (Cconj omega) 1 (- eta) t 1 0 = Copp (Cmul (Cpown (base (Cconj x)) (Z.abs_nat d)) (Cconj q)).
Proof.
  intros d. rewrite other_form, Rmult_1_r, <- abs_IZR, <- Zabs2Nat.id_abs, <- INR_IZR_INZ, Cpow_nat by apply base_nz. reflexivity.
Qed.
Lemma other_lattice : forall d : Z,
  Cadd (Cmul (Cconj z) (g0_delta_omega (IZR d) (Cconj omega) 1 (- eta) t 1 0))
       (Cmul (RtoC (Rabs t)) (Cadd (g0_delta_omega (IZR (d + 1)) (Cconj omega) 1 (- eta) t 1 0) (g0_delta_omega (IZR (d - 1)) (Cconj omega) 1 (- eta) t 1 0)))
  = if Z.eq_dec d 0 then C1 else C0.
Proof.
  intros d. rewrite !other_Z. set (b := base (Cconj x)). assert (Bx : Cmul (RtoC B) x = z) by exact (Bx omega eta t T0). pose proof Bp as BP.
  assert (Bz : Cmul (RtoC B) (Cconj x) = Cconj z) by (rewrite <- Bx, cj_mul, cj_R; reflexivity). rewrite <- Bz. unfold B. rewrite RtoC_mul. set (T := RtoC (Rabs t)).
  pose proof (base_quadratic (Cconj x)) as Q. fold b in Q. destruct (Z.eq_dec d 0) as [->|D].
  - change (Z.abs_nat 0) with 0%nat. change (Z.abs_nat (0 + 1)) with 1%nat. change (Z.abs_nat (0 - 1)) with 1%nat. cbn [Cpown].
    assert (Sn : Cconj s <> C0) by (apply cj_nz; exact (s_nz x xp)). assert (Bn : RtoC B <> C0) by (apply RtoC_0; lra).
    assert (I : Cmul Ci Ci = Copp C1) by (apply Ceq; unfold Cmul, Ci, Copp, C1, Re, Im; cbn [fst snd]; ring).
    transitivity (Copp (Cmul (Cconj q) (Cmul (RtoC B) (Cadd (Cconj x) b)))); [unfold B; rewrite RtoC_mul; fold T; replace (RtoC 2) with (Cadd C1 C1) by (apply Ceq; unfold RtoC, Cadd, C1, Re, Im; cbn [fst snd]; ring); ring|].
    replace (Cadd (Cconj x) b) with (Cmul Ci (Cconj s)) by (unfold b, base; rewrite s_cj; ring).
    unfold q. rewrite cj_div, cj_opp, cj_i, cj_mul, cj_R. transitivity (Copp (Cmul Ci Ci)); [field; split; assumption|]. rewrite I. ring.
  - set (n := (Z.abs_nat d - 1)%nat).
    assert (E : (Z.abs_nat d = S n /\ ((Z.abs_nat (d + 1) = S (S n) /\ Z.abs_nat (d - 1) = n) \/ (Z.abs_nat (d + 1) = n /\ Z.abs_nat (d - 1) = S (S n))))%nat).
    { unfold n. split; [lia|]. destruct (Z.lt_trichotomy d 0) as [H|[H|H]]; [right|contradiction|left]; lia. }
    destruct E as [-> E].
    transitivity (Copp (Cmul (Cmul (Cmul T (Cconj q)) (Cpown b n)) (Cadd (Cadd (Cmul b b) (Cmul (Cmul (RtoC 2) (Cconj x)) b)) C1))).
    + destruct E as [[-> ->]|[-> ->]]; cbn [Cpown]; ring.
    + rewrite Q. ring.
Qed.
End Both.
