(** The spectral function integrates to one (C74): [Contour_proofs] applied to the
    Green's function of a model minus that of a free level. *)
From Coq Require Import ZArith Reals Ratan RiemannInt List Lra Lia.
From Verif Require Import Base Model Space Spec_space Spec_engine Spec_eom Spec_model Cplx Physics Physics_proofs Spec_spectral Spec_green
  Walk_proofs Moments_proofs Holo_proofs Contour_proofs.
Open Scope R_scope.

(** What holds up to any multiple of 1 / n. *)
Lemma le_limit : forall x a b, 0 <= b -> (forall n, (0 < n)%nat -> x <= a + b / INR n) -> x <= a.
Proof.
  intros x a b Hb H. destruct (Rle_lt_dec x a) as [L|L]; [exact L|exfalso].
  destruct (archimed ((b + 1) / (x - a))) as [Ha _]. set (n := Z.to_nat (up ((b + 1) / (x - a)))) in *.
  assert (P : 0 < (b + 1) / (x - a)) by (apply Rdiv_lt_0_compat; lra).
  assert (Hz : (0 < up ((b + 1) / (x - a)))%Z) by (apply lt_IZR; lra).
  assert (Hn : INR n = IZR (up ((b + 1) / (x - a)))) by (unfold n; rewrite INR_IZR_INZ, Z2Nat.id by lia; reflexivity).
  assert (Np : (0 < n)%nat) by (unfold n; lia). specialize (H n Np).
  assert (Hn0 : 0 < INR n) by lra.
  assert (b / INR n < x - a); [|lra].
  apply Rmult_lt_reg_r with (INR n); [exact Hn0|]. unfold Rdiv. rewrite Rmult_assoc, Rinv_l, Rmult_1_r by lra.
  rewrite <- Hn in Ha. apply Rgt_lt in Ha. apply (Rmult_lt_compat_r (x - a)) in Ha; [|lra].
  unfold Rdiv in Ha. rewrite Rmult_assoc, Rinv_l, Rmult_1_r in Ha by lra. lra.
Qed.

Section Sum.
Variable m : model R.
Variable ae c : Z.
Variable k : R.
Hypothesis G : good_model m ae.
Hypothesis Hlat : on_lattice m c.
Hypothesis Hherm : forall w eta, hermitian (phys_env m k w eta) m.
Hypothesis Hl : exact_lattice m.
Hypothesis Ht : 0 <= h_hop (m_ham m).
Variable g : R -> R -> C.
Hypothesis Val : forall w eta, 0 < eta -> exists Psi, greens_row m ae c k (w, eta) Psi /\ g w eta = Psi vacuum 0%Z.
Variable K : R.
Hypothesis K0 : 0 <= K.
Hypothesis Decay : forall w eta, 0 < eta -> Cabs (w, eta) ^ 2 * Cabs (Csub (g w eta) (Cinv (w, eta))) <= K * (1 + 1 / eta).

Lemma g_lip : forall eta, 0 < eta -> forall w w', Rabs (Im (g w' eta) - Im (g w eta)) <= / (eta * eta) * Rabs (w' - w).
Proof.
  intros eta He w w'. destruct (Val w eta He) as [P [Ro E]]. destruct (Val w' eta He) as [P' [Ro' E']].
  pose proof (first_at m ae c k G Hlat Hherm Hl Ht w eta w' eta P P' He He Ro Ro') as B. rewrite <- E, <- E' in B.
  replace (Csub (w', eta) (w, eta)) with (RtoC (w' - w)) in B by (unfold Csub, RtoC; cbn; f_equal; ring). rewrite Cabs_RtoC in B.
  pose proof (Im_abs_le (Csub (g w' eta) (g w eta))) as I. change (Im (Csub (g w' eta) (g w eta))) with (Im (g w' eta) - Im (g w eta)) in I.
  apply Rmult_le_reg_l with (eta * eta); [nra|]. rewrite <- Rmult_assoc, Rinv_r, Rmult_1_l by nra.
  apply Rle_trans with (2 := B). apply Rmult_le_compat_l; [nra|exact I].
Qed.

Lemma g_cell : forall eta, 0 < eta -> forall x y h, eta <= y -> 0 < h ->
  Cabs (Csub (Cmul Ci (Csub (g (x + h) y) (g x y))) (Csub (g x (y + h)) (g x y))) <= 2 / (eta * eta * eta) * (h * h).
Proof.
  intros eta He x y h Hy Hh. assert (y0 : 0 < y) by lra. assert (y1 : 0 < y + h) by lra.
  destruct (Val x y y0) as [P [Ro E]]. destruct (Val (x + h) y y0) as [P1 [Ro1 E1]]. destruct (Val x (y + h) y1) as [P2 [Ro2 E2]].
  pose proof (second_at m ae c k G Hlat Hherm x y h P P1 P2 y0 Hh Ro Ro1 Ro2) as B. rewrite <- E, <- E1, <- E2 in B.
  set (d := Cabs _) in *. assert (d0 : 0 <= d) by apply Cabs_ge0.
  assert (eta * eta * eta <= y ^ 3) by (simpl; rewrite Rmult_1_r, <- Rmult_assoc; repeat apply Rmult_le_compat; nra).
  assert (0 < eta * eta * eta) by (repeat apply Rmult_lt_0_compat; exact He).
  apply Rmult_le_reg_l with (eta * eta * eta); [assumption|].
  replace (eta * eta * eta * (2 / (eta * eta * eta) * (h * h))) with (2 * h ^ 2) by (field; lra).
  apply Rle_trans with (2 := B). apply Rmult_le_compat_r; assumption.
Qed.

Let D (x y : R) : C := Csub (g x y) (inv_at x y).
Lemma D_cell : forall eta, 0 < eta -> forall x y h, eta <= y -> 0 < h ->
  Cabs (Csub (Cmul Ci (Csub (D (x + h) y) (D x y))) (Csub (D x (y + h)) (D x y))) <= 4 / (eta * eta * eta) * (h * h).
Proof.
  intros eta He x y h Hy Hh. pose proof (g_cell eta He x y h Hy Hh) as A. pose proof (inv_cell eta He x y h Hy Hh) as B.
  match type of A with Cabs ?u <= _ => match type of B with Cabs ?v <= _ => pose proof (Cabs_sub u v) as T; set (U := u) in *; set (V := v) in * end end.
  replace (Csub _ _) with (Csub U V) by (unfold U, V, D; ring). lra.
Qed.
Lemma D_decay : forall eta, 0 < eta -> forall x y, eta <= y -> Cabs (D x y) * (x * x + y * y) <= K * (1 + 1 / eta).
Proof.
  intros eta He x y Hy. pose proof (Decay x y ltac:(lra)) as H. replace (Cabs (x, y) ^ 2) with (x * x + y * y) in H by (rewrite <- z_sq; ring).
  fold (inv_at x y) in H. fold (D x y) in H. rewrite Rmult_comm. apply Rle_trans with (1 := H). apply Rmult_le_compat_l; [exact K0|].
  assert (1 / y <= 1 / eta); [|lra]. unfold Rdiv. rewrite !Rmult_1_l. apply Rinv_le_contravar; lra.
Qed.

Variable eta : R.
Hypothesis He : 0 < eta.
Let K1 := K * (1 + 1 / eta).
Lemma K1_pos : 0 <= K1.
Proof. unfold K1. apply Rmult_le_pos; [exact K0|]. assert (0 < 1 / eta) by (apply Rdiv_lt_0_compat; lra). lra. Qed.

Let A (w : R) : R := - Im (g w eta) / PI.
Definition steps (r h : R) : R := (16 * (r * r) / (eta * eta * eta) + 2 * r / (eta * eta)) * h / PI.

(** The sum of the array over [-r, r]. *)
Theorem sum_square : forall r n, 0 < r -> (0 < n)%nat -> let h := 2 * r / INR n in
  Rabs (h * rsum (fun j => A (- r + INR j * h)) n - 2 / PI * atan (r / eta)) <= 9 * K1 / (2 * PI * r) + steps r h.
Proof.
  intros r n Hr Hn h. pose proof PI_RGT_0 as P0. assert (Hn' : 0 < INR n) by (apply lt_0_INR; exact Hn).
  assert (Hh : 0 < h) by (unfold h; apply Rdiv_lt_0_compat; lra). assert (Hnh : INR n * h = 2 * r) by (unfold h; field; lra).
  pose proof (square D eta (4 / (eta * eta * eta)) K1 He (D_cell eta He) (D_decay eta He) r n Hr Hn) as S. cbv zeta in S. fold h in S.
  set (cs := csum _ n) in S. assert (I : Rabs (Im cs) <= Cabs cs) by apply Im_abs_le.
  assert (EI : Im cs = rsum (fun j => Im (g (- r + INR j * h) eta)) n - rsum (fun j => Im (inv_at (- r + INR j * h) eta)) n).
  { unfold cs. rewrite csum_im, <- rsum_sub. apply rsum_ext. intros j _. reflexivity. }
  assert (LL : lipschitz (fun x => - Im (inv_at x eta)) (/ (eta * eta))).
  { intros x x'. replace (- Im (inv_at x' eta) - - Im (inv_at x eta)) with (- (Im (inv_at x' eta) - Im (inv_at x eta))) by ring. rewrite Rabs_Ropp. apply inv_lip. exact He. }
  assert (LM : 0 <= / (eta * eta)) by (left; apply Rinv_0_lt_compat; nra).
  pose proof (antiderivative_sum (fun x => atan (x / eta)) (fun x => - Im (inv_at x eta)) (/ (eta * eta)) LM LL (lorentz_antider eta He) (- r) h n Hh) as T.
  cbv beta in T. replace (- r + INR n * h) with r in T by lra.
  replace (- r / eta) with (- (r / eta)) in T by (field; lra). rewrite atan_opp in T.
  rewrite (rsum_ext (fun j => - Im (inv_at (- r + INR j * h) eta)) (fun j => -1 * Im (inv_at (- r + INR j * h) eta))), rsum_scal in T by (intros; ring).
  rewrite (rsum_ext (fun j => A (- r + INR j * h)) (fun j => (- / PI) * Im (g (- r + INR j * h) eta))), rsum_scal by (intros; unfold A; field; lra).
  set (sg := rsum (fun j => Im (g (- r + INR j * h) eta)) n) in *. set (si := rsum (fun j => Im (inv_at (- r + INR j * h) eta)) n) in *. set (at' := atan (r / eta)) in *.
  replace (h * (- / PI * sg) - 2 / PI * at') with (/ PI * (- (h * (sg - si)) + - (at' - - at' - h * (-1 * si)))) by (field; lra).
  assert (IP : 0 < / PI) by (apply Rinv_0_lt_compat; lra).
  rewrite Rabs_mult, (Rabs_pos_eq (/ PI)) by lra.
  assert (X : Rabs (- (h * (sg - si)) + - (at' - - at' - h * (-1 * si))) <= (9 * K1 / (2 * r) + 4 / (eta * eta * eta) * (4 * (r * r)) * h) + INR n * (/ (eta * eta) * (h * h))).
  { eapply Rle_trans; [apply Rabs_triang|]. rewrite !Rabs_Ropp, <- EI, Rabs_mult, (Rabs_pos_eq h) by lra.
    apply Rplus_le_compat; [|exact T]. eapply Rle_trans; [|exact S]. apply Rmult_le_compat_l; lra. }
  apply (Rmult_le_compat_l (/ PI)) in X; [|lra]. eapply Rle_trans; [exact X|]. right. unfold steps.
  replace (INR n * (/ (eta * eta) * (h * h))) with (INR n * h * h / (eta * eta)) by (field; lra). rewrite Hnh. field. lra.
Qed.

Lemma A_lip : lipschitz A (/ (PI * (eta * eta))).
Proof.
  intros x x'. pose proof PI_RGT_0. unfold A. replace (- Im (g x' eta) / PI - - Im (g x eta) / PI) with (- (/ PI * (Im (g x' eta) - Im (g x eta)))) by (field; lra).
  rewrite Rabs_Ropp, Rabs_mult, (Rabs_pos_eq (/ PI)) by (left; apply Rinv_0_lt_compat; lra).
  replace (/ (PI * (eta * eta)) * Rabs (x' - x)) with (/ PI * (/ (eta * eta) * Rabs (x' - x))) by (field; lra).
  apply Rmult_le_compat_l; [left; apply Rinv_0_lt_compat; lra|]. apply g_lip. exact He.
Qed.
Lemma A_lip_pos : 0 <= / (PI * (eta * eta)).
Proof. left. apply Rinv_0_lt_compat. pose proof PI_RGT_0. apply Rmult_lt_0_compat; nra. Qed.

Theorem integral_square : forall r (pr : Riemann_integrable A (- r) r), 0 < r ->
  Rabs (RiemannInt pr - 2 / PI * atan (r / eta)) <= 9 * K1 / (2 * PI * r).
Proof.
  intros r pr Hr. pose proof PI_RGT_0 as P0.
  set (b := (16 * (r * r) / (eta * eta * eta) + 2 * r / (eta * eta)) * (2 * r) / PI + 2 * r * (/ (PI * (eta * eta)) * (2 * r))).
  assert (b0 : 0 <= b).
  { assert (0 < eta * eta) by nra. assert (0 < eta * eta * eta) by (apply Rmult_lt_0_compat; lra). assert (0 < r * r) by nra.
    assert (0 < 16 * (r * r) / (eta * eta * eta)) by (apply Rdiv_lt_0_compat; lra). assert (0 < 2 * r / (eta * eta)) by (apply Rdiv_lt_0_compat; lra).
    pose proof A_lip_pos. unfold b. apply Rplus_le_le_0_compat; [|repeat apply Rmult_le_pos; lra].
    unfold Rdiv. apply Rmult_le_pos; [apply Rmult_le_pos; unfold Rdiv in *; lra|left; apply Rinv_0_lt_compat; lra]. }
  apply (le_limit _ _ b b0). intros n Hn. pose proof (sum_square r n Hr Hn) as S. cbv zeta in S. set (h := 2 * r / INR n) in *.
  assert (Hn' : 0 < INR n) by (apply lt_0_INR; exact Hn).
  assert (Hh : 0 < h) by (unfold h; apply Rdiv_lt_0_compat; lra). assert (Hnh : INR n * h = 2 * r) by (unfold h; field; lra).
  assert (T : Rabs (RiemannInt pr - h * rsum (fun j => A (- r + INR j * h)) n) <= INR n * (/ (PI * (eta * eta)) * (h * h))).
  { assert (X : forall e (pe : Riemann_integrable A (- r) e), e = - r + INR n * h -> Rabs (RiemannInt pe - h * rsum (fun j => A (- r + INR j * h)) n) <= INR n * (/ (PI * (eta * eta)) * (h * h)))
      by (intros e pe ->; apply riemann_sum; [exact A_lip_pos|exact A_lip|exact Hh]).
    apply X. lra. }
  set (q := rsum _ n) in *.
  replace (RiemannInt pr - 2 / PI * atan (r / eta)) with ((RiemannInt pr - h * q) + (h * q - 2 / PI * atan (r / eta))) by ring.
  eapply Rle_trans; [apply Rabs_triang|]. replace (b / INR n) with (steps r h + INR n * (/ (PI * (eta * eta)) * (h * h))); [lra|].
  replace (INR n * (/ (PI * (eta * eta)) * (h * h))) with (INR n * h * (/ (PI * (eta * eta)) * h)) by ring. rewrite Hnh.
  unfold b, steps, h. field. repeat split; lra.
Qed.
End Sum.

(** The Lorentzian over [-r, r] has all but 2 eta / (pi r). *)
Lemma lorentz_total : forall r eta, 0 < r -> 0 < eta -> 1 - 2 * eta / (PI * r) <= 2 / PI * atan (r / eta) < 1.
Proof.
  intros r eta Hr He. pose proof PI_RGT_0. destruct (atan_tail (r / eta) ltac:(apply Rdiv_lt_0_compat; lra)) as [L U].
  assert (I : 0 < 2 / PI) by (apply Rdiv_lt_0_compat; lra). split.
  - apply (Rmult_le_compat_l (2 / PI)) in L; [|lra]. replace (2 / PI * (PI / 2 - / (r / eta))) with (1 - 2 * eta / (PI * r)) in L by (field; lra). exact L.
  - apply (Rmult_lt_compat_l (2 / PI)) in U; [|lra]. replace (2 / PI * (PI / 2)) with 1 in U by (field; lra). exact U.
Qed.

(** A function that is positive, Lipschitz, and whose integrals over [-r, r] have
    limits below one: integrals over windows. *)
Lemma window_le : forall u M, 0 <= M -> lipschitz u M -> (forall x, 0 < u x) ->
  (forall e, 0 < e -> exists r0, forall r (pr : Riemann_integrable u (- r) r), r0 <= r -> RiemannInt pr <= 1 + e) ->
  forall a b (pr : Riemann_integrable u a b), a < b -> 0 < RiemannInt pr <= 1.
Proof.
  intros u M HM HL Hp Hr a b pr Hab. split.
  - destruct (continuity_ab_min u a b ltac:(lra) (fun x _ => lip_cont u M HM HL x)) as (x & Hx & _).
    pose proof (@RiemannInt_P19 (fct_cte (u x)) u a b (RiemannInt_P14 a b (u x)) pr ltac:(lra) (fun y Hy => Hx y ltac:(lra))) as L.
    rewrite RiemannInt_P15 in L. pose proof (Hp x). assert (0 < u x * (b - a)) by (apply Rmult_lt_0_compat; lra). lra.
  - assert (W : forall p q (pr : Riemann_integrable u p q), p <= q -> 0 <= RiemannInt pr).
    { intros p q pr0 Hpq. pose proof (@RiemannInt_P19 (fct_cte 0) u p q (RiemannInt_P14 p q 0) pr0 Hpq (fun y _ => Rlt_le _ _ (Hp y))) as L. rewrite RiemannInt_P15 in L. lra. }
    apply (le_limit _ 1 1); [lra|]. intros n Hn. assert (Hn' : 0 < INR n) by (apply lt_0_INR; exact Hn).
    destruct (Hr (1 / INR n) ltac:(apply Rdiv_lt_0_compat; lra)) as [r0 H0].
    set (r := Rmax r0 (Rmax (Rabs a) (Rabs b))).
    assert (R1 : r0 <= r) by apply Rmax_l. assert (R2 : Rabs a <= r) by (eapply Rle_trans; [apply Rmax_l|apply Rmax_r]). assert (R3 : Rabs b <= r) by (eapply Rle_trans; [apply Rmax_r|apply Rmax_r]).
    pose proof (Rle_abs (- a)) as A1. rewrite Rabs_Ropp in A1. pose proof (Rle_abs b) as A2.
    set (p1 := lip_int u M HM HL (- r) a). set (p2 := lip_int u M HM HL b r). set (p3 := lip_int u M HM HL (- r) b). set (p4 := lip_int u M HM HL (- r) r).
    pose proof (@RiemannInt_P26 u (- r) a b p1 pr p3) as E1. pose proof (@RiemannInt_P26 u (- r) b r p3 p2 p4) as E2.
    pose proof (W _ _ p1 ltac:(lra)). pose proof (W _ _ p2 ltac:(lra)). pose proof (H0 r p4 R1). lra.
Qed.
