(** Property theorem C86: raising eta is broadening with a Lorentzian. *)
From Coq Require Import String ZArith List Bool Lia Permutation Reals Ratan RiemannInt Lra.
From Verif Require Import Base NdArray Config Spec Model HModel Space Spec_space Term Equation System Spec_engine Props_Engine
  Ring Coef Spec_eom Solvers Spec_solve LinSolve Spec_model Spec_sym Cplx Physics Props_Physics Props_Model Props_Solve Props_Sym Spec_spectral Props_Spectral
  Spec_green Props_Green Spec_cutoff Spec_exact Spec_moments Props_Moments Props_Pipeline Props_Thermal Spec_sum Props_Sum Spec_blur.
From Verif Require Physics_proofs Contour_proofs Divided_proofs Blur_proofs.
Import ListNotations.
Open Scope list_scope.
Open Scope R_scope.

Notation allowed ord := (forall k l, Permutation (ord k l) l).

Lemma at_divided : forall m k ord sp g, usable m -> allowed ord -> spsolve_ok sp -> green_at m sp ord k g ->
  forall y (l : list C) (a : C), 0 < y -> NoDup (a :: l) -> (forall p, In p (a :: l) -> y <= Im p) -> Cabs (divided g l a) <= (/ y) ^ S (length l).
Proof.
  intros m k ord sp g U P SO Hg y l a Hy ND HP. destruct (usable_sound m U) as [ae [c S]]. pose proof (code_green m ae c sp ord k S P SO) as V. destruct S as [G L H Hl Ht].
  refine (Divided_proofs.divided_bound m ae c k G L (H k) g _ y l a Hy ND HP).
  intros [w eta] Pp. cbn [snd] in Pp. destruct (V w eta Pp) as [Psi [Ro E]]. exists Psi. split; [exact Ro|]. rewrite <- E. unfold code_g. rewrite (Hg (w, eta) Pp : greens (phys_env m k w eta) sp ord m = _). reflexivity.
Qed.

(** There is such a function. *)
Theorem C86_defined : forall m k ord sp, usable m -> allowed ord -> spsolve_ok sp -> exists g, green_at m sp ord k g.
Proof.
  intros m k ord sp U P SO. exists (fun z => code_g m sp ord k (Re z) (Im z)). intros z Hz. destruct (usable_sound m U) as [ae [c [G L H Hl Ht]]].
  destruct (C56_exists m ae c k (Re z) (Im z) G (H _ _ _) L Hl Ht Hz) as [Psi Ro]. unfold code_g. rewrite (C56_green m ae c ord sp k (Re z) (Im z) Psi G (H _ _ _) L Hl Ht Hz P SO Ro). reflexivity.
Qed.
Print Assumptions C86_defined.

(** Divided differences of all orders. *)
Theorem C86_divided : forall m k ord sp g, usable m -> allowed ord -> spsolve_ok sp -> green_at m sp ord k g ->
  forall y (l : list C) (a : C), 0 < y -> NoDup (a :: l) -> (forall p, In p (a :: l) -> y <= Im p) -> Cabs (divided g l a) <= (/ y) ^ S (length l).
Proof. exact at_divided. Qed.
Print Assumptions C86_divided.

(** The Green's function has a derivative in the complex frequency. *)
Theorem C86_derivative : forall m k ord sp g, usable m -> allowed ord -> spsolve_ok sp -> green_at m sp ord k g ->
  forall z0 : C, 0 < Im z0 -> exists d : C, forall z : C, Im z0 / 2 <= Im z ->
    Cabs (Csub (Csub (g z) (g z0)) (Cmul (Csub z z0) d)) <= 8 / Im z0 ^ 3 * Cabs (Csub z z0) ^ 2.
Proof.
  intros m k ord sp g U P SO Hg z0 H0. assert (Hy : 0 < Im z0 / 2) by lra.
  destruct (Blur_proofs.derivative_ex g (Im z0 / 2) Hy (fun l a ND HP => at_divided m k ord sp g U P SO Hg _ l a Hy ND HP) z0 ltac:(change (Im z0 / 2 <= Im z0); lra)) as [d Hd].
  exists d. intros z Hz. destruct (Blur_proofs.dec_C z z0) as [-> |N].
  { replace (Csub (Csub (g z0) (g z0)) (Cmul (Csub z0 z0) d)) with Cplx.C0 by ring. replace (Csub z0 z0) with Cplx.C0 by ring. rewrite Moments_proofs.Cabs_C0. lra. }
  specialize (Hd z Hz N). pose proof (Blur_proofs.divided_cons g [] z z0 N) as E. cbn [divided] in E. change (Cmul (Cinv (Csub z z0)) (Csub (g z) (g z0))) with (divided g [z0] z) in E. rewrite E.
  replace (Csub (Cmul (Csub z z0) (divided g [z0] z)) (Cmul (Csub z z0) d)) with (Cmul (Csub z z0) (Csub (divided g [z0] z) d)) by ring. rewrite Physics_proofs.Cabs_mul.
  pose proof (Physics_proofs.Cabs_ge0 (Csub z z0)) as A. apply (Rmult_le_compat_l _ _ _ A) in Hd. eapply Rle_trans; [exact Hd|]. right. field. lra.
Qed.
Print Assumptions C86_derivative.

(** The value at w + i (eta + delta) is the average of the values at x + i eta,
    weighted with a Lorentzian of width delta about w.  The part of a complex
    number is Re (c z): c = 1 for the real part, c = - i for the imaginary part.
    What the integral over [-r, r] leaves out is at most K / r, with K the same
    for all models and momenta. *)
Lemma poisson_at : forall eta delta w, 0 < eta -> 0 < delta -> exists K, 0 <= K /\ forall g c,
  (forall (l : list C) (a : C), NoDup (a :: l) -> (forall p, In p (a :: l) -> eta <= snd p) -> Cabs (divided g l a) <= (/ eta) ^ S (length l)) ->
  forall r (pr : Riemann_integrable (fun x => Re (Cmul c (g (x, eta))) * lorentzian delta (w - x)) (- r) r), 2 * Rabs w + 1 <= r ->
    Rabs (RiemannInt pr - Re (Cmul c (g (w, eta + delta)))) <= Cabs c * K / r.
Proof.
  intros eta delta w He Hd. pose proof PI_RGT_0 as PP. set (K1 := delta / PI * (9 * Blur_proofs.Kf eta delta w / 2)). set (K2 := / eta * (4 * delta)).
  pose proof (Rinv_0_lt_compat _ He) as IE. assert (KF : 0 <= Blur_proofs.Kf eta delta w).
  { unfold Blur_proofs.Kf. pose proof (Physics_proofs.Cabs_ge0 (w, eta - delta)) as A1. pose proof (Physics_proofs.Cabs_ge0 (w, eta + delta)) as A2. assert (0 < (/ eta) ^ 2) by (apply pow_lt; exact IE).
    assert (0 <= Cabs (w, eta - delta) / delta) by (apply Rmult_le_pos; [exact A1|left; apply Rinv_0_lt_compat; exact Hd]).
    apply Rmult_le_pos; [lra|]. apply Rplus_le_le_0_compat; [lra|]. apply Rmult_le_pos; [exact A2|lra]. }
  assert (H1 : 0 <= K1) by (unfold K1; apply Rmult_le_pos; [left; apply Rdiv_lt_0_compat; lra|lra]). assert (H2 : 0 <= K2) by (unfold K2; apply Rmult_le_pos; lra).
  exists (K1 + K2). split; [lra|]. intros g c B r pr Hr. pose proof (Rabs_pos w) as Aw. assert (r0 : 0 < r) by lra.
  destruct (Blur_proofs.derivative_ex g eta He B (w, eta + delta) ltac:(cbn; lra)) as [d Der].
  pose proof (Blur_proofs.poisson g eta delta w He Hd B d Der c r pr r0) as I. pose proof (Blur_proofs.weight_total w delta r Hd ltac:(lra)) as T.
  pose proof (Blur_proofs.a0_bound g eta delta w Hd B c) as A0. set (a0 := Re (Cmul c (g (w, eta + delta)))) in *. set (W := Blur_proofs.weight_in delta w r) in *. pose proof (Physics_proofs.Cabs_ge0 c) as C0.
  replace (RiemannInt pr - a0) with ((RiemannInt pr - a0 * W) + a0 * (W - 1)) by ring. eapply Rle_trans; [apply Rabs_triang|]. rewrite Rabs_mult.
  assert (T' : Rabs (W - 1) <= 4 * delta / r).
  { eapply Rle_trans; [exact T|]. apply (Rmult_le_reg_r (r * (r - Rabs w))); [apply Rmult_lt_0_compat; lra|].
    replace (delta / (r - Rabs w) * 2 * (r * (r - Rabs w))) with (delta * (2 * r)) by (field; lra). replace (4 * delta / r * (r * (r - Rabs w))) with (delta * (4 * (r - Rabs w))) by (field; lra). apply Rmult_le_compat_l; lra. }
  assert (X : Rabs a0 * Rabs (W - 1) <= Cabs c * / eta * (4 * delta / r)) by (apply Rmult_le_compat; try apply Rabs_pos; assumption).
  unfold Blur_proofs.Kc in I. replace (Cabs c * (K1 + K2) / r) with (Cabs c * (delta / PI) * (9 * Blur_proofs.Kf eta delta w / 2) / r + Cabs c * / eta * (4 * delta / r)) by (unfold K1, K2; field; repeat split; lra). lra.
Qed.

Theorem C86_green : forall eta delta w, 0 < eta -> 0 < delta -> exists K, 0 <= K /\ forall m k ord sp g c, usable m -> allowed ord -> spsolve_ok sp -> green_at m sp ord k g ->
  forall r (pr : Riemann_integrable (fun x => Re (Cmul c (g (x, eta))) * lorentzian delta (w - x)) (- r) r), 2 * Rabs w + 1 <= r ->
    Rabs (RiemannInt pr - Re (Cmul c (g (w, eta + delta)))) <= Cabs c * K / r.
Proof.
  intros eta delta w He Hd. destruct (poisson_at eta delta w He Hd) as [K [K0 H]]. exists K. split; [exact K0|]. intros m k ord sp g c U P SO Hg.
  exact (H g c (fun l a ND HP => at_divided m k ord sp g U P SO Hg eta l a He ND HP)).
Qed.
Print Assumptions C86_green.

(** The function of the code behind two spectral functions. *)
Lemma code_at : forall m k ord sp, usable m -> allowed ord -> spsolve_ok sp -> green_at m sp ord k (fun z => code_g m sp ord k (Re z) (Im z)).
Proof.
  intros m k ord sp U P SO z Hz. destruct (usable_sound m U) as [ae [c [G L H Hl Ht]]].
  destruct (C56_exists m ae c k (Re z) (Im z) G (H _ _ _) L Hl Ht Hz) as [Psi Ro]. unfold code_g. rewrite (C56_green m ae c ord sp k (Re z) (Im z) Psi G (H _ _ _) L Hl Ht Hz P SO Ro). reflexivity.
Qed.
Lemma part_A : forall z : C, Re (Cmul (0, / PI) z) = - Im z / PI.
Proof. intros z. unfold Cmul, Re, Im. cbn [fst snd]. unfold Rdiv. ring. Qed.

(** The spectral function with broadening eta + delta is the spectral function
    with broadening eta, convolved with a Lorentzian of width delta. *)
Theorem C86_integrable : forall m k eta delta w sp ord A, usable m -> 0 < eta -> 0 < delta -> allowed ord -> spsolve_ok sp -> spectral_function m sp ord k eta A ->
  forall a b, Riemann_integrable (fun x => A x * lorentzian delta (w - x)) a b.
Proof.
  intros m k eta delta w sp ord A U He Hd P SO HA. set (g := fun z => code_g m sp ord k (Re z) (Im z)).
  assert (B := fun l a ND HP => at_divided m k ord sp g U P SO (code_at m k ord sp U P SO) eta l a He ND HP).
  apply (Contour_proofs.lip_int _ _ (Blur_proofs.la_pos eta delta He Hd (0, / PI))).
  intros x x'. pose proof (Blur_proofs.aL_lip g eta delta w He Hd B (0, / PI) x x') as X. cbv beta in X. rewrite !part_A in X. rewrite !(code_A m sp ord k eta A HA). exact X.
Qed.
Print Assumptions C86_integrable.

Theorem C86_rate : forall eta delta w, 0 < eta -> 0 < delta -> exists K, 0 <= K /\ forall m k ord sp A A', usable m -> allowed ord -> spsolve_ok sp ->
  spectral_function m sp ord k eta A -> spectral_function m sp ord k (eta + delta) A' ->
  forall r (pr : Riemann_integrable (fun x => A x * lorentzian delta (w - x)) (- r) r), 2 * Rabs w + 1 <= r -> Rabs (RiemannInt pr - A' w) <= K / r.
Proof.
  intros eta delta w He Hd. destruct (C86_green eta delta w He Hd) as [K [K0 H]]. exists (Cabs (0, / PI) * K). split; [apply Rmult_le_pos; [apply Physics_proofs.Cabs_ge0|exact K0]|].
  intros m k ord sp A A' U P SO HA HA' r pr Hr. set (g := fun z => code_g m sp ord k (Re z) (Im z)).
  assert (B := fun l a ND HP => at_divided m k ord sp g U P SO (code_at m k ord sp U P SO) eta l a He ND HP).
  pose proof (Blur_proofs.aL_int g eta delta w He Hd B (0, / PI) (- r) r) as pr'. pose proof (H m k ord sp g (0, / PI) U P SO (code_at m k ord sp U P SO) r pr' Hr) as I.
  rewrite part_A in I. rewrite (code_A m sp ord k (eta + delta) A' HA'). assert (r0 : 0 < r) by (pose proof (Rabs_pos w); lra).
  assert (E : RiemannInt pr = RiemannInt pr') by (apply Rle_antisym; apply RiemannInt_P19; try lra; intros x _; rewrite (code_A m sp ord k eta A HA), part_A; right; reflexivity).
  rewrite E. exact I.
Qed.
Print Assumptions C86_rate.

Theorem C86_broadened : forall eta delta w e, 0 < eta -> 0 < delta -> 0 < e -> exists r0, forall m k ord sp A A', usable m -> allowed ord -> spsolve_ok sp ->
  spectral_function m sp ord k eta A -> spectral_function m sp ord k (eta + delta) A' ->
  forall r (pr : Riemann_integrable (fun x => A x * lorentzian delta (w - x)) (- r) r), r0 <= r -> Rabs (RiemannInt pr - A' w) <= e.
Proof.
  intros eta delta w e He Hd Hp. destruct (C86_rate eta delta w He Hd) as [K [K0 H]]. exists (Rmax (2 * Rabs w + 1) (K / e)). intros m k ord sp A A' U P SO HA HA' r pr Hr.
  pose proof (Rmax_l (2 * Rabs w + 1) (K / e)). pose proof (Rmax_r (2 * Rabs w + 1) (K / e)). pose proof (Rabs_pos w).
  eapply Rle_trans; [apply (H m k ord sp A A' U P SO HA HA' r pr); lra|]. apply (Rmult_le_reg_r r); [lra|]. replace (K / r * r) with K by (field; lra).
  assert (X : K / e <= r) by lra. apply (Rmult_le_compat_r e) in X; [|lra]. replace (K / e * e) with K in X by (field; lra). lra.
Qed.
Print Assumptions C86_broadened.

(** The same for a constant: the Lorentzian integrates to one. *)
Lemma constant_divided : forall (v : C) y, 0 < y -> Cabs v <= / y -> forall (l : list C) (a : C), NoDup (a :: l) -> (forall p, In p (a :: l) -> y <= snd p) -> Cabs (divided (fun _ => v) l a) <= (/ y) ^ S (length l).
Proof.
  intros v y Hy Hv l a _ _. destruct l as [|b l]; [cbn [divided length pow]; lra|].
  assert (Z : forall l a b, Csub (divided (fun _ => v) l a) (divided (fun _ => v) l b) = Cplx.C0).
  { induction l0 as [|q l0 IH]; intros x x'; cbn [divided]; [ring|]. rewrite !IH. ring. }
  cbn [divided]. rewrite Z. replace (Cmul (Cinv (Csub a b)) Cplx.C0) with Cplx.C0 by ring. rewrite Moments_proofs.Cabs_C0. left. apply pow_lt, Rinv_0_lt_compat, Hy.
Qed.

(** Raising eta does not raise the highest peak, and does not lower the lowest
    value. *)
Lemma bounded_by : forall m k eta delta sp ord A A' s M, s = 1 \/ s = -1 -> usable m -> 0 < eta -> 0 < delta -> allowed ord -> spsolve_ok sp ->
  spectral_function m sp ord k eta A -> spectral_function m sp ord k (eta + delta) A' -> (forall x, s * A x <= M) -> forall w, s * A' w <= M.
Proof.
  intros m k eta delta sp ord A A' s M Hs U He Hd P SO HA HA' HM w. apply Blur_proofs.le_any. intros e Hp.
  destruct (C86_broadened eta delta w (e / 2) He Hd ltac:(lra)) as [r1 H1]. destruct (poisson_at eta delta w He Hd) as [K [K0 H2]].
  set (v := (/ eta, 0) : C). assert (IE : 0 < / eta) by (apply Rinv_0_lt_compat; exact He).
  assert (Hv : Cabs v <= / eta) by (change v with (RtoC (/ eta)); rewrite Moments_proofs.Cabs_RtoC, Rabs_pos_eq; lra).
  set (c := (M * eta, 0) : C). pose proof (Blur_proofs.aL_int (fun _ => v) eta delta w He Hd (constant_divided v eta He Hv) c) as int.
  set (q := Cabs c * K). assert (Q0 : 0 <= q) by (apply Rmult_le_pos; [apply Physics_proofs.Cabs_ge0|exact K0]).
  set (r := Rmax (Rmax r1 (2 * Rabs w + 1)) (2 * q / e)). assert (R1 : r1 <= r /\ 2 * Rabs w + 1 <= r /\ 2 * q / e <= r).
  { unfold r. pose proof (Rmax_l (Rmax r1 (2 * Rabs w + 1)) (2 * q / e)). pose proof (Rmax_r (Rmax r1 (2 * Rabs w + 1)) (2 * q / e)). pose proof (Rmax_l r1 (2 * Rabs w + 1)). pose proof (Rmax_r r1 (2 * Rabs w + 1)). lra. }
  destruct R1 as [R1 [R2 R3]]. pose proof (Rabs_pos w) as Aw. assert (r0 : 0 < r) by lra.
  pose proof (H2 (fun _ => v) c (constant_divided v eta He Hv) r (int (- r) r) R2) as I2. assert (EM : Re (Cmul c v) = M) by (unfold c, v, Cmul, Re, Im; cbn [fst snd]; field; lra). fold q in I2. set (J := RiemannInt (int (- r) r)) in *. change (Rabs (J - Re (Cmul c v)) <= q / r) in I2. rewrite EM in I2.
  pose proof (C86_integrable m k eta delta w sp ord A U He Hd P SO HA (- r) r) as prA. pose proof (H1 m k ord sp A A' U P SO HA HA' r prA R1) as I1.
  assert (L0 : forall x, 0 < lorentzian delta (w - x)).
  { intros x. unfold lorentzian. pose proof PI_RGT_0. apply Rdiv_lt_0_compat; [exact Hd|]. apply Rmult_lt_0_compat; [assumption|]. assert (0 <= (w - x) ^ 2) by apply pow2_ge_0. assert (0 < delta ^ 2) by (apply pow_lt; exact Hd). lra. }
  assert (I3 : s * RiemannInt prA <= J).
  { pose proof (RiemannInt_P10 s (RiemannInt_P14 (- r) r 0) prA) as prs. pose proof (RiemannInt_P13 (RiemannInt_P14 (- r) r 0) prA prs) as E. rewrite RiemannInt_P15 in E.
    replace (s * RiemannInt prA) with (RiemannInt prs) by lra. unfold J. apply RiemannInt_P19; [lra|]. intros x _. unfold fct_cte.
    change (0 + s * (A x * lorentzian delta (w - x)) <= Re (Cmul c v) * lorentzian delta (w - x)). rewrite EM. specialize (HM x). specialize (L0 x).
    replace (0 + s * (A x * lorentzian delta (w - x))) with (s * A x * lorentzian delta (w - x)) by ring. apply Rmult_le_compat_r; lra. }
  assert (Q1 : q / r <= e / 2). { apply (Rmult_le_reg_r r); [exact r0|]. replace (q / r * r) with q by (field; lra). apply (Rmult_le_compat_r (e / 2)) in R3; [|lra]. replace (2 * q / e * (e / 2)) with q in R3 by (field; lra). lra. }
  pose proof (Rle_abs (J - M)). assert (X : Rabs (s * (RiemannInt prA - A' w)) <= e / 2) by (rewrite Rabs_mult; replace (Rabs s) with 1 by (destruct Hs as [E | E]; rewrite E; unfold Rabs; destruct Rcase_abs; lra); lra).
  pose proof (Rle_abs (- (s * (RiemannInt prA - A' w)))) as Y. rewrite Rabs_Ropp in Y. lra.
Qed.
Theorem C86_peak : forall m k eta delta sp ord A A' M, usable m -> 0 < eta -> 0 < delta -> allowed ord -> spsolve_ok sp ->
  spectral_function m sp ord k eta A -> spectral_function m sp ord k (eta + delta) A' ->
  ((forall x, A x <= M) -> forall w, A' w <= M) /\ ((forall x, M <= A x) -> forall w, M <= A' w).
Proof.
  intros m k eta delta sp ord A A' M U He Hd P SO HA HA'. split; intros H w.
  - pose proof (bounded_by m k eta delta sp ord A A' 1 M (or_introl eq_refl) U He Hd P SO HA HA' ltac:(intros x; specialize (H x); lra) w). lra.
  - pose proof (bounded_by m k eta delta sp ord A A' (-1) (- M) (or_intror eq_refl) U He Hd P SO HA HA' ltac:(intros x; specialize (H x); lra) w). lra.
Qed.
Print Assumptions C86_peak.

(** Edwards' model: the spectral functions with eta = 1 and with eta = 3. *)
Example C86_nonvacuous : usable (x_model 1) /\ forall k, exists g A A', green_at (x_model 1) (gauss_sparse (F := CF) C_eq_dec) id_ord k g /\
  spectral_function (x_model 1) (gauss_sparse (F := CF) C_eq_dec) id_ord k 1 A /\ spectral_function (x_model 1) (gauss_sparse (F := CF) C_eq_dec) id_ord k 3 A' /\
  (exists w w', A w <> A w') /\ forall w e, 0 < e -> exists r0, forall r (pr : Riemann_integrable (fun x => A x * lorentzian 2 (w - x)) (- r) r), r0 <= r -> Rabs (RiemannInt pr - A' w) <= e.
Proof.
  destruct C74_nonvacuous as [_ [U H]]. split; [exact U|]. intros k. pose proof (gauss_spsolve_ok (F := CF) C_eq_dec) as SO.
  destruct (C86_defined (x_model 1) k id_ord _ U id_perm SO) as [g Hg]. destruct (H k) as [A [HA [NC _]]]. destruct (C74_defined (x_model 1) k 3 id_ord _ U ltac:(lra) id_perm SO) as [A' [HA' _]].
  exists g, A, A'. split; [exact Hg|]. split; [exact HA|]. split; [exact HA'|]. split; [exact NC|]. intros w e Hp.
  destruct (C86_broadened 1 2 w e ltac:(lra) ltac:(lra) Hp) as [r0 X]. exists r0. intros r pr Hr. replace (1 + 2) with 3 in X by ring. exact (X (x_model 1) k id_ord _ A A' U id_perm SO HA HA' r pr Hr).
Qed.
Print Assumptions C86_nonvacuous.
