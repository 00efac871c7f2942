(** Property theorem C74: the spectral function that the user forms from the
    returned Green's function integrates to one. *)
From Coq Require Import String ZArith List Bool Lia Permutation Reals Ratan RiemannInt Lra.
From Verif Require Import Base NdArray Config Spec Model HModel Space Spec_space Term Equation System Spec_engine Props_Engine
  Ring Coef Spec_eom Solvers Spec_solve LinSolve Spec_model Spec_sym Cplx Physics Props_Physics Props_Model Props_Solve Props_Sym Spec_spectral Props_Spectral
  Spec_green Props_Green Spec_cutoff Spec_exact Spec_moments Props_Moments Props_Pipeline Props_Thermal Spec_sum.
From Verif Require HModel_proofs Double_proofs Physics_proofs Moments_proofs Contour_proofs Sum_proofs.
Import ListNotations.
Open Scope list_scope.
Open Scope Z_scope.

(** [g] is the Green's function of the model at momentum k. *)
Definition green_of (m : model R) (ae c : Z) (k : R) (g : R -> R -> C) : Prop :=
  forall w eta, (0 < eta)%R -> exists Psi, greens_row m ae c k (w, eta) Psi /\ g w eta = Psi vacuum 0.

Record sound (m : model R) (ae c : Z) : Prop := {
  so_good : good_model m ae;
  so_lat : on_lattice m c;
  so_herm : forall k w eta, hermitian (phys_env m k w eta) m;
  so_exact : exact_lattice m;
  so_hop : (0 <= h_hop (m_ham m))%R }.

Lemma usable_sound : forall m, usable m -> exists ae c, sound m ae c.
Proof.
  intros m [[fs [cs [B [Hc [D Hb]]]]] Hm Ha Hl Ht]. destruct (HModel_proofs.built_good Rnum (proj1 Rnum_ok) m fs cs B Hc D Hm Ha Hb) as [ae G].
  destruct (C50_lattice m fs cs ae B G) as [c L]. exists ae, c. split; try assumption. intros k w eta. exact (C51_hermitian m fs cs ae k w eta B G).
Qed.

(** The function of the code at all frequencies and broadenings. *)
Definition code_g (m : model R) (sp : coo CR -> coo CR -> nat -> CR) (ord : string -> list vec -> list vec) (k w eta : R) : C :=
  match greens (phys_env m k w eta) sp ord m with Ok g => g | Err _ => Cplx.C0 end.
Lemma code_green : forall m ae c sp ord k, sound m ae c -> (forall k l, Permutation (ord k l) l) -> spsolve_ok sp -> green_of m ae c k (code_g m sp ord k).
Proof.
  intros m ae c sp ord k [G L H Hl Ht] P SO w eta He. destruct (C56_exists m ae c k w eta G (H _ _ _) L Hl Ht He) as [Psi Ro]. exists Psi. split; [exact Ro|].
  unfold code_g. rewrite (C56_green m ae c ord sp k w eta Psi G (H _ _ _) L Hl Ht He P SO Ro). reflexivity.
Qed.
Lemma code_A : forall m sp ord k eta A, spectral_function m sp ord k eta A -> forall w, A w = (- Im (code_g m sp ord k w eta) / PI)%R.
Proof. intros m sp ord k eta A H w. destruct (H w) as [g [E ->]]. unfold code_g. rewrite E. reflexivity. Qed.

Lemma one_r : forall z : C, Cmul z Cplx.C1 = z.
Proof. intros z. ring. Qed.
Lemma inv_sq : forall z : C, z <> Cplx.C0 -> Cinv (Cmul z (Cmul z Cplx.C1)) = Cmul (Cinv z) (Cinv z).
Proof.
  intros z NZ. pose proof (Cinv_l _ NZ) as V.
  assert (N2 : Cmul z (Cmul z Cplx.C1) <> Cplx.C0).
  { intros E. assert (E' : Cmul (Cmul (Cinv z) (Cinv z)) (Cmul z (Cmul z Cplx.C1)) = Cplx.C0) by (rewrite E; ring).
    replace (Cmul (Cmul (Cinv z) (Cinv z)) (Cmul z (Cmul z Cplx.C1))) with (Cmul (Cmul (Cinv z) z) (Cmul (Cinv z) z)) in E' by ring.
    rewrite V in E'. apply (f_equal fst) in E'. cbn in E'. lra. }
  pose proof (Cinv_l _ N2) as U. set (i := Cinv z) in *. set (i2 := Cinv (Cmul z (Cmul z Cplx.C1))) in *.
  transitivity (Cmul (Cmul i2 (Cmul (Cmul i z) (Cmul i z))) Cplx.C1); [rewrite V; ring|].
  replace (Cmul (Cmul i2 (Cmul (Cmul i z) (Cmul i z))) Cplx.C1) with (Cmul (Cmul i2 (Cmul z (Cmul z Cplx.C1))) (Cmul i i)) by ring. rewrite U. ring.
Qed.

(** G(z) - 1 / z is of order 1 / z^2, with a constant of the model. *)
Lemma decay : forall m ae c, sound m ae c -> exists K, (0 <= K)%R /\ forall k g, green_of m ae c k g ->
  forall w eta, (0 < eta)%R -> (Cabs (w, eta) ^ 2 * Cabs (Csub (g w eta) (Cinv (w, eta))) <= K * (1 + 1 / eta))%R.
Proof.
  intros m ae c [G L H Hl Ht]. destruct (C69_moments m ae c G L Hl Ht) as [B HB]. set (sp0 := gauss_sparse (F := CF) C_eq_dec).
  assert (SO : spsolve_ok sp0) by apply gauss_spsolve_ok.
  assert (Cv : covers m c m ae 0).
  { split; [reflexivity|]. intros n j R0. remember 0%nat as q eqn:Eq. destruct R0; try discriminate. left. reflexivity. }
  assert (X : forall k, exists mu1 : C, forall g, green_of m ae c k g -> forall w eta, (0 < eta)%R ->
    (Cabs (g w eta) <= 1 / eta)%R /\ (Cabs (w, eta) ^ 2 * Cabs (Csub (Csub (g w eta) (Cinv (w, eta))) (Cmul mu1 (Cmul (Cinv (w, eta)) (Cinv (w, eta))))) <= B 0%nat / eta)%R).
  { intros k. destruct (C69_defined m ae c k G) as [[mu Mu] _]. exists (mu 1%nat vacuum 0). intros g Hg w eta He. destruct (Hg w eta He) as [Psi [Ro Eg]].
    pose proof (C56_green m ae c id_ord sp0 k w eta Psi G (H _ _ _) L Hl Ht He id_perm SO Ro) as Ec.
    destruct (C51_spectral m ae c id_ord sp0 k w eta G (H _ _ _) L Hl He id_perm SO) as [g1 [E1 [_ [_ A1]]]].
    destruct (HB m ae 0%nat k w eta mu id_ord sp0 G (conj eq_refl (conj eq_refl eq_refl)) Cv (H _ _ _) He Mu id_perm SO) as [g2 [E2 A2]].
    rewrite Ec in E1, E2. injection E1 as <-. injection E2 as <-. rewrite <- Eg in A1, A2. split; [exact A1|].
    replace (2 * 0 + 2)%nat with 2%nat in A2 by reflexivity. unfold series in A2. cbn [seq map] in A2. unfold Csum_list in A2. cbn [fold_right power] in A2.
    rewrite (mo_start _ _ _ _ Mu 0) in A2. replace (- (k * m_lattice m * IZR 0))%R with 0%R in A2 by ring.
    replace (Cexpi 0) with Cplx.C1 in A2 by (unfold Cexpi; rewrite cos_0, sin_0; reflexivity).
    assert (NZ : (w, eta) <> Cplx.C0) by (apply Contour_proofs.z_nonzero; exact He).
    pose proof (inv_sq _ NZ) as I2.
    unfold Cdiv in A2. rewrite I2 in A2. rewrite one_r in A2.
    set (i := Cinv (w, eta)) in *. set (mu1 := mu 1%nat vacuum 0) in *.
    replace (Csub (g w eta) (Cadd (Cmul Cplx.C1 i) (Cadd (Cmul mu1 (Cmul i i)) Cplx.C0))) with (Csub (Csub (g w eta) i) (Cmul mu1 (Cmul i i))) in A2 by ring. exact A2. }
  set (b := Rmax (B 0%nat) 0). assert (b0 : (0 <= b)%R) by apply Rmax_r. assert (b1 : (B 0%nat <= b)%R) by apply Rmax_l.
  exists (b + 2)%R. split; [lra|]. intros k g Hg w eta He. destruct (X k) as [mu1 Hmu]. specialize (Hmu g Hg).
  assert (M1 : (Cabs mu1 <= b + 2)%R).
  { destruct (Hmu 0%R 1%R ltac:(lra)) as [A1 A2]. rewrite (Moments_proofs.Cabs_iy 1 ltac:(lra)) in A2.
    assert (NZ : (0%R, 1%R) <> Cplx.C0) by (apply Contour_proofs.z_nonzero; lra).
    assert (AI : Cabs (Cinv (0%R, 1%R)) = 1%R) by (rewrite (Moments_proofs.Cabs_Cinv _ NZ), (Moments_proofs.Cabs_iy 1) by lra; field).
    set (i := Cinv (0%R, 1%R)) in *. set (x := g 0%R 1%R) in *. set (d := Csub (Csub x i) (Cmul mu1 (Cmul i i))) in *.
    assert (E : Cmul mu1 (Cmul i i) = Csub (Csub x i) d) by (unfold d; ring). apply (f_equal Cabs) in E. rewrite !Physics_proofs.Cabs_mul, AI in E.
    pose proof (Moments_proofs.Cabs_sub (Csub x i) d). pose proof (Moments_proofs.Cabs_sub x i). replace (1 ^ 2)%R with 1%R in A2 by ring. unfold Rdiv in A1, A2. rewrite Rinv_1 in A1, A2. lra. }
  destruct (Hmu w eta He) as [_ A2]. assert (NZ : (w, eta) <> Cplx.C0) by (apply Contour_proofs.z_nonzero; exact He).
  pose proof (Moments_proofs.Cabs_Cinv _ NZ) as AI. pose proof (Physics_proofs.Cabs_pos _ NZ) as Zp. set (i := Cinv (w, eta)) in *. set (z := Cabs (w, eta)) in *.
  set (u := Csub (g w eta) i) in *. set (d := Csub u (Cmul mu1 (Cmul i i))) in *.
  assert (T : (Cabs u <= Cabs d + Cabs mu1 * (/ z * / z))%R).
  { replace u with (Cadd d (Cmul mu1 (Cmul i i))) at 1 by (unfold d; ring). eapply Rle_trans; [apply Physics_proofs.Cabs_triangle|]. rewrite !Physics_proofs.Cabs_mul, AI. lra. }
  apply (Rmult_le_compat_l (z ^ 2)) in T; [|apply pow_le; lra]. replace (z ^ 2 * (Cabs d + Cabs mu1 * (/ z * / z)))%R with (z ^ 2 * Cabs d + Cabs mu1)%R in T by (field; lra).
  assert (I : (0 < / eta)%R) by (apply Rinv_0_lt_compat; exact He).
  assert (B 0%nat / eta <= (b + 2) * (1 / eta))%R by (unfold Rdiv; rewrite Rmult_1_l; apply Rmult_le_compat_r; lra). lra.
Qed.

Lemma list_sum : forall A a h n, array_sum A a h n = Contour_proofs.rsum (fun j => A (a + INR j * h)%R) n.
Proof.
  intros A a h n. unfold array_sum. induction n as [|n IH]; [reflexivity|]. cbn [Contour_proofs.rsum]. rewrite <- IH, seq_S, map_app, Nat.add_0_l. cbn [map].
  generalize (map (fun j => A (a + INR j * h)%R) (seq 0 n)). generalize (A (a + INR n * h)%R). clear. intros x l. induction l as [|y l IH]; cbn [app fold_right]; [lra|]. rewrite IH. ring.
Qed.

Lemma A_lipschitz : forall m k eta sp ord A, usable m -> (0 < eta)%R -> (forall k l, Permutation (ord k l) l) -> spsolve_ok sp -> spectral_function m sp ord k eta A ->
  Contour_proofs.lipschitz A (/ (PI * (eta * eta))).
Proof.
  intros m k eta sp ord A U He P SO HA. destruct (usable_sound m U) as [ae [c S]]. pose proof (code_green m ae c sp ord k S P SO) as V. destruct S as [G L H Hl Ht].
  intros x x'. rewrite !(code_A m sp ord k eta A HA). exact (Sum_proofs.A_lip m ae c k G L (H k) Hl Ht (code_g m sp ord k) V eta He x x').
Qed.

(** The code returns a number at every frequency; the spectral function is the
    same for all solvers and orders, and positive. *)
Theorem C74_defined : forall m k eta ord sp, usable m -> (0 < eta)%R -> (forall k l, Permutation (ord k l) l) -> spsolve_ok sp ->
  exists A, spectral_function m sp ord k eta A /\ (forall w, (0 < A w)%R) /\
    forall ord' sp' A', (forall k l, Permutation (ord' k l) l) -> spsolve_ok sp' -> spectral_function m sp' ord' k eta A' -> forall w, A' w = A w.
Proof.
  intros m k eta ord sp U He P SO. destruct (usable_sound m U) as [ae [c S]]. exists (fun w => - Im (code_g m sp ord k w eta) / PI)%R.
  assert (Z : forall ord sp w, (forall k l, Permutation (ord k l) l) -> spsolve_ok sp -> exists Psi, greens_row m ae c k (w, eta) Psi /\ greens (phys_env m k w eta) sp ord m = Ok (Psi vacuum 0) /\ (Im (Psi vacuum 0%Z) < 0)%R).
  { intros ord0 sp0 w P0 S0. destruct S as [G L H Hl Ht]. destruct (C56_exists m ae c k w eta G (H _ _ _) L Hl Ht He) as [Psi Ro]. exists Psi. split; [exact Ro|].
    pose proof (C56_green m ae c ord0 sp0 k w eta Psi G (H _ _ _) L Hl Ht He P0 S0 Ro) as Ec. split; [exact Ec|].
    destruct (C51_spectral m ae c ord0 sp0 k w eta G (H _ _ _) L Hl He P0 S0) as [g [E [N _]]]. rewrite Ec in E. injection E as <-. exact N. }
  split; [|split].
  - intros w. destruct (Z ord sp w P SO) as [Psi [_ [E _]]]. exists (Psi vacuum 0). split; [exact E|]. unfold code_g. rewrite E. reflexivity.
  - intros w. destruct (Z ord sp w P SO) as [Psi [_ [E N]]]. unfold code_g. rewrite E. apply Rdiv_lt_0_compat; [lra|apply PI_RGT_0].
  - intros ord' sp' A' P' SO' HA w. destruct (Z ord sp w P SO) as [Psi [Ro [E _]]]. destruct (Z ord' sp' w P' SO') as [Psi' [Ro' [E' _]]].
    rewrite (code_A m sp' ord' k eta A' HA). unfold code_g. rewrite E, E'. destruct S as [G L H Hl Ht].
    rewrite (C56_unique m ae c k w eta Psi' Psi G (H _ _ _) L Hl Ht He Ro' Ro vacuum 0). reflexivity.
Qed.
Print Assumptions C74_defined.

(** It has an integral over every interval. *)
Theorem C74_integrable : forall m k eta sp ord A, usable m -> (0 < eta)%R -> (forall k l, Permutation (ord k l) l) -> spsolve_ok sp -> spectral_function m sp ord k eta A ->
  forall a b, Riemann_integrable A a b.
Proof.
  intros m k eta sp ord A U He P SO HA. apply (Contour_proofs.lip_int A (/ (PI * (eta * eta)))); [|exact (A_lipschitz m k eta sp ord A U He P SO HA)].
  exact (Sum_proofs.A_lip_pos eta He).
Qed.
Print Assumptions C74_integrable.

(** Over [-r, r] the integral is that of a single broadened level, up to a
    constant of the model divided by r. *)
Theorem C74_sum_rule : forall m, usable m -> exists K, (0 <= K)%R /\
  forall k eta sp ord A r (pr : Riemann_integrable A (- r) r), (0 < eta)%R -> (0 < r)%R -> (forall k l, Permutation (ord k l) l) -> spsolve_ok sp -> spectral_function m sp ord k eta A ->
    (Rabs (RiemannInt pr - 2 / PI * atan (r / eta)) <= K * (1 + 1 / eta) / r)%R.
Proof.
  intros m U. destruct (usable_sound m U) as [ae [c S]]. destruct (decay m ae c S) as [K [K0 HK]]. pose proof PI_RGT_0 as PP. exists (9 * K / (2 * PI))%R. split.
  { unfold Rdiv. apply Rmult_le_pos; [lra|]. left. apply Rinv_0_lt_compat. lra. }
  intros k eta sp ord A r pr He Hr P SO HA. pose proof (code_green m ae c sp ord k S P SO) as V. destruct S as [G L H Hl Ht].
  set (A' := fun w => (- Im (code_g m sp ord k w eta) / PI)%R).
  assert (pr' : Riemann_integrable A' (- r) r).
  { apply (Contour_proofs.lip_int A' (/ (PI * (eta * eta)))); [|exact (Sum_proofs.A_lip m ae c k G L (H k) Hl Ht (code_g m sp ord k) V eta He)].
    exact (Sum_proofs.A_lip_pos eta He). }
  assert (E : RiemannInt pr = RiemannInt pr').
  { apply Rle_antisym; apply RiemannInt_P19; try lra; intros x _; rewrite (code_A m sp ord k eta A HA); right; reflexivity. }
  rewrite E. pose proof (Sum_proofs.integral_square m ae c k G L (H k) Hl Ht (code_g m sp ord k) V K K0 (HK k _ V) eta He r pr' Hr) as I.
  eapply Rle_trans; [exact I|]. right. field. repeat split; lra.
Qed.
Print Assumptions C74_sum_rule.

Lemma deviation : forall K eta r, (0 <= K)%R -> (0 < eta)%R -> (0 < r)%R -> forall I, (Rabs (I - 2 / PI * atan (r / eta)) <= K * (1 + 1 / eta) / r)%R ->
  (Rabs (I - 1) <= (K * (1 + 1 / eta) + eta) / r)%R.
Proof.
  intros K eta r K0 He Hr I HI. destruct (Sum_proofs.lorentz_total r eta Hr He) as [L1 L2]. pose proof PI_RGT_0 as PP. assert (2 <= PI)%R by (pose proof PI2_1; lra).
  assert (2 * eta / (PI * r) <= eta / r)%R.
  { apply (Rmult_le_reg_r (PI * r)); [apply Rmult_lt_0_compat; lra|]. replace (2 * eta / (PI * r) * (PI * r))%R with (2 * eta)%R by (field; lra). replace (eta / r * (PI * r))%R with (PI * eta)%R by (field; lra). apply Rmult_le_compat_r; lra. }
  replace ((K * (1 + 1 / eta) + eta) / r)%R with (K * (1 + 1 / eta) / r + eta / r)%R by (field; lra). set (t := (2 / PI * atan (r / eta))%R) in *.
  replace (I - 1)%R with ((I - t) + (t - 1))%R by ring. eapply Rle_trans; [apply Rabs_triang|]. apply Rplus_le_compat; [exact HI|]. apply Rabs_le. lra.
Qed.

(** The integral over all frequencies is one, whatever the momentum. *)
Theorem C74_total : forall m eta e, usable m -> (0 < eta)%R -> (0 < e)%R -> exists r0, forall k sp ord A r (pr : Riemann_integrable A (- r) r),
  (forall k l, Permutation (ord k l) l) -> spsolve_ok sp -> spectral_function m sp ord k eta A -> (r0 <= r)%R -> (Rabs (RiemannInt pr - 1) <= e)%R.
Proof.
  intros m eta e U He Hp. destruct (C74_sum_rule m U) as [K [K0 HK]]. set (q := (K * (1 + 1 / eta) + eta)%R).
  assert (q0 : (0 < q)%R). { unfold q. assert (0 < 1 / eta)%R by (apply Rdiv_lt_0_compat; lra). assert (0 <= K * (1 + 1 / eta))%R by (apply Rmult_le_pos; lra). lra. }
  exists (q / e)%R. intros k sp ord A r pr P SO HA Hr. assert (0 < q / e)%R by (apply Rdiv_lt_0_compat; lra). assert (r0 : (0 < r)%R) by lra.
  eapply Rle_trans; [exact (deviation K eta r K0 He r0 _ (HK k eta sp ord A r pr He r0 P SO HA))|]. fold q.
  apply (Rmult_le_reg_r r); [exact r0|]. replace (q / r * r)%R with q by (field; lra). apply (Rmult_le_compat_r e) in Hr; [|lra]. replace (q / e * e)%R with q in Hr by (field; lra). lra.
Qed.
Print Assumptions C74_total.

(** Every window has part of it. *)
Theorem C74_window : forall m k eta sp ord A, usable m -> (0 < eta)%R -> (forall k l, Permutation (ord k l) l) -> spsolve_ok sp -> spectral_function m sp ord k eta A ->
  forall a b (pr : Riemann_integrable A a b), (a < b)%R -> (0 < RiemannInt pr <= 1)%R.
Proof.
  intros m k eta sp ord A U He P SO HA. apply (Sum_proofs.window_le A (/ (PI * (eta * eta)))).
  - exact (Sum_proofs.A_lip_pos eta He).
  - exact (A_lipschitz m k eta sp ord A U He P SO HA).
  - intros x. destruct (C74_defined m k eta ord sp U He P SO) as [A0 [_ [Pos Un]]]. rewrite (Un ord sp A P SO HA). apply Pos.
  - intros e Hp. destruct (C74_total m eta e U He Hp) as [r0 H]. exists r0. intros r pr Hr. pose proof (H k sp ord A r pr P SO HA Hr) as B. pose proof (Rle_abs (RiemannInt pr - 1)). lra.
Qed.
Print Assumptions C74_window.

(** What the user adds up: n values of the array at spacing h = 2 r / n. *)
Theorem C74_grid : forall m, usable m -> exists K, (0 <= K)%R /\
  forall k eta sp ord A r n, (0 < eta)%R -> (0 < r)%R -> (0 < n)%nat -> (forall k l, Permutation (ord k l) l) -> spsolve_ok sp -> spectral_function m sp ord k eta A ->
    let h := (2 * r / INR n)%R in
    (Rabs (h * array_sum A (- r) h n - 1) <= (K * (1 + 1 / eta) + eta) / r + (16 * r ^ 2 / eta ^ 3 + 2 * r / eta ^ 2) * h / PI)%R.
Proof.
  intros m U. destruct (usable_sound m U) as [ae [c S]]. destruct (decay m ae c S) as [K [K0 HK]]. pose proof PI_RGT_0 as PP.
  assert (KP : (0 <= 9 * K / (2 * PI))%R) by (unfold Rdiv; apply Rmult_le_pos; [lra|left; apply Rinv_0_lt_compat; lra]). exists (9 * K / (2 * PI))%R. split; [exact KP|].
  intros k eta sp ord A r n He Hr Hn P SO HA h. pose proof (code_green m ae c sp ord k S P SO) as V. destruct S as [G L H Hl Ht].
  pose proof (Sum_proofs.sum_square m ae c k G L (H k) (code_g m sp ord k) V K K0 (HK k _ V) eta He r n Hr Hn) as I. cbv zeta in I. fold h in I.
  rewrite list_sum. rewrite (Contour_proofs.rsum_ext (fun j => A (- r + INR j * h)%R) (fun j => (- Im (code_g m sp ord k (- r + INR j * h) eta) / PI)%R)) by (intros j _; apply code_A; exact HA).
  set (q := (h * Contour_proofs.rsum _ n)%R) in *. destruct (Sum_proofs.lorentz_total r eta Hr He) as [L1 L2].
  unfold Sum_proofs.steps in I.
  pose proof (deviation (9 * K / (2 * PI)) eta r KP He Hr (2 / PI * atan (r / eta))%R) as D. rewrite Rminus_diag_eq, Rabs_R0 in D by reflexivity.
  assert (E1 : (9 * (K * (1 + 1 / eta)) / (2 * PI * r) = 9 * K / (2 * PI) * (1 + 1 / eta) / r)%R) by (field; repeat split; lra).
  assert (E2 : ((16 * (r * r) / (eta * eta * eta) + 2 * r / (eta * eta)) * h / PI = (16 * r ^ 2 / eta ^ 3 + 2 * r / eta ^ 2) * h / PI)%R) by (field; lra).
  rewrite E1, E2 in I. set (st := ((16 * r ^ 2 / eta ^ 3 + 2 * r / eta ^ 2) * h / PI)%R) in *. set (t := (2 / PI * atan (r / eta))%R) in *.
  assert (X : (Rabs (q - 1) <= Rabs (q - t) + Rabs (t - 1))%R) by (replace (q - 1)%R with ((q - t) + (t - 1))%R by ring; apply Rabs_triang).
  assert (Y : (Rabs (t - 1) <= eta / r)%R).
  { assert (2 <= PI)%R by (pose proof PI2_1; lra). assert (2 * eta / (PI * r) <= eta / r)%R; [|apply Rabs_le; lra].
    apply (Rmult_le_reg_r (PI * r)); [apply Rmult_lt_0_compat; lra|]. replace (2 * eta / (PI * r) * (PI * r))%R with (2 * eta)%R by (field; lra). replace (eta / r * (PI * r))%R with (PI * eta)%R by (field; lra). apply Rmult_le_compat_r; lra. }
  replace ((9 * K / (2 * PI) * (1 + 1 / eta) + eta) / r)%R with (9 * K / (2 * PI) * (1 + 1 / eta) / r + eta / r)%R by (field; repeat split; lra). lra.
Qed.
Print Assumptions C74_grid.

(** At a temperature: the calls of add_ with a model at T > 0 make a usable model,
    so the spectral function at every temperature integrates to one. *)
Lemma hot_usable : forall T hop lat l m, (0 < T)%R -> l <> [] -> (forall a, In a l -> a_override a = None) -> distinct Rnum (doubled_freqs Rnum l) ->
  (forall a, In a l -> a_type a = "BondPeierls"%string) \/ (forall a, In a l -> a_type a <> "BondPeierls"%string) ->
  lat = 1%R \/ hop = 0%R -> (0 <= hop)%R -> accepts Rnum (from_parameters hop lat T None 1) l m -> usable m.
Proof.
  intros T hop lat l m HT Ln Pl Df Bp Hl Ht A.
  assert (hot : n_ltb Rnum (n_0 Rnum) T = true) by (cbn; destruct (Rlt_dec 0 T); [reflexivity|contradiction]).
  assert (O : forallb (fun a => is_none (a_override a)) l = true). { apply forallb_forall. intros a Ha. rewrite (Pl a Ha). reflexivity. }
  pose proof (acc_built R Rnum (proj1 Rnum_ok) 1%nat l _ [] [] m (built_start Rnum 1%nat hop lat T None) A O) as Bt. cbn [from_parameters m_temp app] in Bt. rewrite hot in Bt.
  fold (doubled_freqs Rnum l) in Bt. destruct (Double_proofs.accepts_pe Rnum (proj1 Rnum_ok) l (from_parameters hop lat T None 1) m hot A) as [_ Ea]. cbn [from_parameters m_aext] in Ea.
  destruct (accepts_pn l (from_parameters hop lat T None 1)%R m hot A) as [_ [_ Em]]. cbn [from_parameters m_mps] in Em.
  assert (HL : m_lattice m = lat /\ h_hop (m_ham m) = hop).
  { assert (X : forall q x y, accepts Rnum x q y -> m_lattice y = m_lattice x /\ h_hop (m_ham y) = h_hop (m_ham x)).
    { induction q as [|a q IH]; intros x y H; cbn in H; [subst; auto|]. destruct H as [lg [z [E [L H]]]]. destruct (IH _ _ H) as [-> ->].
      destruct (HModel_proofs.add_outcome_any Rnum (proj1 Rnum_ok) x a lg z E L) as [_ [_ [g [_ D]]]]. unfold added in D. cbv zeta in D. destruct D as [D1 [_ [_ [_ [_ [D2 _]]]]]]. auto. }
    exact (X l _ m A). }
  destruct HL as [HL1 HL2]. split.
  - exists (doubled_freqs Rnum l), (map a_type l). split; [exact Bt|]. split; [destruct l; [contradiction|discriminate]|]. split; [exact Df|].
    destruct Bp as [Bp|Bp]; [left|right]; intros x Hx; apply in_map_iff in Hx as [a [<- Ha]]; apply Bp, Ha.
  - intros q E. congruence.
  - intros q E. congruence.
  - unfold exact_lattice. rewrite HL1, HL2. exact Hl.
  - rewrite HL2. exact Ht.
Qed.
Theorem C74_thermal : forall T hop lat l m eta e, (0 < T)%R -> l <> [] -> (forall a, In a l -> a_override a = None) -> distinct Rnum (doubled_freqs Rnum l) ->
  (forall a, In a l -> a_type a = "BondPeierls"%string) \/ (forall a, In a l -> a_type a <> "BondPeierls"%string) ->
  lat = 1%R \/ hop = 0%R -> (0 <= hop)%R -> accepts Rnum (from_parameters hop lat T None 1) l m -> (0 < eta)%R -> (0 < e)%R ->
  exists r0, forall k sp ord A r (pr : Riemann_integrable A (- r) r),
    (forall k l, Permutation (ord k l) l) -> spsolve_ok sp -> spectral_function m sp ord k eta A -> (r0 <= r)%R -> (Rabs (RiemannInt pr - 1) <= e)%R.
Proof. intros T hop lat l m eta e HT Ln Pl Df Bp Hl Ht A He Hp. exact (C74_total m eta e (hot_usable T hop lat l m HT Ln Pl Df Bp Hl Ht A) He Hp). Qed.
Print Assumptions C74_thermal.

(** Two calls at temperature 1, and Edwards' model with hopping 1 / 2: its
    spectral function exists and is not a constant. *)
Example C74_nonvacuous : (exists m, accepts Rnum (from_parameters 1 1 1 None 1)%R two_calls m /\ usable m) /\ usable (x_model 1) /\ forall k, exists A, spectral_function (x_model 1) (gauss_sparse (F := CF) C_eq_dec) id_ord k 1 A /\
  (exists w w', A w <> A w') /\ forall a b (pr : Riemann_integrable A a b), (a < b)%R -> (0 < RiemannInt pr <= 1)%R.
Proof.
  split.
  { assert (F : Forall fine two_calls) by (repeat constructor; try discriminate; try (eexists; split; [reflexivity|lia]); cbn; try lia; auto).
    destruct (fine_accepted two_calls (from_parameters 1 1 1 None 1)%R F) as [m A]. exists m. split; [exact A|].
    apply (hot_usable 1 1 1 two_calls m); try assumption; try lra; [discriminate|intros a [<- |[<- |[]]]; reflexivity| |right; intros a [<- |[<- |[]]]; discriminate].
    unfold doubled_freqs, two_calls, distinct. cbn [flat_map app call_of a_freq n_opp Rnum]. repeat constructor; cbn; (match goal with |- (if Req_EM_T ?a ?b then _ else _) = _ => destruct (Req_EM_T a b); [lra|reflexivity] end). }
  destruct C57_nonvacuous as [U _]. split; [exact U|]. intros k. pose proof (gauss_spsolve_ok (F := CF) C_eq_dec) as SO.
  destruct (C74_defined (x_model 1) k 1 id_ord _ U ltac:(lra) id_perm SO) as [A [HA [Pos _]]]. exists A. split; [exact HA|].
  pose proof (C74_window (x_model 1) k 1 _ id_ord A U ltac:(lra) id_perm SO HA) as W. split; [|exact W].
  apply Classical_Prop.NNPP. intros N. assert (C : forall w, A w = A 0%R) by (intros w; apply Classical_Prop.NNPP; intros E; apply N; exists w, 0%R; exact E).
  set (u := A 0%R) in *. assert (0 < u)%R by apply Pos. set (b := (2 / u)%R). assert (0 < b)%R by (unfold b; apply Rdiv_lt_0_compat; lra).
  pose proof (C74_integrable (x_model 1) k 1 _ id_ord A U ltac:(lra) id_perm SO HA 0%R b) as pr. destruct (W 0%R b pr ltac:(lra)) as [_ B].
  pose proof (@RiemannInt_P19 (fct_cte u) A 0%R b (RiemannInt_P14 0 b u) pr ltac:(lra) (fun x _ => Req_le _ _ (eq_sym (C x)))) as L. rewrite RiemannInt_P15 in L.
  assert (u * (b - 0) = 2)%R by (unfold b; field; lra). lra.
Qed.
Print Assumptions C74_nonvacuous.
