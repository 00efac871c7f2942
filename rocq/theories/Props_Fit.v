(** Property theorems C77: the peak finders of utils.py on the spectral function. *)
From Coq Require Import String ZArith List Bool Lia Permutation Reals Lra Psatz.
From Verif Require Import Base NdArray Config Spec Model HModel Space Spec_space Term Equation System Spec_engine Props_Engine
  Ring Coef Spec_eom Solvers Spec_solve LinSolve Spec_model Spec_sym Cplx Physics Props_Physics Props_Model Props_Solve Props_Sym Spec_spectral Props_Spectral
  Spec_green Props_Green Spec_cutoff Spec_exact Spec_self Spec_moments Props_Moments Props_Pipeline Props_Thermal Spec_sum Props_Sum Spec_band Props_Band Spec_pick Props_Pick Props_Self Props_Perturb.
From Verif Require Physics_proofs Contour_proofs Band_proofs Nevan_proofs Fit_proofs.
Import ListNotations.
Open Scope list_scope.
Open Scope Z_scope.

(** One point of the spectral functions at two broadenings. *)
Lemma at_two : forall m k w eta g eta' g', usable m -> (eta < eta')%R -> returned m k w eta g -> returned m k w eta' g' ->
  let A := (- Im g / PI)%R in let A' := (- Im g' / PI)%R in
  (0 < A)%R /\ (0 < A')%R /\ (0 <= (A' * eta - A * eta') * (A * eta - A' * eta'))%R /\
  (Re g <> 0%R \/ Re g' <> 0%R -> (0 < (A' * eta - A * eta') * (A * eta - A' * eta'))%R /\ (snd (peak_location_and_weight w A A' eta eta') <= 1)%R /\ (snd (peak_location_and_weight w A' A eta' eta) <= 1)%R).
Proof.
  intros m k w eta g eta' g' U Hl Rt Rt' A A'. pose proof (returned_im _ _ _ _ _ U Rt) as N. pose proof (returned_im _ _ _ _ _ U Rt') as N'. pose proof (two_values m k w eta g w eta' g' U Rt Rt') as Pk. pose proof PI_RGT_0 as HP.
  pose proof (proj1 Rt) as He. pose proof (Nevan_proofs.widths_up w eta eta' g g' He Hl N N' Pk) as H1. pose proof (Nevan_proofs.widths_down w eta eta' g g' He Hl N N' Pk) as H2. pose proof (Nevan_proofs.widths_weight w eta eta' g g' He Hl N N' Pk) as H3.
  split; [apply Rdiv_lt_0_compat; lra|]. split; [apply Rdiv_lt_0_compat; lra|]. split.
  - replace ((A' * eta - A * eta') * (A * eta - A' * eta'))%R with ((- Im g * eta' - - Im g' * eta) * (- Im g' * eta' - - Im g * eta) / (PI * PI))%R by (unfold A, A'; field; lra).
    apply Rmult_le_pos; [apply Rmult_le_pos; clear -H1 H2; lra|left; apply Rinv_0_lt_compat; apply Rmult_lt_0_compat; exact HP].
  - intros Hr. assert (St : (- Im g * eta < - Im g' * eta')%R).
    { destruct (Rle_lt_or_eq_dec _ _ H1) as [X|X]; [exact X|exfalso]. destruct (Nevan_proofs.widths_centre w eta eta' g g' He Hl N N' Pk X). destruct Hr; contradiction. }
    exact (Fit_proofs.fit_small w (- Im g)%R (- Im g')%R eta eta' ltac:(lra) ltac:(lra) He Hl St H2 H3).
Qed.

(** peak_location_and_weight on the spectral functions of two broadenings: the
    number under the root is not negative; where it is positive, the returned
    Lorentzian lies below the frequency, has a weight of at most one, and
    passes through both values.  It is positive wherever the real part of the
    Green's function is not zero. *)
Theorem C77_fit : forall m k w eta eta' sp ord sp' ord' A A', usable m -> (0 < eta)%R -> (0 < eta')%R -> eta <> eta' -> (forall k l, Permutation (ord k l) l) -> spsolve_ok sp -> (forall k l, Permutation (ord' k l) l) -> spsolve_ok sp' ->
  spectral_function m sp ord k eta A -> spectral_function m sp' ord' k eta' A' ->
  let rad := ((A' w * eta - A w * eta') * (A w * eta - A' w * eta'))%R in let r := peak_location_and_weight w (A w) (A' w) eta eta' in
  (0 <= rad)%R /\
  ((exists g, returned m k w eta g /\ Re g <> 0%R) -> (0 < rad)%R) /\
  ((0 < rad)%R -> (fst r < w)%R /\ (0 < snd r)%R /\ lorentzian w (fst r) (snd r) eta = A w /\ lorentzian w (fst r) (snd r) eta' = A' w) /\
  ((exists g, returned m k w eta g /\ Re g <> 0%R) -> (snd r <= 1)%R).
Proof.
  intros m k w eta eta' sp ord sp' ord' A A' U He He' Ne P SO P' SO' HA HA'. destruct (HA w) as [g [E Ea]]. destruct (HA' w) as [g' [E' Ea']].
  assert (Rt : returned m k w eta g) by (split; [exact He|exists ord, sp; repeat split; assumption]). assert (Rt' : returned m k w eta' g') by (split; [exact He'|exists ord', sp'; repeat split; assumption]).
  assert (Un : forall g0, returned m k w eta g0 -> g0 = g).
  { intros g0 (_ & o & s & Po & So & E0). destruct (usable_sound m U) as [ae [c S]]. destruct (on_row m ae c k w eta S He) as (Psi & _ & _ & Ec). rewrite (Ec o s Po So) in E0. rewrite (Ec ord sp P SO) in E. congruence. }
  assert (X : (0 < A w)%R /\ (0 < A' w)%R /\ (0 <= (A' w * eta - A w * eta') * (A w * eta - A' w * eta'))%R /\
    (Re g <> 0%R -> (0 < (A' w * eta - A w * eta') * (A w * eta - A' w * eta'))%R /\ (snd (peak_location_and_weight w (A w) (A' w) eta eta') <= 1)%R)).
  { rewrite Ea, Ea'. destruct (Rlt_le_dec eta eta') as [L|L].
    - destruct (at_two m k w eta g eta' g' U L Rt Rt') as (P1 & P2 & R0 & X). split; [exact P1|]. split; [exact P2|]. split; [exact R0|]. intros Hr. destruct (X (or_introl Hr)) as (X1 & X2 & _). split; assumption.
    - destruct (at_two m k w eta' g' eta g U ltac:(lra) Rt' Rt) as (P1 & P2 & R0 & X). rewrite (Fit_proofs.radicand_swap (- Im g / PI) (- Im g' / PI) eta eta') in *. split; [exact P2|]. split; [exact P1|]. split; [exact R0|]. intros Hr. destruct (X (or_intror Hr)) as (X1 & _ & X3). split; assumption. }
  destruct X as (A0 & A0' & R0 & X). cbv zeta. split; [exact R0|]. split; [|split].
  - intros [g0 [G1 G2]]. rewrite (Un g0 G1) in G2. exact (proj1 (X G2)).
  - intros Rd. split; [exact (Fit_proofs.fit_below w _ _ _ _ He He' Rd)|]. split; [exact (Fit_proofs.fit_area_pos w _ _ _ _ A0 He He' Rd)|].
    split; [exact (Fit_proofs.fit_one w _ _ _ _ He He' Rd)|]. exact (Fit_proofs.fit_two w _ _ _ _ A0 He He' Rd).
  - intros [g0 [G1 G2]]. rewrite (Un g0 G1) in G2. exact (proj2 (X G2)).
Qed.
Print Assumptions C77_fit.

(** Outside of the band the finder always works, and the location it returns is
    at most the half-width of the band plus the distance to zero away. *)
Theorem C77_outside : forall m N k w d eta eta' sp ord sp' ord' A A', usable m -> numbers m N -> (0 < d)%R -> off_band m N w d -> (0 < eta)%R -> (0 < eta')%R -> eta <> eta' ->
  (forall k l, Permutation (ord k l) l) -> spsolve_ok sp -> (forall k l, Permutation (ord' k l) l) -> spsolve_ok sp' ->
  spectral_function m sp ord k eta A -> spectral_function m sp' ord' k eta' A' ->
  let r := peak_location_and_weight w (A w) (A' w) eta eta' in let b := (Cabs (w, eta) + half_width m N)%R in
  (0 < (A' w * eta - A w * eta') * (A w * eta - A' w * eta'))%R /\ (fst r < w)%R /\ (0 < snd r <= 1)%R /\ ((w - fst r) ^ 2 <= b ^ 2 - eta ^ 2)%R /\
  lorentzian w (fst r) (snd r) eta = A w /\ lorentzian w (fst r) (snd r) eta' = A' w.
Proof.
  intros m N k w d eta eta' sp ord sp' ord' A A' U HN Hd O He He' Ne P SO P' SO' HA HA'. destruct (C77_fit m k w eta eta' sp ord sp' ord' A A' U He He' Ne P SO P' SO' HA HA') as (_ & H1 & H2 & H3). cbv zeta in *.
  set (r := peak_location_and_weight w (A w) (A' w) eta eta') in *. set (b := (Cabs (w, eta) + half_width m N)%R).
  destruct (C75_lower m N k w eta ord sp U HN He P SO) as (g & E & L1 & L2 & L3). cbv zeta in *. fold b in L1, L2, L3. pose proof PI_RGT_0 as HP.
  assert (B1 : (0 < b)%R) by (pose proof (Contour_proofs.z_abs w eta He); pose proof (Band_proofs.half_width_pos m N); unfold b; lra). assert (B0 : (0 < b ^ 2)%R) by (apply pow_lt; exact B1).
  assert (Rg : exists g, returned m k w eta g /\ Re g <> 0%R).
  { exists g. split; [split; [exact He|exists ord, sp; repeat split; assumption]|]. assert (0 < d / b ^ 2)%R by (apply Rdiv_lt_0_compat; assumption). destruct O as [O|O]; [specialize (L2 d Hd O)|specialize (L3 d Hd O)]; lra. }
  pose proof (H1 Rg) as Rd. destruct (H2 Rd) as (F1 & F2 & F3 & F4). pose proof (H3 Rg) as F5. split; [exact Rd|]. split; [exact F1|]. split; [split; assumption|]. split; [|split; assumption].
  destruct (HA w) as [g0 [E0 Ea]]. rewrite E in E0. injection E0 as <-.
  assert (Sn : snd r = (- Im g * ((w - fst r) * (w - fst r) + eta * eta) / eta)%R).
  { assert (S0 : snd r = (PI * A w * ((w - fst r) * (w - fst r) + eta * eta) / eta)%R) by reflexivity. rewrite S0, Ea. field. lra. }
  rewrite Sn in F5. assert (Q : (eta / b ^ 2 * ((w - fst r) * (w - fst r) + eta * eta) / eta <= 1)%R).
  { eapply Rle_trans; [|exact F5]. apply Rmult_le_compat_r; [left; apply Rinv_0_lt_compat; exact He|]. apply Rmult_le_compat_r; [|exact L1]. pose proof (Rle_0_sqr (w - fst r)) as Z. unfold Rsqr in Z. nra. }
  apply (Rmult_le_compat_r (b ^ 2)) in Q; [|lra]. replace (eta / b ^ 2 * ((w - fst r) * (w - fst r) + eta * eta) / eta * b ^ 2)%R with ((w - fst r) ^ 2 + eta ^ 2)%R in Q by (field; lra). lra.
Qed.
Print Assumptions C77_outside.

(** peak_location_and_weight_wstep on the spectral function at two frequencies
    where it differs: the number under the root is not negative, and the
    returned Lorentzian passes through both values. *)
Theorem C77_wstep : forall m k w w' eta sp ord A, usable m -> (0 < eta)%R -> (forall k l, Permutation (ord k l) l) -> spsolve_ok sp -> spectral_function m sp ord k eta A -> A w <> A w' ->
  let r := peak_location_and_weight_wstep w w' (A w) (A w') eta in
  (0 <= A w * A w' * ((w - w') * (w - w')) / ((A w - A w') * (A w - A w')) - eta * eta)%R /\
  (0 < snd r)%R /\ lorentzian w (fst r) (snd r) eta = A w /\ lorentzian w' (fst r) (snd r) eta = A w'.
Proof.
  intros m k w w' eta sp ord A U He P SO HA Ne. cbv zeta. destruct (A_step m k eta sp ord A w w' U He P SO HA) as (P1 & P2 & B). cbv zeta in B.
  assert (F0 : (0 <= A w * A w' * ((w - w') * (w - w')) / ((A w - A w') * (A w - A w')) - eta * eta)%R).
  { assert (D : (A w - A w')%R <> 0%R) by lra. pose proof (Rlt_0_sqr _ D) as D2. unfold Rsqr in D2.
    assert (T : (Rabs (w - w') / eta * (Rabs (w - w') / eta) = (w - w') * (w - w') / (eta * eta))%R) by (pose proof (Rsqr_abs (w - w')) as Q; unfold Rsqr in Q; rewrite Q; field; lra). rewrite T in B.
    apply (Rmult_le_compat_r (eta * eta / ((A w - A w') * (A w - A w')))) in B; [|left; apply Rdiv_lt_0_compat; [apply Rmult_lt_0_compat; exact He|exact D2]].
    replace ((A w - A w') * (A w - A w') * (eta * eta / ((A w - A w') * (A w - A w'))))%R with (eta * eta)%R in B by (field; exact D).
    replace ((w - w') * (w - w') / (eta * eta) * (A w * A w') * (eta * eta / ((A w - A w') * (A w - A w'))))%R with (A w * A w' * ((w - w') * (w - w')) / ((A w - A w') * (A w - A w')))%R in B by (field; split; [exact D|lra]). lra. }
  split; [exact F0|]. exact (Fit_proofs.step_ok w w' (A w) (A w') eta P1 He Ne F0).
Qed.
Print Assumptions C77_wstep.

(** At the centre of a line the formula of peak_location_and_weight is 0 / 0:
    without coupling, at the energy of the free particle. *)
Theorem C77_centre_refuted : exists m k w eta eta', usable m /\ (0 < eta)%R /\ (0 < eta')%R /\ eta <> eta' /\ exists A A',
  spectral_function m (gauss_sparse (F := CF) C_eq_dec) id_ord k eta A /\ spectral_function m (gauss_sparse (F := CF) C_eq_dec) id_ord k eta' A' /\
  (A w * eta - A' w * eta' = 0)%R /\ ((A' w * eta - A w * eta') * (A w * eta - A' w * eta') = 0)%R.
Proof.
  destruct (cold_one 0) as [m [Bt [G Em]]].
  assert (U : usable m).
  { subst m. split; [|intros q X; discriminate X|intros q X; discriminate X|left; reflexivity|cbn; lra]. do 2 eexists. split; [exact Bt|]. split; [discriminate|]. split; [repeat constructor|right; intros c [<- | []]; discriminate]. }
  exists m, 0%R, (-2)%R, 1%R, 2%R. split; [exact U|]. split; [lra|]. split; [lra|]. split; [lra|]. pose proof (gauss_spsolve_ok (F := CF) C_eq_dec) as SO.
  destruct (C74_defined m 0%R 1%R id_ord _ U ltac:(lra) id_perm SO) as [A [HA _]]. destruct (C74_defined m 0%R 2%R id_ord _ U ltac:(lra) id_perm SO) as [A' [HA' _]]. exists A, A'. split; [exact HA|]. split; [exact HA'|].
  destruct (C50_lattice m _ _ _ Bt G) as [c L].
  assert (X : forall eta B, (0 < eta)%R -> spectral_function m (gauss_sparse (F := CF) C_eq_dec) id_ord 0 eta B -> (B (-2) * eta = / PI)%R).
  { intros eta B He HB. destruct (C59_weak m 1 c id_ord _ 0%R (-2)%R eta (0, - / eta)%R G (C51_hermitian m _ _ _ _ _ _ Bt G) L (us_lattice m U) He id_perm SO) as [g [E Bd]].
    - unfold band. rewrite Em. cbn [m_ham h_hop m_lattice]. rewrite Rmult_0_l, cos_0. apply Ceq; unfold Cmul, Cplx.C1, Re, Im; cbn [fst snd]; field; lra.
    - assert (Z : strength m = 0%R) by (rewrite Em; unfold strength; cbn [m_ham h_terms map fold_right ht_dag ht_coupling]; replace (- (0 * 1))%R with 0%R by ring; rewrite Rabs_R0; ring).
      rewrite Z in Bd. unfold Rdiv in Bd. rewrite !Rmult_0_l in Bd. pose proof (Physics_proofs.Cabs_ge0 (Csub g (0, - / eta)%R)) as Bp. pose proof (Physics_proofs.Cabs_sq (Csub g (0, - / eta)%R)) as Sq.
      replace (Cabs (Csub g (0, - / eta)%R)) with 0%R in Sq by lra. destruct (HB (-2)%R) as [g0 [E0 Eb]]. rewrite E in E0. injection E0 as <-. rewrite Eb.
      assert (I : Im g = (- / eta)%R). { unfold Cnorm2, Csub, Re, Im in Sq. cbn [fst snd] in Sq. unfold Im. pose proof (Rle_0_sqr (fst g - 0)) as Q1. unfold Rsqr in Q1. assert (Q2 : ((snd g - - / eta) * (snd g - - / eta) = 0)%R) by (pose proof (Rle_0_sqr (snd g - - / eta)) as Q; unfold Rsqr in Q; lra). apply Rmult_integral in Q2. destruct Q2; lra. }
      rewrite I. pose proof PI_RGT_0. field. lra. }
  pose proof (X 1%R A ltac:(lra) HA) as X1. pose proof (X 2%R A' ltac:(lra) HA') as X2. rewrite X1, X2. split; [ring|]. ring.
Qed.
Print Assumptions C77_centre_refuted.

(** Edwards' model at -19 and 20, below and above the band. *)
Example C77_nonvacuous : usable (x_model 1) /\ forall k, exists A A', spectral_function (x_model 1) (gauss_sparse (F := CF) C_eq_dec) id_ord k 1 A /\ spectral_function (x_model 1) (gauss_sparse (F := CF) C_eq_dec) id_ord k 2 A' /\
  forall w, w = (-19)%R \/ w = 20%R -> let r := peak_location_and_weight w (A w) (A' w) 1 2 in
  (fst r < w)%R /\ (0 < snd r <= 1)%R /\ lorentzian w (fst r) (snd r) 1 = A w /\ lorentzian w (fst r) (snd r) 2 = A' w.
Proof.
  destruct C75_nonvacuous as (U & HN & _ & _ & B1 & B2 & _). split; [exact U|]. intros k. pose proof (gauss_spsolve_ok (F := CF) C_eq_dec) as SO.
  destruct (C74_defined (x_model 1) k 1 id_ord _ U ltac:(lra) id_perm SO) as [A [HA _]]. destruct (C74_defined (x_model 1) k 2 id_ord _ U ltac:(lra) id_perm SO) as [A' [HA' _]]. exists A, A'. split; [exact HA|]. split; [exact HA'|].
  intros w Hw. assert (O : off_band (x_model 1) 1 w 10) by (destruct Hw as [-> | ->]; [left|right]; assumption).
  destruct (C77_outside (x_model 1) 1 k w 10 1 2 _ id_ord _ id_ord A A' U HN ltac:(lra) O ltac:(lra) ltac:(lra) ltac:(lra) id_perm SO id_perm SO HA HA') as (_ & X1 & X2 & _ & X3 & X4). cbv zeta. split; [exact X1|]. split; [exact X2|]. split; assumption.
Qed.
Print Assumptions C77_nonvacuous.
