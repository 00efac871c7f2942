(** Property theorems C75: the Green's function outside of the band. *)
From Coq Require Import String ZArith List Bool Lia Permutation Reals Ratan RiemannInt Lra.
From Verif Require Import Base NdArray Config Spec Model HModel Space Spec_space Term Equation System Spec_engine Props_Engine
  Ring Coef Spec_eom Solvers Spec_solve LinSolve Spec_model Spec_sym Cplx Physics Props_Physics Props_Model Props_Solve Props_Sym Spec_spectral Props_Spectral
  Spec_green Props_Green Spec_cutoff Spec_exact Spec_moments Props_Moments Props_Pipeline Props_Thermal Spec_sum Props_Sum Spec_band.
From Verif Require HModel_proofs Physics_proofs Extent_proofs Green_proofs Spectral_proofs Contour_proofs Sum_proofs Band_proofs Tail_proofs.
Import ListNotations.
Open Scope list_scope.
Open Scope Z_scope.

(** No type holds more than [N] phonons. *)
Definition numbers (m : model R) (N : Z) : Prop := 0 <= N /\ forall t, (t < m_ntypes m)%nat -> nth t (m_pn m) 0 <= N.

Lemma on_row : forall m ae c k w eta, sound m ae c -> (0 < eta)%R -> exists Psi, greens_row m ae c k (w, eta) Psi /\ (Im (Psi vacuum 0%Z) < 0)%R /\
  forall ord sp, (forall k l, Permutation (ord k l) l) -> spsolve_ok sp -> greens (phys_env m k w eta) sp ord m = Ok (Psi vacuum 0).
Proof.
  intros m ae c k w eta [G L H Hl Ht] He. destruct (C56_exists m ae c k w eta G (H _ _ _) L Hl Ht He) as [Psi Ro]. exists Psi. split; [exact Ro|]. split.
  - set (sp0 := gauss_sparse (F := CF) C_eq_dec). assert (SO0 : spsolve_ok sp0) by apply gauss_spsolve_ok.
    destruct (C51_spectral m ae c id_ord sp0 k w eta G (H _ _ _) L Hl He id_perm SO0) as [g [E [B _]]].
    rewrite (C56_green m ae c id_ord sp0 k w eta Psi G (H _ _ _) L Hl Ht He id_perm SO0 Ro) in E. injection E as <-. exact B.
  - intros ord sp P SO. exact (C56_green m ae c ord sp k w eta Psi G (H _ _ _) L Hl Ht He P SO Ro).
Qed.

(** At a frequency at least [d] outside of the band the returned number has the
    sign of the side it lies on, is bounded by 1 / d however small the
    broadening, and has an imaginary part of the order of the broadening. *)
Theorem C75_bound : forall m N k w eta d ord sp, usable m -> numbers m N -> (0 < eta)%R -> (0 < d)%R -> (forall k l, Permutation (ord k l) l) -> spsolve_ok sp -> off_band m N w d ->
  exists g : C, greens (phys_env m k w eta) sp ord m = Ok g /\ (Cabs g <= 1 / d)%R /\ (0 < - Im g <= eta / d ^ 2)%R /\
    (below_band m N w d -> (Re g <= - (d * Cnorm2 g))%R) /\ (above_band m N w d -> (d * Cnorm2 g <= Re g)%R).
Proof.
  intros m N k w eta d ord sp U [N0 HN] He Hd P SO O. destruct (usable_sound m U) as [ae [c S]]. destruct (on_row m ae c k w eta S He) as (Psi & Ro & Im0 & Ec).
  exists (Psi vacuum 0). split; [apply Ec; assumption|]. destruct S as [G L H Hl Ht]. pose proof (Extent_proofs.numbers_at_most m ae N HN N0) as AM.
  pose proof (fun sg B => Band_proofs.outside_at m ae c k G L (H k) N N0 AM w eta sg d Psi He Hd B Ro) as X.
  destruct (Band_proofs.beyond_off m N w d O) as [sg B]. destruct (X sg B) as (_ & A1 & A2 & _). split; [exact A1|]. split; [cbn [pow]; rewrite Rmult_1_r; lra|]. split.
  - intros Bl. destruct (X _ (Band_proofs.beyond_below m N w d Bl)) as [A _]. lra.
  - intros Ab. destruct (X _ (Band_proofs.beyond_above m N w d Ab)) as [A _]. lra.
Qed.
Print Assumptions C75_bound.

(** Lower bounds: on the spectral function everywhere, on the real part outside
    of the band. *)
Theorem C75_lower : forall m N k w eta ord sp, usable m -> numbers m N -> (0 < eta)%R -> (forall k l, Permutation (ord k l) l) -> spsolve_ok sp ->
  exists g : C, greens (phys_env m k w eta) sp ord m = Ok g /\ let b := (Cabs (w, eta) + half_width m N)%R in (eta / b ^ 2 <= - Im g)%R /\
    (forall d, (0 < d)%R -> below_band m N w d -> (Re g <= - (d / b ^ 2))%R) /\ (forall d, (0 < d)%R -> above_band m N w d -> (d / b ^ 2 <= Re g)%R).
Proof.
  intros m N k w eta ord sp U [N0 HN] He P SO. destruct (usable_sound m U) as [ae [c S]]. destruct (on_row m ae c k w eta S He) as (Psi & Ro & Im0 & Ec).
  exists (Psi vacuum 0). split; [apply Ec; assumption|]. cbv zeta. destruct S as [G L H Hl Ht]. pose proof (Extent_proofs.numbers_at_most m ae N HN N0) as AM.
  set (b := (Cabs (w, eta) + half_width m N)%R). assert (B0 : (0 < b)%R) by (pose proof (Contour_proofs.z_abs w eta He); pose proof (Band_proofs.half_width_pos m N); unfold b; lra). assert (B2 : (0 < b ^ 2)%R) by (apply pow_lt; exact B0).
  assert (Q : forall x y, (x <= b ^ 2 * y)%R -> (x / b ^ 2 <= y)%R).
  { intros x y Hxy. apply (Rmult_le_reg_l (b ^ 2)); [exact B2|]. replace (b ^ 2 * (x / b ^ 2))%R with x by (field; lra). exact Hxy. }
  pose proof (fun sg d Hd B => Band_proofs.real_lower m ae c k G L (H k) N N0 AM w eta sg d Psi He Hd B Ro) as X. fold b in X. split; [|split].
  - apply Q. exact (Band_proofs.imag_lower m ae c k G L (H k) N N0 AM w eta Psi He Ro ltac:(lra)).
  - intros d Hd Bl. pose proof (Q _ _ (X _ d Hd (Band_proofs.beyond_below m N w d Bl))). lra.
  - intros d Hd Ab. pose proof (Q _ _ (X _ d Hd (Band_proofs.beyond_above m N w d Ab))). lra.
Qed.
Print Assumptions C75_lower.

(** Outside of the band the Green's function is Lipschitz, uniformly in the
    broadening. *)
Theorem C75_continuous : forall m N k w eta d w' eta' d' ord sp ord' sp', usable m -> numbers m N -> (0 < eta)%R -> (0 < d)%R -> (0 < eta')%R -> (0 < d')%R ->
  (forall k l, Permutation (ord k l) l) -> spsolve_ok sp -> (forall k l, Permutation (ord' k l) l) -> spsolve_ok sp' -> off_band m N w d -> off_band m N w' d' ->
  exists g g' : C, greens (phys_env m k w eta) sp ord m = Ok g /\ greens (phys_env m k w' eta') sp' ord' m = Ok g' /\
    (Cabs (Csub g' g) <= Cabs (Csub (w', eta') (w, eta)) / (d * d'))%R.
Proof.
  intros m N k w eta d w' eta' d' ord sp ord' sp' U [N0 HN] He Hd He' Hd' P SO P' SO' O O'. destruct (usable_sound m U) as [ae [c S]].
  destruct (on_row m ae c k w eta S He) as (Psi & Ro & _ & Ec). destruct (on_row m ae c k w' eta' S He') as (Psi' & Ro' & _ & Ec').
  exists (Psi vacuum 0), (Psi' vacuum 0). split; [apply Ec; assumption|]. split; [apply Ec'; assumption|]. destruct S as [G L H Hl Ht]. pose proof (Extent_proofs.numbers_at_most m ae N HN N0) as AM.
  destruct (Band_proofs.beyond_off m N w d O) as [sg B]. destruct (Band_proofs.beyond_off m N w' d' O') as [sg' B'].
  pose proof (Band_proofs.outside_two m ae c k G L (H k) N N0 AM w eta sg d Psi w' eta' sg' d' Psi' He Hd B Ro He' Hd' B' Ro') as X.
  assert (D0 : (0 < d * d')%R) by (apply Rmult_lt_0_compat; assumption). apply (Rmult_le_reg_l (d * d')); [exact D0|].
  replace (d * d' * (Cabs (Csub (w', eta') (w, eta)) / (d * d')))%R with (Cabs (Csub (w', eta') (w, eta))) by (field; lra). exact X.
Qed.
Print Assumptions C75_continuous.

Lemma Cabs_vertical : forall w eta eta', Cabs (Csub (w, eta') (w, eta)) = Rabs (eta' - eta).
Proof. intros w eta eta'. unfold Cabs, Cnorm2, Csub, Re, Im. cbn [fst snd]. replace ((w - w) * (w - w) + (eta' - eta) * (eta' - eta))%R with (Rsqr (eta' - eta)) by (unfold Rsqr; ring). apply sqrt_Rsqr_abs. Qed.
Lemma Cabs_parts : forall z, (Cabs z <= Rabs (Re z) + Rabs (Im z))%R.
Proof.
  intros z. pose proof (Rabs_pos (Re z)). pose proof (Rabs_pos (Im z)). apply Rsqr_incr_0; [|apply Physics_proofs.Cabs_ge0|lra]. unfold Rsqr. rewrite Physics_proofs.Cabs_sq. unfold Cnorm2.
  pose proof (Rsqr_abs (Re z)) as A. pose proof (Rsqr_abs (Im z)) as B. unfold Rsqr in A, B. assert (0 <= Rabs (Re z) * Rabs (Im z))%R by (apply Rmult_le_pos; assumption). lra.
Qed.

(** As the broadening goes to zero the returned numbers converge to a real
    number: no spectral weight is left outside of the band. *)
Theorem C75_real : forall m N k w d, usable m -> numbers m N -> (0 < d)%R -> off_band m N w d ->
  exists x : R, (forall eta ord sp g, (0 < eta)%R -> (forall k l, Permutation (ord k l) l) -> spsolve_ok sp -> greens (phys_env m k w eta) sp ord m = Ok g -> (Cabs (Csub g (RtoC x)) <= eta / d ^ 2)%R) /\
    (Rabs x <= 1 / d)%R /\ (below_band m N w d -> (x < 0 /\ x <= - (d * x ^ 2))%R) /\ (above_band m N w d -> (0 < x /\ d * x ^ 2 <= x)%R).
Proof.
  intros m N k w d U HN Hd O. set (sp0 := gauss_sparse (F := CF) C_eq_dec). assert (SO0 : spsolve_ok sp0) by apply gauss_spsolve_ok.
  assert (D2 : (0 < d ^ 2)%R) by (apply pow_lt; exact Hd).
  set (g0 := fun eta => code_g m sp0 id_ord k w eta).
  assert (V : forall eta, (0 < eta)%R -> greens (phys_env m k w eta) sp0 id_ord m = Ok (g0 eta)).
  { intros eta He. destruct (C75_bound m N k w eta d id_ord sp0 U HN He Hd id_perm SO0 O) as (g & E & _). unfold g0, code_g. rewrite E. reflexivity. }
  assert (Same : forall eta ord sp g, (0 < eta)%R -> (forall k l, Permutation (ord k l) l) -> spsolve_ok sp -> greens (phys_env m k w eta) sp ord m = Ok g -> g = g0 eta).
  { intros eta ord sp g He P SO E. destruct (usable_sound m U) as [ae [c S]]. destruct (on_row m ae c k w eta S He) as (Psi & _ & _ & Ec).
    pose proof (Ec ord sp P SO) as E1. pose proof (Ec id_ord sp0 id_perm SO0) as E2. rewrite E in E1. rewrite (V eta He) in E2. congruence. }
  assert (Lip : forall eta eta', (0 < eta)%R -> (0 < eta')%R -> (Cabs (Csub (g0 eta') (g0 eta)) <= Rabs (eta' - eta) / d ^ 2)%R).
  { intros eta eta' He He'. destruct (C75_continuous m N k w eta d w eta' d id_ord sp0 id_ord sp0 U HN He Hd He' Hd id_perm SO0 id_perm SO0 O O) as (g & g' & E & E' & B).
    rewrite (V eta He) in E. rewrite (V eta' He') in E'. injection E as <-. injection E' as <-. rewrite Cabs_vertical in B. replace (d ^ 2)%R with (d * d)%R by ring. exact B. }
  set (e := fun n => (/ (INR n + 1))%R). assert (e0 : forall n, (0 < e n)%R) by (intros n; apply Rinv_0_lt_compat; pose proof (pos_INR n); lra).
  assert (ev : forall q, (0 < q)%R -> exists n0, forall n, (n0 <= n)%nat -> (e n < q)%R).
  { intros q Hq. destruct (archimed_cor1 q Hq) as [n0 [A B]]. exists n0. intros n Hn. apply Rle_lt_trans with (/ INR n0)%R; [|exact A]. unfold e. apply Rinv_le_contravar; [apply lt_0_INR; exact B|]. apply le_INR in Hn. lra. }
  set (x_ := fun n => Re (g0 (e n))).
  assert (CC : Cauchy_crit x_).
  { intros q Hq. destruct (ev (q * d ^ 2)%R ltac:(apply Rmult_lt_0_compat; lra)) as [n0 Hn]. exists n0. intros i j Hi Hj. unfold R_dist, x_.
    replace (Re (g0 (e i)) - Re (g0 (e j)))%R with (Re (Csub (g0 (e i)) (g0 (e j)))) by reflexivity. eapply Rle_lt_trans; [apply Band_proofs.Re_abs_le|]. eapply Rle_lt_trans; [apply Lip; apply e0|].
    apply (Rmult_lt_reg_r (d ^ 2)); [exact D2|]. replace (Rabs (e i - e j) / d ^ 2 * d ^ 2)%R with (Rabs (e i - e j)) by (field; lra).
    pose proof (Hn i Hi). pose proof (Hn j Hj). pose proof (e0 i). pose proof (e0 j). apply Rabs_def1; lra. }
  destruct (R_complete x_ CC) as [x Hx]. exists x.
  assert (Main : forall eta, (0 < eta)%R -> (Cabs (Csub (g0 eta) (RtoC x)) <= eta / d ^ 2)%R).
  { intros eta He. apply le_epsilon. intros q Hq. destruct (Hx (q / 2)%R ltac:(lra)) as [n1 H1]. destruct (ev (q / 4 * d ^ 2)%R ltac:(apply Rmult_lt_0_compat; lra)) as [n2 H2].
    set (n := Nat.max n1 n2). specialize (H1 n ltac:(unfold n; lia)). specialize (H2 n ltac:(unfold n; lia)). unfold R_dist in H1. pose proof (e0 n) as En.
    destruct (C75_bound m N k w (e n) d id_ord sp0 U HN En Hd id_perm SO0 O) as (g & E & _ & [I1 I2] & _). rewrite (V _ En) in E. injection E as <-.
    set (gn := g0 (e n)) in *. replace (Csub (g0 eta) (RtoC x)) with (Cadd (Csub (g0 eta) gn) (Csub gn (RtoC x))) by ring. eapply Rle_trans; [apply Physics_proofs.Cabs_triangle|].
    pose proof (Lip (e n) eta En He) as L1. fold gn in L1. pose proof (Cabs_parts (Csub gn (RtoC x))) as L2.
    replace (Re (Csub gn (RtoC x))) with (x_ n - x)%R in L2 by (unfold x_, Csub, RtoC, Re; cbn [fst snd]; reflexivity). replace (Im (Csub gn (RtoC x))) with (Im gn) in L2 by (unfold Csub, RtoC, Im; cbn [fst snd]; ring).
    rewrite (Rabs_left (Im gn)) in L2 by lra.
    assert (S1 : (e n / d ^ 2 < q / 4)%R) by (apply (Rmult_lt_reg_r (d ^ 2)); [exact D2|]; replace (e n / d ^ 2 * d ^ 2)%R with (e n) by (field; lra); exact H2).
    assert (S2 : (Rabs (eta - e n) / d ^ 2 <= eta / d ^ 2 + e n / d ^ 2)%R).
    { replace (eta / d ^ 2 + e n / d ^ 2)%R with ((eta + e n) / d ^ 2)%R by (field; lra). apply Rmult_le_compat_r; [left; apply Rinv_0_lt_compat; exact D2|]. apply Rabs_le. lra. }
    lra. }
  split; [intros eta ord sp g He P SO E; rewrite (Same eta ord sp g He P SO E); apply Main, He|].
  (* what holds of all the returned numbers holds of the limit *)
  assert (Near : forall q, (0 < q)%R -> exists eta, (0 < eta)%R /\ (Rabs (Re (g0 eta) - x) < q)%R /\ (Rabs x < Cabs (g0 eta) + q)%R).
  { intros q Hq. set (eta := (q / 2 * d ^ 2)%R). assert (He : (0 < eta)%R) by (unfold eta; apply Rmult_lt_0_compat; lra). exists eta. split; [exact He|]. pose proof (Main eta He) as B.
    replace (eta / d ^ 2)%R with (q / 2)%R in B by (unfold eta; field; lra). pose proof (Band_proofs.Re_abs_le (Csub (g0 eta) (RtoC x))) as R1.
    replace (Re (Csub (g0 eta) (RtoC x))) with (Re (g0 eta) - x)%R in R1 by reflexivity. split; [lra|].
    pose proof (Band_proofs.Re_abs_le (g0 eta)) as R2. replace x with (Re (g0 eta) - (Re (g0 eta) - x))%R at 1 by ring. eapply Rle_lt_trans; [apply Rabs_triang|]. rewrite Rabs_Ropp. lra. }
  assert (Bd : (Rabs x <= 1 / d)%R).
  { apply le_epsilon. intros q Hq. destruct (Near q Hq) as (eta & He & _ & B). destruct (C75_bound m N k w eta d id_ord sp0 U HN He Hd id_perm SO0 O) as (g & E & B1 & _). rewrite (V _ He) in E. injection E as <-. lra. }
  split; [exact Bd|].
  assert (Sq : forall y, (Rabs (y - x) <= 1)%R -> (x ^ 2 <= y ^ 2 + Rabs (y - x) * (2 * (1 / d) + 1))%R).
  { intros y Hy. replace (x ^ 2)%R with (y ^ 2 + - (y - x) * (2 * x + (y - x)))%R by ring. apply Rplus_le_compat_l. eapply Rle_trans; [apply Rle_abs|]. rewrite Rabs_mult, Rabs_Ropp. apply Rmult_le_compat_l; [apply Rabs_pos|].
    eapply Rle_trans; [apply Rabs_triang|]. rewrite Rabs_mult, (Rabs_right 2) by lra. lra. }
  assert (I0 : (0 < 1 / d)%R) by (apply Rdiv_lt_0_compat; lra).
  set (C := (d * (2 * (1 / d) + 1) + 1)%R). assert (C0 : (0 < C)%R) by (unfold C; assert (0 < d * (2 * (1 / d) + 1))%R by (apply Rmult_lt_0_compat; lra); lra).
  assert (Sgn : forall s, (s = 1 \/ s = -1)%R -> (forall eta, (0 < eta)%R -> (d * Cnorm2 (g0 eta) <= s * Re (g0 eta))%R) -> (d * x ^ 2 <= s * x)%R).
  { intros s Hs H. apply le_epsilon. intros q Hq. assert (qC : (0 < q / C)%R) by (apply Rdiv_lt_0_compat; lra). destruct (Near (Rmin 1 (q / C)) ltac:(apply Rmin_glb_lt; lra)) as (eta & He & B & _).
    pose proof (Rmin_l 1 (q / C)). pose proof (Rmin_r 1 (q / C)). set (y := Re (g0 eta)) in *. specialize (H eta He). fold y in H. pose proof (Sq y ltac:(lra)) as S1.
    assert (Y : (y ^ 2 <= Cnorm2 (g0 eta))%R) by (unfold Cnorm2; fold y; pose proof (Rle_0_sqr (Im (g0 eta))) as Z; unfold Rsqr in Z; cbn [pow]; lra).
    assert (SX : (s * y <= s * x + Rabs (y - x))%R) by (pose proof (Rle_abs (y - x)) as Q1; pose proof (Rle_abs (- (y - x))) as Q2; rewrite Rabs_Ropp in Q2; destruct Hs as [-> | ->]; lra).
    set (t := Rabs (y - x)) in *. assert (T0 : (0 <= t)%R) by apply Rabs_pos.
    assert (E1 : (d * x ^ 2 <= d * (y ^ 2 + t * (2 * (1 / d) + 1)))%R) by (apply Rmult_le_compat_l; lra).
    assert (E2 : (d * y ^ 2 <= d * Cnorm2 (g0 eta))%R) by (apply Rmult_le_compat_l; lra).
    assert (E3 : (t * C <= q)%R). { assert (t * C <= q / C * C)%R by (apply Rmult_le_compat_r; lra). replace (q / C * C)%R with q in H2 by (field; lra). exact H2. }
    unfold C in E3. lra. }
  (* the limit is not zero *)
  assert (Pos : forall s, (s = 1 \/ s = -1)%R -> (forall eta, (0 < eta)%R -> (d / (Cabs (w, eta) + half_width m N) ^ 2 <= s * Re (g0 eta))%R) -> (0 < s * x)%R).
  { intros s Hs H. set (b := (Rabs w + 1 + half_width m N)%R). assert (B0 : (0 < b)%R) by (pose proof (Rabs_pos w); pose proof (Band_proofs.half_width_pos m N); unfold b; lra).
    assert (B2 : (0 < b ^ 2)%R) by (apply pow_lt; exact B0). set (q := (d / b ^ 2)%R). assert (Q0 : (0 < q)%R) by (apply Rdiv_lt_0_compat; assumption).
    set (eta := Rmin 1 (q / 2 * d ^ 2)). assert (He : (0 < eta)%R) by (apply Rmin_glb_lt; [lra|apply Rmult_lt_0_compat; lra]).
    pose proof (Rmin_l 1 (q / 2 * d ^ 2)) as E1. fold eta in E1. pose proof (Rmin_r 1 (q / 2 * d ^ 2)) as E2. fold eta in E2.
    specialize (H eta He). pose proof (Main eta He) as B. pose proof (Band_proofs.Re_abs_le (Csub (g0 eta) (RtoC x))) as R1.
    replace (Re (Csub (g0 eta) (RtoC x))) with (Re (g0 eta) - x)%R in R1 by reflexivity.
    assert (E3 : (eta / d ^ 2 <= q / 2)%R) by (apply (Rmult_le_reg_r (d ^ 2)); [exact D2|]; replace (eta / d ^ 2 * d ^ 2)%R with eta by (field; lra); exact E2).
    assert (E4 : (Cabs (w, eta) <= Rabs w + 1)%R).
    { eapply Rle_trans; [apply Cabs_parts|]. unfold Re, Im. cbn [fst snd]. rewrite (Rabs_right eta) by lra. lra. }
    assert (E5 : (q <= d / (Cabs (w, eta) + half_width m N) ^ 2)%R).
    { unfold q. apply Rmult_le_compat_l; [lra|]. pose proof (Contour_proofs.z_abs w eta He). pose proof (Band_proofs.half_width_pos m N). apply Rinv_le_contravar; [apply pow_lt; lra|]. apply pow_incr. unfold b. lra. }
    pose proof (Rle_abs (Re (g0 eta) - x)) as Q1. pose proof (Rle_abs (- (Re (g0 eta) - x))) as Q2. rewrite Rabs_Ropp in Q2. destruct Hs as [-> | ->]; lra. }
  split.
  - intros Bl. assert (d * x ^ 2 <= -1 * x /\ 0 < -1 * x)%R as [Z1 Z2]; [|lra]. split.
    + apply Sgn; [right; reflexivity|]. intros eta He.
      destruct (C75_bound m N k w eta d id_ord sp0 U HN He Hd id_perm SO0 O) as (g & E & _ & _ & B & _). rewrite (V _ He) in E. injection E as <-. specialize (B Bl). lra.
    + apply Pos; [right; reflexivity|]. intros eta He. destruct (C75_lower m N k w eta id_ord sp0 U HN He id_perm SO0) as (g & E & _ & B & _). rewrite (V _ He) in E. injection E as <-. specialize (B d Hd Bl). lra.
  - intros Ab. assert (d * x ^ 2 <= 1 * x /\ 0 < 1 * x)%R as [Z1 Z2]; [|lra]. split.
    + apply Sgn; [left; reflexivity|]. intros eta He.
      destruct (C75_bound m N k w eta d id_ord sp0 U HN He Hd id_perm SO0 O) as (g & E & _ & _ & _ & B). rewrite (V _ He) in E. injection E as <-. specialize (B Ab). lra.
    + apply Pos; [left; reflexivity|]. intros eta He. destruct (C75_lower m N k w eta id_ord sp0 U HN He id_perm SO0) as (g & E & _ & _ & B). rewrite (V _ He) in E. injection E as <-. specialize (B d Hd Ab). lra.
Qed.
Print Assumptions C75_real.

Lemma A_off : forall m N k eta sp ord A w d, usable m -> numbers m N -> (0 < eta)%R -> (0 < d)%R -> (forall k l, Permutation (ord k l) l) -> spsolve_ok sp -> spectral_function m sp ord k eta A ->
  off_band m N w d -> (A w <= eta / PI / (d * d))%R.
Proof.
  intros m N k eta sp ord A w d U HN He Hd P SO HA O. destruct (C75_bound m N k w eta d ord sp U HN He Hd P SO O) as (g & E & _ & [_ B] & _).
  destruct (HA w) as [g' [E' ->]]. rewrite E in E'. injection E' as <-. pose proof PI_RGT_0. replace (eta / PI / (d * d))%R with (eta / d ^ 2 / PI)%R by (field; lra).
  apply Rmult_le_compat_r; [left; apply Rinv_0_lt_compat; lra|exact B].
Qed.

(** The weight of an interval outside of the band. *)
Theorem C75_gap : forall m N k eta sp ord A, usable m -> numbers m N -> (0 < eta)%R -> (forall k l, Permutation (ord k l) l) -> spsolve_ok sp -> spectral_function m sp ord k eta A ->
  forall d a b (pr : Riemann_integrable A a b), (0 < d)%R -> (a < b)%R -> below_band m N b d \/ above_band m N a d -> (RiemannInt pr <= eta / (PI * d))%R.
Proof.
  intros m N k eta sp ord A U HN He P SO HA d a b pr Hd Hab O. pose proof PI_RGT_0 as PP. assert (K0 : (0 <= eta / PI)%R) by (left; apply Rdiv_lt_0_compat; lra).
  pose proof (A_lipschitz m k eta sp ord A U He P SO HA) as HL. pose proof (Sum_proofs.A_lip_pos eta He) as HM.
  assert (Lo : forall x, (x < band_floor m N)%R -> (A x <= eta / PI / ((x - band_floor m N) * (x - band_floor m N)))%R).
  { intros x Hx. pose proof (A_off m N k eta sp ord A x (band_floor m N - x) U HN He ltac:(lra) P SO HA) as B. replace ((x - band_floor m N) * (x - band_floor m N))%R with ((band_floor m N - x) * (band_floor m N - x))%R by ring. apply B. left. unfold below_band. lra. }
  assert (Hi : forall x, (band_ceiling m N < x)%R -> (A x <= eta / PI / ((x - band_ceiling m N) * (x - band_ceiling m N)))%R).
  { intros x Hx. apply (A_off m N k eta sp ord A x (x - band_ceiling m N) U HN He ltac:(lra) P SO HA). right. unfold above_band. lra. }
  replace (eta / (PI * d))%R with (eta / PI / d)%R by (field; lra). destruct O as [O|O].
  - apply (Tail_proofs.left_tail A _ (eta / PI) (band_floor m N) HM HL K0 Lo d b a pr Hd O Hab).
  - apply (Tail_proofs.right_tail A _ (eta / PI) (band_ceiling m N) HM HL K0 Hi d a b pr Hd O Hab).
Qed.
Print Assumptions C75_gap.

(** All the weight but 2 eta / (pi d) lies within [d] of the band. *)
Theorem C75_window : forall m N k eta sp ord A, usable m -> numbers m N -> (0 < eta)%R -> (forall k l, Permutation (ord k l) l) -> spsolve_ok sp -> spectral_function m sp ord k eta A ->
  forall d a b (pr : Riemann_integrable A a b), (0 < d)%R -> below_band m N a d -> above_band m N b d -> (1 - 2 * eta / (PI * d) <= RiemannInt pr <= 1)%R.
Proof.
  intros m N k eta sp ord A U HN He P SO HA d a b pr Hd Ba Ab. pose proof PI_RGT_0 as PP. assert (K0 : (0 <= eta / PI)%R) by (left; apply Rdiv_lt_0_compat; lra).
  pose proof (A_lipschitz m k eta sp ord A U He P SO HA) as HL. pose proof (Sum_proofs.A_lip_pos eta He) as HM.
  assert (Lt : (a < b)%R).
  { unfold below_band, band_floor in Ba. unfold above_band, band_ceiling in Ab. pose proof (Band_proofs.phonon_zero m). pose proof (Band_proofs.half_width_pos m N). lra. }
  split; [|exact (proj2 (C74_window m k eta sp ord A U He P SO HA a b pr Lt))].
  replace (2 * eta / (PI * d))%R with (2 * (eta / PI / d))%R by (field; lra).
  apply (Tail_proofs.middle A _ (eta / PI) (band_floor m N) (band_ceiling m N) HM HL K0); [| | |exact Hd|exact Ba|exact Ab].
  - intros x Hx. pose proof (A_off m N k eta sp ord A x (band_floor m N - x) U HN He ltac:(lra) P SO HA) as B. replace ((x - band_floor m N) * (x - band_floor m N))%R with ((band_floor m N - x) * (band_floor m N - x))%R by ring. apply B. left. unfold below_band. lra.
  - intros x Hx. apply (A_off m N k eta sp ord A x (x - band_ceiling m N) U HN He ltac:(lra) P SO HA). right. unfold above_band. lra.
  - intros e Hp. destruct (C74_total m eta e U He Hp) as [r0 H]. exists r0. intros r pr0 Hr. pose proof (H k sp ord A r pr0 P SO HA Hr) as B. pose proof (Rle_abs (- (RiemannInt pr0 - 1))) as Q. rewrite Rabs_Ropp in Q. lra.
Qed.
Print Assumptions C75_window.

(** The same for a model at a temperature. *)
Theorem C75_thermal : forall T hop lat l m N k eta d, (0 < T)%R -> l <> [] -> (forall a, In a l -> a_override a = None) -> distinct Rnum (doubled_freqs Rnum l) ->
  (forall a, In a l -> a_type a = "BondPeierls"%string) \/ (forall a, In a l -> a_type a <> "BondPeierls"%string) ->
  lat = 1%R \/ hop = 0%R -> (0 <= hop)%R -> accepts Rnum (from_parameters hop lat T None 1) l m -> numbers m N -> (0 < eta)%R -> (0 < d)%R ->
  forall sp ord A, (forall k l, Permutation (ord k l) l) -> spsolve_ok sp -> spectral_function m sp ord k eta A ->
  (forall w, off_band m N w d -> (0 < A w <= eta / (PI * d ^ 2))%R) /\
  forall a b (pr : Riemann_integrable A a b), below_band m N a d -> above_band m N b d -> (1 - 2 * eta / (PI * d) <= RiemannInt pr <= 1)%R.
Proof.
  intros T hop lat l m N k eta d HT Ln Pl Df Bp Hl Ht A HN He Hd sp ord A' P SO HA. pose proof (hot_usable T hop lat l m HT Ln Pl Df Bp Hl Ht A) as U. pose proof PI_RGT_0. split.
  - intros w O. destruct (C74_defined m k eta ord sp U He P SO) as [A0 [_ [Pos Un]]]. split; [rewrite (Un ord sp A' P SO HA); apply Pos|].
    replace (eta / (PI * d ^ 2))%R with (eta / PI / (d * d))%R by (field; lra). exact (A_off m N k eta sp ord A' w d U HN He Hd P SO HA O).
  - intros a b pr. exact (C75_window m N k eta sp ord A' U HN He P SO HA d a b pr Hd).
Qed.
Print Assumptions C75_thermal.

(** Edwards' model with hopping 1 / 2 and coupling 2: its band lies in [-9, 10]. *)
Example C75_nonvacuous : usable (x_model 1) /\ numbers (x_model 1) 1 /\ band_floor (x_model 1) 1 = (-9)%R /\ band_ceiling (x_model 1) 1 = 10%R /\
  below_band (x_model 1) 1 (-19) 10 /\ above_band (x_model 1) 1 20 10 /\ forall k eta, (0 < eta)%R ->
  (exists g : C, greens (phys_env (x_model 1) k (-19) eta) (gauss_sparse (F := CF) C_eq_dec) id_ord (x_model 1) = Ok g /\ (Cabs g <= 1 / 10)%R /\ (Re g <= 0)%R /\ (0 < - Im g <= eta / 100)%R) /\
  exists A, spectral_function (x_model 1) (gauss_sparse (F := CF) C_eq_dec) id_ord k eta A /\ forall pr : Riemann_integrable A (-19) 20, (1 - eta / 10 <= RiemannInt pr <= 1)%R.
Proof.
  destruct C57_nonvacuous as [U _]. assert (HN : numbers (x_model 1) 1) by (split; [lia|]; intros [|t] Ht; cbn in *; lia).
  assert (HW : half_width (x_model 1) 1 = 9%R).
  { unfold half_width. cbn [x_model x_models m_ham h_hop h_terms fold_right x_term ht_coupling]. rewrite sqrt_1, !Rabs_right by lra. lra. }
  assert (F : band_floor (x_model 1) 1 = (-9)%R). { unfold band_floor. rewrite HW. unfold phonon_floor. cbn [x_model x_models m_ham m_ntypes h_freqs m_pn seq nth fold_right]. rewrite Rmin_left by lra. lra. }
  assert (C : band_ceiling (x_model 1) 1 = 10%R). { unfold band_ceiling. rewrite HW. unfold phonon_ceiling. cbn [x_model x_models m_ham m_ntypes h_freqs m_pn seq nth fold_right]. rewrite Rmax_right by lra. lra. }
  assert (B1 : below_band (x_model 1) 1 (-19) 10) by (unfold below_band; lra). assert (B2 : above_band (x_model 1) 1 20 10) by (unfold above_band; lra).
  split; [exact U|]. split; [exact HN|]. split; [exact F|]. split; [exact C|]. split; [exact B1|]. split; [exact B2|]. intros k eta He. pose proof (gauss_spsolve_ok (F := CF) C_eq_dec) as SO. split.
  - destruct (C75_bound (x_model 1) 1 k (-19) eta 10 id_ord _ U HN He ltac:(lra) id_perm SO (or_introl B1)) as (g & E & A1 & A2 & A3 & _). exists g. split; [exact E|]. split; [exact A1|].
    replace (10 ^ 2)%R with 100%R in A2 by ring. split; [|exact A2]. specialize (A3 B1). pose proof (Band_proofs.Cnorm2_ge0 g). lra.
  - destruct (C74_defined (x_model 1) k eta id_ord _ U He id_perm SO) as [A [HA _]]. exists A. split; [exact HA|]. intros pr.
    destruct (C75_window (x_model 1) 1 k eta _ id_ord A U HN He id_perm SO HA 10 _ _ pr ltac:(lra) B1 B2) as [W1 W2]. split; [|exact W2]. pose proof PI_RGT_0.
    assert (2 <= PI)%R by (pose proof PI2_1; lra).
    assert (2 * eta / (PI * 10) <= eta / 10)%R; [|lra]. apply (Rmult_le_reg_r (PI * 10)); [lra|]. replace (2 * eta / (PI * 10) * (PI * 10))%R with (2 * eta)%R by (field; lra). nra.
Qed.
Print Assumptions C75_nonvacuous.
