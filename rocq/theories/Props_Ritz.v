(** Property theorems C78: the Green's function and the energies of trial states. *)
From Coq Require Import String ZArith List Bool Lia Permutation Reals Lra.
From Verif Require Import Base NdArray Config Spec Model HModel Space Spec_space Term Equation System Spec_engine Props_Engine
  Ring Coef Spec_eom Solvers Spec_solve LinSolve Spec_model Spec_sym Cplx Physics Props_Physics Props_Model Props_Solve Props_Sym Spec_spectral Props_Spectral
  Spec_green Props_Green Spec_cutoff Spec_exact Spec_moments Props_Moments Props_Pipeline Props_Thermal Spec_sum Props_Sum Spec_band Props_Band Spec_pick Props_Pick Spec_ritz.
From Verif Require HModel_proofs Physics_proofs Extent_proofs Band_proofs Cutoff_proofs Ritz_proofs.
Import ListNotations.
Open Scope list_scope.
Open Scope Z_scope.

Lemma of_row : forall m ae c k w eta g, sound m ae c -> returned m k w eta g -> exists Psi, greens_row m ae c k (w, eta) Psi /\ (Im g < 0)%R /\ g = Psi vacuum 0.
Proof.
  intros m ae c k w eta g S (He & ord & sp & P & SO & E). destruct (on_row m ae c k w eta S He) as (Psi & Ro & I & Ec). rewrite (Ec ord sp P SO) in E. injection E as <-. exists Psi. split; [exact Ro|]. split; [exact I|reflexivity].
Qed.
Lemma beyond_above : forall m ae c k e, energies_above m ae c k e -> Ritz_proofs.beyond_all m ae c k (-1) e.
Proof. intros m ae c k e H. split; [right; reflexivity|]. intros r l Psi T. specialize (H r l Psi T). lra. Qed.
Lemma beyond_below : forall m ae c k e, energies_below m ae c k e -> Ritz_proofs.beyond_all m ae c k 1 e.
Proof. intros m ae c k e H. split; [left; reflexivity|]. intros r l Psi T. specialize (H r l Psi T). lra. Qed.

Lemma gap : forall m ae c k sg e w eta d g, sound m ae c -> Ritz_proofs.beyond_all m ae c k sg e -> (0 < d)%R -> (d <= sg * (w - e))%R -> returned m k w eta g ->
  (d * Cnorm2 g <= sg * Re g)%R /\ (Cabs g <= 1 / d)%R /\ (0 < - Im g <= eta / (d * d))%R.
Proof.
  intros m ae c k sg e w eta d g S B Hd Hw Rt. destruct (of_row m ae c k w eta g S Rt) as (Psi & Ro & I & ->). destruct S as [G L H Hl Ht]. destruct (numbers_ex m) as [N [N0 HN]]. destruct (Extent_proofs.couples_ex m c) as [rho [R0 CW]].
  destruct (Ritz_proofs.ritz_at m ae c k G L (H k) N rho N0 (Extent_proofs.numbers_at_most m ae N HN N0) R0 CW sg e B w d eta Hw (proj1 Rt) Hd Psi Ro) as (A1 & A2 & A3 & _).
  split; [exact A1|]. split; [exact A2|]. split; [lra|exact A3].
Qed.

(** Below, above all energies of trial states of momentum [k], by [d], the
    returned number has the sign of its side, is bounded by 1 / d however small
    the broadening, and its spectral weight is at most eta / d^2. *)
Theorem C78_gap : forall m ae c k e w eta d g, sound m ae c -> (0 < d)%R -> returned m k w eta g ->
  (energies_above m ae c k e -> (w + d <= e)%R -> (Re g <= - (d * Cnorm2 g))%R /\ (Cabs g <= 1 / d)%R /\ (0 < - Im g <= eta / d ^ 2)%R) /\
  (energies_below m ae c k e -> (e + d <= w)%R -> (d * Cnorm2 g <= Re g)%R /\ (Cabs g <= 1 / d)%R /\ (0 < - Im g <= eta / d ^ 2)%R).
Proof.
  intros m ae c k e w eta d g S Hd Rt. replace (d ^ 2)%R with (d * d)%R by ring. split; intros E Hw.
  - destruct (gap m ae c k (-1) e w eta d g S (beyond_above _ _ _ _ _ E) Hd ltac:(lra) Rt) as (A & B). split; [lra|exact B].
  - destruct (gap m ae c k 1 e w eta d g S (beyond_below _ _ _ _ _ E) Hd ltac:(lra) Rt) as (A & B). split; [lra|exact B].
Qed.
Print Assumptions C78_gap.

(** The spectral function there. *)
Theorem C78_weight : forall m ae c k e eta sp ord A w d, sound m ae c -> (0 < eta)%R -> (0 < d)%R -> (forall k l, Permutation (ord k l) l) -> spsolve_ok sp -> spectral_function m sp ord k eta A ->
  (energies_above m ae c k e /\ (w + d <= e)%R) \/ (energies_below m ae c k e /\ (e + d <= w)%R) -> (0 < A w <= eta / (PI * d ^ 2))%R.
Proof.
  intros m ae c k e eta sp ord A w d S He Hd P SO HA O. destruct (HA w) as [g [E ->]]. assert (Rt : returned m k w eta g) by (split; [exact He|exists ord, sp; repeat split; assumption]). pose proof PI_RGT_0 as HP.
  assert (B : (0 < - Im g <= eta / d ^ 2)%R) by (destruct (C78_gap m ae c k e w eta d g S Hd Rt) as [X Y]; destruct O as [[O1 O2]|[O1 O2]]; [apply (X O1 O2)|apply (Y O1 O2)]).
  split; [apply Rdiv_lt_0_compat; lra|]. replace (eta / (PI * d ^ 2))%R with (eta / d ^ 2 / PI)%R by (field; lra). apply Rmult_le_compat_r; [left; apply Rinv_0_lt_compat; lra|apply B].
Qed.
Print Assumptions C78_weight.

(** The energies of all trial states lie in the band of C75. *)
Theorem C78_band : forall m ae c N k, sound m ae c -> numbers m N -> energies_above m ae c k (band_floor m N) /\ energies_below m ae c k (band_ceiling m N).
Proof.
  intros m ae c N k [G L H Hl Ht] [N0 HN]. destruct (Extent_proofs.couples_ex m c) as [rho [R0 CW]]. pose proof (Extent_proofs.numbers_at_most m ae N HN N0) as AM.
  split; intros r l Psi T; apply (Ritz_proofs.trial_band m ae c k G L (H k) N rho N0 AM R0 CW r l Psi T).
Qed.
Print Assumptions C78_band.

(** The particle without phonons is a trial state: the least energy is at most
    - 2 t cos (k a), the greatest at least. *)
Theorem C78_free : forall m ae c k e, sound m ae c ->
  (energies_above m ae c k e -> (e <= - (2 * h_hop (m_ham m) * cos (k * m_lattice m)))%R) /\
  (energies_below m ae c k e -> (- (2 * h_hop (m_ham m) * cos (k * m_lattice m)) <= e)%R).
Proof.
  intros m ae c k e [G L H Hl Ht]. pose proof (Ritz_proofs.plane_trial m ae k (H k)) as T. destruct (Ritz_proofs.plane_energy m ae c k (H k)) as [E1 E2].
  split; intros B; specialize (B _ _ _ T); rewrite E1, E2 in B; lra.
Qed.
Print Assumptions C78_free.

(** The variational principle: a wider space has lower least and higher greatest
    energies. *)
Theorem C78_principle : forall m ae m' ae' c k e, same_physics m m' -> wider m ae m' ae' ->
  (energies_above m' ae' c k e -> energies_above m ae c k e) /\ (energies_below m' ae' c k e -> energies_below m ae c k e).
Proof.
  intros m ae m' ae' c k e Sp Wd. pose proof (Ritz_proofs.wider_contained m ae m' ae' Sp Wd) as Sub.
  split; intros B r l Psi T; destruct (Ritz_proofs.trial_sub m m' ae ae' c k Sp Sub r l Psi T) as [T' [-> ->]]; apply B, T'.
Qed.
Print Assumptions C78_principle.

Lemma nested : forall m ae m' ae' c k sg e w eta d g g', sound m ae c -> sound m' ae' c -> same_physics m m' -> contained m ae m' ae' -> Ritz_proofs.beyond_all m' ae' c k sg e ->
  (0 < d)%R -> (d <= sg * (w - e))%R -> returned m k w eta g -> returned m' k w eta g' -> (d * Cnorm2 (Csub g' g) <= sg * (Re g' - Re g) + 2 * eta / (d * d))%R.
Proof.
  intros m ae m' ae' c k sg e w eta d g g' S S' Sp Sub B Hd Hw Rt Rt'. destruct (of_row m ae c k w eta g S Rt) as (Psi & Ro & _ & ->). destruct (of_row m' ae' c k w eta g' S' Rt') as (Psi' & Ro' & _ & ->).
  destruct S as [G _ _ _ _]. destruct S' as [G' L' H' _ _]. destruct (numbers_ex m') as [N [N0 HN]]. destruct (Extent_proofs.couples_ex m' c) as [rho [R0 CW]].
  exact (Ritz_proofs.ritz_nested m m' ae ae' c k G G' Sp Sub L' (H' k) N rho N0 (Extent_proofs.numbers_at_most m' ae' N HN N0) R0 CW sg e B w d eta Hw (proj1 Rt) Hd Psi Psi' Ro Ro').
Qed.

(** Below all energies the returned numbers decrease as the limits on the clouds
    are widened, above they increase, up to the broadening. *)
Theorem C78_limits : forall m ae m' ae' c k e w eta d g g', sound m ae c -> sound m' ae' c -> same_physics m m' -> wider m ae m' ae' -> (0 < d)%R -> returned m k w eta g -> returned m' k w eta g' ->
  (energies_above m' ae' c k e -> (w + d <= e)%R -> (Re g' + d * Cnorm2 (Csub g' g) <= Re g + 2 * eta / d ^ 2)%R) /\
  (energies_below m' ae' c k e -> (e + d <= w)%R -> (Re g + d * Cnorm2 (Csub g' g) <= Re g' + 2 * eta / d ^ 2)%R).
Proof.
  intros m ae m' ae' c k e w eta d g g' S S' Sp Wd Hd Rt Rt'. replace (d ^ 2)%R with (d * d)%R by ring. pose proof (Ritz_proofs.wider_contained m ae m' ae' Sp Wd) as Sub. split; intros E Hw.
  - pose proof (nested m ae m' ae' c k (-1) e w eta d g g' S S' Sp Sub (beyond_above _ _ _ _ _ E) Hd ltac:(lra) Rt Rt'). lra.
  - pose proof (nested m ae m' ae' c k 1 e w eta d g g' S S' Sp Sub (beyond_below _ _ _ _ _ E) Hd ltac:(lra) Rt Rt'). lra.
Qed.
Print Assumptions C78_limits.

(** As the broadening goes to zero the returned numbers converge to a real
    number. *)
Lemma real_at : forall m ae c k sg e w d, usable m -> sound m ae c -> Ritz_proofs.beyond_all m ae c k sg e -> (0 < d)%R -> (d <= sg * (w - e))%R ->
  exists x : R, (forall eta g, returned m k w eta g -> (Cabs (Csub g (RtoC x)) <= eta / (d * d))%R) /\ (d * (x * x) <= sg * x)%R.
Proof.
  intros m ae c k sg e w d U S B Hd Hw. assert (D2 : (0 < d * d)%R) by (apply Rmult_lt_0_compat; exact Hd).
  set (sp0 := gauss_sparse (F := CF) C_eq_dec). assert (SO0 : spsolve_ok sp0) by apply gauss_spsolve_ok. set (g0 := fun eta => code_g m sp0 id_ord k w eta).
  assert (V : forall eta, (0 < eta)%R -> returned m k w eta (g0 eta)).
  { intros eta He. destruct (on_row m ae c k w eta S He) as (Psi & _ & _ & Ec). split; [exact He|]. exists id_ord, sp0. split; [exact id_perm|]. split; [exact SO0|]. unfold g0, code_g. rewrite (Ec id_ord sp0 id_perm SO0). reflexivity. }
  assert (Un : forall eta g, returned m k w eta g -> g = g0 eta).
  { intros eta g (He & ord & sp & P & SO & E). destruct (on_row m ae c k w eta S He) as (Psi & _ & _ & Ec). unfold g0, code_g. rewrite (Ec id_ord sp0 id_perm SO0). rewrite (Ec ord sp P SO) in E. injection E as <-. reflexivity. }
  pose proof (fun eta He => gap m ae c k sg e w eta d _ S B Hd Hw (V eta He)) as Gp.
  destruct (Ritz_proofs.limit g0 d Hd) as [x Hx].
  - intros eta eta' He He'. pose proof (C76_schwarz m k w eta _ w eta' _ U (V eta He) (V eta' He')) as Sc. destruct (Gp eta He) as (_ & _ & I0 & I1). destruct (Gp eta' He') as (_ & _ & J0 & J1). set (a := g0 eta) in *. set (b := g0 eta') in *.
    assert (Q : (Im a * Im b <= eta / (d * d) * (eta' / (d * d)))%R) by (replace (Im a * Im b)%R with (- Im a * - Im b)%R by ring; apply Rmult_le_compat; lra).
    assert (Z : (Cnorm2 (Csub (w, eta) (w, eta')) = (eta - eta') * (eta - eta'))%R) by (unfold Cnorm2, Csub, Re, Im; cbn [fst snd]; ring). rewrite Z in Sc.
    assert (EE : (0 < eta * eta')%R) by (apply Rmult_lt_0_compat; assumption).
    apply Rsqr_incr_0; [|apply Physics_proofs.Cabs_ge0|apply Rmult_le_pos; [apply Rabs_pos|left; apply Rinv_0_lt_compat; exact D2]]. unfold Rsqr. rewrite Physics_proofs.Cabs_sq.
    apply (Rmult_le_reg_r (eta * eta')); [exact EE|]. eapply Rle_trans; [exact Sc|].
    apply Rle_trans with ((eta - eta') * (eta - eta') * (eta / (d * d) * (eta' / (d * d))))%R; [apply Rmult_le_compat_l; [apply Rle_0_sqr|exact Q]|]. right.
    pose proof (Rsqr_abs (eta - eta')) as RA. unfold Rsqr in RA. rewrite RA. field. lra.
  - intros eta He. apply Gp, He.
  - exists x. split; [intros eta g Rt; rewrite (Un eta g Rt); apply Hx, Rt|]. assert (Sg : (sg = 1 \/ sg = -1)%R) by exact (proj1 B).
    apply (Ritz_proofs.limit_form d sg x (fun eta => Re (g0 eta)) Hd Sg); intros t Ht.
    + pose proof (Hx t Ht) as X. pose proof (Band_proofs.Re_abs_le (Csub (g0 t) (RtoC x))) as Y. replace (Re (Csub (g0 t) (RtoC x))) with (Re (g0 t) - x)%R in Y by reflexivity. assert (0 < t / (d * d))%R by (apply Rdiv_lt_0_compat; assumption). unfold Rdiv in *. lra.
    + destruct (Gp t Ht) as [A _]. assert (0 < t / (d * d))%R by (apply Rdiv_lt_0_compat; assumption). assert (Y : (Re (g0 t) * Re (g0 t) <= Cnorm2 (g0 t))%R) by (unfold Cnorm2; pose proof (Rle_0_sqr (Im (g0 t))) as Q; unfold Rsqr in Q; lra).
      apply (Rmult_le_compat_l d) in Y; [|lra]. unfold Rdiv in *. lra.
Qed.
Theorem C78_real : forall m ae c k e w d, usable m -> sound m ae c -> (0 < d)%R ->
  (energies_above m ae c k e /\ (w + d <= e)%R) \/ (energies_below m ae c k e /\ (e + d <= w)%R) ->
  exists x : R, (forall eta g, returned m k w eta g -> (Cabs (Csub g (RtoC x)) <= eta / d ^ 2)%R) /\ (Rabs x <= 1 / d)%R /\ ((w + d <= e)%R -> (x <= 0)%R) /\ ((e + d <= w)%R -> (0 <= x)%R).
Proof.
  intros m ae c k e w d U S Hd O. replace (d ^ 2)%R with (d * d)%R by ring.
  assert (X : exists sg, (sg = 1 \/ sg = -1)%R /\ Ritz_proofs.beyond_all m ae c k sg e /\ (d <= sg * (w - e))%R).
  { destruct O as [[E Hw]|[E Hw]]; [exists (-1)%R|exists 1%R]; (split; [auto|]); (split; [|lra]); [apply beyond_above|apply beyond_below]; exact E. }
  destruct X as (sg & Sg & B & Hw). destruct (real_at m ae c k sg e w d U S B Hd Hw) as (x & Hx & Q). exists x. split; [exact Hx|].
  assert (SX : (0 <= sg * x)%R) by (eapply Rle_trans; [|exact Q]; apply Rmult_le_pos; [lra|apply Rle_0_sqr]).
  split; [|split; intros; destruct Sg as [-> | ->]; lra].
  assert (RA : Rabs x = (sg * x)%R) by (destruct Sg as [-> | ->]; [rewrite Rabs_right; lra|rewrite Rabs_left1; lra]).
  apply (Rmult_le_reg_l d); [exact Hd|]. replace (d * (1 / d))%R with 1%R by (field; lra). destruct (Rle_lt_dec (Rabs x) 0) as [Z|Z]; [pose proof (Rabs_pos x); replace (Rabs x) with 0%R by lra; lra|].
  apply (Rmult_le_reg_r (Rabs x)); [exact Z|]. rewrite Rmult_1_l. pose proof (Rsqr_abs x) as Y. unfold Rsqr in Y. rewrite Rmult_assoc, <- Y. lra.
Qed.
Print Assumptions C78_real.

(** Without broadening the order is strict, unless nothing changes. *)
Theorem C78_order : forall m ae m' ae' c k e w d x x', usable m -> usable m' -> sound m ae c -> sound m' ae' c -> same_physics m m' -> wider m ae m' ae' -> (0 < d)%R ->
  (forall eta g, returned m k w eta g -> (Cabs (Csub g (RtoC x)) <= eta / d ^ 2)%R) -> (forall eta g, returned m' k w eta g -> (Cabs (Csub g (RtoC x')) <= eta / d ^ 2)%R) ->
  (energies_above m' ae' c k e -> (w + d <= e)%R -> (x' + d * (x' - x) ^ 2 <= x)%R) /\ (energies_below m' ae' c k e -> (e + d <= w)%R -> (x + d * (x' - x) ^ 2 <= x')%R).
Proof.
  intros m ae m' ae' c k e w d x x' U U' S S' Sp Wd Hd Hx Hx'. pose proof (Ritz_proofs.wider_contained m ae m' ae' Sp Wd) as Sub. replace (d ^ 2)%R with (d * d)%R in * by ring. replace ((x' - x) ^ 2)%R with ((x' - x) * (x' - x))%R by ring.
  set (sp0 := gauss_sparse (F := CF) C_eq_dec). assert (SO0 : spsolve_ok sp0) by apply gauss_spsolve_ok.
  set (v := fun m eta => code_g m sp0 id_ord k w eta). assert (V : forall m ae, sound m ae c -> forall eta, (0 < eta)%R -> returned m k w eta (v m eta)).
  { intros m0 ae0 S0 eta He. destruct (on_row m0 ae0 c k w eta S0 He) as (Psi & _ & _ & Ec). split; [exact He|]. exists id_ord, sp0. split; [exact id_perm|]. split; [exact SO0|]. unfold v, code_g. rewrite (Ec id_ord sp0 id_perm SO0). reflexivity. }
  assert (K : forall sg, Ritz_proofs.beyond_all m' ae' c k sg e -> (d <= sg * (w - e))%R -> (d * ((x' - x) * (x' - x)) <= sg * (x' - x))%R).
  { intros sg B Hw. apply (Ritz_proofs.limit_form d sg (x' - x)%R (fun eta => Re (v m' eta) - Re (v m eta))%R Hd (proj1 B)); intros t Ht.
    - pose proof (Hx t _ (V m ae S t Ht)) as X. pose proof (Hx' t _ (V m' ae' S' t Ht)) as X'. pose proof (Band_proofs.Re_abs_le (Csub (v m t) (RtoC x))) as Y. pose proof (Band_proofs.Re_abs_le (Csub (v m' t) (RtoC x'))) as Y'.
      replace (Re (Csub (v m t) (RtoC x))) with (Re (v m t) - x)%R in Y by reflexivity. replace (Re (Csub (v m' t) (RtoC x'))) with (Re (v m' t) - x')%R in Y' by reflexivity.
      replace (Re (v m' t) - Re (v m t) - (x' - x))%R with ((Re (v m' t) - x') - (Re (v m t) - x))%R by ring. eapply Rle_trans; [apply Rabs_triang|]. rewrite Rabs_Ropp. replace (2 * t / (d * d))%R with (t / (d * d) + t / (d * d))%R by (field; lra). lra.
    - pose proof (nested m ae m' ae' c k sg e w t d _ _ S S' Sp Sub B Hd Hw (V m ae S t Ht) (V m' ae' S' t Ht)) as Q. eapply Rle_trans; [|exact Q]. apply Rmult_le_compat_l; [lra|].
      unfold Cnorm2, Csub, Re, Im. cbn [fst snd]. match goal with |- (_ <= _ + ?y * ?y)%R => pose proof (Rle_0_sqr y) as Z; unfold Rsqr in Z; lra end. }
  split; intros E Hw.
  - pose proof (K (-1)%R (beyond_above _ _ _ _ _ E) ltac:(lra)). lra.
  - pose proof (K 1%R (beyond_below _ _ _ _ _ E) ltac:(lra)). lra.
Qed.
Print Assumptions C78_order.

(** Edwards' model with hopping 1 / 2 and coupling 2, with at most one and at
    most four phonons: no trial state has an energy below -17 or above 21. *)
Lemma x_sounds : forall n, 1 <= n -> usable (x_models 1 n) /\ sound (x_models 1 n) 1 0.
Proof.
  intros n Hn. destruct C51_nonvacuous as (_ & _ & _ & _ & _ & L). split; split.
  - do 2 eexists. split; [exact (x_builts 1 n Hn)|]. split; [discriminate|]. split; [repeat constructor|right; intros c [<-|[]]; discriminate].
  - intros k E. discriminate E.
  - intros k E. discriminate E.
  - left. reflexivity.
  - cbn. lra.
  - exact (x_goods 1 n Hn).
  - exact L.
  - intros k w eta. exact (C51_hermitian _ _ _ 1 k w eta (x_builts 1 n Hn) (x_goods 1 n Hn)).
  - left. reflexivity.
  - cbn. lra.
Qed.
Example C78_nonvacuous : usable (x_models 1 1) /\ usable (x_models 1 4) /\ sound (x_models 1 1) 1 0 /\ sound (x_models 1 4) 1 0 /\ same_physics (x_models 1 1) (x_models 1 4) /\ wider (x_models 1 1) 1 (x_models 1 4) 1 /\
  ~ wider (x_models 1 4) 1 (x_models 1 1) 1 /\
  (forall k, energies_above (x_models 1 4) 1 0 k (-17) /\ energies_below (x_models 1 4) 1 0 k 21) /\
  (forall k e, energies_above (x_models 1 4) 1 0 k e -> (e <= - cos k)%R) /\
  forall k eta, (0 < eta)%R -> exists g g' : C, returned (x_models 1 1) k (-27) eta g /\ returned (x_models 1 4) k (-27) eta g' /\
    (Re g' <= 0)%R /\ (Cabs g' <= 1 / 10)%R /\ (Re g' + 10 * Cnorm2 (Csub g' g) <= Re g + eta / 50)%R.
Proof.
  destruct (x_sounds 1 ltac:(lia)) as [U S]. destruct (x_sounds 4 ltac:(lia)) as [U' S']. assert (Sp : same_physics (x_models 1 1) (x_models 1 4)) by (repeat split; reflexivity).
  assert (Wd : wider (x_models 1 1) 1 (x_models 1 4) 1) by (split; [lia|]; split; [exact I|]; intros [|t] Ht; cbn in *; lia).
  assert (HN : numbers (x_models 1 4) 4) by (split; [lia|]; intros [|t] Ht; cbn in *; lia).
  assert (HW : half_width (x_models 1 4) 4 = 17%R).
  { unfold half_width. cbn [x_models m_ham h_hop h_terms fold_right x_term ht_coupling]. replace (IZR 4) with (2 * 2)%R by lra. rewrite sqrt_square by lra. rewrite !Rabs_right by lra. lra. }
  assert (F : band_floor (x_models 1 4) 4 = (-17)%R) by (unfold band_floor; rewrite HW; unfold phonon_floor; cbn [x_models m_ham m_ntypes h_freqs m_pn seq nth fold_right]; rewrite Rmin_left by lra; lra).
  assert (C : band_ceiling (x_models 1 4) 4 = 21%R) by (unfold band_ceiling; rewrite HW; unfold phonon_ceiling; cbn [x_models m_ham m_ntypes h_freqs m_pn seq nth fold_right]; rewrite Rmax_right by lra; lra).
  assert (B : forall k, energies_above (x_models 1 4) 1 0 k (-17) /\ energies_below (x_models 1 4) 1 0 k 21) by (intros k; pose proof (C78_band _ 1 0 4 k S' HN) as B; rewrite F, C in B; exact B).
  split; [exact U|]. split; [exact U'|]. split; [exact S|]. split; [exact S'|]. split; [exact Sp|]. split; [exact Wd|]. split; [intros (_ & _ & H); specialize (H 0%nat ltac:(cbn; lia)); cbn in H; lia|]. split; [exact B|]. split.
  - intros k e E. destruct (C78_free (x_models 1 4) 1 0 k e S') as [X _]. specialize (X E). cbn [x_models m_ham h_hop m_lattice] in X. rewrite Rmult_1_r in X. lra.
  - intros k eta He. destruct (returned_ex (x_models 1 1) k (-27) eta U He) as [g Rt]. destruct (returned_ex (x_models 1 4) k (-27) eta U' He) as [g' Rt']. exists g, g'. split; [exact Rt|]. split; [exact Rt'|].
    destruct (C78_gap (x_models 1 4) 1 0 k (-17) (-27) eta 10 g' S' ltac:(lra) Rt') as [X _]. destruct (X (proj1 (B k)) ltac:(lra)) as (X1 & X2 & _). pose proof (Band_proofs.Cnorm2_ge0 g'). split; [lra|]. split; [exact X2|].
    destruct (C78_limits (x_models 1 1) 1 (x_models 1 4) 1 0 k (-17) (-27) eta 10 g g' S S' Sp Wd ltac:(lra) Rt Rt') as [Y _]. specialize (Y (proj1 (B k)) ltac:(lra)). lra.
Qed.
Print Assumptions C78_nonvacuous.
