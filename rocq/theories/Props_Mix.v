(** Property theorems C80: how the energies and the Green's function depend on
    the couplings and the frequencies. *)
From Coq Require Import String ZArith List Bool Lia Permutation Reals Lra.
From Verif Require Import Base NdArray Config Spec Model HModel Space Spec_space Term Equation System Spec_engine Props_Engine
  Ring Coef Spec_eom Solvers Spec_solve LinSolve Spec_model Spec_sym Cplx Physics Props_Physics Props_Model Props_Solve Props_Sym Spec_spectral Props_Spectral
  Spec_green Props_Green Spec_cutoff Spec_exact Spec_moments Props_Moments Props_Pipeline Props_Thermal Spec_sum Props_Sum Spec_band Props_Band Spec_pick Props_Pick Spec_ritz Props_Ritz Spec_mix.
From Verif Require HModel_proofs Physics_proofs Extent_proofs Band_proofs Cutoff_proofs Ritz_proofs Dual_proofs Mix_proofs.
Import ListNotations.
Open Scope list_scope.
Open Scope Z_scope.

Lemma dual : forall m ae c k sg e w eta d g, sound m ae c -> Ritz_proofs.beyond_all m ae c k sg e -> (0 < d)%R -> (d <= sg * (w - e))%R -> returned m k w eta g ->
  (forall r l Psi, trial m ae k r l Psi -> (sg * (2 * Re (Psi vacuum 0%Z) - (w * trial_norm m r l Psi - trial_energy m c r l Psi)) <= sg * Re g + eta * (trial_norm m r l Psi + 1 / (d * d)))%R) /\
  (forall eps, (0 < eps)%R -> exists r l Psi, trial m ae k r l Psi /\ (trial_norm m r l Psi <= 1 / (d * d))%R /\
    (sg * Re g - eps <= sg * (2 * Re (Psi vacuum 0%Z) - (w * trial_norm m r l Psi - trial_energy m c r l Psi)))%R).
Proof.
  intros m ae c k sg e w eta d g S B Hd Hw Rt. destruct (of_row m ae c k w eta g S Rt) as (P & Ro & _ & ->). destruct S as [G L H _ _]. destruct (numbers_ex m) as [N [N0 HN]]. destruct (Extent_proofs.couples_ex m c) as [rho [R0 CW]].
  pose proof (Extent_proofs.numbers_at_most m ae N HN N0) as AM. split.
  - intros r l Psi T. exact (Dual_proofs.upper m ae c k G L (H k) N rho N0 AM R0 CW sg e B w d eta Hw (proj1 Rt) Hd P Ro r l Psi T).
  - intros eps Ep. exact (Dual_proofs.attained m ae c k G L (H k) N rho N0 AM R0 CW sg e B w d eta Hw (proj1 Rt) Hd P Ro eps Ep).
Qed.

(** Below all energies, by [d], the real part of the returned number is, up to
    the broadening, the minimum of <Psi|H - w|Psi> + 2 Re Psi(vacuum) over the
    trial states; above it is a maximum. *)
Theorem C80_formula : forall m ae c k e w eta d g, sound m ae c -> (0 < d)%R -> returned m k w eta g ->
  (energies_above m ae c k e -> (w + d <= e)%R ->
    (forall r l Psi, trial m ae k r l Psi ->
      (Re g <= 2 * Re (Psi vacuum 0%Z) + (trial_energy m c r l Psi - w * trial_norm m r l Psi) + eta * (trial_norm m r l Psi + 1 / d ^ 2))%R) /\
    forall eps, (0 < eps)%R -> exists r l Psi, trial m ae k r l Psi /\ (trial_norm m r l Psi <= 1 / d ^ 2)%R /\
      (2 * Re (Psi vacuum 0%Z) + (trial_energy m c r l Psi - w * trial_norm m r l Psi) <= Re g + eps)%R) /\
  (energies_below m ae c k e -> (e + d <= w)%R ->
    (forall r l Psi, trial m ae k r l Psi ->
      (2 * Re (Psi vacuum 0%Z) - (w * trial_norm m r l Psi - trial_energy m c r l Psi) <= Re g + eta * (trial_norm m r l Psi + 1 / d ^ 2))%R) /\
    forall eps, (0 < eps)%R -> exists r l Psi, trial m ae k r l Psi /\ (trial_norm m r l Psi <= 1 / d ^ 2)%R /\
      (Re g - eps <= 2 * Re (Psi vacuum 0%Z) - (w * trial_norm m r l Psi - trial_energy m c r l Psi))%R).
Proof.
  intros m ae c k e w eta d g S Hd Rt. replace (d ^ 2)%R with (d * d)%R by ring. split; intros E Hw.
  - destruct (dual m ae c k (-1) e w eta d g S (beyond_above _ _ _ _ _ E) Hd ltac:(lra) Rt) as [A B]. split.
    + intros r l Psi T. specialize (A r l Psi T). lra.
    + intros eps Ep. destruct (B eps Ep) as (r & l & Psi & T & Nm & X). exists r, l, Psi. split; [exact T|]. split; [exact Nm|lra].
  - destruct (dual m ae c k 1 e w eta d g S (beyond_below _ _ _ _ _ E) Hd ltac:(lra) Rt) as [A B]. split.
    + intros r l Psi T. specialize (A r l Psi T). lra.
    + intros eps Ep. destruct (B eps Ep) as (r & l & Psi & T & Nm & X). exists r, l, Psi. split; [exact T|]. split; [exact Nm|lra].
Qed.
Print Assumptions C80_formula.

Lemma above_beyond : forall m ae c k e, Ritz_proofs.beyond_all m ae c k (-1) e -> energies_above m ae c k e.
Proof. intros m ae c k e [_ H] r l Psi T. specialize (H r l Psi T). lra. Qed.
Lemma below_beyond : forall m ae c k e, Ritz_proofs.beyond_all m ae c k 1 e -> energies_below m ae c k e.
Proof. intros m ae c k e [_ H] r l Psi T. specialize (H r l Psi T). lra. Qed.

(** The least energy is a concave function of the Hamiltonian, the greatest a
    convex one. *)
Theorem C80_concave : forall th m0 m1 m ae c k e0 e1, mixed th m0 m1 m -> (0 <= th <= 1)%R ->
  (energies_above m0 ae c k e0 -> energies_above m1 ae c k e1 -> energies_above m ae c k ((1 - th) * e0 + th * e1)) /\
  (energies_below m0 ae c k e0 -> energies_below m1 ae c k e1 -> energies_below m ae c k ((1 - th) * e0 + th * e1)).
Proof.
  intros th m0 m1 m ae c k e0 e1 Mx Ht. split; intros A B.
  - apply above_beyond. apply (Mix_proofs.covered_beyond (-1) th m0 m1); [apply Mix_proofs.covered_mixed, Mx|exact Ht|apply beyond_above, A|apply beyond_above, B].
  - apply below_beyond. apply (Mix_proofs.covered_beyond 1 th m0 m1); [apply Mix_proofs.covered_mixed, Mx|exact Ht|apply beyond_below, A|apply beyond_below, B].
Qed.
Print Assumptions C80_concave.

Lemma self_mean : forall th e, ((1 - th) * e + th * e = e)%R. Proof. intros. ring. Qed.

(** Weaker couplings to phonons, of either sign, leave the energies between the
    same bounds. *)
Theorem C80_weaker : forall s th m m' ae c k e, sound m ae c -> sound m' ae c -> weakened s th m m' -> (-1 <= th <= 1)%R ->
  (energies_above m ae c k e -> energies_above m' ae c k e) /\ (energies_below m ae c k e -> energies_below m' ae c k e).
Proof.
  intros s th m m' ae c k e [G _ H _ _] [_ _ H' _ _] Wk Ht. split; intros A.
  - apply above_beyond. rewrite <- (self_mean ((1 - th) / 2) e). apply (Mix_proofs.covered_beyond (-1) ((1 - th) / 2) m m); [exact (Mix_proofs.covered_weakened (-1) s th m m' ae c k Wk G (H k) (H' k))|lra|apply beyond_above, A|apply beyond_above, A].
  - apply below_beyond. rewrite <- (self_mean ((1 - th) / 2) e). apply (Mix_proofs.covered_beyond 1 ((1 - th) / 2) m m); [exact (Mix_proofs.covered_weakened 1 s th m m' ae c k Wk G (H k) (H' k))|lra|apply beyond_below, A|apply beyond_below, A].
Qed.
Print Assumptions C80_weaker.

(** Higher frequencies raise the energies. *)
Theorem C80_stiffer : forall m m' ae c k e, stiffer m m' ->
  (energies_above m ae c k e -> energies_above m' ae c k e) /\ (energies_below m' ae c k e -> energies_below m ae c k e).
Proof.
  intros m m' ae c k e St. destruct (Mix_proofs.covered_stiffer m m' ae c k St) as [C1 C2]. split; intros A.
  - apply above_beyond. rewrite <- (self_mean 0 e). apply (Mix_proofs.covered_beyond (-1) 0 m m); [exact C1|lra|apply beyond_above, A|apply beyond_above, A].
  - apply below_beyond. rewrite <- (self_mean 0 e). apply (Mix_proofs.covered_beyond 1 0 m' m'); [exact C2|lra|apply beyond_below, A|apply beyond_below, A].
Qed.
Print Assumptions C80_stiffer.

Lemma cov : forall sg th m0 m1 m ae c k e0 e1 w eta d g0 g1 g, sound m0 ae c -> sound m1 ae c -> sound m ae c -> Mix_proofs.covered sg th m0 m1 m ae c k -> (0 <= th <= 1)%R ->
  Ritz_proofs.beyond_all m0 ae c k sg e0 -> Ritz_proofs.beyond_all m1 ae c k sg e1 -> (0 < d)%R -> (d <= sg * (w - e0))%R -> (d <= sg * (w - e1))%R ->
  returned m0 k w eta g0 -> returned m1 k w eta g1 -> returned m k w eta g ->
  (sg * Re g <= (1 - th) * (sg * Re g0) + th * (sg * Re g1) + 2 * eta / (d * d))%R.
Proof.
  intros sg th m0 m1 m ae c k e0 e1 w eta d g0 g1 g S0 S1 S Cv Ht B0 B1 Hd W0 W1 Rt0 Rt1 Rt.
  destruct (of_row m0 ae c k w eta g0 S0 Rt0) as (P0 & Ro0 & _ & ->). destruct (of_row m1 ae c k w eta g1 S1 Rt1) as (P1 & Ro1 & _ & ->). destruct (of_row m ae c k w eta g S Rt) as (P & Ro & _ & ->).
  destruct S0 as [G0 L0 H0 _ _]. destruct S1 as [G1 L1 H1 _ _]. destruct S as [G L H _ _].
  destruct (numbers_ex m0) as [N0 [P0' HN0]]. destruct (numbers_ex m1) as [N1 [P1' HN1]]. destruct (numbers_ex m) as [N2 [P2' HN2]]. set (N := Z.max N0 (Z.max N1 N2)).
  assert (A : forall (x : model R) n, n <= N -> (forall t, (t < m_ntypes x)%nat -> nth t (m_pn x) 0 <= n) -> Spec_extent.at_most x ae N).
  { intros x n Hn Hx. apply Extent_proofs.numbers_at_most; [|unfold N; lia]. intros t T. specialize (Hx t T). lia. }
  exact (Mix_proofs.covered_green m0 m1 m ae c k G0 G1 G L0 L1 L (H0 k) (H1 k) (H k) sg th e0 e1 Cv Ht B0 B1 N ltac:(unfold N; lia) (A m0 N0 ltac:(unfold N; lia) HN0) (A m1 N1 ltac:(unfold N; lia) HN1) (A m N2 ltac:(unfold N; lia) HN2) w d eta Hd (proj1 Rt) W0 W1 P0 P1 P Ro0 Ro1 Ro).
Qed.

(** Below all energies of both the real part of the returned numbers is, up to
    the broadening, a concave function of the Hamiltonian; above a convex one. *)
Theorem C80_mixed : forall th m0 m1 m ae c k e0 e1 w eta d g0 g1 g, sound m0 ae c -> sound m1 ae c -> sound m ae c -> mixed th m0 m1 m -> (0 <= th <= 1)%R -> (0 < d)%R ->
  returned m0 k w eta g0 -> returned m1 k w eta g1 -> returned m k w eta g ->
  (energies_above m0 ae c k e0 -> energies_above m1 ae c k e1 -> (w + d <= e0)%R -> (w + d <= e1)%R -> ((1 - th) * Re g0 + th * Re g1 <= Re g + 2 * eta / d ^ 2)%R) /\
  (energies_below m0 ae c k e0 -> energies_below m1 ae c k e1 -> (e0 + d <= w)%R -> (e1 + d <= w)%R -> (Re g <= (1 - th) * Re g0 + th * Re g1 + 2 * eta / d ^ 2)%R).
Proof.
  intros th m0 m1 m ae c k e0 e1 w eta d g0 g1 g S0 S1 S Mx Ht Hd Rt0 Rt1 Rt. replace (d ^ 2)%R with (d * d)%R by ring. split; intros A B W0 W1.
  - pose proof (cov (-1) th m0 m1 m ae c k e0 e1 w eta d g0 g1 g S0 S1 S (Mix_proofs.covered_mixed _ _ _ _ _ _ _ _ Mx) Ht (beyond_above _ _ _ _ _ A) (beyond_above _ _ _ _ _ B) Hd ltac:(lra) ltac:(lra) Rt0 Rt1 Rt). lra.
  - pose proof (cov 1 th m0 m1 m ae c k e0 e1 w eta d g0 g1 g S0 S1 S (Mix_proofs.covered_mixed _ _ _ _ _ _ _ _ Mx) Ht (beyond_below _ _ _ _ _ A) (beyond_below _ _ _ _ _ B) Hd ltac:(lra) ltac:(lra) Rt0 Rt1 Rt). lra.
Qed.
Print Assumptions C80_mixed.

(** Below all energies of the stronger coupling the returned number of the
    stronger coupling has the lower real part; above the higher. *)
Theorem C80_coupling : forall s th m m' ae c k e w eta d g g', sound m ae c -> sound m' ae c -> weakened s th m m' -> (-1 <= th <= 1)%R -> (0 < d)%R ->
  returned m k w eta g -> returned m' k w eta g' ->
  (energies_above m ae c k e -> (w + d <= e)%R -> (Re g <= Re g' + 2 * eta / d ^ 2)%R) /\
  (energies_below m ae c k e -> (e + d <= w)%R -> (Re g' <= Re g + 2 * eta / d ^ 2)%R).
Proof.
  intros s th m m' ae c k e w eta d g g' S S' Wk Ht Hd Rt Rt'. replace (d ^ 2)%R with (d * d)%R by ring. pose proof (so_good _ _ _ S) as G. pose proof (so_herm _ _ _ S k) as H. pose proof (so_herm _ _ _ S' k) as H'. split; intros A W.
  - pose proof (cov (-1) ((1 - th) / 2) m m m' ae c k e e w eta d g g g' S S S' (Mix_proofs.covered_weakened (-1) s th m m' ae c k Wk G H H') ltac:(lra) (beyond_above _ _ _ _ _ A) (beyond_above _ _ _ _ _ A) Hd ltac:(lra) ltac:(lra) Rt Rt Rt') as X. rewrite self_mean in X. lra.
  - pose proof (cov 1 ((1 - th) / 2) m m m' ae c k e e w eta d g g g' S S S' (Mix_proofs.covered_weakened 1 s th m m' ae c k Wk G H H') ltac:(lra) (beyond_below _ _ _ _ _ A) (beyond_below _ _ _ _ _ A) Hd ltac:(lra) ltac:(lra) Rt Rt Rt') as X. rewrite self_mean in X. lra.
Qed.
Print Assumptions C80_coupling.

(** Higher frequencies raise the real part below all energies, and lower it
    above. *)
Theorem C80_frequency : forall m m' ae c k e w eta d g g', sound m ae c -> sound m' ae c -> stiffer m m' -> (0 < d)%R ->
  returned m k w eta g -> returned m' k w eta g' ->
  (energies_above m ae c k e -> (w + d <= e)%R -> (Re g <= Re g' + 2 * eta / d ^ 2)%R) /\
  (energies_below m' ae c k e -> (e + d <= w)%R -> (Re g <= Re g' + 2 * eta / d ^ 2)%R).
Proof.
  intros m m' ae c k e w eta d g g' S S' St Hd Rt Rt'. replace (d ^ 2)%R with (d * d)%R by ring. destruct (Mix_proofs.covered_stiffer m m' ae c k St) as [C1 C2]. split; intros A W.
  - pose proof (cov (-1) 0 m m m' ae c k e e w eta d g g g' S S S' C1 ltac:(lra) (beyond_above _ _ _ _ _ A) (beyond_above _ _ _ _ _ A) Hd ltac:(lra) ltac:(lra) Rt Rt Rt') as X. lra.
  - pose proof (cov 1 0 m' m' m ae c k e e w eta d g' g' g S' S' S C2 ltac:(lra) (beyond_below _ _ _ _ _ A) (beyond_below _ _ _ _ _ A) Hd ltac:(lra) ltac:(lra) Rt' Rt' Rt) as X. lra.
Qed.
Print Assumptions C80_frequency.

(** Adding phonons with a coupling strength: [Model.add_] with [th] times the
    strength gives the weakened model, at any temperature. *)
Definition with_cs (a : add_args R) (x : R) : add_args R := mkAdd (a_type a) (a_freq a) (a_M a) (a_N a) (a_Mtfd a) (a_Ntfd a) (Some x) (a_dcs a) (a_override a).
Definition scaled (th : R) (idx : nat) (h h' : hterm R) : Prop := same_operator h h' /\ ht_coupling h' = (th * ht_coupling h)%R /\ ht_index h = idx.
Lemma terms_scaled : forall dim c g mult th idx freq ts, get_terms Rnum dim c (n_mul Rnum g mult) idx freq = Some ts ->
  exists ts', get_terms Rnum dim c (n_mul Rnum (th * g)%R mult) idx freq = Some ts' /\ Forall2 (scaled th idx) ts ts'.
Proof.
  intros dim c g mult th idx freq ts E. unfold get_terms in *. repeat match type of E with context [if ?b then _ else _] => destruct b end; try discriminate E; injection E as <-; eexists; (split; [reflexivity|]);
    repeat (constructor; [split; [repeat split|split; [cbn; ring|reflexivity]]|]); constructor.
Qed.
Lemma terms_none : forall dim c g g' idx freq, get_terms Rnum dim c g idx freq = None -> get_terms Rnum dim c g' idx freq = None.
Proof. intros dim c g g' idx freq E. unfold get_terms in *. repeat match type of E with context [if ?b then _ else _] => destruct b end; try discriminate E; reflexivity. Qed.
Definition alike (th : R) (n : nat) (h h' : hamiltonian R) : Prop :=
  h_freqs h' = h_freqs h /\ h_dim h' = h_dim h /\ h_hop h' = h_hop h /\ Forall2 (weaker_term (fun t => Nat.leb n t) th) (h_terms h) (h_terms h').
Lemma ham_scaled : forall th n h h' c idx freq g mult l h1, alike th n h h' -> Z.of_nat n <= idx -> ham_add Rnum h c idx freq (Some g) None mult = Ok (l, h1) ->
  exists h1', ham_add Rnum h' c idx freq (Some (th * g)%R) None mult = Ok (l, h1') /\ alike th n h1 h1'.
Proof.
  intros th n h h' c idx freq g mult l h1 (E1 & E2 & E3 & FA) Hi E. unfold ham_add in *. rewrite E2. destruct (get_terms Rnum (h_dim h) c (n_mul Rnum g mult) (Z.to_nat idx) freq) as [ts|] eqn:Et.
  - destruct (terms_scaled _ _ _ _ th _ _ _ Et) as [ts' [-> FS]]. replace (0 <=? idx) with true in * by (symmetry; apply Z.leb_le; lia). cbn [guard bind] in *. injection E as <- <-. eexists. split; [reflexivity|].
    unfold alike. cbn [h_freqs h_dim h_hop h_terms]. rewrite E1, E3. split; [reflexivity|]. split; [reflexivity|]. split; [reflexivity|]. apply Forall2_app; [exact FA|]. clear - FS Hi. induction FS as [|x y xs ys (A & B & C) FS IH]; constructor; [|exact IH]. split; [exact A|]. rewrite B, C. replace (Nat.leb n (Z.to_nat idx)) with true; [reflexivity|]. symmetry. apply Nat.leb_le. lia.
  - rewrite (terms_none _ _ _ (n_mul Rnum (th * g)%R mult) _ _ Et). injection E as <- <-. exists h'. split; [reflexivity|]. repeat split; assumption.
Qed.

Theorem C80_add : forall m0 a g th logs m, (forall h, In h (h_terms (m_ham m0)) -> (ht_index h < m_ntypes m0)%nat) -> a_cs a = Some g -> a_dcs a = None -> a_override a = None ->
  model_add Rnum m0 a = Ok (logs, m) -> exists m', model_add Rnum m0 (with_cs a (th * g)) = Ok (logs, m') /\ weakened (fun t => Nat.leb (m_ntypes m0) t) th m m'.
Proof.
  intros m0 a g th logs m HI Ec Ed Eo E.
  assert (A0 : alike th (m_ntypes m0) (m_ham m0) (m_ham m0)).
  { repeat split. induction (h_terms (m_ham m0)) as [|h l IH]; constructor; [|apply IH; intros x Hx; apply HI; right; exact Hx]. split; [repeat split|]. replace (Nat.leb (m_ntypes m0) (ht_index h)) with false; [ring|]. symmetry. apply Nat.leb_gt, HI. left. reflexivity. }
  assert (AW : forall x x', m_lattice x = m_lattice x' -> m_ntypes x = m_ntypes x' -> m_mps x = m_mps x' -> m_pe x = m_pe x' -> m_pn x = m_pn x' -> alike th (m_ntypes m0) (m_ham x) (m_ham x') -> weakened (fun t => Nat.leb (m_ntypes m0) t) th x x').
  { intros x x' Q1 Q2 Q3 Q4 Q5 (X1 & X2 & X3 & X4). split; [repeat split; assumption|]. split; [exact X4|]. split; [exact X3|]. intros t _. rewrite X1. reflexivity. }
  assert (Same : Ok (logs, m) = Ok ([LError], m0) -> exists m', Ok ([LError], m0) = Ok (logs, m') /\ weakened (fun t => Nat.leb (m_ntypes m0) t) th m m').
  { intros X. injection X as -> ->. exists m0. split; [reflexivity|]. apply AW; [reflexivity..|exact A0]. }
  unfold model_add, with_cs in *. cbn [a_type a_freq a_M a_N a_Mtfd a_Ntfd a_cs a_dcs a_override]. rewrite Ec, Ed, Eo in *. cbn [is_none xorb negb] in *.
  destruct (n_ltb Rnum (n_0 Rnum) (m_temp m0) && (is_none (a_Mtfd a) || is_none (a_Ntfd a))); [apply Same; symmetry; exact E|].
  destruct ((a_N a <? 1) || (a_M a <? 1)); [apply Same; symmetry; exact E|]. destruct (lt1 (a_Mtfd a) || lt1 (a_Ntfd a)); [apply Same; symmetry; exact E|].
  destruct (tfd_prefactors Rnum (m_temp m0) (a_freq a)) as [V Vt]. destruct (ham_add Rnum (m_ham m0) (a_type a) (Z.of_nat (m_ntypes m0)) (a_freq a) (Some g) None V) as [[l1 h1]|x] eqn:E1; [|discriminate E].
  destruct (ham_scaled th (m_ntypes m0) _ _ _ (Z.of_nat (m_ntypes m0)) _ _ _ _ _ A0 ltac:(lia) E1) as [h1' [E1' A1]]. rewrite E1'. cbn [bind] in *. destruct (n_ltb Rnum (n_0 Rnum) (m_temp m0)).
  - destruct (ham_add Rnum h1 (a_type a) (Z.of_nat (m_ntypes m0) + 1) (n_opp Rnum (a_freq a)) (Some g) None Vt) as [[l2 h2]|x] eqn:E2; [|discriminate E].
    destruct (ham_scaled th (m_ntypes m0) _ _ _ (Z.of_nat (m_ntypes m0) + 1) _ _ _ _ _ A1 ltac:(lia) E2) as [h2' [E2' A2]]. rewrite E2'. cbn [bind] in *. destruct (a_Mtfd a) as [Mt|]; [|discriminate E]. destruct (a_Ntfd a) as [Nt|]; [|discriminate E].
    injection E as <- <-. eexists. split; [reflexivity|]. apply AW; [reflexivity..|exact A2].
  - injection E as <- <-. eexists. split; [reflexivity|]. apply AW; [reflexivity..|exact A1].
Qed.
Print Assumptions C80_add.

(** Edwards' model with hopping 1 / 2, coupling [g], frequency [f] and at most
    four phonons. *)
Definition y_args (g f : R) : add_args R := mkAdd "EdwardsFermionBoson" f 1 4 None None (Some g) None None.
Definition y_term (g f : R) (p q : Z) (s : dagger) : hterm R := mkHterm "EdwardsFermionBoson" (iv p) (iv q) s (g * 1)%R 0 f.
Definition y_model (g f : R) : model R :=
  mkModel 1%R 0%R (mkHam [ y_term g f 1 1 Plus; y_term g f (-1) (-1) Plus; y_term g f 1 0 Minus; y_term g f (-1) 0 Minus ] [f] 1 (1 / 2)%R) None [1] [4] None 1.
Lemma y_add : forall g f, model_add Rnum (from_parameters (1 / 2)%R 1%R 0%R None 1) (y_args g f) = Ok ([LDebug], y_model g f).
Proof.
  intros g f. unfold model_add, y_args. cbn [from_parameters m_temp Rnum n_ltb n_0]. destruct (Rlt_dec 0 0) as [H|H]; [lra|]. cbn [andb a_N a_M a_Mtfd a_Ntfd a_cs a_dcs a_override is_none lt1 orb xorb negb].
  change (4 <? 1) with false. change (1 <? 1) with false. cbn [orb]. rewrite andb_false_r. unfold tfd_prefactors. cbn [Rnum n_ltb n_0]. destruct (Rlt_dec 0 0) as [H'|_]; [lra|]. reflexivity.
Qed.
Lemma y_sound : forall g f, f <> 0%R -> usable (y_model g f) /\ sound (y_model g f) 1 0.
Proof.
  intros g f Hf. assert (B : built Rnum 1 (y_model g f) [f] ["EdwardsFermionBoson"%string]).
  { pose proof (built_add Rnum 1 _ [] [] _ _ _ (built_start Rnum 1 (1 / 2)%R 1%R 0%R None) (y_add g f)) as B. cbn [app from_parameters m_temp] in B.
    cbn [Rnum n_ltb n_0] in B. destruct (Rlt_dec 0 0) as [H|H]; [lra|]. apply B; [|reflexivity]. intros [X|[]]. discriminate X. }
  assert (G : good_model (y_model g f) 1).
  { constructor; try (simpl; lia).
    - repeat split; simpl; lia.
    - reflexivity.
    - discriminate.
    - intros [|t] H; simpl in *; lia.
    - intros [|t] H; simpl in *; lia.
    - intros h H. simpl in H. repeat (destruct H as [<-|H]; [simpl; lia|]). destruct H.
    - intros h H. simpl in H. repeat (destruct H as [<-|H]; [reflexivity|]). destruct H.
    - intros h H. simpl in H. repeat (destruct H as [<-|H]; [reflexivity|]). destruct H.
    - intros [|t] H; [|simpl in H; lia]. eexists. split; [left; reflexivity|]. split; reflexivity.
    - eexists. split; [right; right; left; reflexivity|reflexivity].
    - intros h h' _ H. simpl in H. repeat (destruct H as [<-|H]; [discriminate|]). destruct H. }
  split; split.
  - do 2 eexists. split; [exact B|]. split; [discriminate|]. split; [repeat constructor; intros []|right; intros c [<-|[]]; discriminate].
  - intros k E. discriminate E.
  - intros k E. discriminate E.
  - left. reflexivity.
  - cbn. lra.
  - exact G.
  - intros h H. cbn in H. repeat (destruct H as [<-|H]; [split; cbn; [try (exists 1; reflexivity); exists (-1); reflexivity|]; first [exists 1; reflexivity|exists (-1); reflexivity|exists 0; reflexivity]|]). destruct H.
  - intros k w eta. exact (C51_hermitian _ _ _ 1 k w eta B G).
  - left. reflexivity.
  - cbn. lra.
Qed.
Lemma y_weak : forall g th f, weakened (fun t => Nat.leb 0 t) th (y_model g f) (y_model (th * g) f).
Proof.
  intros g th f. destruct (C80_add (from_parameters (1 / 2)%R 1%R 0%R None 1) (y_args g f) g th [LDebug] (y_model g f)) as [m' [E W]]; [intros h []|reflexivity|reflexivity|reflexivity|apply y_add|].
  change (with_cs (y_args g f) (th * g)) with (y_args (th * g) f) in E. rewrite y_add in E. injection E as <-. exact W.
Qed.
Lemma y_mix : forall th g0 g1 f0 f1, mixed th (y_model g0 f0) (y_model g1 f1) (y_model ((1 - th) * g0 + th * g1) ((1 - th) * f0 + th * f1)).
Proof.
  intros th g0 g1 f0 f1. split; [repeat split|]. split; [repeat split|]. split; [|split].
  - cbn [y_model m_ham h_terms]. repeat (constructor; [repeat split|repeat split|cbn; ring|]). constructor.
  - cbn. field.
  - intros [|t] Ht; cbn in *; [ring|lia].
Qed.
Lemma y_stiff : forall g f f', (f <= f')%R -> stiffer (y_model g f) (y_model g f').
Proof.
  intros g f f' Hf. split; [repeat split|]. split; [|split].
  - cbn [y_model m_ham h_terms]. repeat (constructor; [split; [repeat split|reflexivity]|]). constructor.
  - reflexivity.
  - intros [|t] Ht; cbn in *; [exact Hf|lia].
Qed.

(** No trial state with coupling 2 or less and frequency 1 or more has an energy
    below -17; at w = -27 the number returned for the coupling 1 is at least the
    mean of those for 2 and 0, at least that for 2, and that for the frequency
    3 is at least that for the frequency 1, up to eta / 50. *)
Example C80_nonvacuous : (forall k, energies_above (y_model 2 1) 1 0 k (-17)) /\ (forall g f, (-2 <= g <= 2)%R -> (1 <= f)%R -> usable (y_model g f) /\ sound (y_model g f) 1 0 /\ forall k, energies_above (y_model g f) 1 0 k (-17)) /\
  weakened (fun t => Nat.leb 0 t) (1 / 2) (y_model 2 1) (y_model (1 / 2 * 2) 1) /\ mixed (1 / 2) (y_model 2 1) (y_model 0 1) (y_model ((1 - 1 / 2) * 2 + 1 / 2 * 0) ((1 - 1 / 2) * 1 + 1 / 2 * 1)) /\ stiffer (y_model 2 1) (y_model 2 3) /\
  forall k eta, (0 < eta)%R -> exists g2 g1 g0 h : C, returned (y_model 2 1) k (-27) eta g2 /\ returned (y_model 1 1) k (-27) eta g1 /\ returned (y_model 0 1) k (-27) eta g0 /\ returned (y_model 2 3) k (-27) eta h /\
    (Re g2 <= Re g1 + eta / 50)%R /\ (Re g1 <= Re g0 + eta / 50)%R /\ ((Re g2 + Re g0) / 2 <= Re g1 + eta / 50)%R /\ (Re g2 <= Re h + eta / 50)%R.
Proof.
  assert (EX : y_model 2 1 = x_models 1 4) by reflexivity.
  assert (A0 : forall k, energies_above (y_model 2 1) 1 0 k (-17)) by (intros k; rewrite EX; apply C78_nonvacuous).
  assert (AG : forall g f, (-2 <= g <= 2)%R -> (1 <= f)%R -> usable (y_model g f) /\ sound (y_model g f) 1 0 /\ forall k, energies_above (y_model g f) 1 0 k (-17)).
  { intros g f Hg Hf. destruct (y_sound g f ltac:(lra)) as [U S]. split; [exact U|]. split; [exact S|]. intros k. apply (C80_stiffer (y_model g 1) (y_model g f) 1 0 k (-17) (y_stiff g 1 f Hf)).
    destruct (y_sound 2 1 ltac:(lra)) as [_ S2]. destruct (y_sound g 1 ltac:(lra)) as [_ S1]. pose proof (y_weak 2 (g / 2) 1) as Wk. replace (g / 2 * 2)%R with g in Wk by field. exact (proj1 (C80_weaker _ (g / 2) _ _ 1 0 k (-17) S2 S1 Wk ltac:(lra)) (A0 k)). }
  split; [exact A0|]. split; [exact AG|]. split; [apply y_weak|]. split; [apply y_mix|]. split; [apply y_stiff; lra|].
  intros k eta He. destruct (AG 2%R 1%R ltac:(lra) ltac:(lra)) as (U2 & S2 & _). destruct (AG 1%R 1%R ltac:(lra) ltac:(lra)) as (U1 & S1 & A1). destruct (AG 0%R 1%R ltac:(lra) ltac:(lra)) as (U0 & S0 & A0'). destruct (AG 2%R 3%R ltac:(lra) ltac:(lra)) as (U3 & S3 & _).
  destruct (returned_ex _ k (-27) eta U2 He) as [g2 R2]. destruct (returned_ex _ k (-27) eta U1 He) as [g1 R1]. destruct (returned_ex _ k (-27) eta U0 He) as [g0 R0]. destruct (returned_ex _ k (-27) eta U3 He) as [h R3].
  exists g2, g1, g0, h. split; [exact R2|]. split; [exact R1|]. split; [exact R0|]. split; [exact R3|].
  pose proof (y_weak 2 (1 / 2) 1) as W1. replace (1 / 2 * 2)%R with 1%R in W1 by field. pose proof (y_weak 1 0 1) as W0. replace (0 * 1)%R with 0%R in W0 by ring. pose proof (y_mix (1 / 2) 2 0 1 1) as Mx. replace ((1 - 1 / 2) * 2 + 1 / 2 * 0)%R with 1%R in Mx by field. replace ((1 - 1 / 2) * 1 + 1 / 2 * 1)%R with 1%R in Mx by field.
  pose proof (proj1 (C80_coupling _ _ _ _ 1 0 k (-17) (-27) eta 10 g2 g1 S2 S1 W1 ltac:(lra) ltac:(lra) R2 R1) (A0 k) ltac:(lra)) as X1.
  pose proof (proj1 (C80_coupling _ _ _ _ 1 0 k (-17) (-27) eta 10 g1 g0 S1 S0 W0 ltac:(lra) ltac:(lra) R1 R0) (A1 k) ltac:(lra)) as X2.
  pose proof (proj1 (C80_mixed _ _ _ _ 1 0 k (-17) (-17) (-27) eta 10 g2 g0 g1 S2 S0 S1 Mx ltac:(lra) ltac:(lra) R2 R0 R1) (A0 k) (A0' k) ltac:(lra) ltac:(lra)) as X3.
  pose proof (proj1 (C80_frequency _ _ 1 0 k (-17) (-27) eta 10 g2 h S2 S3 (y_stiff 2 1 3 ltac:(lra)) ltac:(lra) R2 R3) (A0 k) ltac:(lra)) as X4. lra.
Qed.
Print Assumptions C80_nonvacuous.
