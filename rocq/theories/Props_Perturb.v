(** Property theorem C73: how the computed Green's function depends on the
    parameters of the model and on the temperature. *)
From Coq Require Import String ZArith List Bool Lia Permutation Reals Lra.
From Verif Require Import Base NdArray Config Spec Model HModel Space Spec_space Term Equation System Spec_engine Props_Engine
  Ring Coef Spec_eom Solvers Spec_solve LinSolve Spec_model Spec_sym Cplx Physics Props_Physics Props_Model Props_Solve Props_Sym Spec_spectral Props_Spectral
  Spec_green Props_Green Spec_extent Spec_perturb Spec_exact Props_Thermal.
From Verif Require HModel_proofs Double_proofs Extent_proofs Perturb_proofs Cold_proofs.
Import ListNotations.
Open Scope list_scope.
Open Scope Z_scope.

(** Two models with the same operators and the same space, at most N phonons in a
    mode: eta^2 |G - G'| <= 2 |t - t'| + the change of the phonon energies +
    sqrt N times the change of the couplings. *)
Theorem C73_parameters : forall m m' ae c ord ord' sp sp' k w eta N rho, alike m m' -> good_model m ae -> good_model m' ae ->
  hermitian (phys_env m k w eta) m -> hermitian (phys_env m' k w eta) m' -> on_lattice m c -> exact_lattice m -> exact_lattice m' ->
  (0 <= h_hop (m_ham m))%R -> (0 <= h_hop (m_ham m'))%R -> (0 < eta)%R ->
  (forall k l, Permutation (ord k l) l) -> (forall k l, Permutation (ord' k l) l) -> spsolve_ok sp -> spsolve_ok sp' ->
  at_most m ae N -> 0 <= rho -> couples_within m c rho ->
  exists g g' : C, greens (phys_env m k w eta) sp ord m = Ok g /\ greens (phys_env m' k w eta) sp' ord' m' = Ok g' /\
    (eta ^ 2 * Cabs (Csub g g') <= change m m' N)%R.
Proof.
  intros m m' ae c ord ord' sp sp' k w eta N rho Al G G' H H' L Hl Hl' Ht Ht' He P P' SO SO' AN R0 CW. pose proof (Perturb_proofs.alike_lat m m' c Al L) as L'.
  destruct (C56_exists m ae c k w eta G H L Hl Ht He) as [Psi Ro]. destruct (C56_exists m' ae c k w eta G' H' L' Hl' Ht' He) as [Psi' Ro'].
  exists (Psi vacuum 0), (Psi' vacuum 0). split; [exact (C56_green m ae c ord sp k w eta Psi G H L Hl Ht He P SO Ro)|].
  split; [exact (C56_green m' ae c ord' sp' k w eta Psi' G' H' L' Hl' Ht' He P' SO' Ro')|].
  assert (AM : at_most m ae (Z.max 0 N)) by (intros a t x Sa; specialize (AN a t x Sa); lia).
  pose proof (Perturb_proofs.parameter_error m m' ae c k w eta He Al G G' L H H' (Z.max 0 N) rho ltac:(lia) AM R0 CW Psi Psi' Ro Ro') as B.
  assert (SQ : sqrt (IZR (Z.max 0 N)) = sqrt (IZR N)).
  { destruct (Z.max_spec 0 N) as [[_ ->]|[Hn ->]]; [reflexivity|]. rewrite sqrt_0. symmetry. apply sqrt_neg_0. apply IZR_le. exact Hn. }
  unfold change in *. rewrite SQ in B. replace (eta ^ 2)%R with (eta * eta)%R by ring. exact B.
Qed.
Print Assumptions C73_parameters.

(** Models made by calls of add_. *)
Theorem C73_histories : forall m m' fs fs' cs cs' ae ord ord' sp sp' k w eta N, built Rnum 1 m fs cs -> built Rnum 1 m' fs' cs' -> alike m m' -> good_model m ae -> good_model m' ae ->
  exact_lattice m -> exact_lattice m' -> (0 <= h_hop (m_ham m))%R -> (0 <= h_hop (m_ham m'))%R -> (0 < eta)%R ->
  (forall k l, Permutation (ord k l) l) -> (forall k l, Permutation (ord' k l) l) -> spsolve_ok sp -> spsolve_ok sp' ->
  (forall t, (t < m_ntypes m)%nat -> nth t (m_pn m) 0 <= N) ->
  exists g g' : C, greens (phys_env m k w eta) sp ord m = Ok g /\ greens (phys_env m' k w eta) sp' ord' m' = Ok g' /\
    (eta ^ 2 * Cabs (Csub g g') <= change m m' N)%R.
Proof.
  intros m m' fs fs' cs cs' ae ord ord' sp sp' k w eta N B B' Al G G' Hl Hl' Ht Ht' He P P' SO SO' HN.
  assert (NT : (0 < m_ntypes m)%nat) by (destruct (gm_minus _ _ G) as [h [Hh _]]; pose proof (gm_index _ _ G h Hh); lia).
  assert (N0 : 0 <= N) by (pose proof (HN 0%nat NT); pose proof (gm_pn _ _ G 0%nat NT); lia).
  destruct (Extent_proofs.built_couples m fs cs ae B G (proj1 Rnum_ok)) as [c [L CW]].
  apply (C73_parameters m m' ae c ord ord' sp sp' k w eta N 1); try assumption; try lia.
  - exact (C51_hermitian m fs cs ae k w eta B G).
  - exact (C51_hermitian m' fs' cs' ae k w eta B' G').
  - apply Extent_proofs.numbers_at_most; assumption.
Qed.
Print Assumptions C73_histories.

(** Equal frequencies and hoppings: only the couplings count. *)
Lemma change_couplings : forall m m' N, h_freqs (m_ham m') = h_freqs (m_ham m) -> h_hop (m_ham m') = h_hop (m_ham m) -> change m m' N = (sqrt (IZR N) * coupling_change m m')%R.
Proof.
  intros m m' N E1 E2. unfold change, energy_change. rewrite E1, E2, Rminus_diag_eq, Rabs_R0 by reflexivity.
  assert (Z0 : forall l : list nat, fold_right (fun t s => (Rabs (nth t (h_freqs (m_ham m)) 0 - nth t (h_freqs (m_ham m)) 0) * IZR (nth t (m_pn m) 0%Z) + s)%R) 0%R l = 0%R).
  { induction l as [|t l IH]; [reflexivity|]. cbn [fold_right]. rewrite IH, Rminus_diag_eq, Rabs_R0 by reflexivity. lra. }
  rewrite Z0. lra.
Qed.
Lemma no_override : forall l : list (add_args R), (forall a, In a l -> a_override a = None) -> forallb (fun a => is_none (a_override a)) l = true.
Proof. intros l H. apply forallb_forall. intros a Ha. rewrite (H a Ha). reflexivity. Qed.

(** The same calls at two temperatures: [m0] is the model at temperature zero. *)
Theorem C73_temperatures : forall hop lat mps T T' l m m' m0 ae ord ord' sp sp' k w eta N delta, (0 < T)%R -> (0 < T')%R ->
  (forall a, In a l -> a_override a = None /\
    (Rabs (fst (tfd_prefactors Rnum T (a_freq a)) - fst (tfd_prefactors Rnum T' (a_freq a))) +
     Rabs (snd (tfd_prefactors Rnum T (a_freq a)) - snd (tfd_prefactors Rnum T' (a_freq a))) <= delta)%R) ->
  accepts Rnum (from_parameters hop lat T mps 1) l m -> accepts Rnum (from_parameters hop lat T' mps 1) l m' -> accepts Rnum (from_parameters hop lat 0%R mps 1) l m0 ->
  good_model m ae -> (forall t, (t < m_ntypes m)%nat -> nth t (m_pn m) 0 <= N) -> lat = 1%R \/ hop = 0%R -> (0 <= hop)%R -> (0 < eta)%R ->
  (forall k l, Permutation (ord k l) l) -> (forall k l, Permutation (ord' k l) l) -> spsolve_ok sp -> spsolve_ok sp' ->
  exists g g' : C, greens (phys_env m k w eta) sp ord m = Ok g /\ greens (phys_env m' k w eta) sp' ord' m' = Ok g' /\
    (eta ^ 2 * Cabs (Csub g g') <= sqrt (IZR N) * (delta * coupling_sum m0))%R.
Proof.
  intros hop lat mps T T' l m m' m0 ae ord ord' sp sp' k w eta N delta HT HT' Hl A A' A0 G HN Hx Ht He P P' SO SO'.
  assert (Ov : forall a, In a l -> a_override a = None) by (intros a Ha; apply (Hl a Ha)).
  destruct (Cold_proofs.twin_calls cosh sinh cosh sinh cosh sinh delta T T' 0%R l (from_parameters hop lat T mps 1) (from_parameters hop lat T' mps 1) (from_parameters hop lat 0%R mps 1) m m0 HT HT' (Rle_refl 0) Hl eq_refl eq_refl eq_refl (Cold_proofs.twin_start hop lat mps T T' 0%R delta) A A0) as [m'' [A'' Tw]].
  assert (m'' = m') as -> by exact (Double_proofs.accepts_det Rnum l _ _ _ A'' A').
  destruct Tw as [Al Fr [D1 _] [H1 _] Ch]. pose proof (Cold_proofs.alike_good m m' ae Al ltac:(rewrite Fr; reflexivity) D1 G) as G'.
  destruct (Cold_proofs.keeps cosh sinh l _ m A) as (K1 & K2 & _). cbn [from_parameters m_lattice m_ham h_hop] in K1, K2. assert (K1' : m_lattice m' = lat) by (destruct Al as [E _]; congruence).
  pose proof (acc_built R Rnum (proj1 Rnum_ok) 1%nat l _ [] [] m (built_start Rnum 1%nat hop lat T mps) A (no_override l Ov)) as B.
  pose proof (acc_built R Rnum (proj1 Rnum_ok) 1%nat l _ [] [] m' (built_start Rnum 1%nat hop lat T' mps) A' (no_override l Ov)) as B'.
  destruct (C73_histories m m' _ _ _ _ ae ord ord' sp sp' k w eta N B B' Al G G') as [g [g' [E [E' Bd]]]]; try assumption.
  - unfold exact_lattice. rewrite K1, K2. exact Hx.
  - unfold exact_lattice. rewrite K1', H1, K2. exact Hx.
  - rewrite K2. exact Ht.
  - rewrite H1, K2. exact Ht.
  - exists g, g'. split; [exact E|]. split; [exact E'|]. rewrite (change_couplings m m' N Fr H1) in Bd. eapply Rle_trans; [exact Bd|]. apply Rmult_le_compat_l; [apply sqrt_pos|exact Ch].
Qed.
Print Assumptions C73_temperatures.

(** The result is a continuous function of the temperature, uniformly in k and
    omega. *)
Theorem C73_continuous : forall hop lat mps T l m ae N eta eps, (0 < T)%R -> (forall a, In a l -> a_override a = None /\ (0 < a_freq a)%R) ->
  accepts Rnum (from_parameters hop lat T mps 1) l m -> good_model m ae -> (forall t, (t < m_ntypes m)%nat -> nth t (m_pn m) 0 <= N) ->
  lat = 1%R \/ hop = 0%R -> (0 <= hop)%R -> (0 < eta)%R -> (0 < eps)%R ->
  exists d, (0 < d)%R /\ forall T' m' ord ord' sp sp' k w, (0 < T')%R -> (Rabs (T' - T) < d)%R -> accepts Rnum (from_parameters hop lat T' mps 1) l m' ->
  (forall k l, Permutation (ord k l) l) -> (forall k l, Permutation (ord' k l) l) -> spsolve_ok sp -> spsolve_ok sp' ->
  exists g g' : C, greens (phys_env m k w eta) sp ord m = Ok g /\ greens (phys_env m' k w eta) sp' ord' m' = Ok g' /\ (Cabs (Csub g g') < eps)%R.
Proof.
  intros hop lat mps T l m ae N eta eps HT Hl A G HN Hx Ht He Hp. assert (Ov : forall a, In a l -> a_override a = None) by (intros a Ha; apply (Hl a Ha)).
  destruct (Cold_proofs.hot_to_cold cosh sinh cosh sinh l (from_parameters hop lat T mps 1) (from_parameters hop lat 0%R mps 1) m HT (Rle_refl 0) Ov eq_refl eq_refl A) as [m0 A0].
  change (Cold_proofs.Rwith cosh sinh) with Rnum in A0. set (B := (sqrt (IZR N) * coupling_sum m0)%R).
  assert (B0 : (0 <= B)%R). { apply Rmult_le_pos; [apply sqrt_pos|]. unfold coupling_sum. induction (h_terms (m_ham m0)) as [|h r IH]; cbn [fold_right]; [lra|]. pose proof (Rabs_pos (ht_coupling h)). lra. }
  assert (e2 : (0 < eta ^ 2)%R) by (cbn; nra). set (delta := (eta ^ 2 * eps / (2 * (B + 1)))%R).
  assert (D0 : (0 < delta)%R) by (unfold delta; apply Rdiv_lt_0_compat; [apply Rmult_lt_0_compat; assumption|lra]).
  destruct (Cold_proofs.calls_continuous l T HT (fun a Ha => proj2 (Hl a Ha)) delta D0) as [d [Hd D]]. exists d. split; [exact Hd|].
  intros T' m' ord ord' sp sp' k w HT' Hc A' P P' SO SO'.
  destruct (C73_temperatures hop lat mps T T' l m m' m0 ae ord ord' sp sp' k w eta N delta) as [g [g' [E [E' Bd]]]]; try assumption.
  { intros a Ha. split; [apply Ov; exact Ha|apply D; assumption]. }
  exists g, g'. split; [exact E|]. split; [exact E'|]. apply (Rmult_lt_reg_l (eta ^ 2)); [exact e2|]. eapply Rle_lt_trans; [exact Bd|].
  replace (sqrt (IZR N) * (delta * coupling_sum m0))%R with (delta * B)%R by (unfold B; ring).
  assert (X : (delta * (2 * (B + 1)) = eta ^ 2 * eps)%R) by (unfold delta; field; lra). nra.
Qed.
Print Assumptions C73_continuous.

(** Low temperatures.  [m] is the model at temperature [T], [m0] that at zero,
    and the prefactors differ from 1 and 0 by [delta]. *)
Theorem C73_cold : forall hop lat mps T T0 l m m0 ae ae0 ord ord0 sp sp0 k w eta N delta, (0 < T)%R -> (T0 <= 0)%R ->
  (forall a, In a l -> a_override a = None /\ (Rabs (fst (tfd_prefactors Rnum T (a_freq a)) - 1) + Rabs (snd (tfd_prefactors Rnum T (a_freq a)) - 0) <= delta)%R) ->
  distinct Rnum (doubled_freqs Rnum l) ->
  accepts Rnum (from_parameters hop lat T mps 1) l m -> accepts Rnum (from_parameters hop lat T0 mps 1) l m0 -> good_model m ae -> good_model m0 ae0 ->
  (List.length l = 1%nat \/ forall a M, In a l -> a_Mtfd a = Some M -> exists a', In a' l /\ M <= a_M a') ->
  (forall t, (t < m_ntypes m)%nat -> nth t (m_pn m) 0 <= N) -> lat = 1%R \/ hop = 0%R -> (0 <= hop)%R -> (0 < eta)%R ->
  (forall k l, Permutation (ord k l) l) -> (forall k l, Permutation (ord0 k l) l) -> spsolve_ok sp -> spsolve_ok sp0 ->
  exists g g0 : C, greens (phys_env m k w eta) sp ord m = Ok g /\ greens (phys_env m0 k w eta) sp0 ord0 m0 = Ok g0 /\
    (eta ^ 2 * Cabs (Csub g g0) <= sqrt (IZR N) * (delta * coupling_sum m0))%R.
Proof.
  intros hop lat mps T T0 l m m0 ae ae0 ord ord0 sp sp0 k w eta N delta HT HT0 Hl Df A A0 G G0' Ex HN Hx Ht He P P0 SO SO0.
  assert (Ov : forall a, In a l -> a_override a = None) by (intros a Ha; apply (Hl a Ha)).
  assert (hot : n_ltb Rnum (n_0 Rnum) T = true) by (cbn; destruct (Rlt_dec 0 T); [reflexivity|contradiction]).
  assert (cold : n_ltb Rnum (n_0 Rnum) T0 = false) by (cbn; destruct (Rlt_dec 0 T0); [lra|reflexivity]).
  assert (pc : forall f, tfd_prefactors Cold_proofs.Rcold T f = (1, 0)%R).
  { intros f. unfold tfd_prefactors. change (n_ltb Cold_proofs.Rcold (n_0 Cold_proofs.Rcold) T) with (n_ltb Rnum (n_0 Rnum) T). rewrite hot. reflexivity. }
  destruct (Cold_proofs.twin_calls cosh sinh (fun _ => 1%R) (fun _ => 0%R) cosh sinh delta T T T0 l (from_parameters hop lat T mps 1) (from_parameters hop lat T mps 1) (from_parameters hop lat T0 mps 1) m m0 HT HT HT0) as [mc [Ac Tw]]; try reflexivity; try assumption.
  { intros a Ha. split; [apply Ov; exact Ha|]. change (Cold_proofs.Rwith (fun _ => 1%R) (fun _ => 0%R)) with Cold_proofs.Rcold. rewrite pc. cbn [fst snd]. exact (proj2 (Hl a Ha)). }
  { apply Cold_proofs.twin_start. }
  change (Cold_proofs.Rwith (fun _ => 1%R) (fun _ => 0%R)) with Cold_proofs.Rcold in Ac.
  destruct Tw as [Al Fr [D1 _] [H1 H2] Ch]. pose proof (Cold_proofs.alike_good m mc ae Al ltac:(rewrite Fr; reflexivity) D1 G) as Gc.
  destruct (Cold_proofs.keeps cosh sinh l _ m A) as (K1 & K2 & _). destruct (Cold_proofs.keeps cosh sinh l _ m0 A0) as (K3 & K4 & _). cbn [from_parameters m_lattice m_ham h_hop] in K1, K2, K3, K4.
  assert (K5 : m_lattice mc = lat) by (destruct Al as [E _]; congruence). assert (K6 : h_hop (m_ham mc) = hop) by congruence.
  pose proof (acc_built R Rnum (proj1 Rnum_ok) 1%nat l _ [] [] m (built_start Rnum 1%nat hop lat T mps) A (no_override l Ov)) as B.
  pose proof (acc_built R Rnum (proj1 Rnum_ok) 1%nat l _ [] [] m0 (built_start Rnum 1%nat hop lat T0 mps) A0 (no_override l Ov)) as B0.
  pose proof (acc_built R Cold_proofs.Rcold (Cold_proofs.Rwith_ok _ _) 1%nat l _ [] [] mc (built_start Cold_proofs.Rcold 1%nat hop lat T mps) Ac (no_override l Ov)) as Bc.
  assert (Hc : hermitian (phys_env mc k w eta) mc) by exact (Cold_proofs.made_hermitian _ _ mc _ _ ae _ (ev_phys mc k w eta) Bc Gc).
  destruct (Extent_proofs.built_couples m _ _ ae B G (proj1 Rnum_ok)) as [c [L CW]]. pose proof (Perturb_proofs.alike_lat m mc c Al L) as Lc.
  destruct (Extent_proofs.built_couples m0 _ _ ae0 B0 G0' (proj1 Rnum_ok)) as [c0 [L0 _]].
  assert (NT : (0 < m_ntypes m)%nat) by (destruct (gm_minus _ _ G) as [h [Hh _]]; pose proof (gm_index _ _ G h Hh); lia).
  assert (N0 : 0 <= N) by (pose proof (HN 0%nat NT); pose proof (gm_pn _ _ G 0%nat NT); lia).
  assert (Xm : exact_lattice m) by (unfold exact_lattice; rewrite K1, K2; exact Hx). assert (Xc : exact_lattice mc) by (unfold exact_lattice; rewrite K5, K6; exact Hx).
  assert (X0 : exact_lattice m0) by (unfold exact_lattice; rewrite K3, K4; exact Hx).
  destruct (C73_parameters m mc ae c ord id_ord sp sp0 k w eta N 1 Al G Gc (C51_hermitian m _ _ ae k w eta B G) Hc L Xm Xc) as [g [gc [E [Ec Bd]]]]; try assumption; try lia; try (rewrite K2; exact Ht); try (rewrite K6; exact Ht).
  { exact id_perm. }
  { apply Extent_proofs.numbers_at_most; assumption. }
  assert (PE : phys_env m0 k w eta = phys_env mc k w eta) by (unfold phys_env; rewrite K3, K4, K5, K6; reflexivity).
  destruct (C48_calls R CR Cold_proofs.Rcold (phys_env mc k w eta) (Cold_proofs.Rwith_ok _ _)) with (temp := T) (temp0 := T0) (hop := hop) (lat := lat) (mps := mps) (l := l) (m := mc) (m0 := m0) (ae := ae) (ae0 := ae0) (ord := id_ord) (ord0 := ord0) (sp := sp0) as [g0 [E1 E2]]; try assumption.
  - intros x. apply Ceq; cbn; unfold Re, Im; cbn; lra.
  - apply C48_additive.
  - intros a Ha. split; [|apply Ov; exact Ha]. intros x. rewrite pc. cbn [fst snd]. split; [reflexivity|]. apply Ceq; cbn; unfold Re, Im; cbn; ring.
  - exact (Cold_proofs.cold_any cosh sinh (fun _ => 1%R) (fun _ => 0%R) l (from_parameters hop lat T0 mps 1) m0 HT0 Ov A0).
  - exact id_perm.
  - exact (C52_regular mc ae c id_ord k w eta Gc Hc Lc Xc He id_perm).
  - rewrite <- PE. exact (C52_regular m0 ae0 c0 ord0 k w eta G0' (C51_hermitian m0 _ _ ae0 k w eta B0 G0') L0 X0 He P0).
  - assert (gc = g0) as -> by congruence. exists g, g0. split; [exact E|]. split; [rewrite PE; exact E2|].
    rewrite (change_couplings m mc N Fr H1) in Bd. eapply Rle_trans; [exact Bd|]. apply Rmult_le_compat_l; [apply sqrt_pos|exact Ch].
Qed.
Print Assumptions C73_cold.

(** When T <= tau^2 Omega for every type, the finite-temperature result is that
    of temperature zero up to sqrt N (tau + tau^2 / 2) coupling_sum / eta^2. *)
Theorem C73_low_temperature : forall hop lat mps T T0 l m m0 ae ae0 ord ord0 sp sp0 k w eta N tau, (0 < T)%R -> (T0 <= 0)%R -> (0 <= tau)%R ->
  (forall a, In a l -> a_override a = None /\ (0 < a_freq a)%R /\ (T <= tau * tau * a_freq a)%R) -> distinct Rnum (doubled_freqs Rnum l) ->
  accepts Rnum (from_parameters hop lat T mps 1) l m -> accepts Rnum (from_parameters hop lat T0 mps 1) l m0 -> good_model m ae -> good_model m0 ae0 ->
  (List.length l = 1%nat \/ forall a M, In a l -> a_Mtfd a = Some M -> exists a', In a' l /\ M <= a_M a') ->
  (forall t, (t < m_ntypes m)%nat -> nth t (m_pn m) 0 <= N) -> lat = 1%R \/ hop = 0%R -> (0 <= hop)%R -> (0 < eta)%R ->
  (forall k l, Permutation (ord k l) l) -> (forall k l, Permutation (ord0 k l) l) -> spsolve_ok sp -> spsolve_ok sp0 ->
  exists g g0 : C, greens (phys_env m k w eta) sp ord m = Ok g /\ greens (phys_env m0 k w eta) sp0 ord0 m0 = Ok g0 /\
    (eta ^ 2 * Cabs (Csub g g0) <= sqrt (IZR N) * ((tau + tau * tau / 2) * coupling_sum m0))%R.
Proof.
  intros hop lat mps T T0 l m m0 ae ae0 ord ord0 sp sp0 k w eta N tau HT HT0 H0 Hl. intros.
  apply (C73_cold hop lat mps T T0 l m m0 ae ae0 ord ord0 sp sp0 k w eta N (tau + tau * tau / 2)); try assumption.
  intros a Ha. destruct (Hl a Ha) as (Ov & F & B). split; [exact Ov|]. apply Cold_proofs.cold_prefactors; assumption.
Qed.
Print Assumptions C73_low_temperature.

(** As the temperature falls to zero the result tends to that of temperature
    zero, uniformly in k and omega. *)
Theorem C73_limit : forall hop lat mps T0 l m0 ae0 N eta eps, (T0 <= 0)%R -> (forall a, In a l -> a_override a = None /\ (0 < a_freq a)%R) -> distinct Rnum (doubled_freqs Rnum l) ->
  accepts Rnum (from_parameters hop lat T0 mps 1) l m0 -> good_model m0 ae0 ->
  (List.length l = 1%nat \/ forall a M, In a l -> a_Mtfd a = Some M -> exists a', In a' l /\ M <= a_M a') ->
  lat = 1%R \/ hop = 0%R -> (0 <= hop)%R -> (0 < eta)%R -> (0 < eps)%R ->
  exists T1, (0 < T1)%R /\ forall T m ae ord ord0 sp sp0 k w, (0 < T)%R -> (T <= T1)%R -> accepts Rnum (from_parameters hop lat T mps 1) l m -> good_model m ae ->
  (forall t, (t < m_ntypes m)%nat -> nth t (m_pn m) 0 <= N) ->
  (forall k l, Permutation (ord k l) l) -> (forall k l, Permutation (ord0 k l) l) -> spsolve_ok sp -> spsolve_ok sp0 ->
  exists g g0 : C, greens (phys_env m k w eta) sp ord m = Ok g /\ greens (phys_env m0 k w eta) sp0 ord0 m0 = Ok g0 /\ (Cabs (Csub g g0) < eps)%R.
Proof.
  intros hop lat mps T0 l m0 ae0 N eta eps HT0 Hl Df A0 G0' Ex Hx Ht He Hp. set (B := (sqrt (IZR N) * coupling_sum m0)%R).
  assert (B0 : (0 <= B)%R). { apply Rmult_le_pos; [apply sqrt_pos|]. unfold coupling_sum. induction (h_terms (m_ham m0)) as [|h r IH]; cbn [fold_right]; [lra|]. pose proof (Rabs_pos (ht_coupling h)). lra. }
  assert (e2 : (0 < eta ^ 2)%R) by (cbn; nra). set (delta := (eta ^ 2 * eps / (2 * (B + 1)))%R).
  assert (D0 : (0 < delta)%R) by (unfold delta; apply Rdiv_lt_0_compat; [apply Rmult_lt_0_compat; assumption|lra]).
  destruct (Cold_proofs.calls_cold l (fun a Ha => proj2 (Hl a Ha)) delta D0) as [T1 [HT1 D]]. exists T1. split; [exact HT1|].
  intros T m ae ord ord0 sp sp0 k w HT HTl A G HN P P0 SO SO0.
  destruct (C73_cold hop lat mps T T0 l m m0 ae ae0 ord ord0 sp sp0 k w eta N delta) as [g [g0 [E [E0 Bd]]]]; try assumption.
  { intros a Ha. split; [apply (Hl a Ha)|apply D; assumption]. }
  exists g, g0. split; [exact E|]. split; [exact E0|]. apply (Rmult_lt_reg_l (eta ^ 2)); [exact e2|]. eapply Rle_lt_trans; [exact Bd|].
  replace (sqrt (IZR N) * (delta * coupling_sum m0))%R with (delta * B)%R by (unfold B; ring).
  assert (X : (delta * (2 * (B + 1)) = eta ^ 2 * eps)%R) by (unfold delta; field; lra). nra.
Qed.
Print Assumptions C73_limit.

(** Calls that meet the conditions: Holstein and Peierls phonons at temperature
    1/100 and at zero; and two Holstein couplings, 1 and 2, at temperature zero. *)
Lemma two_fine : Forall fine two_calls.
Proof. unfold two_calls. constructor; [|constructor; [|constructor]]; apply fine_call; try lia; unfold supported; auto 6. Qed.
Lemma two_distinct : distinct Rnum (doubled_freqs Rnum two_calls).
Proof. unfold doubled_freqs, two_calls, distinct. cbn [flat_map app call_of a_freq n_opp Rnum]. repeat constructor; cbn; (match goal with |- (if Req_EM_T ?a ?b then _ else _) = _ => destruct (Req_EM_T a b); [lra|reflexivity] end). Qed.
Lemma cold_one : forall g, exists m, built Rnum 1 m [1%R] ["Holstein"%string] /\ good_model m 1 /\
  m = mkModel 1%R 0%R (mkHam [mkHterm "Holstein" (ivec [0]) (ivec [0]) Plus (- (g * 1))%R 0 1%R; mkHterm "Holstein" (ivec [0]) (ivec [0]) Minus (- (g * 1))%R 0 1%R] [1%R] 1 1%R) None [1] [1] None 1.
Proof.
  intros g. assert (F : Forall fine [call_of "Holstein" 1 g 1 1 1 1]) by (constructor; [apply fine_call; try lia; left; reflexivity|constructor]).
  destruct (fine_accepted _ (from_parameters 1 1 0 None 1)%R F) as [m A].
  pose proof (acc_built R Rnum (proj1 Rnum_ok) 1%nat _ _ [] [] m (built_start Rnum 1%nat 1%R 1%R 0%R None) A eq_refl) as Bt. cbn [from_parameters m_temp app flat_map map call_of a_freq a_type] in Bt.
  assert (cold : n_ltb Rnum (n_0 Rnum) 0%R = false) by (cbn; destruct (Rlt_dec 0 0); [lra|reflexivity]). rewrite cold in Bt. cbn [app] in Bt.
  destruct A as [logs [m1 [E [L Em]]]]. cbn in Em. subst m1. destruct (one_cold 1 1 _ _ _ _ _ _ _ _ _ E L) as [ts [Et ->]].
  unfold get_terms in Et. cbn [String.eqb Ascii.eqb Bool.eqb n_opp Rnum repeat] in Et. injection Et as <-.
  eexists. split; [exact Bt|]. split; [|reflexivity]. destruct (HModel_proofs.built_good Rnum (proj1 Rnum_ok) _ _ _ Bt) as [ae G]; try discriminate.
  - unfold distinct. repeat constructor.
  - right. intros c [<- |[]]. discriminate.
  - assert (Eq : ae = 1) by (pose proof (gm_ae _ _ G) as H; cbn in H; congruence). subst ae. exact G.
Qed.
Example C73_nonvacuous : (exists m m0, accepts Rnum (from_parameters 1 1 (/ 100) None 1)%R two_calls m /\ accepts Rnum (from_parameters 1 1 0 None 1)%R two_calls m0 /\ good_model m 4 /\ good_model m0 4 /\
    (forall a, In a two_calls -> a_override a = None /\ (0 < a_freq a)%R /\ (/ 100 <= / 10 * / 10 * a_freq a)%R) /\ distinct Rnum (doubled_freqs Rnum two_calls) /\
    (forall a M, In a two_calls -> a_Mtfd a = Some M -> exists a', In a' two_calls /\ M <= a_M a') /\ (forall t, (t < m_ntypes m)%nat -> nth t (m_pn m) 0 <= 1)) /\
  exists m m', built Rnum 1 m [1%R] ["Holstein"%string] /\ built Rnum 1 m' [1%R] ["Holstein"%string] /\ good_model m 1 /\ good_model m' 1 /\ alike m m' /\
    exact_lattice m /\ exact_lattice m' /\ (forall t, (t < m_ntypes m)%nat -> nth t (m_pn m) 0 <= 1) /\ change m m' 1 = 2%R.
Proof.
  split.
  - destruct (fine_accepted two_calls (from_parameters 1 1 (/ 100) None 1)%R two_fine) as [m A]. destruct (fine_accepted two_calls (from_parameters 1 1 0 None 1)%R two_fine) as [m0 A0].
    assert (hot : n_ltb Rnum (n_0 Rnum) (/ 100)%R = true) by (cbn; destruct (Rlt_dec 0 (/ 100)); [reflexivity|lra]).
    assert (cold : n_ltb Rnum (n_0 Rnum) 0%R = false) by (cbn; destruct (Rlt_dec 0 0); [lra|reflexivity]).
    pose proof (acc_built R Rnum (proj1 Rnum_ok) 1%nat two_calls _ [] [] m (built_start Rnum 1%nat 1%R 1%R (/ 100)%R None) A eq_refl) as Bt. cbn [from_parameters m_temp] in Bt. rewrite hot in Bt.
    pose proof (acc_built R Rnum (proj1 Rnum_ok) 1%nat two_calls _ [] [] m0 (built_start Rnum 1%nat 1%R 1%R 0%R None) A0 eq_refl) as Bt0. cbn [from_parameters m_temp] in Bt0. rewrite cold in Bt0.
    destruct (Double_proofs.accepts_pe Rnum (proj1 Rnum_ok) two_calls (from_parameters 1 1 (/ 100) None 1)%R m hot A) as [Ep Ea]. destruct (accepts_pn two_calls (from_parameters 1 1 (/ 100) None 1)%R m hot A) as [En [Et Em]].
    destruct (Double_proofs.accepts_pe_cold Rnum (proj1 Rnum_ok) two_calls (from_parameters 1 1 0 None 1)%R m0 cold A0) as [Ep0 Ea0]. destruct (Cold_proofs.keeps cosh sinh two_calls _ m0 A0) as (_ & _ & _ & Em0 & _).
    assert (NB : forall a, In a two_calls -> a_type a <> "BondPeierls"%string) by (intros a [<- |[<- |[]]]; discriminate).
    destruct (HModel_proofs.built_good Rnum (proj1 Rnum_ok) m _ _ Bt) as [ae G]; [discriminate|exact two_distinct|intros q E; rewrite Em in E; discriminate|intros q E; rewrite Ea in E; discriminate|right; intros c Hc; apply in_map_iff in Hc as [a [<- Ha]]; apply NB, Ha|].
    destruct (HModel_proofs.built_good Rnum (proj1 Rnum_ok) m0 _ _ Bt0) as [ae0 G0']; [discriminate| |intros q E; rewrite Em0 in E; discriminate|intros q E; rewrite Ea0 in E; discriminate|right; intros c Hc; apply in_map_iff in Hc as [a [<- Ha]]; apply NB, Ha|].
    { unfold two_calls, distinct. cbn [flat_map app call_of a_freq]. repeat constructor. cbn. destruct (Req_EM_T 2 1); [lra|reflexivity]. }
    assert (Eae : ae = 4). { pose proof (gm_ae _ _ G) as H. unfold absolute_extent in H. rewrite Ea, Ep in H. cbn in H. congruence. } subst ae.
    assert (Eae : ae0 = 4). { pose proof (gm_ae _ _ G0') as H. unfold absolute_extent in H. rewrite Ea0, Ep0 in H. cbn in H. congruence. } subst ae0.
    exists m, m0. split; [exact A|]. split; [exact A0|]. split; [exact G|]. split; [exact G0'|]. split; [|split; [exact two_distinct|split]].
    + intros a [<- |[<- |[]]]; (split; [reflexivity|]; split; cbn; lra).
    + intros a M Ha Eq. exists a. split; [exact Ha|]. destruct Ha as [<- |[<- |[]]]; cbn in Eq |- *; injection Eq as <-; lia.
    + rewrite Et, En. intros t Ht. cbn in Ht. do 4 (destruct t as [|t]; [cbn; lia|]). lia.
  - destruct (cold_one 1) as [m [B [G Em]]]. destruct (cold_one 2) as [m' [B' [G' Em']]]. exists m, m'. split; [exact B|]. split; [exact B'|]. split; [exact G|]. split; [exact G'|].
    rewrite Em, Em'. split; [repeat split; repeat constructor|]. split; [left; reflexivity|]. split; [left; reflexivity|].
    split; [intros t Ht; cbn in Ht; destruct t; [cbn; lia|lia]|]. unfold change, energy_change, coupling_change. cbn [m_ham h_hop h_freqs h_terms m_ntypes m_pn seq fold_right combine nth fst snd ht_coupling].
    rewrite sqrt_1, !Rminus_diag_eq, !Rabs_R0 by reflexivity. replace (- (1 * 1) - - (2 * 1))%R with 1%R by ring. rewrite Rabs_R1. ring.
Qed.
