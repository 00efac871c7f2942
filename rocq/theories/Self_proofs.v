(** The self-energy (C59): the energy balance of Energy_proofs bounds the
    amplitudes of the one-phonon states, and with them the self-energy. *)
From Coq Require Import String ZArith Reals List Bool Lia Lra Permutation Ring.
From Verif Require Import Base NdArray NdArray_proofs Config Spec Spec_ops Config_proofs Modify_proofs Legal_proofs
  Model Space Spec_space Space_proofs Count_proofs Render Render_proofs Term Equation System Spec_engine
  Term_proofs Equation_proofs System_proofs Prime_proofs Engine_proofs Order_proofs Ring Coef Spec_eom Eom_proofs
  Solvers Spec_solve Sysok_proofs Sparse_proofs Rows_proofs HModel Spec_model Cplx Physics Physics_proofs
  Toeplitz_proofs Weight_proofs Spec_spectral Energy_proofs Spectral_proofs Spec_self.
Import ListNotations.
Open Scope list_scope.
Open Scope Z_scope.

Section Passive.
Context {T : Type}.
Variable m : model T.
Variable ae : Z.
Hypothesis G : good_model m ae.
Let ops := h_terms (m_ham m).
Variable e : env T CR.
Variable eta : R.
Variable c : Z.
Hypothesis Heta : (0 < eta)%R.
Hypothesis Hherm : hermitian e m.
Hypothesis Hlat : on_lattice m c.
Hypothesis Hph : forall d, ph e [- d] = Cconj (ph e [d]).
Hypothesis Hunit : forall d, Cabs (ph e [d]) = 1%R.
Hypothesis Hg0 : forall l, exists w t, (forall d : Z, Cadd (Cmul (w, eta) (g0 e [2 * d] l)) (Cmul (RtoC t) (Cadd (g0 e [2 * (d + 1)] l) (g0 e [2 * (d - 1)] l)))
   = if Z.eq_dec d 0 then C1 else C0) /\ vanishes (fun d => g0 e [2 * d] l).
Variable z : R.
Hypothesis HG0 : Cmul (G0 e) (z, eta) = C1.
Variable u : nd * list Z -> CR.
Hypothesis Pu : proper u.
Hypothesis Cn : conditions m ae e u (G0 e).
Let g : C := u (vac m, [0]).
Definition one (h : hterm T) : C := u (single_phonon (m_ntypes m) 1 (ht_index h), [phi1 h]).

(** What is not in the vacuum bounds each one-phonon state. *)
Lemma one_bound : forall h, In h ops -> creation h = true -> (eta * Cnorm2 (one h) <= - Im g - eta * Cnorm2 g)%R.
Proof.
  intros h Hh Cr. destruct Cn as [C1' C2']. destruct (clouds_from m ae 1 G ltac:(lia)) as [cl [ND Hcl]].
  assert (Hr : forall a d l, space m ae a -> 1 <= total a -> reached m ae a d -> energy_of (h_freqs (m_ham m)) a l ->
    kadd (u (a, [d])) (ksum (map (fun h => ksum (map (summand e u l a d h) (st m ae a h))) (h_terms (m_ham m)))) = k0) by (intros; apply C1'; assumption).
  pose proof (energy m ae G e eta Hherm Hph u 1 ltac:(lia) cl ND Hcl eq_refl Pu z (G0 e) HG0 C2') as E.
  pose proof (gm_index _ _ G h Hh) as Hi. destruct (single_in_space m ae G _ Hi) as [S1 T1].
  assert (R : reached m ae (single_phonon (m_ntypes m) 1 (ht_index h)) (phi1 h)).
  { left. exists h. split; [exact Hh|]. split; [|auto]. unfold creation in Cr. destruct (ht_dag h); [reflexivity|discriminate]. }
  pose proof (total_bound m ae G e eta c Heta Hherm Hlat Hph Hg0 u 1 cl Hcl Hr _ (phi1 h) S1 ltac:(lia) R) as B.
  assert (W : weight (single_phonon (m_ntypes m) 1 (ht_index h)) = 1%R).
  { destruct (op_adjoint m e Hherm h Hh) as [h' [Hh' [[A1 [A2 [A3 A4]]] _]]].
    assert (D' : ht_dag h' = Minus) by (rewrite A3; unfold creation in Cr; destruct (ht_dag h); [reflexivity|discriminate]).
    destruct (single_step m ae G h' Hh' D') as [A T0]. rewrite A4 in A, T0.
    destruct (step_vacuum m ae G _ h' 0 S1 Hh' A T0) as [_ [_ [_ [_ We]]]]. exact We. }
  rewrite W in B. fold (one h) in B. fold g in E.
  assert (EZ : Cmul (z, eta) (G0 e) = C1) by (rewrite <- HG0; generalize (G0 e); change (car CR) with C; intros y; ring). rewrite EZ in E.
  assert (I : Im (Cmul (Cconj g) C1) = (- Im g)%R) by (generalize g; intros [p q]; unfold Cmul, Cconj, C1, Re, Im; cbn; ring).
  rewrite I in E. lra.
Qed.

Let X : C := @ksum CR (map (green_part m e u) (filter creation ops)).
Lemma vacuum_row : Cmul (z, eta) g = Csub C1 X.
Proof.
  destruct Cn as [_ HE].
  assert (E : @ksum CR (map (gsummand e u (m_ntypes m)) (filter creation ops)) = Cmul (G0 e) X).
  { unfold X. change Cmul with (@kmul CR). rewrite <- (ksum_scal (K := CR)). apply ksum_ext. intros h _. unfold gsummand, green_part.
    change (@kz CR 1) with (Cadd C1 C0). cbn [kmul CR car]. ring. }
  fold ops in HE. rewrite E in HE. change (Cadd g (Cmul (G0 e) X) = G0 e) in HE.
  transitivity (Csub (Cmul (G0 e) (z, eta)) (Cmul (Cmul (G0 e) (z, eta)) X)).
  - rewrite <- HE at 1. generalize X (G0 e) g. change (car CR) with C. intros. ring.
  - rewrite HG0. generalize X. intros. ring.
Qed.

Definition creating : R := fold_right Rplus 0%R (map (fun h => match ht_dag h with Plus => Cabs (ev e (ht_coupling h)) | Minus => 0%R end) ops).
Lemma creating_pos : (0 <= creating)%R.
Proof.
  unfold creating. generalize ops as o. intros o. induction o as [|h l IH]; cbn; [lra|]. pose proof (Cabs_ge0 (ev e (ht_coupling h))). destruct (ht_dag h); lra.
Qed.

Lemma X_bound : forall B, (forall h, In h ops -> creation h = true -> Cabs (one h) <= B)%R -> (Cabs X <= creating * B)%R.
Proof.
  intros B. unfold X, creating. generalize ops as o. intros o. induction o as [|h l IH]; intros HB.
  - cbn. change (Cabs C0 <= 0 * B)%R. unfold Cabs, Cnorm2, C0, Re, Im. cbn. rewrite !Rmult_0_l, Rplus_0_r, sqrt_0. lra.
  - specialize (IH (fun h' H' => HB h' (or_intror H'))). cbn [filter map fold_right].
    pose proof (HB h (or_introl eq_refl)) as Hh. unfold creation in Hh |- * at 1. destruct (ht_dag h).
    + cbn [map]. rewrite ksum_cons. eapply Rle_trans; [apply Cabs_triangle|]. rewrite Rmult_plus_distr_r. apply Rplus_le_compat; [|exact IH].
      unfold green_part. fold (one h). rewrite !Cabs_mul, Hunit, Rmult_1_r. apply Rmult_le_compat_l; [apply Cabs_ge0|apply Hh; reflexivity].
    + rewrite Rplus_0_l. exact IH.
Qed.

Lemma self_energy : g <> C0 -> exists s, Cmul g (Csub (z, eta) s) = C1 /\ (Im s <= 0)%R /\ (Cabs s <= creating * creating / eta)%R.
Proof.
  intros Hg. set (s := Copp (Cmul X (Cinv g))). exists s.
  assert (IG : Cmul g (Cinv g) = C1) by (rewrite <- (Cinv_l g Hg); ring).
  assert (D : Cmul g (Csub (z, eta) s) = C1).
  { unfold s. transitivity (Cadd (Cmul (z, eta) g) (Cmul (Cmul g (Cinv g)) X)); [ring|]. rewrite IG, vacuum_row. ring. }
  split; [exact D|].
  assert (SX : Cmul s g = Copp X) by (unfold s; transitivity (Copp (Cmul (Cmul g (Cinv g)) X)); [ring|rewrite IG; ring]).
  pose proof (Physics_proofs.Cnorm2_pos g Hg) as NG.
  assert (IM : (- Im g - eta * Cnorm2 g = - Im s * Cnorm2 g)%R).
  { assert (E : Cmul (RtoC (Cnorm2 g)) (Csub (z, eta) s) = Cconj g).
    { transitivity (Cmul (Cconj g) (Cmul g (Csub (z, eta) s))); [|rewrite D; ring].
      transitivity (Cmul (Cmul (Cconj g) g) (Csub (z, eta) s)); [|ring]. f_equal. apply Ceq; unfold RtoC, Cmul, Cconj, Cnorm2, Re, Im; cbn; ring. }
    apply (f_equal Im) in E. revert E. generalize s g. intros [s1 s2] [g1 g2]. unfold Cmul, Csub, Cadd, Copp, RtoC, Cconj, Cnorm2, Re, Im. cbn. lra. }
  assert (OB : forall h, In h ops -> creation h = true -> (Cnorm2 (one h) <= - Im s * Cnorm2 g / eta)%R).
  { intros h Hh Cr. pose proof (one_bound h Hh Cr) as B. rewrite IM in B. apply Rmult_le_reg_l with eta; [exact Heta|].
    replace (eta * (- Im s * Cnorm2 g / eta))%R with (- Im s * Cnorm2 g)%R by (field; lra). exact B. }
  assert (IS : (Im s <= 0)%R).
  { pose proof (passive_bound m ae G e eta c Heta Hherm Hlat Hph Hg0 z HG0 u Pu Cn) as PB. fold g in PB.
    assert (0 <= - Im s * Cnorm2 g)%R by (rewrite <- IM; lra). nra. }
  split; [exact IS|].
  set (B := sqrt (- Im s * Cnorm2 g / eta)). assert (Q : (0 <= - Im s * Cnorm2 g / eta)%R).
  { apply Rmult_le_pos; [nra|]. left. apply Rinv_0_lt_compat. exact Heta. }
  assert (BB : (B * B = - Im s * Cnorm2 g / eta)%R) by (apply sqrt_sqrt; exact Q).
  assert (B0 : (0 <= B)%R) by apply sqrt_pos.
  assert (XB : (Cabs X <= creating * B)%R).
  { apply X_bound. intros h Hh Cr. unfold Cabs. apply sqrt_le_1_alt. apply OB; assumption. }
  pose proof creating_pos as CP. pose proof (Cabs_ge0 s) as S0. pose proof (Cabs_ge0 X) as X0.
  assert (XN : (Cabs X * Cabs X = Cabs s * Cabs s * Cnorm2 g)%R).
  { rewrite <- (Cabs_opp X), <- SX, Cabs_mul, <- (Cabs_sq g). ring. }
  assert (XX : (Cabs X * Cabs X <= creating * creating * (B * B))%R).
  { replace (creating * creating * (B * B))%R with ((creating * B) * (creating * B))%R by ring. apply Rmult_le_compat; assumption. }
  rewrite XN, BB in XX.
  assert (Y : (Cabs s * Cabs s <= creating * creating / eta * - Im s)%R).
  { apply Rmult_le_reg_r with (Cnorm2 g); [exact NG|]. eapply Rle_trans; [exact XX|]. right. field. lra. }
  assert (MS : (- Im s <= Cabs s)%R).
  { pose proof (Cabs_sq s) as SQ. pose proof (Rle_0_sqr (Re s)) as R2. unfold Rsqr in R2. unfold Cnorm2 in SQ. destruct (Rle_lt_dec (- Im s) (Cabs s)) as [L|L]; [exact L|exfalso; nra]. }
  assert (K0 : (0 <= creating * creating / eta)%R) by (apply Rmult_le_pos; [nra|left; apply Rinv_0_lt_compat; exact Heta]).
  destruct (Rle_lt_dec (Cabs s) (creating * creating / eta)) as [L|L]; [exact L|exfalso].
  assert (Z1 : (creating * creating / eta * - Im s <= creating * creating / eta * Cabs s)%R) by (apply Rmult_le_compat_l; assumption).
  nra.
Qed.
End Passive.

(** * Evaluation at a momentum and a frequency *)
Lemma phys_unit : forall m k w eta d, Cabs (ph (phys_env m k w eta) [d]) = 1%R.
Proof.
  intros. cbn [phys_env ph]. unfold Cexpi, Cabs, Cnorm2, Re, Im. cbn [fst snd].
  set (x := (k * (m_lattice m * half_of [d]))%R). pose proof (sin2_cos2 x) as S. unfold Rsqr in S. replace (cos x * cos x + sin x * sin x)%R with 1%R by lra. apply sqrt_1.
Qed.

Lemma phys_creating : forall m k w eta, creating m (phys_env m k w eta) = strength m.
Proof.
  intros. unfold creating, strength. f_equal. apply map_ext. intros h. destruct (ht_dag h); [|reflexivity]. cbn [phys_env ev].
  unfold Cabs, Cnorm2, RtoC, Re, Im. cbn [fst snd]. rewrite Rmult_0_l, Rplus_0_r. apply sqrt_Rsqr_abs.
Qed.

Lemma phys_self : forall m ae c ord s k w eta, good_model m ae -> (forall k l, Permutation (ord k l) l) -> prime_system ord m = Ok s ->
  exact_lattice m -> (0 < eta)%R -> hermitian (phys_env m k w eta) m -> on_lattice m c ->
  forall u, proper u -> solution (phys_env m k w eta) s u ->
  exists sg, dyson m k w eta sg (u (vac m, [0])) /\ (Im sg <= 0)%R /\ (Cabs sg <= strength m * strength m / eta)%R.
Proof.
  intros m ae c ord s k w eta G P Es Hl He Hh L u Pu Su. destruct (phys_bound m ae c ord s k w eta G P Es Hl He Hh L u Pu Su) as [_ NZ].
  apply (solution_iff m ae G ord P s Es _ u Pu) in Su.
  destruct (self_energy m ae G (phys_env m k w eta) eta c He Hh L (phys_ph m k w eta) (phys_unit m k w eta) (phys_g0 m k w eta Hl He) _ (phys_G0 m k w eta He) u Pu Su NZ) as [sg [D [I B]]].
  rewrite phys_creating in B. exists sg. split; [|auto]. unfold dyson, band.
  replace (w - - (2 * h_hop (m_ham m) * cos (k * m_lattice m)))%R with (w + 2 * h_hop (m_ham m) * cos (k * m_lattice m))%R by ring. exact D.
Qed.

(** * Consequences *)
Lemma dyson_far : forall m k w eta s g K, dyson m k w eta s g -> (Cabs s <= K)%R -> (K < Rabs (w - band m k))%R ->
  (Cabs g <= 1 / (Rabs (w - band m k) - K))%R.
Proof.
  intros m k w eta s g K D B F. unfold dyson in D. apply (f_equal Cabs) in D. rewrite Cabs_mul in D.
  assert (C1a : Cabs C1 = 1%R) by (unfold Cabs, Cnorm2, C1, Re, Im; cbn; rewrite Rmult_1_l, Rmult_0_l, Rplus_0_r; apply sqrt_1). rewrite C1a in D.
  set (d := Csub ((w - band m k)%R, eta) s) in *.
  assert (L : (Rabs (w - band m k) - K <= Cabs d)%R).
  { assert (E : Cadd d s = ((w - band m k)%R, eta)) by (unfold d; ring).
    pose proof (Cabs_triangle d s) as Tr. rewrite E in Tr. pose proof (Cabs_re ((w - band m k)%R, eta)) as [R1 R2]. unfold Re in R1, R2. cbn [fst] in R1, R2.
    assert (Rabs (w - band m k) <= Cabs ((w - band m k)%R, eta))%R by (apply Rabs_le; lra). lra. }
  pose proof (Cabs_ge0 g) as G0'. apply Rmult_le_reg_r with (Rabs (w - band m k) - K)%R; [lra|].
  replace (1 / (Rabs (w - band m k) - K) * (Rabs (w - band m k) - K))%R with 1%R by (field; lra). nra.
Qed.

(** With two self-energies. *)
Lemma dyson_diff : forall m k w eta s s' g g', (0 < eta)%R -> dyson m k w eta s g -> dyson m k w eta s' g' -> (Im s <= 0)%R -> (Im s' <= 0)%R ->
  (Cabs (Csub g g') <= Cabs (Csub s s') / (eta * eta))%R.
Proof.
  intros m k w eta s s' g g' He D D' I I'.
  assert (B : forall t h, dyson m k w eta t h -> (Im t <= 0)%R -> (Cabs h <= / eta)%R).
  { intros t h Dt It. unfold dyson in Dt. set (d := Csub ((w - band m k)%R, eta) t) in *.
    assert (L : (eta <= Cabs d)%R).
    { assert (Ed : (eta <= Im d)%R) by (unfold d, Csub, Cadd, Copp, Im in *; cbn; lra).
      pose proof (Cabs_sq d) as S. pose proof (Cabs_ge0 d). pose proof (Rle_0_sqr (Re d)) as R2. unfold Rsqr in R2. unfold Cnorm2 in S. nra. }
    apply (f_equal Cabs) in Dt. rewrite Cabs_mul in Dt.
    assert (C1a : Cabs C1 = 1%R) by (unfold Cabs, Cnorm2, C1, Re, Im; cbn; rewrite Rmult_1_l, Rmult_0_l, Rplus_0_r; apply sqrt_1). rewrite C1a in Dt.
    pose proof (Cabs_ge0 h). apply Rmult_le_reg_r with eta; [exact He|]. rewrite Rinv_l by lra. nra. }
  assert (E : Csub g g' = Cmul (Cmul g g') (Csub s s')).
  { unfold dyson in D, D'. transitivity (Csub (Cmul g (Cmul g' (Csub ((w - band m k)%R, eta) s'))) (Cmul g' (Cmul g (Csub ((w - band m k)%R, eta) s)))); [rewrite D, D'; ring|ring]. }
  rewrite E, !Cabs_mul. pose proof (B s g D I). pose proof (B s' g' D' I'). pose proof (Cabs_ge0 g). pose proof (Cabs_ge0 g'). pose proof (Cabs_ge0 (Csub s s')).
  replace (Cabs (Csub s s') / (eta * eta))%R with (/ eta * / eta * Cabs (Csub s s'))%R by (field; lra).
  apply Rmult_le_compat_r; [assumption|]. apply Rmult_le_compat; assumption.
Qed.
