(** The equations of a Hermitian model at eta > 0: uniqueness of the solution
    and the sign of the Green's function (C51, C52). *)
From Coq Require Import String ZArith Reals List Bool Lia Lra Permutation Ring.
From Verif Require Import Base NdArray NdArray_proofs Config Spec Spec_ops Config_proofs Modify_proofs Legal_proofs
  Model Space Spec_space Space_proofs Count_proofs Render Render_proofs Term Equation System Spec_engine
  Term_proofs Equation_proofs System_proofs Prime_proofs Engine_proofs Order_proofs Ring Coef Spec_eom Eom_proofs
  Solvers Spec_solve Sysok_proofs Sparse_proofs Rows_proofs HModel Spec_model Cplx Physics Physics_proofs
  Toeplitz_proofs Weight_proofs Spec_spectral Energy_proofs.
From Verif Require HModel_proofs Hist_proofs.
Import ListNotations.
Open Scope list_scope.
Open Scope Z_scope.

Lemma norm_ge0 : forall z, (0 <= Cnorm2 z)%R.
Proof. intros z. unfold Cnorm2. pose proof (Rle_0_sqr (Re z)). pose proof (Rle_0_sqr (Im z)). unfold Rsqr in *. lra. Qed.

(** The clouds with at least [n0] phonons. *)
Lemma clouds_from : forall {T} (m : model T) ae n0, good_model m ae -> 1 <= n0 ->
  exists cl, NoDup cl /\ forall a, In a cl <-> space m ae a /\ n0 <= total a.
Proof.
  intros T m ae n0 G Hn. destruct (space_ex m ae G) as [d Ed].
  exists (nodup nd_eq_dec (filter (fun a => n0 <=? total a) (map (fun q => cfg (t_cfg (e_index q))) (flat_map snd (genl m ae d))))).
  split; [apply NoDup_nodup|]. intros a. rewrite nodup_In, filter_In, in_map_iff, Z.leb_le. split.
  - intros [[q [Ea Hq]] Ha]. apply (In_allg m ae G d Ed) in Hq. destruct Hq as [->|[b [Sb ->]]].
    + exfalso. destruct (vac_valid m) as [_ [T0 _]]. assert (a = vac m) as -> by (rewrite <- Ea; reflexivity). lia.
    + cbn in Ea. subst a. auto.
  - intros [Sa Ha]. split; [|exact Ha]. exists (geq m ae a). split; [reflexivity|]. apply (In_allg m ae G d Ed). right. eauto.
Qed.

Section Passive.
Context {T : Type}.
Variable m : model T.
Variable ae : Z.
Hypothesis G : good_model m ae.
Variable e : env T CR.
Variable eta : R.
Variable c : Z.
Hypothesis Heta : (0 < eta)%R.
Hypothesis Hherm : hermitian e m.
Hypothesis Hlat : on_lattice m c.
Hypothesis Hph : forall d, ph e [- d] = Cconj (ph e [d]).
Hypothesis Hg0 : forall l, exists w t, (forall d : Z, Cadd (Cmul (w, eta) (g0 e [2 * d] l)) (Cmul (RtoC t) (Cadd (g0 e [2 * (d + 1)] l) (g0 e [2 * (d - 1)] l)))
   = if Z.eq_dec d 0 then C1 else C0) /\ vanishes (fun d => g0 e [2 * d] l).
Variable z : R.
Hypothesis HG0 : Cmul (G0 e) (z, eta) = C1.

(** The solution at right-hand side [gb]. *)
Lemma passive : forall u gb, proper u -> conditions m ae e u gb ->
  let g := u (vac m, [0]) in
  (eta * Cnorm2 g <= Im (Cmul (Cconj g) (Cmul (z, eta) gb)))%R /\
  (Im (Cmul (Cconj g) (Cmul (z, eta) gb)) <= eta * Cnorm2 g -> forall a d, space m ae a -> reached m ae a d -> u (a, [d]) = C0)%R.
Proof.
  intros u gb Pu [C1' C2'] g. destruct (clouds_from m ae 1 G ltac:(lia)) as [cl [ND Hcl]].
  assert (Hr : forall a d l, space m ae a -> 1 <= total a -> reached m ae a d -> energy_of (h_freqs (m_ham m)) a l ->
    kadd (u (a, [d])) (ksum (map (fun h => ksum (map (summand e u l a d h) (st m ae a h))) (h_terms (m_ham m)))) = k0) by (intros; apply C1'; assumption).
  pose proof (energy m ae G e eta Hherm Hph u 1 ltac:(lia) cl ND Hcl eq_refl Pu z gb HG0 C2') as E.
  pose proof (total_nonpos m ae G e eta c Heta Hherm Hlat Hph Hg0 u 1 cl Hcl Hr) as NP.
  fold g in E. split; [lra|]. intros L a d Sa R.
  destruct (space_unfold m ae a Sa) as [_ [_ [Ta _]]].
  pose proof (total_bound m ae G e eta c Heta Hherm Hlat Hph Hg0 u 1 cl Hcl Hr a d Sa ltac:(lia) R) as B.
  pose proof (weight_pos a) as WP. apply Cnorm2_0. pose proof (norm_ge0 (u (a, [d]))).
  assert (0 < weight a * eta)%R by (apply Rmult_lt_0_compat; assumption). nra.
Qed.

Lemma passive_unique : forall u, proper u -> conditions m ae e u k0 -> u (vac m, [0]) = C0 /\ forall a d, space m ae a -> reached m ae a d -> u (a, [d]) = C0.
Proof.
  intros u Pu Cn. destruct (passive u k0 Pu Cn) as [P1 P2].
  assert (Z0 : Im (Cmul (Cconj (u (vac m, [0]))) (Cmul (z, eta) (@k0 CR))) = 0%R) by (unfold Cmul, Cconj, Re, Im; cbn; ring).
  rewrite Z0 in P1, P2. pose proof (norm_ge0 (u (vac m, [0]))) as NN. split.
  - apply Cnorm2_0. nra.
  - apply P2. nra.
Qed.

Lemma passive_bound : forall u, proper u -> conditions m ae e u (G0 e) -> (Im (u (vac m, [0%Z])) <= - eta * Cnorm2 (u (vac m, [0%Z])))%R.
Proof.
  intros u Pu Cn. destruct (passive u (G0 e) Pu Cn) as [P1 _].
  assert (E : Cmul (z, eta) (G0 e) = C1) by (rewrite <- HG0; generalize (G0 e); change (car CR) with C; intros y; ring). rewrite E in P1.
  revert P1. generalize (u (vac m, [0])). change (car CR) with C. intros [a b]. unfold Cmul, Cconj, C1, Cnorm2, Re, Im. cbn. lra.
Qed.
End Passive.

(** * Evaluation at a momentum and a frequency *)
Lemma phys_ph : forall m k w eta d, ph (phys_env m k w eta) [- d] = Cconj (ph (phys_env m k w eta) [d]).
Proof.
  intros m k w eta d. cbn [phys_env ph]. unfold half_of. cbn [hd]. rewrite opp_IZR.
  replace (k * (m_lattice m * (- IZR d / 2)))%R with (- (k * (m_lattice m * (IZR d / 2))))%R by field.
  unfold Cexpi, Cconj, Re, Im. cbn [fst snd]. rewrite cos_neg, sin_neg. reflexivity.
Qed.

Lemma phys_g0 : forall m k w eta, exact_lattice m -> (0 < eta)%R -> forall l, exists w' t,
  (forall d : Z, Cadd (Cmul (w', eta) (g0 (phys_env m k w eta) [2 * d] l))
     (Cmul (RtoC t) (Cadd (g0 (phys_env m k w eta) [2 * (d + 1)] l) (g0 (phys_env m k w eta) [2 * (d - 1)] l))) = if Z.eq_dec d 0 then C1 else C0) /\
  vanishes (fun d => g0 (phys_env m k w eta) [2 * d] l).
Proof.
  intros m k w eta Ha He l. set (om := RtoC (w - shift_of l)).
  assert (V : (0 < Im om + eta)%R) by (unfold om, RtoC, Im; cbn; lra).
  assert (E : forall d, g0 (phys_env m k w eta) [2 * d] l = g0_delta_omega (IZR d) om 1 eta (h_hop (m_ham m)) 1 0).
  { intros d. cbn [phys_env g0]. unfold half_of. cbn [hd]. rewrite mult_IZR. fold om. replace (2 * IZR d / 2)%R with (IZR d) by field.
    destruct Ha as [-> | Ha]; [reflexivity|]. unfold g0_delta_omega. destruct (Req_EM_T (h_hop (m_ham m)) 0) as [_|N]; [reflexivity|contradiction]. }
  assert (Ez : Cadd om (Cmul (RtoC eta) Ci) = ((w - shift_of l)%R, eta)).
  { unfold om. apply Ceq; unfold Cadd, Cmul, RtoC, Ci, Re, Im; cbn; ring. }
  exists (w - shift_of l)%R, (Rabs (h_hop (m_ham m))). split.
  - intros d. rewrite !E, <- Ez. destruct (Req_EM_T (h_hop (m_ham m)) 0) as [H0|H0].
    + rewrite H0, Rabs_R0. exact (resolvent_0 om eta V 1 d).
    + exact (resolvent_abs om eta V (h_hop (m_ham m)) H0 d).
  - destruct (site_decay om eta V 1 (h_hop (m_ham m)) ltac:(lra)) as [r [c [Hr [Hc D]]]]. intros eps He'.
    assert (P : (0 < eps / c)%R) by (apply Rdiv_lt_0_compat; assumption).
    destruct (pow_lt_1_zero r ltac:(rewrite Rabs_right; lra) (eps / c) P) as [N HN]. exists (Z.of_nat N). intros n Hn. rewrite E.
    eapply Rle_trans; [apply D|]. specialize (HN (Z.abs_nat n) ltac:(lia)). rewrite Rabs_right in HN by (apply Rle_ge, pow_le; lra).
    apply Rmult_lt_compat_l with (r := c) in HN; [|exact Hc]. replace (c * (eps / c))%R with eps in HN by (field; lra). lra.
Qed.

Lemma phys_G0 : forall m k w eta, (0 < eta)%R -> Cmul (G0 (phys_env m k w eta)) ((w + 2 * h_hop (m_ham m) * cos (k * m_lattice m))%R, eta) = C1.
Proof.
  intros m k w eta He. destruct (G0_inverse k (RtoC w) (m_lattice m) eta (h_hop (m_ham m))) as [H _]; [unfold RtoC, Im; cbn; lra|].
  rewrite <- H. cbn [phys_env G0]. f_equal. apply Ceq; unfold Cadd, Cmul, RtoC, Ci, Re, Im; cbn; ring.
Qed.

(** * Models built by add_ calls *)
Lemma built_hermitian : forall m fs cs ae (e : env R CR), (forall x, ev e x = RtoC x) -> built Rnum 1 m fs cs -> good_model m ae ->
  num_ok Rnum -> hermitian e m.
Proof.
  intros m fs cs ae e He B G K. destruct (HModel_proofs.built_closed Rnum K Ropp_involutive 1%nat m fs cs B) as [ND Cl].
  set (ops := h_terms (m_ham m)) in *. exists (map conjugate ops). fold ops.
  assert (L1 : forall h, In h ops -> v2 (ht_psi h) = [psi1 h] /\ v2 (ht_phi h) = [phi1 h]).
  { intros h Hh. destruct (vec1 m ae G h Hh). auto. }
  assert (C1' : forall h, In h ops -> psi1 (conjugate h) = - psi1 h /\ phi1 (conjugate h) = phi1 h - psi1 h).
  { intros h Hh. destruct (L1 h Hh) as [E1 E2]. unfold psi1 at 1, phi1 at 1. unfold conjugate, vneg, vsub. cbn [ht_psi ht_phi v2].
    rewrite E1, E2. split; reflexivity. }
  assert (CC : forall h, In h ops -> conjugate (conjugate h) = h).
  { intros h Hh. destruct (L1 h Hh) as [E1 E2].
    destruct (HModel_proofs.i_terms _ _ _ _ _ (HModel_proofs.built_inv Rnum K 1%nat m fs cs B) h Hh) as [g [psi [phi [d [s [_ [_ [_ [X _]]]]]]]]].
    generalize dependent (psi1 h). generalize dependent (phi1 h). intros b E2 a E1.
    destruct h as [t p q dg cc i f]. cbn [ht_type ht_psi ht_phi ht_dag ht_coupling ht_index ht_freq] in *. injection X as -> -> -> ->. cbn [v2] in E1, E2. subst psi phi.
    unfold conjugate, vneg, vsub. cbn [ht_type ht_psi ht_phi ht_dag ht_coupling ht_index ht_freq isf v2 map combine fst snd].
    rewrite !orb_false_r, Z.opp_involutive. replace (b - a - - a) with b by lia.
    destruct d; reflexivity. }
  split.
  - apply NoDup_Permutation_bis; [exact ND|rewrite map_length; reflexivity|]. apply NoDup_length_incl; [|rewrite map_length; reflexivity|].
    + assert (IJ : forall l, (forall h, In h l -> In h ops) -> NoDup l -> NoDup (map conjugate l)).
      { induction l as [|h r IH]; intros Hl N; [constructor|]. inversion N as [|? ? N1 N2]; subst. cbn [map]. constructor; [|apply IH; [intros; apply Hl; right; assumption|exact N2]].
        rewrite in_map_iff. intros [h' [E H']]. apply N1. replace h with h'; [exact H'|].
        rewrite <- (CC h (Hl h (or_introl eq_refl))), <- (CC h' (Hl h' (or_intror H'))), E. reflexivity. }
      apply IJ; [auto|exact ND].
    + intros h Hh. apply in_map_iff in Hh. destruct Hh as [h' [<- Hh']]. apply Cl. exact Hh'.
  - assert (FF : forall l, (forall h, In h l -> In h ops) -> Forall2 (adjoint_op e) l (map conjugate l)).
    { induction l as [|h l IH]; intros H; cbn [map]; constructor; [|apply IH; intros; apply H; right; assumption].
      destruct (C1' h (H h (or_introl eq_refl))) as [A B']. unfold adjoint_op. rewrite A, B', !He. unfold conjugate. cbn [ht_dag ht_index ht_coupling].
      repeat split; reflexivity. }
    apply FF. auto.
Qed.

Lemma built_lattice : forall m fs cs ae, built Rnum 1 m fs cs -> good_model m ae -> num_ok Rnum -> exists c, on_lattice m c.
Proof.
  intros m fs cs ae B G K. pose proof (HModel_proofs.i_terms _ _ _ _ _ (HModel_proofs.built_inv Rnum K 1%nat m fs cs B)) as I.
  assert (F : forall h, In h (h_terms (m_ham m)) -> isf (ht_psi h) = false /\
    exists psi phi d s, op_spec 1 (ht_type h) psi phi d s /\ psi1 h = hd 0 psi /\ phi1 h = hd 0 phi /\ isf (ht_phi h) = String.eqb (ht_type h) "BondPeierls").
  { intros h Hh. destruct (I h Hh) as [g [psi [phi [d [s [_ [_ [O [X _]]]]]]]]]. split; [rewrite X; reflexivity|]. exists psi, phi, d, s.
    split; [exact O|]. rewrite X. cbn. auto. }
  assert (S : forall h h', In h (h_terms (m_ham m)) -> In h' (h_terms (m_ham m)) -> isf (ht_phi h') = true -> isf (ht_phi h) = true).
  { intros h h' Hh Hh' H. pose proof (gm_dtype _ _ G h h' Hh Hh' H) as X. rewrite (proj1 (F h Hh)) in X. exact X. }
  destruct (gm_minus _ _ G) as [h0 [Hh0 _]]. exists (if isf (ht_phi h0) then 1 else 0). intros h Hh.
  assert (E : isf (ht_phi h) = isf (ht_phi h0)).
  { destruct (isf (ht_phi h0)) eqn:E0; [apply (S h h0 Hh Hh0 E0)|]. destruct (isf (ht_phi h)) eqn:E1; [|reflexivity]. rewrite (S h0 h Hh0 Hh E1) in E0. discriminate. }
  rewrite <- E. destruct (F h Hh) as [_ [psi [phi [d [s [O [-> [-> ->]]]]]]]].
  inversion O; subst; cbn [hd repeat String.eqb Ascii.eqb Bool.eqb]; split;
    try (match goal with |- Z.Even (2 * ?x) => exists x; lia | |- Z.Even 0 => exists 0; lia | |- Z.Even (2 * ?x - 0) => exists x; lia | |- Z.Even (0 - 0) => exists 0; lia end).
  match goal with H : ?s0 = 1 \/ ?s0 = -1 |- Z.Even (?s0 - 1) => destruct H as [-> | ->]; [exists 0; lia|exists (-1); lia] end.
Qed.

(** * The computed result *)
Section Result.
Variables (m : model R) (ae c : Z) (ord : string -> list vec -> list vec) (s : system R) (k w eta : R).
Hypothesis G : good_model m ae.
Hypothesis P : forall k l, Permutation (ord k l) l.
Hypothesis Es : prime_system ord m = Ok s.
Hypothesis Hl : exact_lattice m.
Hypothesis Heta : (0 < eta)%R.
Let e := phys_env m k w eta.
Hypothesis Hherm : hermitian e m.
Hypothesis Hlat : on_lattice m c.

Lemma phys_regular : nonsingular (mkCoo (NN s) (NN s) (triplets e s)).
Proof.
  apply (regular_iff m ae G ord P s Es e). intros u Pu Cn.
  exact (passive_unique m ae G e eta c Heta Hherm Hlat (phys_ph m k w eta) (phys_g0 m k w eta Hl Heta) _ (phys_G0 m k w eta Heta) u Pu Cn).
Qed.

Lemma G0_nz : G0 e <> C0.
Proof.
  intros E. pose proof (phys_G0 m k w eta Heta) as H. fold e in H. rewrite E in H. apply (f_equal Re) in H. unfold Cmul, C0, C1, Re, Im in H. cbn in H. lra.
Qed.

Lemma phys_bound : forall u, proper u -> solution e s u -> (Im (u (vac m, [0%Z])) <= - eta * Cnorm2 (u (vac m, [0%Z])))%R /\ u (vac m, [0]) <> C0.
Proof.
  intros u Pu Su. apply (solution_iff m ae G ord P s Es e u Pu) in Su. split.
  - exact (passive_bound m ae G e eta c Heta Hherm Hlat (phys_ph m k w eta) (phys_g0 m k w eta Hl Heta) _ (phys_G0 m k w eta Heta) u Pu Su).
  - intros Z0. destruct (passive m ae G e eta c Heta Hherm Hlat (phys_ph m k w eta) (phys_g0 m k w eta Hl Heta) _ (phys_G0 m k w eta Heta) u (G0 e) Pu Su) as [_ U].
    rewrite Z0 in U. assert (UZ : forall a d, space m ae a -> reached m ae a d -> u (a, [d]) = C0).
    { apply U. unfold Cmul, Cconj, C0, Cnorm2, Re, Im. cbn. lra. }
    destruct Su as [_ S2]. apply G0_nz. rewrite <- S2, Z0, (ksum_zero (K := CR)); [unfold C0; apply Ceq; unfold Re, Im; cbn; lra|].
    intros h Hh. apply filter_In in Hh. destruct Hh as [Hh Cr]. unfold gsummand.
    rewrite (UZ (single_phonon (m_ntypes m) 1 (ht_index h)) (phi1 h)).
    + unfold C0. apply Ceq; cbn; unfold Cmul, Re, Im; cbn; ring.
    + apply (single_in_space m ae G). apply (gm_index _ _ G h Hh).
    + left. exists h. split; [exact Hh|]. split; [|auto]. unfold creation in Cr. destruct (ht_dag h); [reflexivity|discriminate].
Qed.
End Result.

Lemma bound_abs : forall eta g, (0 < eta)%R -> (Im g <= - eta * Cnorm2 g)%R -> (Cabs g <= 1 / eta)%R.
Proof.
  intros eta g He H. pose proof (Cabs_ge0 g) as A. pose proof (Cabs_sq g) as S. 
  assert (I : (- Cabs g <= Im g)%R).
  { pose proof (Rle_0_sqr (Re g)) as Q. unfold Rsqr in Q. unfold Cnorm2 in S. destruct (Rle_lt_dec (- Cabs g) (Im g)) as [L|L]; [exact L|exfalso; nra]. }
  assert (X : (eta * Cabs g * Cabs g <= Cabs g)%R) by (rewrite <- S in H; nra).
  assert (Y : (eta * Cabs g <= 1)%R).
  { destruct (Rle_lt_dec (eta * Cabs g) 1) as [L|L]; [exact L|exfalso]. assert (0 < Cabs g)%R by (destruct A as [A|A]; [exact A|rewrite <- A in L; lra]). nra. }
  apply Rmult_le_reg_l with eta; [exact He|]. replace (eta * (1 / eta))%R with 1%R by (field; lra). exact Y.
Qed.
