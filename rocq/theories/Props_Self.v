(** Property theorem C59: Dyson's equation, the sign and the size of the
    self-energy of the computed Green's function. *)
From Coq Require Import String ZArith List Bool Lia Permutation Reals Lra.
From Verif Require Import Base NdArray Config Spec Model HModel Space Spec_space Term Equation System Spec_engine Props_Engine
  Ring Coef Spec_eom Solvers Spec_solve LinSolve Spec_model Spec_sym Cplx Physics Props_Physics Props_Model Props_Solve Props_Sym Spec_spectral Props_Spectral
  Spec_ma Props_MA Spec_self.
From Verif Require HModel_proofs Physics_proofs Sysok_proofs Sparse_proofs Prime_proofs Rows_proofs Spectral_proofs Self_proofs.
Import ListNotations.
Open Scope list_scope.
Open Scope Z_scope.

(** The result of SparseSolver is 1 / (z - band - s) with a self-energy [s] that
    only damps and is of second order in the couplings. *)
Theorem C59_self_energy : forall m ae c ord sp k w eta, good_model m ae -> hermitian (phys_env m k w eta) m -> on_lattice m c ->
  exact_lattice m -> (0 < eta)%R -> (forall k l, Permutation (ord k l) l) -> spsolve_ok sp ->
  exists g s : C, greens (phys_env m k w eta) sp ord m = Ok g /\ dyson m k w eta s g /\ (Im s <= 0)%R /\ (Cabs s <= strength m * strength m / eta)%R.
Proof.
  intros m ae c ord sp k w eta G H L Hl He P SO. destruct (C52_regular m ae c ord k w eta G H L Hl He P) as [s [X [v [E [ES NS]]]]].
  destruct (Sysok_proofs.sys_ok_good m ae ord s G P E) as [O _]. destruct (scaffold_shape _ m ae ord s X v G P E ES) as [S1 S2].
  destruct (Sparse_proofs.sparse_result (phys_env m k w eta) s O sp X v ES (SO X v S1 S2 NS)) as [g [Eg [[u [Pu [Su Gu]]] _]]].
  pose proof (Sparse_proofs.g_value_unique s O u g (u (Prime_proofs.vac m, [0])) Gu (Rows_proofs.g_value_vac m ae G ord P s E u)) as EQ.
  destruct (Self_proofs.phys_self m ae c ord s k w eta G P E Hl He H L u Pu Su) as [sg [D B]]. exists g, sg.
  split; [unfold greens; rewrite E; exact Eg|]. rewrite EQ. auto.
Qed.
Print Assumptions C59_self_energy.

(** The same number comes from DenseSolver. *)
Theorem C59_dense : forall m ae c ord sys ls k w eta, good_model m ae -> hermitian (phys_env m k w eta) m -> on_lattice m c ->
  exact_lattice m -> (0 < eta)%R -> (forall k l, Permutation (ord k l) l) -> prime_system ord m = Ok sys -> lsolve_ok (F := CF) ls ->
  exists g s : C, dense_solve (F := CF) (phys_env m k w eta) ls sys = Ok g /\ dyson m k w eta s g /\ (Im s <= 0)%R /\ (Cabs s <= strength m * strength m / eta)%R.
Proof.
  intros m ae c ord sys ls k w eta G H L Hl He P E LO.
  destruct (C53_dense m ae c ord sys ls (gauss_sparse (F := CF) C_eq_dec) k w eta G H L Hl He P E LO (gauss_spsolve_ok (F := CF) C_eq_dec)) as [D [g0' [_ [_ [E1 [E2 _]]]]]].
  destruct (C59_self_energy m ae c ord (gauss_sparse (F := CF) C_eq_dec) k w eta G H L Hl He P (gauss_spsolve_ok (F := CF) C_eq_dec)) as [g [s [Eg R]]].
  exists g, s. split; [|exact R]. rewrite E1, <- E2. exact Eg.
Qed.
Print Assumptions C59_dense.

(** Hence the free propagator is recovered with weak coupling and with large
    broadening, ... *)
Theorem C59_weak : forall m ae c ord sp k w eta free, good_model m ae -> hermitian (phys_env m k w eta) m -> on_lattice m c ->
  exact_lattice m -> (0 < eta)%R -> (forall k l, Permutation (ord k l) l) -> spsolve_ok sp ->
  Cmul free ((w - band m k)%R, eta) = Cplx.C1 ->
  exists g : C, greens (phys_env m k w eta) sp ord m = Ok g /\ (Cabs (Csub g free) <= strength m * strength m / (eta * eta * eta))%R.
Proof.
  intros m ae c ord sp k w eta free G H L Hl He P SO HF. destruct (C59_self_energy m ae c ord sp k w eta G H L Hl He P SO) as [g [s [Eg [D [I B]]]]].
  exists g. split; [exact Eg|].
  assert (DF : dyson m k w eta Cplx.C0 free) by (unfold dyson; rewrite <- HF; ring).
  pose proof (Self_proofs.dyson_diff m k w eta s Cplx.C0 g free He D DF I ltac:(unfold Cplx.C0, Im; cbn; lra)) as Q.
  replace (Csub s Cplx.C0) with s in Q by ring. eapply Rle_trans; [exact Q|].
  replace (strength m * strength m / (eta * eta * eta))%R with (strength m * strength m / eta * / (eta * eta))%R by (field; lra).
  apply Rmult_le_compat_r; [|exact B]. left. apply Rinv_0_lt_compat. nra.
Qed.
Print Assumptions C59_weak.

(** ... and the Green's function decays like 1 / w away from the band. *)
Theorem C59_tails : forall m ae c ord sp k w eta, good_model m ae -> hermitian (phys_env m k w eta) m -> on_lattice m c ->
  exact_lattice m -> (0 < eta)%R -> (forall k l, Permutation (ord k l) l) -> spsolve_ok sp ->
  (strength m * strength m / eta < Rabs (w - band m k))%R ->
  exists g : C, greens (phys_env m k w eta) sp ord m = Ok g /\ (Cabs g <= 1 / (Rabs (w - band m k) - strength m * strength m / eta))%R.
Proof.
  intros m ae c ord sp k w eta G H L Hl He P SO F. destruct (C59_self_energy m ae c ord sp k w eta G H L Hl He P SO) as [g [s [Eg [D [I B]]]]].
  exists g. split; [exact Eg|]. exact (Self_proofs.dyson_far m k w eta s g _ D B F).
Qed.
Print Assumptions C59_tails.

(** For every sequence of calls with distinct frequencies, and no BondPeierls
    next to another coupling. *)
Theorem C59_histories : forall m fs cs ord sp k w eta, built Rnum 1 m fs cs -> cs <> [] -> distinct Rnum fs ->
  (forall k, m_mps m = Some k -> 1 <= k) -> (forall k, m_aext m = Some k -> 1 <= k) ->
  (forall c, In c cs -> c = "BondPeierls"%string) \/ (forall c, In c cs -> c <> "BondPeierls"%string) ->
  exact_lattice m -> (0 < eta)%R -> (forall k l, Permutation (ord k l) l) -> spsolve_ok sp ->
  exists g s : C, greens (phys_env m k w eta) sp ord m = Ok g /\ dyson m k w eta s g /\ (Im s <= 0)%R /\ (Cabs s <= strength m * strength m / eta)%R.
Proof.
  intros m fs cs ord sp k w eta B Hc D Hm Ha Hb Hl He P SO.
  destruct (HModel_proofs.built_good Rnum (proj1 Rnum_ok) m fs cs B Hc D Hm Ha Hb) as [ae G]. destruct (C50_lattice m fs cs ae B G) as [c L].
  exact (C59_self_energy m ae c ord sp k w eta G (C51_hermitian m fs cs ae k w eta B G) L Hl He P SO).
Qed.
Print Assumptions C59_histories.

(** One Holstein coupling of strength [g] at temperature 0: the bound is
    g^2 / eta for clouds of every size. *)
Theorem C59_holstein : forall hop lat mps a g logs m ord sp k w eta, a_type a = "Holstein"%string -> a_override a = None ->
  coupling_value Rnum (from_parameters hop lat 0%R mps 1) a g -> model_add Rnum (from_parameters hop lat 0%R mps 1) a = Ok (logs, m) -> ~ In LError logs ->
  (forall k, mps = Some k -> 1 <= k) -> lat = 1%R \/ hop = 0%R -> (0 < eta)%R -> (forall k l, Permutation (ord k l) l) -> spsolve_ok sp ->
  exists G s : C, greens (phys_env m k w eta) sp ord m = Ok G /\
    Cmul G (Csub ((w + 2 * hop * cos (k * lat))%R, eta) s) = Cplx.C1 /\ (Im s <= 0)%R /\ (Cabs s <= g * g / eta)%R.
Proof.
  intros hop lat mps a g logs m ord sp k w eta Ty Ov Cv E NE Hk Hl He P SO.
  assert (B : built Rnum 1 m (if Rlt_dec 0 0 then [a_freq a; (- a_freq a)%R] else [a_freq a]) ["Holstein"%string]).
  { pose proof (built_add Rnum 1 _ [] [] _ _ _ (built_start Rnum 1 hop lat 0%R mps) E NE Ov) as B. rewrite Ty in B. cbn [app from_parameters m_temp Rnum n_ltb n_0 n_opp] in B.
    destruct (Rlt_dec 0 0); exact B. }
  destruct (holstein_call hop lat mps a g logs m Ty Ov Cv E NE) as [-> [HM HN]]. clear E.
  pose proof (holstein_good hop lat mps (- (g * 1))%R (a_freq a) (a_M a) (a_N a) HM HN Hk) as G0. set (m := mkModel lat 0%R _ _ _ _ _ _) in *.
  destruct (C50_lattice m _ _ _ B G0) as [c L].
  destruct (C59_self_energy m _ c ord sp k w eta G0 (C51_hermitian m _ _ _ k w eta B G0) L Hl He P SO) as [G [s [Eg [D [I Bd]]]]].
  exists G, s. split; [exact Eg|]. split; [|split; [exact I|]].
  - unfold dyson, band in D. cbn [m m_ham h_hop m_lattice] in D. rewrite <- D. f_equal. f_equal. apply Ceq; [unfold Re; cbn; ring|reflexivity].
  - unfold strength in Bd. cbn [m m_ham h_terms map fold_right ht_dag ht_coupling] in Bd. rewrite !Rplus_0_r in Bd.
    replace (Rabs (- (g * 1)) * Rabs (- (g * 1)))%R with (g * g)%R in Bd; [exact Bd|].
    rewrite <- Rabs_mult. replace (- (g * 1) * - (g * 1))%R with (g * g)%R by ring. symmetry. apply Rabs_right. nra.
Qed.
Print Assumptions C59_holstein.

(** The bound is attained: one phonon, no hopping, the frequency of the phonon. *)
Theorem C59_sharp : forall lat mps a g logs m ord sp k eta, a_type a = "Holstein"%string -> a_override a = None -> a_N a = 1 ->
  coupling_value Rnum (from_parameters 0%R lat 0%R mps 1) a g -> model_add Rnum (from_parameters 0%R lat 0%R mps 1) a = Ok (logs, m) -> ~ In LError logs ->
  (forall k, mps = Some k -> 1 <= k) -> (0 < eta)%R -> (forall k l, Permutation (ord k l) l) -> spsolve_ok sp ->
  exists G s : C, greens (phys_env m k (a_freq a) eta) sp ord m = Ok G /\ Cmul G (Csub (a_freq a, eta) s) = Cplx.C1 /\ Cabs s = (g * g / eta)%R.
Proof.
  intros lat mps a g logs m ord sp k eta Ty Ov N1 Cv E NE Hk He P SO.
  assert (Hp : forall n, local_greens 0 ((a_freq a - IZR n * a_freq a)%R, eta) (g0_delta_omega 0 (RtoC (a_freq a - IZR n * a_freq a)) 1 eta 0 1 0)) by (intros n; apply C54_local; exact He).
  assert (P1 : g0_delta_omega 0 (RtoC (a_freq a - IZR 1 * a_freq a)) 1 eta 0 1 0 = (0, - / eta)%R).
  { symmetry. apply C54_local; [exact He|]. replace (a_freq a - 1 * a_freq a)%R with 0%R by ring. split.
    - apply Ceq; unfold Cmul, Csub, Cadd, Copp, RtoC, Cplx.C1, Re, Im; cbn; field; lra.
    - unfold Im. cbn. pose proof (Rinv_0_lt_compat eta He). lra. }
  destruct (C54_histories 0%R lat mps a g logs m ord sp k (a_freq a) eta _ Ty Ov Cv E NE Hk (or_intror eq_refl) He P SO Hp) as [G [Eg V]].
  rewrite N1 in V. assert (Z1 : (match mps with Some n => Z.min 1 n | None => 1 end) = 1) by (destruct mps as [n|]; [specialize (Hk n eq_refl); lia|reflexivity]).
  rewrite Z1 in V. change (Z.to_nat 1) with 1%nat in V. cbn [ladder] in V. rewrite P1 in V.
  exists G, (0, - (g * g / eta))%R. split; [exact Eg|]. split.
  - rewrite <- V. transitivity (Cmul (Csub (a_freq a, eta) (0, - (g * g / eta))%R) G); [ring|]. f_equal. f_equal.
    + apply Ceq; unfold Re, Im; cbn; ring.
    + apply Ceq; unfold Re, Im; cbn; unfold Cinv, Cnorm2, Csub, Cadd, Copp, Cmul, RtoC, Cplx.C1, Cplx.C0, Re, Im; cbn; field; lra.
  - unfold Cabs, Cnorm2, Re, Im. cbn [fst snd]. rewrite Rmult_0_l, Rplus_0_l. replace (- (g * g / eta) * - (g * g / eta))%R with (g * g / eta * (g * g / eta))%R by ring.
    apply sqrt_square. apply Rmult_le_pos; [nra|]. left. apply Rinv_0_lt_compat. exact He.
Qed.
Print Assumptions C59_sharp.

(** Edwards' model with hopping 1 / 2 and coupling 2: the self-energy is at most 16
    at eta = 1. *)
Example C59_nonvacuous : forall k w, exists g s : C, good_model (x_model 1) 1 /\ strength (x_model 1) = 4%R /\
  greens (phys_env (x_model 1) k w 1) (gauss_sparse (F := CF) C_eq_dec) id_ord (x_model 1) = Ok g /\
  dyson (x_model 1) k w 1 s g /\ (Cabs s <= 16)%R.
Proof.
  intros k w. destruct C51_nonvacuous as [B [G [Hl [_ [_ L]]]]]. pose proof (C51_hermitian _ _ _ 1 k w 1 B G) as H.
  assert (St : strength (x_model 1) = 4%R). { unfold strength. cbn. rewrite Rabs_right by lra. lra. }
  destruct (C59_self_energy _ 1 0 id_ord (gauss_sparse (F := CF) C_eq_dec) k w 1 G H L (or_introl Hl) ltac:(lra) id_perm (gauss_spsolve_ok (F := CF) C_eq_dec)) as [g [s [Eg [D [_ Bd]]]]].
  exists g, s. split; [exact G|]. split; [exact St|]. split; [exact Eg|]. split; [exact D|]. rewrite St in Bd. lra.
Qed.
