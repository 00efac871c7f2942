(** Property theorem C56: the computed Green's function is the Green's function
    of the Hamiltonian restricted to the variational space. *)
From Coq Require Import String ZArith List Bool Lia Permutation Reals Lra.
From Verif Require Import Base NdArray Config Spec Model HModel Space Spec_space Term Equation System Spec_engine Props_Engine
  Ring Coef Spec_eom Solvers Spec_solve LinSolve Spec_model Spec_sym Cplx Physics Props_Physics Props_Model Props_Solve Props_Sym Spec_spectral Props_Spectral Spec_green.
From Verif Require HModel_proofs Physics_proofs Sysok_proofs Sparse_proofs Dense_proofs Prime_proofs Rows_proofs Spectral_proofs Green_proofs.
Import ListNotations.
Open Scope list_scope.
Open Scope Z_scope.

(** The functional <k| (z - H)^-1 of the space, z = w + i eta, exists, ... *)
Theorem C56_exists : forall m ae c k w eta, good_model m ae -> hermitian (phys_env m k w eta) m -> on_lattice m c ->
  exact_lattice m -> (0 <= h_hop (m_ham m))%R -> (0 < eta)%R -> exists Psi, greens_row m ae c k (w, eta) Psi.
Proof.
  intros m ae c k w eta G H L Hl Ht He. destruct (C52_regular m ae c id_ord k w eta G H L Hl He id_perm) as [s [X [v [E [ES NS]]]]].
  destruct (Sysok_proofs.sys_ok_good m ae id_ord s G id_perm E) as [O _]. destruct (scaffold_shape _ m ae id_ord s X v G id_perm E ES) as [S1 S2].
  destruct (Sparse_proofs.sparse_result (phys_env m k w eta) s O (gauss_sparse (F := CF) C_eq_dec) X v ES (gauss_spsolve_ok (F := CF) C_eq_dec X v S1 S2 NS)) as [g [Eg [[u [Pu [Su Gu]]] _]]].
  apply (Rows_proofs.solution_iff m ae G id_ord id_perm s E) in Su; [|exact Pu].
  destruct (Green_proofs.row_exists m ae c k w eta G Hl Ht He L u Pu Su) as [Psi [Ro _]]. exists Psi. exact Ro.
Qed.
Print Assumptions C56_exists.

(** ... is unique, ... *)
Theorem C56_unique : forall m ae c k w eta Psi Psi', good_model m ae -> hermitian (phys_env m k w eta) m -> on_lattice m c ->
  exact_lattice m -> (0 <= h_hop (m_ham m))%R -> (0 < eta)%R -> greens_row m ae c k (w, eta) Psi -> greens_row m ae c k (w, eta) Psi' ->
  forall n j, Psi n j = Psi' n j.
Proof. intros m ae c k w eta Psi Psi' G H L Hl Ht He R R'. exact (Green_proofs.row_unique m ae c k w eta G Hl Ht He L H Psi Psi' R R'). Qed.
Print Assumptions C56_unique.

(** ... and its value on the phonon-free state with the particle on site 0 is
    the number that SparseSolver returns. *)
Theorem C56_green : forall m ae c ord sp k w eta Psi, good_model m ae -> hermitian (phys_env m k w eta) m -> on_lattice m c ->
  exact_lattice m -> (0 <= h_hop (m_ham m))%R -> (0 < eta)%R -> (forall k l, Permutation (ord k l) l) -> spsolve_ok sp ->
  greens_row m ae c k (w, eta) Psi -> greens (phys_env m k w eta) sp ord m = Ok (Psi vacuum 0).
Proof.
  intros m ae c ord sp k w eta Psi G H L Hl Ht He P SO Ro. destruct (C52_regular m ae c ord k w eta G H L Hl He P) as [s [X [v [E [ES NS]]]]].
  destruct (Sysok_proofs.sys_ok_good m ae ord s G P E) as [O _]. destruct (scaffold_shape _ m ae ord s X v G P E ES) as [S1 S2].
  destruct (Sparse_proofs.sparse_result (phys_env m k w eta) s O sp X v ES (SO X v S1 S2 NS)) as [g [Eg [_ U]]].
  set (u := Green_proofs.u_of m c k w eta Psi). assert (Pu : proper u) by apply Green_proofs.u_of_proper.
  assert (Su : solution (phys_env m k w eta) s u).
  { apply (Rows_proofs.solution_iff m ae G ord P s E); [exact Pu|]. exact (Green_proofs.u_of_conditions m ae c k w eta G Hl Ht He L Psi Ro). }
  pose proof (Sparse_proofs.g_value_unique s O u g (u (Prime_proofs.vac m, [0])) (U NS u Pu Su) (Rows_proofs.g_value_vac m ae G ord P s E u)) as EQ.
  unfold greens. rewrite E. cbn [bind]. rewrite Eg, EQ. unfold u, Green_proofs.u_of. cbn [fst]. destruct (Prime_proofs.vac_valid m) as [_ [T0 _]]. rewrite T0. reflexivity.
Qed.
Print Assumptions C56_green.

(** DenseSolver returns it too. *)
Theorem C56_dense : forall m ae c ord s ls k w eta Psi, good_model m ae -> hermitian (phys_env m k w eta) m -> on_lattice m c ->
  exact_lattice m -> (0 <= h_hop (m_ham m))%R -> (0 < eta)%R -> (forall k l, Permutation (ord k l) l) -> prime_system ord m = Ok s -> lsolve_ok (F := CF) ls ->
  greens_row m ae c k (w, eta) Psi -> dense_solve (F := CF) (phys_env m k w eta) ls s = Ok (Psi vacuum 0).
Proof.
  intros m ae c ord s ls k w eta Psi G H L Hl Ht He P E LO Ro.
  destruct (C53_dense m ae c ord s ls (gauss_sparse (F := CF) C_eq_dec) k w eta G H L Hl He P E LO (gauss_spsolve_ok (F := CF) C_eq_dec)) as [D [g [_ [_ [E1 [E2 _]]]]]].
  rewrite E1, <- E2. exact (C56_green m ae c ord _ k w eta Psi G H L Hl Ht He P (gauss_spsolve_ok (F := CF) C_eq_dec) Ro).
Qed.
Print Assumptions C56_dense.

(** For every sequence of calls with distinct frequencies, and no BondPeierls
    next to another coupling. *)
Theorem C56_histories : forall m fs cs ord sp k w eta, built Rnum 1 m fs cs -> cs <> [] -> distinct Rnum fs ->
  (forall k, m_mps m = Some k -> 1 <= k) -> (forall k, m_aext m = Some k -> 1 <= k) ->
  (forall c, In c cs -> c = "BondPeierls"%string) \/ (forall c, In c cs -> c <> "BondPeierls"%string) ->
  exact_lattice m -> (0 <= h_hop (m_ham m))%R -> (0 < eta)%R -> (forall k l, Permutation (ord k l) l) -> spsolve_ok sp ->
  exists ae c Psi, good_model m ae /\ on_lattice m c /\ greens_row m ae c k (w, eta) Psi /\ greens (phys_env m k w eta) sp ord m = Ok (Psi vacuum 0).
Proof.
  intros m fs cs ord sp k w eta B Hc D Hm Ha Hb Hl Ht He P SO.
  destruct (HModel_proofs.built_good Rnum (proj1 Rnum_ok) m fs cs B Hc D Hm Ha Hb) as [ae G]. destruct (C50_lattice m fs cs ae B G) as [c L].
  pose proof (C51_hermitian m fs cs ae k w eta B G) as H. destruct (C56_exists m ae c k w eta G H L Hl Ht He) as [Psi Ro].
  exists ae, c, Psi. split; [exact G|]. split; [exact L|]. split; [exact Ro|]. exact (C56_green m ae c ord sp k w eta Psi G H L Hl Ht He P SO Ro).
Qed.
Print Assumptions C56_histories.

(** Edwards' model with hopping 1 / 2 at every momentum and frequency. *)
Example C56_nonvacuous : forall k w, exists Psi, greens_row (x_model 1) 1 0 k (w, 1%R) Psi /\ Psi vacuum 0 <> Cplx.C0.
Proof.
  intros k w. destruct C51_nonvacuous as [B [G [Hl [_ [_ L]]]]]. pose proof (C51_hermitian _ _ _ 1 k w 1 B G) as H.
  assert (Ht : (0 <= h_hop (m_ham (x_model 1)))%R) by (cbn; lra).
  destruct (C56_exists _ 1 0 k w 1 G H L (or_introl Hl) Ht ltac:(lra)) as [Psi Ro]. exists Psi. split; [exact Ro|].
  pose proof (C56_green _ 1 0 id_ord (gauss_sparse (F := CF) C_eq_dec) k w 1 Psi G H L (or_introl Hl) Ht ltac:(lra) id_perm (gauss_spsolve_ok (F := CF) C_eq_dec) Ro) as E.
  destruct (C51_spectral _ 1 0 id_ord (gauss_sparse (F := CF) C_eq_dec) k w 1 G H L (or_introl Hl) ltac:(lra) id_perm (gauss_spsolve_ok (F := CF) C_eq_dec)) as [g [Eg [N _]]].
  rewrite Eg in E. injection E as ->. intros Z0. rewrite Z0 in N. unfold Cplx.C0, Im in N. cbn in N. lra.
Qed.
