(** Property theorems C60: a basis given by the user. *)
From Coq Require Import String ZArith List Bool Lia Permutation Qcanon QArith Reals.
From Verif Require Import Base NdArray Config Spec Model HModel Space Render Term Equation System Spec_engine Ring Coef Spec_eom Solvers Spec_solve LinSolve Props_Engine Props_Solve
  Mpi Petsc Spec_petsc Props_Petsc Spec_model Spec_sym Cplx Physics Props_Physics Spec_spectral Props_Spectral Basis Spec_basis.
From Verif Require Petsc_proofs Disk_proofs Sysok_proofs Sparse_proofs Dense_proofs Pivot_proofs Basis_proofs.
Import ListNotations.
Open Scope list_scope.
Open Scope nat_scope.

(** Without the argument the solvers are those of the other properties. *)
Theorem C60_default : forall T (F : cfield) (e : env T F) sp mumps ls s p,
  sparse_solve_in e sp None s = sparse_solve e sp s /\ mass_solve_in e mumps None s p = mass_solve mumps e s p /\
  dense_solve_in e ls None s = dense_solve e ls s.
Proof. intros. split; [reflexivity|]. split; reflexivity. Qed.
Print Assumptions C60_default.

(** SparseSolver.  With any numbering of the unknowns that gives the Green's
    function the last number the result is the usual one; with any other the
    call fails. *)
Theorem C60_sparse : forall T (K : cring) (e : env T K) m ae ord s sp d X v, good_model m ae ->
  (forall k l, Permutation (ord k l) l) -> prime_system ord m = Ok s -> numbering (unknown_ids s) d ->
  (sget "{G}[0.0]" d = Some (List.length d - 1) -> spsolve_ok sp -> scaffold e (full_basis s) s = Ok (X, v) -> nonsingular X ->
     exists g, sparse_solve_in e sp (Some (Flat d)) s = Ok g /\ sparse_solve e sp s = Ok g) /\
  (sget "{G}[0.0]" d <> Some (List.length d - 1) -> sparse_solve_in e sp (Some (Flat d)) s = Err ValueError).
Proof.
  intros T K e m ae ord s sp d X v G P E NU. destruct (Sysok_proofs.sys_ok_good m ae ord s G P E) as [O _].
  change (unknown_ids s) with (index_ids (all_eqs s)) in NU.
  destruct (Basis_proofs.numbering_bij _ _ (Sysok_proofs.so_nodup s O) NU) as [B [L FD]].
  assert (LN : List.length (index_ids (all_eqs s)) = Sparse_proofs.NN s) by (unfold index_ids; apply map_length). rewrite LN in B, L.
  pose proof (Basis_proofs.green_in s O d _ FD) as Gp. rewrite Gp, L. split.
  - intros GL SO ES NS. rewrite (Sparse_proofs.scaffold_ok e s O) in ES.
    assert (EX : X = mkCoo (Sparse_proofs.NN s) (Sparse_proofs.NN s) (Sparse_proofs.triplets e s)) by congruence. rewrite EX in NS.
    injection GL as GL. destruct (Basis_proofs.sparse_default e s O sp SO NS) as [y [Ey _]]. exists (y (Sparse_proofs.NN s - 1)). split; [|exact Ey].
    rewrite (Basis_proofs.sparse_in e s O d _ B L FD sp SO NS GL). exact Ey.
  - intros GL. apply (Basis_proofs.sparse_in_shape e s O d _ B L FD). congruence.
Qed.
Print Assumptions C60_sparse.

(** MassSolverMUMPS.  With the Green's function last it returns the same value
    on every number of ranks up to the number of unknowns. *)
Theorem C60_mass : forall T (K : cring) (e : env T K) m ae ord s mumps sp d p X v, good_model m ae ->
  (forall k l, Permutation (ord k l) l) -> prime_system ord m = Ok s -> numbering (unknown_ids s) d -> mumps_ok mumps -> spsolve_ok sp ->
  scaffold e (full_basis s) s = Ok (X, v) -> nonsingular X -> 1 <= p <= List.length (all_eqs s) ->
  sget "{G}[0.0]" d = Some (List.length d - 1) ->
  exists g, mass_solve_in e mumps (Some (Flat d)) s p = Ok g /\ sparse_solve e sp s = Ok g.
Proof.
  intros T K e m ae ord s mumps sp d p X v G P E NU MO SO ES NS HP GL. destruct (Sysok_proofs.sys_ok_good m ae ord s G P E) as [O _].
  change (unknown_ids s) with (index_ids (all_eqs s)) in NU.
  destruct (Basis_proofs.numbering_bij _ _ (Sysok_proofs.so_nodup s O) NU) as [B [L FD]].
  assert (LN : List.length (index_ids (all_eqs s)) = Sparse_proofs.NN s) by (unfold index_ids; apply map_length). rewrite LN in B, L.
  rewrite (Basis_proofs.green_in s O d _ FD), L in GL. injection GL as GL. rewrite (Sparse_proofs.scaffold_ok e s O) in ES.
  assert (EX : X = mkCoo (Sparse_proofs.NN s) (Sparse_proofs.NN s) (Sparse_proofs.triplets e s)) by congruence. rewrite EX in NS.
  destruct (Basis_proofs.sparse_default e s O sp SO NS) as [y [Ey _]]. exists (y (Sparse_proofs.NN s - 1)). split; [|exact Ey].
  rewrite (Basis_proofs.mass_in_last e s O d _ B L FD mumps sp p MO SO HP NS GL). exact Ey.
Qed.
Print Assumptions C60_mass.

(** In general it returns the value of the unknown with the last number, for
    the equations with the inhomogeneity moved to that unknown; no exception. *)
Theorem C60_mass_general : forall T (K : cring) (e : env T K) m ae ord s mumps d p X v, good_model m ae ->
  (forall k l, Permutation (ord k l) l) -> prime_system ord m = Ok s -> numbering (unknown_ids s) d -> mumps_ok mumps ->
  scaffold e (full_basis s) s = Ok (X, v) -> nonsingular X -> 1 <= p <= List.length (all_eqs s) ->
  exists q0 u, In q0 (all_eqs s) /\ sget (tid (e_index q0)) d = Some (List.length d - 1) /\ proper u /\
    (forall q, In q (all_eqs s) -> row e u q = if String.eqb (tid (e_index q)) (tid (e_index q0)) then G0 e else k0) /\
    mass_solve_in e mumps (Some (Flat d)) s p = Ok (u (unk (e_index q0))).
Proof.
  intros T K e m ae ord s mumps d p X v G P E NU MO ES NS HP. destruct (Sysok_proofs.sys_ok_good m ae ord s G P E) as [O _].
  change (unknown_ids s) with (index_ids (all_eqs s)) in NU.
  destruct (Basis_proofs.numbering_bij _ _ (Sysok_proofs.so_nodup s O) NU) as [B [L FD]].
  assert (LN : List.length (index_ids (all_eqs s)) = Sparse_proofs.NN s) by (unfold index_ids; apply map_length). rewrite LN in B, L.
  rewrite (Sparse_proofs.scaffold_ok e s O) in ES.
  assert (EX : X = mkCoo (Sparse_proofs.NN s) (Sparse_proofs.NN s) (Sparse_proofs.triplets e s)) by congruence. rewrite EX in NS.
  destruct (Basis_proofs.mass_in e s O d _ B L FD mumps p MO HP NS) as [y [l [Hl [Fl [EM Hy]]]]].
  destruct (nth_error (all_eqs s) l) as [q0|] eqn:E0; [|apply nth_error_None in E0; unfold Sparse_proofs.NN in Hl; lia].
  pose proof (nth_error_In _ _ E0) as I0.
  exists q0, (Sparse_proofs.uof s y). split; [exact I0|]. split.
  { rewrite (FD l (tid (e_index q0))) by (unfold index_ids; rewrite nth_error_map, E0; reflexivity). rewrite Fl, L. reflexivity. }
  split; [apply Sparse_proofs.uof_proper|]. split.
  - intros q Hq. apply In_nth_error in Hq. destruct Hq as [i Hi]. assert (Li : i < Sparse_proofs.NN s) by (unfold Sparse_proofs.NN; apply nth_error_Some; congruence).
    rewrite <- (Sparse_proofs.mv_value e s O (Sparse_proofs.uof s y) i q (Sparse_proofs.uof_proper s y) Hi).
    rewrite (Sparse_proofs.mv_uof e s O), (Hy i Li).
    destruct (Nat.eqb_spec i l) as [->|N]; destruct (String.eqb_spec (tid (e_index q)) (tid (e_index q0))) as [Q|Q]; try reflexivity.
    + exfalso. apply Q. congruence.
    + exfalso. apply N. rewrite <- (Sparse_proofs.fpos_nth s O i q Hi), <- (Sparse_proofs.fpos_nth s O l q0 E0). congruence.
  - rewrite EM. f_equal. rewrite <- (Sparse_proofs.uof_xof s O y l Hl). unfold Sparse_proofs.xof. rewrite E0. reflexivity.
Qed.
Print Assumptions C60_mass_general.

(** DenseSolver: a numbering for each number of phonons, in any order, gives the
    usual result. *)
Theorem C60_dense : forall T (F : cfield) (e : env T F) m ae ord s ls b, good_model m ae ->
  (forall k l, Permutation (ord k l) l) -> prime_system ord m = Ok s -> level_numberings s b -> lsolve_ok ls ->
  (forall k X, (1 <= k < total_bosons s)%Z -> pivot e ls s k = Ok X -> dnonsingular X) ->
  exists g, dense_solve_in e ls (Some (Levels b)) s = Ok g /\ dense_solve e ls s = Ok g.
Proof.
  intros T F e m ae ord s ls b G P E LN LO PN. destruct (Sysok_proofs.sys_ok_good m ae ord s G P E) as [O _].
  destruct (Dense_proofs.den_ok e s O ls) as [D [_ [ED _]]]. eexists. split; [|exact ED].
  rewrite (Basis_proofs.dense_in e ls LO s O b LN PN). exact ED.
Qed.
Print Assumptions C60_dense.

(** With the coefficients of a physical model no assumption on the matrices is
    left. *)
Theorem C60_physical : forall m fs cs ae ord s sp ls mumps d b p k w eta, built Rnum 1 m fs cs -> good_model m ae -> exact_lattice m ->
  (0 < eta)%R -> (forall k l, Permutation (ord k l) l) -> prime_system ord m = Ok s ->
  spsolve_ok sp -> lsolve_ok (F := CF) ls -> mumps_ok (K := CR) mumps ->
  numbering (unknown_ids s) d -> sget "{G}[0.0]" d = Some (List.length d - 1) -> level_numberings s b -> 1 <= p <= List.length (all_eqs s) ->
  exists g : C, sparse_solve (phys_env m k w eta) sp s = Ok g /\ sparse_solve_in (phys_env m k w eta) sp (Some (Flat d)) s = Ok g /\
    mass_solve_in (K := CR) (phys_env m k w eta) mumps (Some (Flat d)) s p = Ok g /\
    dense_solve_in (F := CF) (phys_env m k w eta) ls (Some (Levels b)) s = Ok g.
Proof.
  intros m fs cs ae ord s sp ls mumps d b p k w eta Bu G Hl He P E SO LO MO NU GL LN HP.
  destruct (C50_lattice m fs cs ae Bu G) as [c L]. pose proof (C51_hermitian m fs cs ae k w eta Bu G) as H.
  destruct (C52_regular m ae c ord k w eta G H L Hl He P) as [s' [X [v [E' [ES NS]]]]]. assert (s' = s) by congruence. subst s'.
  destruct (proj1 (C60_sparse _ CR (phys_env m k w eta) m ae ord s sp d X v G P E NU) GL SO ES NS) as [g [E1 E2]]. exists g.
  split; [exact E2|]. split; [exact E1|]. split.
  - destruct (C60_mass _ CR (phys_env m k w eta) m ae ord s mumps sp d p X v G P E NU MO SO ES NS HP GL) as [g' [M1 M2]].
    assert (Q : @Ok C g' = Ok g) by (etransitivity; [symmetry; exact M2|exact E2]). injection Q as <-. exact M1.
  - destruct (C60_dense _ CF (phys_env m k w eta) m ae ord s ls b G P E LN LO (C53_pivots m ae c ord s ls k w eta G H L Hl He P E LO)) as [g' [D1 D2]].
    destruct (C53_dense m ae c ord s ls sp k w eta G H L Hl He P E LO SO) as [D [g2 [_ [_ [D3 [D4 _]]]]]]. unfold greens in D4. rewrite E in D4. cbn [bind] in D4.
    assert (Q : @Ok C g' = Ok g) by (etransitivity; [symmetry; exact D2|etransitivity; [exact D3|etransitivity; [symmetry; exact D4|exact E2]]]). injection Q as <-. exact D1.
Qed.
Print Assumptions C60_physical.

(** A basis lacking an unknown, or one for the other kind of solver, fails at
    the first lookup. *)
Theorem C60_missing : forall T (K : cring) (e : env T K) m ae ord s sp mumps arg p x, good_model m ae ->
  (forall k l, Permutation (ord k l) l) -> prime_system ord m = Ok s -> In x (unknown_ids s) -> (forall d, arg = Flat d -> ~ In x (map fst d)) ->
  sparse_solve_in e sp (Some arg) s = Err KeyError /\ mass_solve_in e mumps (Some arg) s p = Err KeyError.
Proof.
  intros T K e m ae ord s sp mumps arg p x G P E I M. destruct (Sysok_proofs.sys_ok_good m ae ord s G P E) as [O _].
  assert (N : sget x (as_flat arg) = None).
  { destruct arg as [d|b]; [|reflexivity]. cbn [as_flat]. destruct (sget x d) as [i|] eqn:Q; [|reflexivity]. exfalso. apply (M d eq_refl).
    apply Basis_proofs.sget_In in Q. apply (in_map fst) in Q. exact Q. }
  pose proof (Basis_proofs.matrix_missing e s (as_flat arg) x O I N) as Q. split.
  - unfold sparse_solve_in, scaffold. cbn [sparse_basis]. rewrite Q. reflexivity.
  - unfold mass_solve_in. cbn [sparse_basis]. rewrite Q. reflexivity.
Qed.
Print Assumptions C60_missing.

Theorem C60_dense_flat : forall T (F : cfield) (e : env T F) m ae ord s ls d, good_model m ae ->
  (forall k l, Permutation (ord k l) l) -> prime_system ord m = Ok s -> dense_solve_in e ls (Some (Flat d)) s = Err KeyError.
Proof.
  intros T F e m ae ord s ls d G P E. destruct (Sysok_proofs.sys_ok_good m ae ord s G P E) as [O _]. pose proof (Sysok_proofs.so_N s O) as NP.
  unfold dense_solve_in. rewrite (proj2 (Z.ltb_lt 0 _) NP). cbn [dense_basis as_levels]. unfold dense_R_in, fill_matrix_in, equations_at.
  rewrite (proj2 (Dense_proofs.lev_in s O (total_bosons s) ltac:(lia))). reflexivity.
Qed.
Print Assumptions C60_dense_flat.

(** Witnesses: the four unknowns of [p_model]. *)
Definition relabel (l : list nat) (s : system Z) : sdict nat := combine (unknown_ids s) l.
Definition relabels (s : system Z) : list (Z * sdict nat) :=
  map (fun kv => (fst kv, combine (map (fun q => tid (e_index q)) (snd kv)) (rev (seq 0 (List.length (snd kv)))))) (s_eqs s).

Lemma relabel_ok : forall l s, Permutation l (seq 0 (List.length (unknown_ids s))) -> numbering (unknown_ids s) (relabel l s).
Proof.
  intros l s P. assert (L : List.length l = List.length (unknown_ids s)) by (rewrite (Permutation_length P); apply seq_length).
  unfold relabel. split.
  - rewrite (Basis_proofs.combine_fst _ _ (unknown_ids s) l (eq_sym L)). reflexivity.
  - rewrite (Basis_proofs.combine_snd _ _ (unknown_ids s) l (eq_sym L)). exact P.
Qed.

Lemma relabels_ok : forall m ord s, good_model m 1 -> (forall k l, Permutation (ord k l) l) -> prime_system ord m = Ok s -> level_numberings s (relabels s).
Proof.
  intros m ord s G P E. destruct (Sysok_proofs.sys_ok_good m 1%Z ord s G P E) as [O _]. split.
  - unfold relabels. rewrite map_map. cbn [fst]. apply (Sysok_proofs.keys_nodup s O).
  - intros n es H. eexists. split; [unfold relabels; apply in_map_iff; exists (n, es); split; [reflexivity|exact H]|]. cbn [fst snd].
    set (l := map (fun q => tid (e_index q)) es). assert (L : List.length l = List.length (rev (seq 0 (List.length es)))) by (unfold l; rewrite map_length, rev_length, seq_length; reflexivity).
    split; [rewrite Basis_proofs.combine_fst by exact L; reflexivity|]. rewrite Basis_proofs.combine_snd by exact L. unfold l. rewrite map_length. symmetry. apply Permutation_rev.
Qed.

Definition two_flags (s : system Z) : bool :=
  match mass_solve_in p_env gauss_mumps (Some (Flat (relabel [3; 0; 1; 2] s))) s 1, sparse_solve p_env (gauss_sparse (F := Qcf) Qc_eq_dec) s with
  | Ok a, Ok b => negb (qb a b) | _, _ => false end.

(** MassSolverMUMPS accepts every numbering, and returns a wrong value with one
    that does not put the Green's function last. *)
Theorem C60_mass_refuted : exists s d g g', good_model p_model 1 /\ prime_system id_ord p_model = Ok s /\ numbering (unknown_ids s) d /\
  sparse_solve p_env (gauss_sparse (F := Qcf) Qc_eq_dec) s = Ok g /\
  mass_solve_in p_env gauss_mumps (Some (Flat d)) s 1 = Ok g' /\ g' <> g.
Proof.
  destruct (sys_ex id_ord p_model (fun s => two_flags s && Nat.eqb (List.length (all_eqs s)) 4)) as [s [E H]]; [vm_compute; reflexivity|].
  apply andb_true_iff in H. destruct H as [H1 H2]. apply Nat.eqb_eq in H2. exists s, (relabel [3; 0; 1; 2] s). unfold two_flags in H1.
  destruct (mass_solve_in p_env gauss_mumps (Some (Flat (relabel [3; 0; 1; 2] s))) s 1) as [g'|]; [|discriminate].
  destruct (sparse_solve p_env (gauss_sparse (F := Qcf) Qc_eq_dec) s) as [g|]; [|discriminate]. exists g, g'.
  split; [exact p_good|]. split; [exact E|]. split.
  - apply relabel_ok. unfold unknown_ids. rewrite map_length, H2. change (seq 0 4) with [0; 1; 2; 3].
    apply (Permutation_cons_app [0; 1; 2] [] 3). reflexivity.
  - split; [reflexivity|]. split; [reflexivity|]. intros ->. apply negb_true_iff in H1. unfold qb, Qc_eq_bool in H1. destruct (Qc_eq_dec g g); [discriminate|contradiction].
Qed.
Print Assumptions C60_mass_refuted.

Example C60_nonvacuous : exists s X v, good_model p_model 1 /\ prime_system id_ord p_model = Ok s /\ scaffold p_env (full_basis s) s = Ok (X, v) /\ nonsingular X /\
  numbering (unknown_ids s) (relabel [2; 0; 1; 3] s) /\ relabel [2; 0; 1; 3] s <> full_basis s /\
  sget "{G}[0.0]" (relabel [2; 0; 1; 3] s) = Some (List.length (relabel [2; 0; 1; 3] s) - 1) /\ level_numberings s (relabels s) /\ relabels s <> local_basis s.
Proof.
  destruct (sys_ex id_ord p_model (fun s => regular p_env s && Nat.eqb (List.length (all_eqs s)) 4 &&
    match sget "{G}[0.0]" (relabel [2; 0; 1; 3] s) with Some i => Nat.eqb i (List.length (relabel [2; 0; 1; 3] s) - 1) | None => false end &&
    negb (Nat.eqb (nth 0 (map snd (relabel [2; 0; 1; 3] s)) 0) (nth 0 (map snd (full_basis s)) 0)) &&
    negb (Nat.eqb (nth 0 (nth 0 (map (fun d => map snd (snd d)) (relabels s)) []) 0) (nth 0 (nth 0 (map (fun d => map snd (snd d)) (local_basis s)) []) 0)))) as [s [E H]]; [vm_compute; reflexivity|].
  apply andb_true_iff in H. destruct H as [H H5]. apply andb_true_iff in H. destruct H as [H H4]. apply andb_true_iff in H. destruct H as [H H3].
  apply andb_true_iff in H. destruct H as [H1 H2]. apply Nat.eqb_eq in H2. destruct (regular_ok _ _ H1) as [X [v [ES NS]]].
  exists s, X, v. split; [exact p_good|]. split; [exact E|]. split; [exact ES|]. split; [exact NS|]. split.
  { apply relabel_ok. unfold unknown_ids. rewrite map_length, H2. change (seq 0 4) with ([0; 1] ++ 2 :: [3]). apply (Permutation_cons_app [0; 1] [3] 2). reflexivity. }
  split; [intros Q; rewrite Q, Nat.eqb_refl in H4; discriminate|]. split.
  { destruct (sget "{G}[0.0]" (relabel [2; 0; 1; 3] s)) as [i|]; [|discriminate]. apply Nat.eqb_eq in H3. congruence. }
  split; [apply (relabels_ok p_model id_ord s p_good id_perm E)|]. intros Q. rewrite Q, Nat.eqb_refl in H5. discriminate.
Qed.
