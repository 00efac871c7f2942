(** Property theorem C70: errors of the linear solver, and of the entries of the
    matrix, change the computed Green's function by a bounded amount. *)
From Coq Require Import String ZArith List Bool Lia Permutation Reals Lra.
From Verif Require Import Base NdArray Config Spec Model HModel Space Spec_space Term Equation System Spec_engine Props_Engine
  Ring Coef Spec_eom Solvers Spec_solve LinSolve Spec_model Spec_sym Cplx Physics Props_Physics Props_Model Props_Solve Props_Sym Spec_spectral Props_Spectral
  Spec_ma Props_MA Spec_self Spec_stable.
From Verif Require HModel_proofs Physics_proofs Sysok_proofs Sparse_proofs Prime_proofs Rows_proofs Spectral_proofs Self_proofs Toeplitz_proofs Cutoff_proofs Stable_proofs.
Import ListNotations.
Open Scope list_scope.
Open Scope Z_scope.

(** The vector returned by the solver is arbitrary: eta |G' - G| <= |z - band| |y_G| +
    2 strength sqrt(room) |y|, with y what it misses the system by; neither the
    number of equations nor the solver enters. *)
Theorem C70_residual : forall m ae c ord ord' sp sp' k w eta s X v, good_model m ae -> hermitian (phys_env m k w eta) m -> on_lattice m c -> exact_lattice m -> (0 < eta)%R ->
  (forall k l, Permutation (ord k l) l) -> (forall k l, Permutation (ord' k l) l) -> spsolve_ok sp ->
  prime_system ord' m = Ok s -> scaffold (phys_env m k w eta) (full_basis s) s = Ok (X, v) ->
  exists g g' : C, greens (phys_env m k w eta) sp ord m = Ok g /\ greens (phys_env m k w eta) sp' ord' m = Ok g' /\ g' = sp' X v (c_rows X - 1)%nat /\
    (eta * Cabs (Csub g' g) <= Cabs ((w - band m k)%R, eta) * Cabs (residual X v (sp' X v) (c_rows X - 1)) + 2 * strength m * sqrt (room m) * norm (residual X v (sp' X v)) (c_rows X - 1))%R.
Proof.
  intros m ae c ord ord' sp sp' k w eta s X v G H L Hl He P P' SO E ES. set (e := phys_env m k w eta) in *.
  destruct (C52_regular m ae c ord k w eta G H L Hl He P) as [s0 [X0 [v0 [E0 [ES0 NS0]]]]]. fold e in ES0.
  destruct (Sysok_proofs.sys_ok_good m ae ord s0 G P E0) as [O0 _]. destruct (scaffold_shape _ m ae ord s0 X0 v0 G P E0 ES0) as [S1 S2].
  destruct (Sparse_proofs.sparse_result e s0 O0 sp X0 v0 ES0 (SO X0 v0 S1 S2 NS0)) as [g [Eg [[u [Pu [Su Gu]]] _]]].
  pose proof (Sparse_proofs.g_value_unique s0 O0 u g (u (Prime_proofs.vac m, [0])) Gu (Rows_proofs.g_value_vac m ae G ord P s0 E0 u)) as EQ.
  apply (Rows_proofs.solution_iff m ae G ord P s0 E0 _ u Pu) in Su.
  destruct (Sysok_proofs.sys_ok_good m ae ord' s G P' E) as [O _]. rewrite (Sparse_proofs.scaffold_ok e s O) in ES.
  assert (EX : X = mkCoo (Sparse_proofs.NN s) (Sparse_proofs.NN s) (Sparse_proofs.triplets e s)) by congruence.
  assert (EV : v = mkCoo (Sparse_proofs.NN s) 1 [((Sparse_proofs.NN s - 1)%nat, 0%nat, G0 e)]) by congruence.
  pose proof (Stable_proofs.solver_error m ae G e eta c He H L (Spectral_proofs.phys_ph m k w eta) (Self_proofs.phys_unit m k w eta) (Spectral_proofs.phys_g0 m k w eta Hl He) _
    (Spectral_proofs.phys_G0 m k w eta He) ord' P' s E u (sp' X v) Pu Su) as B.
  exists g, (sp' X v (Sparse_proofs.NN s - 1)%nat). split; [unfold greens; rewrite E0; exact Eg|]. split; [|split; [rewrite EX; reflexivity|]].
  - unfold greens. rewrite E. cbn [bind]. unfold sparse_solve. rewrite (Sparse_proofs.scaffold_ok e s O). cbn [bind c_rows c_cols]. unfold guard. rewrite !Nat.eqb_refl. cbn [andb bind].
    destruct (Sparse_proofs.green_pos s O) as [q [Hq [Et _]]]. unfold lookup. rewrite <- Et.
    rewrite (proj2 (Sparse_proofs.fb_spec s O (tid (e_index q)) (Sparse_proofs.NN s - 1))) by (unfold index_ids; rewrite nth_error_map, Hq; reflexivity).
    rewrite EX, EV. reflexivity.
  - rewrite <- EX, <- EV, <- EQ in B. unfold e in B. rewrite (Stable_proofs.coupling_phys m k w eta H) in B.
    replace (w - band m k)%R with (w + 2 * h_hop (m_ham m) * cos (k * m_lattice m))%R by (unfold band; ring).
    replace (c_rows X) with (Sparse_proofs.NN s) by (rewrite EX; reflexivity). exact B.
Qed.
Print Assumptions C70_residual.

Lemma shape : forall m ae ord k w eta s X v, good_model m ae -> (forall k l, Permutation (ord k l) l) -> prime_system ord m = Ok s ->
  scaffold (phys_env m k w eta) (full_basis s) s = Ok (X, v) -> (0 < c_rows X)%nat /\ c_cols X = c_rows X /\ c_rows v = c_rows X /\ c_cols v = 1%nat /\ in_shape X /\
  forall i, entry (c_ent v) i 0 = if Nat.eqb (c_rows X - 1) i then G0 (phys_env m k w eta) else Cplx.C0.
Proof.
  intros m ae ord k w eta s X v G P E ES. destruct (Sysok_proofs.sys_ok_good m ae ord s G P E) as [O _]. rewrite (Sparse_proofs.scaffold_ok _ s O) in ES.
  assert (EX : X = mkCoo (Sparse_proofs.NN s) (Sparse_proofs.NN s) (Sparse_proofs.triplets (phys_env m k w eta) s)) by congruence.
  assert (EV : v = mkCoo (Sparse_proofs.NN s) 1 [((Sparse_proofs.NN s - 1)%nat, 0%nat, G0 (phys_env m k w eta))]) by congruence. rewrite EX, EV. cbn [c_rows c_cols c_ent].
  split; [apply (Sparse_proofs.NN_pos s O)|]. split; [reflexivity|]. split; [reflexivity|]. split; [reflexivity|]. split.
  - intros i j q Hq. exact (Sparse_proofs.trip_range _ s O i j q Hq).
  - intros i. unfold entry. cbn [filter fst snd]. rewrite Nat.eqb_refl, andb_true_r. destruct (Nat.eqb (Sparse_proofs.NN s - 1) i); cbn [map snd]; [apply Cplx.Ceq; cbn; lra|reflexivity].
Qed.

(** |z - band| times the free Green's function is 1. *)
Lemma free_abs : forall m k w eta, (0 < eta)%R -> (Cabs (G0 (phys_env m k w eta)) * Cabs ((w - band m k)%R, eta) = 1)%R.
Proof.
  intros m k w eta He. pose proof (Spectral_proofs.phys_G0 m k w eta He) as H. apply (f_equal Cabs) in H. rewrite Physics_proofs.Cabs_mul in H.
  replace (w - band m k)%R with (w + 2 * h_hop (m_ham m) * cos (k * m_lattice m))%R by (unfold band; ring). rewrite H. change Cplx.C1 with (RtoC 1). rewrite Physics_proofs.Cabs_R. apply Rabs_R1.
Qed.
Lemma strength_ge0 : forall m, (0 <= strength m)%R.
Proof. intros m. unfold strength. induction (h_terms (m_ham m)) as [|h o IH]; cbn [map fold_right]; [lra|]. destruct (ht_dag h); [pose proof (Rabs_pos (ht_coupling h))|]; lra. Qed.

(** The stopping criterion of an iterative solver, |X x - v| <= rtol |v|, bounds
    the error of the Green's function. *)
Theorem C70_tolerance : forall m ae c ord ord' sp sp' k w eta s X v rtol, good_model m ae -> hermitian (phys_env m k w eta) m -> on_lattice m c -> exact_lattice m -> (0 < eta)%R ->
  (forall k l, Permutation (ord k l) l) -> (forall k l, Permutation (ord' k l) l) -> spsolve_ok sp ->
  prime_system ord' m = Ok s -> scaffold (phys_env m k w eta) (full_basis s) s = Ok (X, v) ->
  (norm (residual X v (sp' X v)) (c_rows X) <= rtol * norm (fun i => entry (c_ent v) i 0) (c_rows X))%R ->
  exists g g' : C, greens (phys_env m k w eta) sp ord m = Ok g /\ greens (phys_env m k w eta) sp' ord' m = Ok g' /\
    (eta * Cabs (Csub g' g) <= rtol * (1 + 2 * strength m * sqrt (room m) / Cabs ((w - band m k)%R, eta)))%R.
Proof.
  intros m ae c ord ord' sp sp' k w eta s X v rtol G H L Hl He P P' SO E ES T.
  destruct (C70_residual m ae c ord ord' sp sp' k w eta s X v G H L Hl He P P' SO E ES) as [g [g' [Eg [Eg' [_ B]]]]]. exists g, g'. split; [exact Eg|]. split; [exact Eg'|].
  destruct (shape m ae ord' k w eta s X v G P' E ES) as [Np [_ [_ [_ [_ EV]]]]]. set (y := residual X v (sp' X v)) in *. set (n := c_rows X) in *.
  pose proof (free_abs m k w eta He) as F. set (z := Cabs ((w - band m k)%R, eta)) in *. set (g0 := Cabs (G0 (phys_env m k w eta))) in *.
  assert (Pz : (0 <= z)%R) by apply Physics_proofs.Cabs_ge0. assert (Nz : (0 < z)%R) by (destruct (Req_dec z 0) as [Z|Z]; [rewrite Z in F; lra|lra]).
  assert (NB : norm (fun i => entry (c_ent v) i 0) n = g0).
  { unfold norm, g0, Cabs. f_equal. change (fold_right Rplus 0%R) with Toeplitz_proofs.Rsum. replace n with (n - 1 + 1)%nat by lia. rewrite seq_app, Cutoff_proofs.Rsum_app. cbn [seq Nat.add]. rewrite Cutoff_proofs.Rsum_cons, EV, Nat.eqb_refl.
    rewrite (map_ext_in _ (fun _ => 0%R)).
    - unfold Toeplitz_proofs.Rsum. cbn [map fold_right]. assert (Z : fold_right Rplus 0%R (map (fun _ : nat => 0%R) (seq 0 (n - 1))) = 0%R) by (induction (seq 0 (n - 1)) as [|i l IH]; cbn [map fold_right]; [reflexivity|rewrite IH; lra]). rewrite Z. lra.
    - intros i Hi. apply in_seq in Hi. rewrite EV. rewrite (proj2 (Nat.eqb_neq (n - 1) i)) by lia. unfold Cnorm2, Cplx.C0, Re, Im. cbn [fst snd]. ring. }
  rewrite NB in T. assert (G0z : g0 = (/ z)%R) by (apply (Rmult_eq_reg_r z); [rewrite F; field; lra|lra]). rewrite G0z in T.
  pose proof (Stable_proofs.norm_ge y n (n - 1)%nat ltac:(lia)) as B1. pose proof (Stable_proofs.norm_mono y (n - 1) n ltac:(lia)) as B2.
  pose proof (strength_ge0 m) as Sp. assert (PA : (0 <= 2 * strength m * sqrt (room m))%R) by (apply Rmult_le_pos; [lra|apply sqrt_pos]). set (A := (2 * strength m * sqrt (room m))%R) in *.
  eapply Rle_trans; [exact B|]. apply Rle_trans with (z * (rtol * / z) + A * (rtol * / z))%R.
  - apply Rplus_le_compat; apply Rmult_le_compat_l; lra.
  - apply Req_le. field. lra.
Qed.
Print Assumptions C70_tolerance.

(** The solver works with other numbers, as scipy does with 32-bit entries: with
    entries off by at most d, and rows of that system missed by at most t. *)
Theorem C70_rounded : forall m ae c ord ord' sp sp' k w eta s X v Y u d t, good_model m ae -> hermitian (phys_env m k w eta) m -> on_lattice m c -> exact_lattice m -> (0 < eta)%R ->
  (forall k l, Permutation (ord k l) l) -> (forall k l, Permutation (ord' k l) l) -> spsolve_ok sp ->
  prime_system ord' m = Ok s -> scaffold (phys_env m k w eta) (full_basis s) s = Ok (X, v) ->
  in_shape Y -> near d X Y -> near d v u -> (0 <= d)%R -> (forall i, (i < c_rows X)%nat -> (Cabs (residual Y u (sp' X v) i) <= t)%R) ->
  exists g g' : C, greens (phys_env m k w eta) sp ord m = Ok g /\ greens (phys_env m k w eta) sp' ord' m = Ok g' /\
    (eta * Cabs (Csub g' g) <= (t + d * (1 + norm1 (sp' X v) (c_rows X))) * (Cabs ((w - band m k)%R, eta) + 2 * strength m * sqrt (room m) * sqrt (INR (c_rows X))))%R.
Proof.
  intros m ae c ord ord' sp sp' k w eta s X v Y u d t G H L Hl He P P' SO E ES SY NX Nv Hd T.
  destruct (C70_residual m ae c ord ord' sp sp' k w eta s X v G H L Hl He P P' SO E ES) as [g [g' [Eg [Eg' [_ B]]]]]. exists g, g'. split; [exact Eg|]. split; [exact Eg'|].
  destruct (shape m ae ord' k w eta s X v G P' E ES) as [Np [Sq [Rv [Cv [SX _]]]]]. set (x := sp' X v) in *. set (y := residual X v x) in *.
  set (q := (t + d * (1 + norm1 x (c_rows X)))%R).
  assert (R : forall i, (i < c_rows X)%nat -> (Cabs (y i) <= q)%R).
  { intros i Hi. pose proof (Stable_proofs.residual_near X v Y u x d i SX SY NX Nv ltac:(lia) Rv Hi) as D. rewrite Sq in D. specialize (T i Hi). unfold q, y. lra. }
  assert (Pq : (0 <= q)%R) by (eapply Rle_trans; [apply Physics_proofs.Cabs_ge0|apply (R 0%nat Np)]).
  pose proof (R (c_rows X - 1)%nat ltac:(lia)) as R1. pose proof (Stable_proofs.norm_le y (c_rows X - 1) q Pq ltac:(intros; apply R; lia)) as R2.
  assert (SQ : (sqrt (INR (c_rows X - 1)) <= sqrt (INR (c_rows X)))%R) by (apply sqrt_le_1_alt, le_INR; lia).
  pose proof (strength_ge0 m) as Sp. assert (PA : (0 <= 2 * strength m * sqrt (room m))%R) by (apply Rmult_le_pos; [lra|apply sqrt_pos]). set (A := (2 * strength m * sqrt (room m))%R) in *.
  eapply Rle_trans; [exact B|]. rewrite Rmult_plus_distr_l. apply Rplus_le_compat; [rewrite Rmult_comm; apply Rmult_le_compat_r; [apply Physics_proofs.Cabs_ge0|exact R1]|].
  eapply Rle_trans; [apply Rmult_le_compat_l; [exact PA|exact R2]|]. replace (A * (q * sqrt (INR (c_rows X - 1))))%R with (q * (A * sqrt (INR (c_rows X - 1))))%R by ring.
  apply Rmult_le_compat_l; [exact Pq|]. apply Rmult_le_compat_l; assumption.
Qed.
Print Assumptions C70_rounded.

(** To any accuracy: precise enough arithmetic gives the Green's function. *)
Theorem C70_limit : forall m ae c ord ord' sp k w eta s X v eps, good_model m ae -> hermitian (phys_env m k w eta) m -> on_lattice m c -> exact_lattice m -> (0 < eta)%R ->
  (forall k l, Permutation (ord k l) l) -> (forall k l, Permutation (ord' k l) l) -> spsolve_ok sp ->
  prime_system ord' m = Ok s -> scaffold (phys_env m k w eta) (full_basis s) s = Ok (X, v) -> (0 < eps)%R ->
  exists d g, (0 < d)%R /\ greens (phys_env m k w eta) sp ord m = Ok g /\
    forall sp' Y u, in_shape Y -> near d X Y -> near d v u -> (forall i, (i < c_rows X)%nat -> (Cabs (residual Y u (sp' X v) i) <= d)%R) ->
    exists g' : C, greens (phys_env m k w eta) sp' ord' m = Ok g' /\ (Cabs (Csub g' g) <= eps)%R.
Proof.
  intros m ae c ord ord' sp k w eta s X v eps G H L Hl He P P' SO E ES Hp.
  destruct (shape m ae ord' k w eta s X v G P' E ES) as [Np [Sq [Rv [Cv [SX _]]]]]. set (n := c_rows X) in *.
  destruct (C52_regular m ae c ord' k w eta G H L Hl He P') as [s1 [X1 [v1 [E1 [ES1 NS]]]]].
  assert (s1 = s) as -> by congruence. assert (X1 = X) as -> by congruence. clear E1 ES1 v1.
  destruct (Stable_proofs.inverse_bound X sp SO (eq_sym Sq) NS) as [Bi [PB IB]].
  set (x0 := sp X v : nat -> C).
  assert (SX0 : solves X v x0) by (apply SO; [symmetry; exact Sq|exact Rv|exact NS]).
  set (M := norm1 x0 n). assert (PM : (0 <= M)%R) by apply Stable_proofs.norm1_ge0.
  set (Ct := (Cabs ((w - band m k)%R, eta) + 2 * strength m * sqrt (room m) * sqrt (INR n))%R).
  pose proof (strength_ge0 m) as Sp.
  assert (PCt : (0 <= Ct)%R) by (unfold Ct; apply Rplus_le_le_0_compat; [apply Physics_proofs.Cabs_ge0|repeat apply Rmult_le_pos; try lra; apply sqrt_pos]).
  pose proof (pos_INR n) as Pn.
  (* d small enough for n B d <= 1/2 and d (2 + 2 M + 2 n B) C <= eta eps *)
  set (K1 := (2 * INR n * Bi + 1)%R). set (K2 := ((2 + 2 * M + 2) * Ct + 1)%R).
  assert (P1 : (0 < K1)%R) by (unfold K1; assert (0 <= INR n * Bi)%R by (apply Rmult_le_pos; assumption); lra).
  assert (P2 : (0 < K2)%R) by (unfold K2; assert (0 <= (2 + 2 * M + 2) * Ct)%R by (apply Rmult_le_pos; lra); lra).
  assert (PE : (0 < eta * eps)%R) by (apply Rmult_lt_0_compat; assumption).
  set (d := Rmin (/ K1) (eta * eps / K2)). assert (Pd : (0 < d)%R) by (apply Rmin_pos; [apply Rinv_0_lt_compat; exact P1|apply Rdiv_lt_0_compat; assumption]).
  assert (D1 : (d * K1 <= 1)%R) by (apply Rle_trans with (/ K1 * K1)%R; [apply Rmult_le_compat_r; [lra|apply Rmin_l]|rewrite Rinv_l; lra]).
  assert (D2 : (d * K2 <= eta * eps)%R) by (apply Rle_trans with (eta * eps / K2 * K2)%R; [apply Rmult_le_compat_r; [lra|apply Rmin_r]|apply Req_le; field; lra]).
  destruct (C70_residual m ae c ord ord' sp sp k w eta s X v G H L Hl He P P' SO E ES) as [g [_ [Eg _]]].
  exists d, g. split; [exact Pd|]. split; [exact Eg|]. intros sp' Y u SY NX Nv T.
  destruct (C70_rounded m ae c ord ord' sp sp' k w eta s X v Y u d d G H L Hl He P P' SO E ES SY NX Nv ltac:(lra) T) as [g1 [g' [Eg1 [Eg' B]]]].
  assert (g1 = g) as -> by congruence. exists g'. split; [exact Eg'|]. fold n Ct in B. set (x := sp' X v) in *.
  assert (N1 : (0 <= norm1 x n)%R) by apply Stable_proofs.norm1_ge0.
  (* the size of the vector *)
  assert (R : forall i, (i < n)%nat -> (Cabs (residual X v x i) <= d * (2 + norm1 x n))%R).
  { intros i Hi. pose proof (Stable_proofs.residual_near X v Y u x d i SX SY NX Nv ltac:(lia) Rv Hi) as D. rewrite Sq in D. specialize (T i Hi). fold n in D. lra. }
  assert (XD : forall i, (i < n)%nat -> (Cabs (Csub (x i) (x0 i)) <= Bi * (d * (2 + norm1 x n)))%R).
  { intros i Hi. apply (IB (fun i => Csub (x i) (x0 i)) (d * (2 + norm1 x n))%R); [|apply Rmult_le_pos; lra|exact Hi].
    intros j Hj. pose proof (Sparse_proofs.mv_sub (K := CR) (c_ent X) x x0 j) as MS. change (@ksub CR) with Csub in MS. cbv beta in MS |- *. rewrite MS, (SX0 j Hj). exact (R j Hj). }
  assert (NX' : (norm1 x n <= M + INR n * (Bi * (d * (2 + norm1 x n))))%R).
  { eapply Rle_trans; [|apply Rplus_le_compat_l; apply (Stable_proofs.norm1_le (fun i => Csub (x i) (x0 i)) n); exact XD].
    unfold M, norm1. clear. induction (seq 0 n) as [|i l IH]; cbn [map fold_right]; [lra|].
    assert (Cabs (x i) <= Cabs (x0 i) + Cabs (Csub (x i) (x0 i)))%R.
    { eapply Rle_trans; [|apply Physics_proofs.Cabs_triangle]. apply Req_le. f_equal. generalize (x i) (x0 i). intros. ring. }
    lra. }
  assert (NX2 : (norm1 x n <= 2 * M + 2)%R).
  { unfold K1 in D1. set (q := norm1 x n) in *. assert (Q : (INR n * (Bi * (d * (2 + q))) = (d * (INR n * Bi)) * (2 + q))%R) by ring. rewrite Q in NX'.
    assert (Q2 : (d * (INR n * Bi) <= 1 / 2)%R) by lra.
    assert (Q3 : (d * (INR n * Bi) * (2 + q) <= 1 / 2 * (2 + q))%R) by (apply Rmult_le_compat_r; lra). lra. }
  apply (Rmult_le_reg_l eta); [exact He|]. eapply Rle_trans; [exact B|]. eapply Rle_trans; [|exact D2]. unfold K2.
  apply Rle_trans with (d * (2 + 2 * M + 2) * Ct)%R; [apply Rmult_le_compat_r; [exact PCt|nra]|]. nra.
Qed.
Print Assumptions C70_limit.

(** Every model built by calls of add_. *)
Theorem C70_histories : forall m fs cs ord ord' sp sp' k w eta, built Rnum 1 m fs cs -> cs <> [] -> distinct Rnum fs ->
  (forall k, m_mps m = Some k -> 1 <= k) -> (forall k, m_aext m = Some k -> 1 <= k) ->
  (forall c, In c cs -> c = "BondPeierls"%string) \/ (forall c, In c cs -> c <> "BondPeierls"%string) ->
  exact_lattice m -> (0 < eta)%R -> (forall k l, Permutation (ord k l) l) -> (forall k l, Permutation (ord' k l) l) -> spsolve_ok sp ->
  exists s X v (g g' : C), prime_system ord' m = Ok s /\ scaffold (phys_env m k w eta) (full_basis s) s = Ok (X, v) /\
    greens (phys_env m k w eta) sp ord m = Ok g /\ greens (phys_env m k w eta) sp' ord' m = Ok g' /\
    (eta * Cabs (Csub g' g) <= Cabs ((w - band m k)%R, eta) * Cabs (residual X v (sp' X v) (c_rows X - 1)) + 2 * strength m * sqrt (room m) * norm (residual X v (sp' X v)) (c_rows X - 1))%R.
Proof.
  intros m fs cs ord ord' sp sp' k w eta B Hc D Hm Ha Hb Hl He P P' SO.
  destruct (HModel_proofs.built_good Rnum (proj1 Rnum_ok) m fs cs B Hc D Hm Ha Hb) as [ae G]. destruct (C50_lattice m fs cs ae B G) as [c L].
  pose proof (C51_hermitian m fs cs ae k w eta B G) as H. destruct (C52_regular m ae c ord' k w eta G H L Hl He P') as [s [X [v [E [ES _]]]]].
  destruct (C70_residual m ae c ord ord' sp sp' k w eta s X v G H L Hl He P P' SO E ES) as [g [g' [Eg [Eg' [_ Bd]]]]]. exists s, X, v, g, g'. auto.
Qed.
Print Assumptions C70_histories.

(** Edwards' model with a solver that is off by 1 / 1000 in every component. *)
Definition sloppy (X v : coo CR) (i : nat) : CR := Cadd (gauss_sparse (F := CF) C_eq_dec X v i) (RtoC (1 / 1000)).
Example C70_nonvacuous : forall k w, exists s X v (g g' : C), prime_system id_ord (x_model 1) = Ok s /\ scaffold (phys_env (x_model 1) k w 1%R) (full_basis s) s = Ok (X, v) /\
  greens (phys_env (x_model 1) k w 1%R) (gauss_sparse (F := CF) C_eq_dec) id_ord (x_model 1) = Ok g /\ greens (phys_env (x_model 1) k w 1%R) sloppy id_ord (x_model 1) = Ok g' /\
  g' = Cadd g (RtoC (1 / 1000)) /\ (0 < strength (x_model 1))%R /\ room (x_model 1) = 1%R /\
  (1 * Cabs (Csub g' g) <= Cabs ((w - band (x_model 1) k)%R, 1%R) * Cabs (residual X v (sloppy X v) (c_rows X - 1)) + 2 * strength (x_model 1) * sqrt (room (x_model 1)) * norm (residual X v (sloppy X v)) (c_rows X - 1))%R.
Proof.
  intros k w. destruct C51_nonvacuous as [B [G [Hl [_ [_ L]]]]]. pose proof (C51_hermitian _ _ _ 1 k w 1 B G) as H. pose proof (gauss_spsolve_ok (F := CF) C_eq_dec) as SO.
  destruct (C52_regular _ 1 0 id_ord k w 1 G H L (or_introl Hl) ltac:(lra) id_perm) as [s [X [v [E [ES _]]]]].
  destruct (C70_residual _ 1 0 id_ord id_ord _ sloppy k w 1 s X v G H L (or_introl Hl) ltac:(lra) id_perm id_perm SO E ES) as [g [g' [Eg [Eg' [V' Bd]]]]].
  destruct (C70_residual _ 1 0 id_ord id_ord _ (gauss_sparse (F := CF) C_eq_dec) k w 1 s X v G H L (or_introl Hl) ltac:(lra) id_perm id_perm SO E ES) as [g1 [g2 [Eg1 [Eg2 [V2 _]]]]].
  exists s, X, v, g, g'. repeat (split; [assumption|]). split; [|split; [|split; [reflexivity|exact Bd]]].
  - rewrite V'. unfold sloppy. f_equal. rewrite <- V2. rewrite Eg2 in Eg. congruence.
  - unfold strength, x_model, x_models, x_term. cbn [m_ham h_terms map fold_right ht_dag ht_coupling]. repeat match goal with |- context [Rabs ?x] => progress (generalize (Rabs_pos_lt x ltac:(lra)); generalize (Rabs x)); intros end. lra.
Qed.
