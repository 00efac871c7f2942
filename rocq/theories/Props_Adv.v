(** Property theorem C81: broadening of the other sign. *)
From Coq Require Import String ZArith List Bool Lia Permutation Reals Lra.
From Verif Require Import Base NdArray Config Spec Model HModel Space Spec_space Term Equation System Spec_engine Props_Engine
  Ring Coef Spec_eom Solvers Spec_solve LinSolve Spec_model Spec_sym Cplx Physics Props_Physics Props_Model Props_Solve Props_Sym Spec_spectral Props_Spectral Spec_ma Props_MA.
From Verif Require Spec_pick Energy_proofs HModel_proofs Physics_proofs Sysok_proofs Sparse_proofs Prime_proofs Rows_proofs Spectral_proofs MA_proofs Ladder_proofs Toeplitz_proofs Adv_proofs AdvSelf_proofs.
Import ListNotations.
Open Scope list_scope.
Open Scope R_scope.

Local Notation conj_c := Spec_pick.conjugate.

(** In momentum space it gives the advanced function. *)
Theorem C81_momentum : forall k omega a eta t, G0_k_omega k (conj_c omega) a (- eta) t = conj_c (G0_k_omega k omega a eta t).
Proof.
  intros k omega a eta t. change conj_c with Toeplitz_proofs.Cconj. unfold G0_k_omega. rewrite Adv_proofs.cj_div, Adv_proofs.cj_1. f_equal. Adv_proofs.conj_eq.
Qed.
Print Assumptions C81_momentum.

(** In real space it does without hopping, and together with the argument sgn. *)
Theorem C81_sign : forall delta omega a eta t sg e0, 0 < Im omega + eta -> sg = -1 \/ (t = 0) ->
  g0_delta_omega delta (conj_c omega) a (- eta) t sg e0 = conj_c (g0_delta_omega delta omega a eta t 1 e0).
Proof.
  intros delta omega a eta t sg e0 V Hs. change conj_c with Toeplitz_proofs.Cconj. destruct (Req_EM_T t 0) as [->|T0].
  - unfold g0_delta_omega. destruct (Req_EM_T 0 0) as [_|B]; [|contradiction]. destruct (Req_EM_T delta 0).
    + rewrite Adv_proofs.cj_div, Adv_proofs.cj_1. f_equal. Adv_proofs.conj_eq.
    + Adv_proofs.conj_eq.
  - destruct Hs as [->|B]; [|contradiction]. apply Adv_proofs.both_signs; assumption.
Qed.
Print Assumptions C81_sign.

(** With the default sgn, which the solvers use, it still solves the equation of
    the chain ... *)
Theorem C81_equation : forall omega eta t, 0 < Im omega + eta -> t <> 0 -> resolvent (g0_site (conj_c omega) 1 (- eta) t) (z_of (conj_c omega) (- eta)) (Rabs t).
Proof.
  intros omega eta t V T0 d. unfold g0_site, z_of. change conj_c with Toeplitz_proofs.Cconj. rewrite <- (Adv_proofs.other_lattice omega eta t V T0 d). f_equal. f_equal. Adv_proofs.conj_eq.
Qed.
Print Assumptions C81_equation.

(** ... but it is the other solution: on the site minus the advanced function, at
    other sites growing as the retarded one decays ... *)
Theorem C81_growing : forall omega a eta t, 0 < Im omega + eta -> t <> 0 ->
  g0_site (conj_c omega) a (- eta) t 0 = Copp (conj_c (g0_site omega a eta t 0)) /\
  (forall d, Cabs (g0_site (conj_c omega) a (- eta) t d) * Cabs (g0_site omega a eta t d) = Cabs (g0_site omega a eta t 0) * Cabs (g0_site omega a eta t 0)) /\
  (0 < a -> forall b, exists d0, forall d, (d0 <= Z.abs d)%Z -> b < Cabs (g0_site (conj_c omega) a (- eta) t d)).
Proof.
  intros omega a eta t V T0. change conj_c with Toeplitz_proofs.Cconj. split; [apply Adv_proofs.other_zero; assumption|]. assert (A : forall d, Cabs (g0_site (Toeplitz_proofs.Cconj omega) a (- eta) t d) * Cabs (g0_site omega a eta t d) = Cabs (g0_site omega a eta t 0) * Cabs (g0_site omega a eta t 0)) by (intros d; apply Adv_proofs.other_abs; assumption).
  split; [exact A|]. intros Ha b. destruct (C37_decay omega a eta t V Ha) as [r [c [[R0 R1] [C0' D]]]]. 
  assert (N0 : 0 < Cabs (g0_site omega a eta t 0)).
  { apply Physics_proofs.Cabs_pos. intros E. apply (Adv_proofs.other_differs omega eta t V T0 0 a). rewrite Adv_proofs.other_zero by assumption. unfold g0_site in E. rewrite E. Adv_proofs.conj_eq. }
  set (y := Cabs (g0_site omega a eta t 0)) in *. assert (Y : 0 < y * y) by (apply Rmult_lt_0_compat; assumption).
  set (b' := Rabs b + 1). assert (B1 : b < b') by (unfold b'; pose proof (Rle_abs b); lra). assert (B0 : 0 < b') by (unfold b'; pose proof (Rabs_pos b); lra).
  assert (EP : 0 < y * y / (b' * c)) by (apply Rdiv_lt_0_compat; [exact Y|apply Rmult_lt_0_compat; assumption]).
  destruct (pow_lt_1_zero r ltac:(rewrite Rabs_pos_eq; lra) (y * y / (b' * c)) EP) as [n0 Hn]. exists (Z.of_nat n0). intros d Hd.
  specialize (Hn (Z.abs_nat d) ltac:(lia)). rewrite Rabs_pos_eq in Hn by (apply pow_le; lra). specialize (A d). specialize (D d). fold y in A.
  set (u := Cabs (g0_site (Toeplitz_proofs.Cconj omega) a (- eta) t d)) in *. set (v := Cabs (g0_site omega a eta t d)) in *.
  assert (U0 : 0 <= u) by (unfold u, Cabs; apply sqrt_pos). assert (V0 : 0 <= v) by (unfold v, Cabs; apply sqrt_pos).
  destruct (Rlt_dec b u) as [L|L]; [exact L|exfalso]. assert (UB : u <= b') by lra.
  assert (Vb : v < c * (y * y / (b' * c))) by (apply Rle_lt_trans with (1 := D), Rmult_lt_compat_l; assumption).
  replace (c * (y * y / (b' * c))) with (y * y / b') in Vb by (field; lra).
  assert (u * v < y * y); [|lra]. apply Rle_lt_trans with (b' * v); [apply Rmult_le_compat_r; assumption|].
  replace (y * y) with (b' * (y * y / b')) by (field; lra). apply Rmult_lt_compat_l; assumption.
Qed.
Print Assumptions C81_growing.

(** ... so that nowhere it is the advanced function. *)
Theorem C81_not_advanced : forall delta omega a eta t, 0 < Im omega + eta -> t <> 0 ->
  g0_delta_omega delta (conj_c omega) a (- eta) t 1 0 <> conj_c (g0_delta_omega delta omega a eta t 1 0).
Proof. intros. apply Adv_proofs.other_differs; assumption. Qed.
Print Assumptions C81_not_advanced.

Theorem C81_advanced_refuted : exists delta omega a eta t, 0 < Im omega + eta /\ 0 < a /\ 0 < t /\
  g0_delta_omega delta (conj_c omega) a (- eta) t 1 0 <> conj_c (g0_delta_omega delta omega a eta t 1 0).
Proof.
  exists 0, (RtoC 0), 1, 1, 1. assert (V : 0 < Im (RtoC 0) + 1) by (unfold RtoC, Im; cbn; lra). split; [exact V|]. split; [lra|]. split; [lra|]. apply C81_not_advanced; [exact V|lra].
Qed.
Print Assumptions C81_advanced_refuted.

(** The solvers.  Clouds of one site: without hopping the result is conjugated, with
    hopping the self energy (the continued fraction of C54) also changes its sign. *)
Theorem C81_solver : forall m ae c Om N ord sp k w eta p, good_model m ae -> holstein m c Om 1 N -> 0 < eta ->
  (forall k l, Permutation (ord k l) l) -> spsolve_ok sp -> (forall n, local_greens (h_hop (m_ham m)) ((w - IZR n * Om)%R, eta) (p n)) ->
  let zk : C := (w + 2 * h_hop (m_ham m) * cos (k * m_lattice m), eta) in
  let sigma : C := @ladder CF (RtoC (c * c)) p 1 (Z.to_nat (most m N)) in
  exists g : C, greens (phys_env m k w eta) sp ord m = Ok g /\ Cmul (Csub zk sigma) g = Cplx.C1 /\
    (h_hop (m_ham m) = 0 -> greens (phys_env m k w (- eta)) sp ord m = Ok (conj_c g)) /\
    (h_hop (m_ham m) <> 0 -> Cadd zk sigma <> Cplx.C0 -> exists g' : C, greens (phys_env m k w (- eta)) sp ord m = Ok g' /\
       Cmul (conj_c (Cadd zk sigma)) g' = Cplx.C1 /\ (c <> 0 -> g' <> conj_c g)).
Proof.
  intros m ae c Om N ord sp k w eta p G H He P SO Hp zk sigma.
  destruct (C54_momentum_average m ae c Om 1 N ord sp k w eta p G H (or_introl eq_refl) He P SO Hp) as [_ [g [Eg [Vg _]]]]. fold zk sigma in Vg. exists g. split; [exact Eg|]. split; [exact Vg|].
  assert (Main : forall sg, h_hop (m_ham m) = 0 /\ sg = 1 \/ h_hop (m_ham m) <> 0 /\ sg = -1 -> Csub zk (Cmul (RtoC sg) sigma) <> Cplx.C0 ->
    exists g' : C, greens (phys_env m k w (- eta)) sp ord m = Ok g' /\ Cmul (conj_c (Csub zk (Cmul (RtoC sg) sigma))) g' = Cplx.C1).
  { intros sg Sg NZ. destruct (primes (phys_env m k w (- eta)) m ae ord G P) as [s [X [v [E ES]]]]. destruct (Sysok_proofs.sys_ok_good m ae ord s G P E) as [O _].
    assert (NS : nonsingular X).
    { pose proof ES as ES'. rewrite (Sparse_proofs.scaffold_ok _ s O) in ES'.
      assert (X = mkCoo (Sparse_proofs.NN s) (Sparse_proofs.NN s) (Sparse_proofs.triplets (phys_env m k w (- eta)) s)) as -> by congruence.
      exact (AdvSelf_proofs.neg_regular m ae c Om N ord s k w eta sg G H He P E p Hp Sg NZ). }
    destruct (scaffold_shape _ m ae ord s X v G P E ES) as [S2 S3].
    destruct (Sparse_proofs.sparse_result (phys_env m k w (- eta)) s O sp X v ES (SO X v S2 S3 NS)) as [g' [Eg' [[u [Pu [Su Gu]]] _]]].
    pose proof (Sparse_proofs.g_value_unique s O u g' (u (Prime_proofs.vac m, [0%Z])) Gu (Rows_proofs.g_value_vac m ae G ord P s E u)) as EQ.
    exists g'. split; [unfold greens; rewrite E; exact Eg'|]. rewrite EQ. change conj_c with Toeplitz_proofs.Cconj. rewrite Adv_proofs.cj_sub, Adv_proofs.cj_mul, Adv_proofs.cj_R.
    exact (AdvSelf_proofs.neg_value m ae c Om N ord s k w eta sg G H He P E p Hp Sg u Pu Su). }
  assert (One : forall u : C, Cmul (RtoC 1) u = u) by (intros u; Adv_proofs.conj_eq). assert (Mone : forall u v : C, Csub u (Cmul (RtoC (-1)) v) = Cadd u v) by (intros u v; Adv_proofs.conj_eq).
  assert (N0 : Csub zk sigma <> Cplx.C0). { intros E. rewrite E in Vg. apply (f_equal Re) in Vg. unfold Cmul, Cplx.C0, Cplx.C1, Re, Im in Vg. cbn in Vg. lra. }
  split.
  - intros T0. destruct (Main 1 (or_introl (conj T0 eq_refl)) ltac:(rewrite One; exact N0)) as [g' [Eg' Vg']]. rewrite Eg'. f_equal. rewrite One in Vg'. change conj_c with Toeplitz_proofs.Cconj in *.
    set (D := Csub zk sigma) in *. change (@eq C g' (Toeplitz_proofs.Cconj g)). apply (f_equal Toeplitz_proofs.Cconj) in Vg. rewrite Adv_proofs.cj_mul, Adv_proofs.cj_1 in Vg. set (D' := Toeplitz_proofs.Cconj D) in *. set (h := Toeplitz_proofs.Cconj g) in *.
    transitivity (Cmul (Cmul D' h) g'); [rewrite Vg; ring|]. transitivity (Cmul (Cmul D' g') h); [ring|]. rewrite Vg'. ring.
  - intros T0 NZ. destruct (Main (-1) (or_intror (conj T0 eq_refl)) ltac:(rewrite Mone; exact NZ)) as [g' [Eg' Vg']]. rewrite Mone in Vg'. exists g'. split; [exact Eg'|]. split; [exact Vg'|].
    intros C1' E. assert (SL : (Im sigma < 0)).
    { unfold sigma. pose proof (Ladder_proofs.top_pos m ae c Om 1 N G H) as TP. fold (most m N) in TP. destruct (Z.to_nat (most m N)) as [|r] eqn:Er; [lia|]. cbn [ladder].
      destruct (MA_proofs.ladder_neg (c * c) p (Rle_0_sqr c) (fun n => proj2 (Hp n)) r (1 + 1) ltac:(lia)) as [_ HL]. set (L := @ladder CF (RtoC (c * c)) p (1 + 1)%Z r) in *.
      destruct (MA_proofs.level (p 1%Z) L (proj2 (Hp 1%Z)) HL) as [_ NG].
      change (Im (Cmul (Cmul (Cmul (@kz CF 1) (RtoC (c * c))) (p 1%Z)) (Cinv (Csub Cplx.C1 (Cmul (p 1%Z) L)))) < 0). replace (@kz CF 1) with (RtoC 1) by (symmetry; exact (Energy_proofs.kz_R 1)). rewrite One.
      set (V := Cinv _) in *. replace (Cmul (Cmul (RtoC (c * c)) (p 1%Z)) V) with (Cmul (RtoC (c * c)) (Cmul (p 1%Z) V)) by ring. rewrite MA_proofs.RtoC_R. cbn [Im snd].
      assert (0 < c * c) by (apply Rsqr_pos_lt in C1'; exact C1'). set (q := Im _) in *. nra. }
    change conj_c with Toeplitz_proofs.Cconj in *. apply (f_equal Toeplitz_proofs.Cconj) in Vg'. rewrite E, Adv_proofs.cj_mul, !Adv_proofs.cj_cj, Adv_proofs.cj_1 in Vg'.
    assert (X : Cmul (Cadd sigma sigma) g = Cplx.C0) by (transitivity (Csub (Cmul (Cadd zk sigma) g) (Cmul (Csub zk sigma) g)); [ring|rewrite Vg, Vg'; ring]).
    assert (GN : g <> Cplx.C0). { intros Z0. rewrite Z0 in Vg. apply (f_equal Re) in Vg. unfold Cmul, Cplx.C0, Cplx.C1, Re, Im in Vg. cbn in Vg. lra. }
    assert (Y : Cadd sigma sigma = Cplx.C0) by (apply (Physics_proofs.C_integral g); [exact GN|rewrite <- X; ring]). apply (f_equal Im) in Y. unfold Cadd, Cplx.C0, Im in *. cbn [snd] in Y. lra.
Qed.
Print Assumptions C81_solver.

(** A model made by add_, where the solver's results with the two signs are not
    conjugates. *)
Definition adv_args : add_args R := mkAdd "Holstein" 1 1 1 None None (Some 1) None None.
Definition adv_model : model R := mkModel 1 0 (mkHam [mkHterm "Holstein" (iv 0) (iv 0) Plus (- (1 * 1)) 0 1; mkHterm "Holstein" (iv 0) (iv 0) Minus (- (1 * 1)) 0 1] [1] 1 1) None [1%Z] [1%Z] None 1.
Lemma adv_add : model_add Rnum (from_parameters 1 1 0 None 1) adv_args = Ok ([LDebug], adv_model).
Proof.
  unfold model_add, adv_args. cbn [from_parameters m_temp Rnum n_ltb n_0]. destruct (Rlt_dec 0 0) as [H|H]; [lra|]. cbn [andb a_N a_M a_Mtfd a_Ntfd a_cs a_dcs a_override is_none lt1 orb xorb negb].
  change (1 <? 1)%Z with false. cbn [orb]. rewrite andb_false_r. unfold tfd_prefactors. cbn [Rnum n_ltb n_0]. destruct (Rlt_dec 0 0) as [H'|_]; [lra|]. reflexivity.
Qed.
Lemma adv_good : good_model adv_model 1 /\ holstein adv_model (- (1 * 1)) 1 1 1.
Proof.
  split; [exact (holstein_good 1 1 None (- (1 * 1)) 1 1 1 ltac:(lia) ltac:(lia) ltac:(intros; discriminate))|].
  constructor; try reflexivity. eexists. eexists. split; [reflexivity|]. split; [reflexivity|]. split; [reflexivity|]. intros x [-> | ->]; repeat split; reflexivity.
Qed.
Theorem C81_solver_refuted : exists m k w eta, model_add Rnum (from_parameters 1 1 0 None 1) adv_args = Ok ([LDebug], m) /\ 0 < eta /\
  exists g g' : C, greens (phys_env m k w eta) (gauss_sparse (F := CF) C_eq_dec) id_ord m = Ok g /\ greens (phys_env m k w (- eta)) (gauss_sparse (F := CF) C_eq_dec) id_ord m = Ok g' /\ g' <> conj_c g.
Proof.
  destruct adv_good as [G H]. assert (T0 : h_hop (m_ham adv_model) <> 0) by (cbn; lra). assert (C0' : - (1 * 1) <> 0) by lra.
  set (p := fun n : Z => g0_delta_omega 0 (RtoC (0 - IZR n * 1)) 1 1 1 1 0). assert (Hp : forall n, local_greens (h_hop (m_ham adv_model)) ((0 - IZR n * 1)%R, 1) (p n)) by (intros n; apply MA_proofs.g0_local; lra).
  assert (K : forall k, Cadd (0 + 2 * h_hop (m_ham adv_model) * cos (k * m_lattice adv_model), 1) (@ladder CF (RtoC (- (1 * 1) * - (1 * 1))) p 1 (Z.to_nat (most adv_model 1))) <> Cplx.C0 ->
     exists g g' : C, greens (phys_env adv_model k 0 1) (gauss_sparse (F := CF) C_eq_dec) id_ord adv_model = Ok g /\ greens (phys_env adv_model k 0 (- (1))) (gauss_sparse (F := CF) C_eq_dec) id_ord adv_model = Ok g' /\ g' <> conj_c g).
  { intros k NZ. destruct (C81_solver adv_model 1 _ 1 1 id_ord (gauss_sparse (F := CF) C_eq_dec) k 0 1 p G H ltac:(lra) id_perm (gauss_spsolve_ok (F := CF) C_eq_dec) Hp) as [g [Eg [_ [_ X]]]].
    destruct (X T0 NZ) as [g' [Eg' [_ D]]]. exists g, g'. split; [exact Eg|]. split; [exact Eg'|]. exact (D C0'). }
  set (L := @ladder CF _ p 1 _) in K.
  destruct (C_eq_dec (Cadd (0 + 2 * h_hop (m_ham adv_model) * cos (0 * m_lattice adv_model), 1) L) Cplx.C0) as [E|E].
  - exists adv_model, PI, 0, 1. split; [exact adv_add|]. split; [lra|]. apply K. intros E'. cbn [adv_model m_ham h_hop m_lattice] in *. rewrite Rmult_0_l, cos_0 in E. replace (PI * 1) with PI in E' by ring. rewrite cos_PI in E'.
    apply (f_equal Re) in E, E'. unfold Cadd, Cplx.C0, Re in *. cbn [fst] in *. lra.
  - exists adv_model, 0, 0, 1. split; [exact adv_add|]. split; [lra|]. apply K. exact E.
Qed.
Print Assumptions C81_solver_refuted.

Example C81_nonvacuous : 0 < Im (RtoC 0) + 1 /\ good_model adv_model 1 /\ holstein adv_model (- (1 * 1)) 1 1 1 /\ h_hop (m_ham adv_model) <> 0 /\
  G0_k_omega 0 (conj_c (RtoC 0)) 1 (- (1)) 0 = (0, 1) /\ g0_delta_omega 0 (conj_c (RtoC 0)) 1 (- (1)) 0 1 0 = (0, 1) /\
  (forall n, exists p, local_greens (h_hop (m_ham adv_model)) ((0 - IZR n * 1)%R, 1) p).
Proof.
  split; [unfold RtoC, Im; cbn; lra|]. split; [apply adv_good|]. split; [apply adv_good|]. split; [cbn; lra|]. split; [|split].
  - rewrite C81_momentum. replace (G0_k_omega 0 (RtoC 0) 1 1 0) with ((0, -1) : C) by (symmetry; apply C36_nonvacuous). unfold Spec_pick.conjugate, Re, Im. cbn [fst snd]. f_equal. ring.
  - rewrite C81_sign by (try (right; reflexivity); unfold RtoC, Im; cbn; lra). unfold g0_delta_omega. destruct (Req_EM_T 0 0) as [_|B]; [|contradiction].
    unfold Spec_pick.conjugate, Cdiv, Cmul, Cinv, C1, Cadd, Ci, RtoC, Cnorm2, Re, Im. cbn [fst snd]. f_equal; field.
  - intros n. eexists. apply (MA_proofs.g0_local _ 1 _ 1). lra.
Qed.
