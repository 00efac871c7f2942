(** Property theorem C83: maps between rings of numbers, complex conjugation. *)
From Coq Require Import String ZArith List Bool Lia Permutation Reals Lra.
From Coq Require Qreals Qcanon Qreduction.
From Verif Require Import Base NdArray Config Spec Model HModel Space Spec_space Term Equation System Spec_engine Props_Engine
  Ring Coef Spec_eom Solvers Spec_solve LinSolve Spec_model Spec_sym Cplx Physics Props_Physics Props_Model Props_Solve Props_Sym Spec_spectral Props_Spectral Spec_hom Props_Adv.
From Verif Require Spec_pick Hom_proofs HModel_proofs Physics_proofs Toeplitz_proofs Adv_proofs Sysok_proofs Sparse_proofs.
Import ListNotations.
Open Scope list_scope.

Local Notation conj_c := Spec_pick.conjugate.

(** The Green's function at the image of a point is the image of the Green's
    function, if it is determined at both. *)
Theorem C83_map : forall T (K K' : cring) (h : K -> K') (e : env T K) (e' : env T K') m ae ord ord' sp sp', ring_map h -> carried h e e' -> good_model m ae ->
  (forall k l, Permutation (ord k l) l) -> (forall k l, Permutation (ord' k l) l) -> spsolve_ok sp -> spsolve_ok sp' -> regular_at e ord m -> regular_at e' ord' m ->
  exists g, greens e sp ord m = Ok g /\ greens e' sp' ord' m = Ok (h g).
Proof.
  intros T K K' h e e' m ae ord ord' sp sp' H Ca G P P' SO SO' [s [X [v [E [ES NS]]]]] [s' [X' [v' [E' [ES' NS']]]]].
  destruct (C21_result_order_independent T K' e' m ae ord' ord s' sp' X' v' G P' P E' ES' NS' SO') as [s1 [X1 [v1 [E1 [ES1 [NS1 Q]]]]]].
  rewrite E in E1. assert (s1 = s) as -> by congruence. clear E1.
  destruct (scaffold_shape e m ae ord s X v G P E ES) as [S1 S2]. destruct (scaffold_shape e' m ae ord s X1 v1 G P E ES1) as [S1' S2'].
  destruct (C22_sparse_result T K e m ae ord s sp X v G P E ES (SO X v S1 S2 NS)) as [g [Eg [[u [Pu [Su Gu]]] _]]].
  destruct (C22_sparse_result T K' e' m ae ord s sp' X1 v1 G P E ES1 (SO' X1 v1 S1' S2' NS1)) as [g' [Eg' [_ U]]].
  exists g. unfold greens. rewrite E, E'. cbn [bind]. split; [exact Eg|]. rewrite <- Q, Eg'. f_equal.
  pose proof (U NS1 (fun p => h (u p)) (Hom_proofs.hom_proper h u Pu) (Hom_proofs.hom_solution h H e e' Ca s u Su)) as V.
  destruct (C22_matrix T K e m ae ord s G P E) as [tr [_ [_ [_ [_ [_ [q [Nq [Gq _]]]]]]]]]. apply nth_error_In in Nq.
  rewrite <- (V q Nq Gq), (Gu q Nq Gq). reflexivity.
Qed.
Print Assumptions C83_map.

(** An invertible map also carries over that it is determined. *)
Theorem C83_iso : forall T (K K' : cring) (h : K -> K') (e : env T K) (e' : env T K') m ae ord ord' sp sp', ring_map h -> invertible h -> carried h e e' -> good_model m ae ->
  (forall k l, Permutation (ord k l) l) -> (forall k l, Permutation (ord' k l) l) -> spsolve_ok sp -> spsolve_ok sp' -> regular_at e ord m ->
  regular_at e' ord' m /\ exists g, greens e sp ord m = Ok g /\ greens e' sp' ord' m = Ok (h g).
Proof.
  intros T K K' h e e' m ae ord ord' sp sp' H [h' [I1 I2]] Ca G P P' SO SO' R.
  assert (R' : regular_at e' ord' m).
  { destruct R as [s [X [v [E [ES NS]]]]]. destruct (C21_result_order_independent T K e m ae ord ord' s sp X v G P P' E ES NS SO) as [s1 [X1 [v1 [E1 [ES1 [NS1 _]]]]]].
    destruct (Sysok_proofs.sys_ok_good m ae ord' s1 G P' E1) as [O _]. exists s1. do 2 eexists. split; [exact E1|]. split; [apply (Sparse_proofs.scaffold_ok e' s1 O)|].
    rewrite (Sparse_proofs.scaffold_ok e s1 O) in ES1. assert (X1 = mkCoo (Sparse_proofs.NN s1) (Sparse_proofs.NN s1) (Sparse_proofs.triplets e s1)) as -> by congruence.
    apply (Sparse_proofs.nonsingular_iff e' s1 O). intros u Pu Hu q Hq.
    assert (Z : forall x, h x = k0 -> x = k0).
    { intros x Hx. rewrite <- (I2 x), Hx, <- (rm_0 h H), I2. reflexivity. }
    pose proof (proj1 (Sparse_proofs.nonsingular_iff e s1 O) NS1 (fun p => h' (u p))) as N. cbn beta in N.
    rewrite <- (I1 (u (unk (e_index q)))). rewrite N; [apply (rm_0 h H)| | |exact Hq].
    - intros a a' d V V' F F'. f_equal. apply Pu; assumption.
    - intros q2 H2. apply Z. rewrite <- (Hom_proofs.hom_row h H e e' Ca). rewrite <- (Hu q2 H2). unfold row. rewrite I1. f_equal. f_equal. apply map_ext. intros t. rewrite I1. reflexivity. }
  split; [exact R'|]. exact (C83_map T K K' h e e' m ae ord ord' sp sp' H Ca G P P' SO SO' R R').
Qed.
Print Assumptions C83_iso.

(** Complex conjugation. *)
Theorem C83_conjugation : ring_map (K := CR) (K' := CR) conj_c /\ invertible conj_c.
Proof.
  split.
  - constructor; [apply Ceq; cbn; unfold Re, Im; cbn; lra|apply Ceq; cbn; unfold Re, Im; cbn; lra| |]; intros x y; change conj_c with Toeplitz_proofs.Cconj; [exact (Adv_proofs.cj_add x y)|exact (Adv_proofs.cj_mul x y)].
  - exists conj_c. split; exact Adv_proofs.cj_cj.
Qed.
Print Assumptions C83_conjugation.

Open Scope R_scope.
(** The numbers at a point with the argument sgn = -1 given to g0_delta_omega,
    which the solvers do not do. *)
Definition signed_env (m : model R) (k w eta : R) : env R CR :=
  mkEnv (K := CR) RtoC (fun v => Cexpi (k * (m_lattice m * half_of v)))
    (fun v l => g0_delta_omega (half_of v) (RtoC (w - shift_of l)) (m_lattice m) eta (h_hop (m_ham m)) (-1) 0)
    (G0_k_omega k (RtoC w) (m_lattice m) eta (h_hop (m_ham m))).

Lemma conj_R : forall x, conj_c (RtoC x) = RtoC x. Proof. exact Adv_proofs.cj_R. Qed.
Lemma conj_phase : forall x, conj_c (Cexpi x) = Cexpi (- x).
Proof. intros x. unfold Cexpi, Spec_pick.conjugate, Re, Im. cbn [fst snd]. rewrite cos_neg, sin_neg. reflexivity. Qed.
Lemma conj_G0 : forall k w a eta t, G0_k_omega (- k) (RtoC w) a (- eta) t = conj_c (G0_k_omega k (RtoC w) a eta t).
Proof.
  intros k w a eta t. rewrite <- (conj_R w) at 1. rewrite <- C81_momentum. unfold G0_k_omega. replace (cos (- k * a)) with (cos (k * a)); [reflexivity|]. rewrite <- cos_neg. f_equal. ring.
Qed.

(** Without hopping conjugation reverses momentum and broadening. *)
Theorem C83_carried : forall m k w eta, h_hop (m_ham m) = 0 -> carried (K := CR) (K' := CR) conj_c (phys_env m k w eta) (phys_env m (- k) w (- eta)).
Proof.
  intros m k w eta T0. constructor.
  - intros x. symmetry. apply conj_R.
  - intros v. cbn [phys_env ph]. rewrite conj_phase. f_equal. ring.
  - intros v l. cbn [phys_env g0]. rewrite T0. unfold g0_delta_omega. destruct (Req_EM_T 0 0) as [_|B]; [|contradiction]. change conj_c with Toeplitz_proofs.Cconj. destruct (Req_EM_T (half_of v) 0).
    + rewrite Adv_proofs.cj_div, Adv_proofs.cj_1. f_equal. Adv_proofs.conj_eq.
    + Adv_proofs.conj_eq.
  - apply conj_G0.
Qed.
Print Assumptions C83_carried.

(** With hopping it does if sgn is reversed as well. *)
Theorem C83_signed : forall m k w eta, 0 < eta -> carried (K := CR) (K' := CR) conj_c (phys_env m k w eta) (signed_env m (- k) w (- eta)).
Proof.
  intros m k w eta He. constructor.
  - intros x. symmetry. apply conj_R.
  - intros v. cbn [phys_env signed_env ph]. rewrite conj_phase. f_equal. ring.
  - intros v l. cbn [phys_env signed_env g0]. rewrite <- (C81_sign (half_of v) (RtoC (w - shift_of l)) (m_lattice m) eta (h_hop (m_ham m)) (-1) 0); [rewrite conj_R; reflexivity|unfold RtoC, Im; cbn [snd]; lra|left; reflexivity].
  - apply conj_G0.
Qed.
Print Assumptions C83_signed.

(** Without hopping the Green's function of every model, with any coupling, clouds
    and temperature, at the opposite broadening is the conjugate: advanced and
    retarded.  At broadening 0 it is real where it exists. *)
Theorem C83_atoms : forall m fs cs ae ord ord' sp k w eta, built Rnum 1 m fs cs -> good_model m ae -> h_hop (m_ham m) = 0 ->
  (forall k l, Permutation (ord k l) l) -> (forall k l, Permutation (ord' k l) l) -> spsolve_ok sp -> regular_at (phys_env m k w eta) ord m ->
  regular_at (phys_env m k w (- eta)) ord' m /\
  exists g : C, greens (phys_env m k w eta) sp ord m = Ok g /\ greens (phys_env m k w (- eta)) sp ord' m = Ok (conj_c g) /\ (eta = 0 -> Im g = 0).
Proof.
  intros m fs cs ae ord ord' sp k w eta B G T0 P P' SO Rg. destruct C83_conjugation as [HM HI].
  destruct (C83_iso R CR CR conj_c _ _ m ae ord ord' sp sp HM HI (C83_carried m k w eta T0) G P P' SO SO Rg) as [R1 [g [E1 E2]]].
  destruct (C47_physical m fs cs ae ord' ord' sp (- k) w (- eta) B G P' P' SO R1) as [R2 [g' [E3 E4]]]. rewrite Ropp_involutive in R2, E4.
  assert (g' = conj_c g) as -> by congruence. split; [exact R2|]. exists g. split; [exact E1|]. split; [exact E4|]. intros ->. rewrite Ropp_0 in *.
  destruct Rg as [s [X [v [E [ES NS]]]]]. destruct (C21_result_order_independent R CR _ m ae ord ord' s sp X v G P P' E ES NS SO) as [s' [X' [v' [E' [_ [_ Q]]]]]].
  unfold greens in E1, E4. rewrite E in E1. rewrite E' in E4. cbn [bind] in E1, E4. assert (X1 : g = conj_c g) by congruence. apply (f_equal snd) in X1. unfold Spec_pick.conjugate, Im in *. cbn [snd] in X1. lra.
Qed.
Print Assumptions C83_atoms.

(** At positive broadening it always exists. *)
Theorem C83_advanced : forall m fs cs ae ord ord' sp k w eta, built Rnum 1 m fs cs -> good_model m ae -> h_hop (m_ham m) = 0 -> 0 < eta ->
  (forall k l, Permutation (ord k l) l) -> (forall k l, Permutation (ord' k l) l) -> spsolve_ok sp ->
  exists g : C, greens (phys_env m k w eta) sp ord m = Ok g /\ greens (phys_env m k w (- eta)) sp ord' m = Ok (conj_c g).
Proof.
  intros m fs cs ae ord ord' sp k w eta B G T0 He P P' SO. destruct (C50_lattice m fs cs ae B G) as [c L].
  destruct (C83_atoms m fs cs ae ord ord' sp k w eta B G T0 P P' SO (C52_regular m ae c ord k w eta G (C51_hermitian m fs cs ae k w eta B G) L (or_intror T0) He P)) as [_ [g [E1 [E2 _]]]].
  exists g. auto.
Qed.
Print Assumptions C83_advanced.

(** With hopping, the solvers would return the conjugate at the opposite broadening
    if they gave sgn = -1 to g0_delta_omega there. *)
Theorem C83_repair : forall m fs cs ae ord ord' sp k w eta, built Rnum 1 m fs cs -> good_model m ae -> exact_lattice m -> 0 < eta ->
  (forall k l, Permutation (ord k l) l) -> (forall k l, Permutation (ord' k l) l) -> spsolve_ok sp ->
  regular_at (signed_env m k w (- eta)) ord' m /\
  exists g : C, greens (phys_env m k w eta) sp ord m = Ok g /\ greens (signed_env m k w (- eta)) sp ord' m = Ok (conj_c g).
Proof.
  intros m fs cs ae ord ord' sp k w eta B G La He P P' SO. destruct C83_conjugation as [HM HI]. destruct (C50_lattice m fs cs ae B G) as [c L].
  pose proof (C52_regular m ae c ord k w eta G (C51_hermitian m fs cs ae k w eta B G) L La He P) as Rg.
  destruct (C47_physical m fs cs ae ord ord sp k w eta B G P P SO Rg) as [R1 [g [E1 E2]]].
  destruct (C83_iso R CR CR conj_c _ _ m ae ord ord' sp sp HM HI (C83_signed m (- k) w eta He) G P P' SO SO R1) as [R2 [g' [E3 E4]]]. rewrite Ropp_involutive in R2, E4.
  split; [exact R2|]. exists g. split; [exact E1|]. assert (g' = g) as -> by congruence. exact E4.
Qed.
Print Assumptions C83_repair.

(** Rational numbers as complex numbers: a map that is not invertible. *)
Definition of_rational (x : Qcf) : C := RtoC (Rdefinitions.Q2R (Qcanon.this x)).
Theorem C83_rational : ring_map (K := Qcf) (K' := CR) of_rational /\ ~ invertible of_rational.
Proof.
  split.
  - constructor.
    + apply Ceq; cbn; unfold Re, Im, Rdefinitions.Q2R; cbn; lra.
    + apply Ceq; cbn; unfold Re, Im, Rdefinitions.Q2R; cbn; lra.
    + intros x y. unfold of_rational. change (Qcanon.this (kadd x y)) with (Qreduction.Qred (QArith_base.Qplus (Qcanon.this x) (Qcanon.this y))).
      rewrite (Qreals.Qeq_eqR _ _ (Qreduction.Qred_correct _)), Qreals.Q2R_plus. apply Ceq; unfold RtoC, Re, Im; cbn; lra.
    + intros x y. unfold of_rational. change (Qcanon.this (kmul x y)) with (Qreduction.Qred (QArith_base.Qmult (Qcanon.this x) (Qcanon.this y))).
      rewrite (Qreals.Qeq_eqR _ _ (Qreduction.Qred_correct _)), Qreals.Q2R_mult. apply Ceq; unfold RtoC, Re, Im; cbn; lra.
  - intros [h' [I _]]. specialize (I Ci). apply (f_equal snd) in I. cbn in I. lra.
Qed.
Print Assumptions C83_rational.

(** Edwards' model without hopping, with clouds of at most one phonon. *)
Definition a_model (n : Z) : model R :=
  mkModel 1 0 (mkHam [ x_term 1 1 Plus; x_term (-1) (-1) Plus; x_term 1 0 Minus; x_term (-1) 0 Minus ] [1] 1 0) None [1%Z] [n] None 1.
Lemma a_add : forall n, (1 <= n)%Z -> model_add Rnum (from_parameters 0 1 0 None 1) (x_args n) = Ok ([LDebug], a_model n).
Proof.
  intros n Hn. unfold model_add, x_args. cbn [from_parameters m_temp Rnum n_ltb n_0]. destruct (Rlt_dec 0 0) as [H|H]; [lra|]. cbn [andb a_N a_M a_Mtfd a_Ntfd a_cs a_dcs a_override is_none lt1 orb xorb negb].
  replace (n <? 1)%Z with false by (symmetry; apply Z.ltb_ge; exact Hn). change (1 <? 1)%Z with false. cbn [orb]. rewrite andb_false_r. unfold tfd_prefactors. cbn [Rnum n_ltb n_0]. destruct (Rlt_dec 0 0) as [H'|_]; [lra|]. reflexivity.
Qed.
Lemma a_built : forall n, (1 <= n)%Z -> built Rnum 1 (a_model n) [1] ["EdwardsFermionBoson"%string].
Proof.
  intros n Hn. pose proof (built_add Rnum 1 _ [] [] _ _ _ (built_start Rnum 1 0 1 0 None) (a_add n Hn)) as B. cbn [app from_parameters m_temp] in B.
  cbn [Rnum n_ltb n_0] in B. destruct (Rlt_dec 0 0) as [H|H]; [lra|]. apply B; [|reflexivity]. intros [X|[]]. discriminate X.
Qed.
Lemma a_good : forall n, (1 <= n)%Z -> good_model (a_model n) 1.
Proof.
  intros n Hn. constructor; try (simpl; lia).
  - repeat split; simpl; lia.
  - reflexivity.
  - discriminate.
  - intros [|t] H; simpl in *; lia.
  - intros [|t] H; simpl in *; lia.
  - intros h H. simpl in H. repeat (destruct H as [<-|H]; [simpl; lia|]). destruct H.
  - intros h H. simpl in H. repeat (destruct H as [<-|H]; [reflexivity|]). destruct H.
  - intros h H. simpl in H. repeat (destruct H as [<-|H]; [reflexivity|]). destruct H.
  - intros [|t] H; [|simpl in H; lia]. eexists. split; [left; reflexivity|]. split; reflexivity.
  - eexists. split; [right; right; left; reflexivity|reflexivity].
  - intros h h' _ H. simpl in H. repeat (destruct H as [<-|H]; [discriminate|]). destruct H.
Qed.
(** At frequency 3 it is determined without broadening; the repaired solver on the
    model with hopping; a rational point and its image. *)
Example C83_nonvacuous : built Rnum 1 (a_model 1) [1] ["EdwardsFermionBoson"%string] /\ good_model (a_model 1) 1 /\ h_hop (m_ham (a_model 1)) = 0 /\
  regular_at (phys_env (a_model 1) 0 3 0) id_ord (a_model 1) /\ regular_at (phys_env (a_model 1) 0 3 1) id_ord (a_model 1) /\
  built Rnum 1 (x_models 1 2) [1] ["EdwardsFermionBoson"%string] /\ good_model (x_models 1 2) 1 /\ exact_lattice (x_models 1 2) /\
  (forall e : env Z Qcf, carried (K := Qcf) (K' := CR) of_rational e (mkEnv (K := CR) (fun x => of_rational (ev e x)) (fun v => of_rational (ph e v)) (fun v l => of_rational (g0 e v l)) (of_rational (G0 e)))).
Proof.
  split; [apply a_built; lia|]. split; [apply a_good; lia|]. split; [reflexivity|]. split; [|split].
  - assert (X : exists s, prime_system id_ord (a_model 1) = Ok s /\ scaffold (phys_env (a_model 1) 0 3 0) (full_basis s) s = Ok (x_mat (phys_env (a_model 1) 0 3 0), x_rhs (phys_env (a_model 1) 0 3 0))).
    { generalize (phys_env (a_model 1) 0 3 0). intros e. eexists. split; [vm_compute; reflexivity|]. vm_compute. reflexivity. }
    destruct X as [s [E ES]]. exists s. do 2 eexists. split; [exact E|]. split; [exact ES|]. set (e := phys_env (a_model 1) 0 3 0).
    assert (P0 : ph e [0%Z] = Cplx.C1) by (cbn [e phys_env ph]; rewrite Rmult_0_l; unfold Cexpi; rewrite cos_0, sin_0; reflexivity).
    assert (H0 : forall d, d <> 0%Z -> g0 e [d] [(1, 1%Z)] = Cplx.C0).
    { intros d D. cbn [e phys_env g0 a_model m_ham h_hop]. unfold g0_delta_omega. destruct (Req_EM_T 0 0) as [_|B]; [|contradiction]. destruct (Req_EM_T (half_of [d]) 0) as [B|_]; [|reflexivity].
      exfalso. apply D. apply eq_IZR. unfold half_of in B. cbn [hd] in B. lra. }
    assert (H1 : g0 e [0%Z] [(1, 1%Z)] = RtoC (1 / 2)).
    { cbn [e phys_env g0 a_model m_ham h_hop]. unfold g0_delta_omega. destruct (Req_EM_T 0 0) as [_|B]; [|contradiction]. destruct (Req_EM_T (half_of [0%Z]) 0) as [_|B]; [|exfalso; apply B; unfold half_of; cbn [hd]; lra].
      unfold shift_of. cbn [fold_right fst snd]. apply Ceq; unfold Cdiv, Cinv, Cnorm2, Cmul, Cadd, RtoC, Ci, Cplx.C1, Re, Im; cbn [fst snd]; field. }
    assert (H2 : G0 e = RtoC (1 / 3)).
    { cbn [e phys_env G0 a_model m_ham h_hop]. unfold G0_k_omega. apply Ceq; unfold Cdiv, Cinv, Cnorm2, Cmul, Cadd, RtoC, Ci, Cplx.C1, Re, Im; cbn [fst snd]; field. }
    assert (H3 : x_coef e = RtoC 2) by (unfold x_coef; cbn [e phys_env ev]; apply Ceq; cbn; unfold Re, Im; cbn; lra).
    intros x Hx. pose proof (Hx 0%nat ltac:(cbn; lia)) as X0. pose proof (Hx 1%nat ltac:(cbn; lia)) as X1. pose proof (Hx 2%nat ltac:(cbn; lia)) as X2. clear Hx.
    unfold mv, x_mat in X0, X1, X2. cbn [c_ent filter map fst snd Nat.eqb] in X0, X1, X2. rewrite P0, !H3, H1, H0 in X0, X1 by discriminate.
    rewrite P0, !H3, H2 in X2. unfold ksum in X0, X1, X2. cbn [fold_right] in X0, X1, X2.
    assert (L : forall y : C, y = Cplx.C0 <-> Re y = 0 /\ Im y = 0) by (intros y; split; [intros ->; split; reflexivity|intros [A B]; apply Ceq; assumption]).
    apply L in X0, X1, X2. cbn in X0, X1, X2. unfold Re, Im in X0, X1, X2. cbn [fst snd] in X0, X1, X2.
    destruct X0 as [A0 B0], X1 as [A1 B1], X2 as [A2 B2].
    intros i Hi. cbn in Hi. assert (Ei : i = 0%nat \/ i = 1%nat \/ i = 2%nat) by lia. apply L. unfold Re, Im. 
    destruct Ei as [->|[->| ->]]; split; cbn in *; lra.
  - destruct (C50_lattice _ _ _ _ (a_built 1 ltac:(lia)) (a_good 1 ltac:(lia))) as [c L].
    apply (C52_regular (a_model 1) 1 c id_ord 0 3 1 (a_good 1 ltac:(lia)) (C51_hermitian _ _ _ _ 0 3 1 (a_built 1 ltac:(lia)) (a_good 1 ltac:(lia))) L); [right; reflexivity|lra|exact id_perm].
  - split; [apply x_builts; lia|]. split; [apply x_goods; lia|]. split; [left; reflexivity|]. intros e. constructor; reflexivity.
Qed.
