(** Property theorem C84: the sign of the hopping. *)
From Coq Require Import String ZArith List Bool Lia Permutation Reals Lra.
From Verif Require Import Base NdArray Config Spec Model HModel Space Spec_space Term Equation System Spec_engine Props_Engine
  Ring Coef Spec_eom Solvers Spec_solve LinSolve Spec_model Spec_sym Cplx Physics Props_Physics Props_Model Props_Solve Props_Sym Spec_spectral Props_Spectral Spec_self Props_Self Spec_neghop.
From Verif Require Neghop_proofs HModel_proofs Physics_proofs Sysok_proofs Sparse_proofs Rows_proofs Prime_proofs.
Import ListNotations.
Open Scope list_scope.
Open Scope Z_scope.

(** The hopping is in none of the equations: models which differ only in it have
    the same ones and the same Green's function at the same numbers. *)
Theorem C84_equations : forall T (K : cring) (e : env T K) sp ord x m,
  (forall s, prime_system ord m = Ok s -> exists s', prime_system ord (with_hop x m) = Ok s' /\ s_eqs s' = s_eqs s /\ s_fargs s' = s_fargs s) /\
  (forall z, prime_system ord m = Err z -> prime_system ord (with_hop x m) = Err z) /\
  greens e sp ord (with_hop x m) = greens e sp ord m.
Proof.
  intros T K e sp ord x m. pose proof (Neghop_proofs.hop_prime ord x m) as H. split; [|split].
  - intros s E. rewrite E in H. eexists. split; [exact H|]. split; reflexivity.
  - intros z E. rewrite E in H. exact H.
  - apply Neghop_proofs.hop_greens.
Qed.
Print Assumptions C84_equations.

(** How the Green's function depends on the free particle's, at the same
    couplings, phases and propagators: (1/G0 - 1/G0') g g' = g' - g. *)
Theorem C84_dressing : forall T (K : cring) (e e' : env T K) m ae ord ord' sp sp', good_model m ae -> redressed e e' ->
  (forall k l, Permutation (ord k l) l) -> (forall k l, Permutation (ord' k l) l) -> spsolve_ok sp -> spsolve_ok sp' ->
  regular_at e ord m -> regular_at e' ord' m ->
  exists g g', greens e sp ord m = Ok g /\ greens e' sp' ord' m = Ok g' /\
    ((forall x, kmul x g = k0 -> x = k0) -> kmul (kmul (ksub (G0 e') (G0 e)) g) g' = kmul (kmul (G0 e) (G0 e')) (ksub g' g)).
Proof.
  intros T K e e' m ae ord ord' sp sp' G D P P' SO SO' [s [X [v [E [ES NS]]]]] [s' [X' [v' [E' [ES' NS']]]]].
  destruct (Sysok_proofs.sys_ok_good m ae ord s G P E) as [O _]. destruct (Sysok_proofs.sys_ok_good m ae ord' s' G P' E') as [O' _].
  destruct (scaffold_shape e m ae ord s X v G P E ES) as [S1 S2]. destruct (scaffold_shape e' m ae ord' s' X' v' G P' E' ES') as [S1' S2'].
  destruct (C22_sparse_result T K e m ae ord s sp X v G P E ES (SO X v S1 S2 NS)) as [g [Eg [[u [Pu [Su Gu]]] _]]].
  destruct (C22_sparse_result T K e' m ae ord' s' sp' X' v' G P' E' ES' (SO' X' v' S1' S2' NS')) as [g' [Eg' [[u' [Pu' [Su' Gu']]] _]]].
  exists g, g'. unfold greens. rewrite E, E'. split; [exact Eg|]. split; [exact Eg'|]. intros CA.
  pose proof (Sparse_proofs.g_value_unique s O u g (u (Prime_proofs.vac m, [0])) Gu (Rows_proofs.g_value_vac m ae G ord P s E u)) as Q.
  pose proof (Sparse_proofs.g_value_unique s' O' u' g' (u' (Prime_proofs.vac m, [0])) Gu' (Rows_proofs.g_value_vac m ae G ord' P' s' E' u')) as Q'.
  rewrite Q, Q'. rewrite Q in CA. apply (Neghop_proofs.dressing m ae e e' D u u'); try assumption.
  - intros w Pw Cw. rewrite (Sparse_proofs.scaffold_ok e s O) in ES. assert (X = mkCoo (Sparse_proofs.NN s) (Sparse_proofs.NN s) (Sparse_proofs.triplets e s)) as -> by congruence.
    exact (proj1 (proj1 (Rows_proofs.regular_iff m ae G ord P s E e) NS w Pw Cw)).
  - apply (Rows_proofs.solution_iff m ae G ord P s E e u Pu). exact Su.
  - apply (Rows_proofs.solution_iff m ae G ord' P' s' E' e' u' Pu'). exact Su'.
Qed.
Print Assumptions C84_dressing.

Lemma neg_redressed : forall m k w eta, redressed (phys_env m k w eta) (phys_env (with_hop (- h_hop (m_ham m))%R m) k w eta).
Proof.
  intros m k w eta. constructor; try reflexivity. intros v l. cbn [phys_env g0]. change (h_hop (m_ham (with_hop (- h_hop (m_ham m))%R m))) with (- h_hop (m_ham m))%R.
  change (m_lattice (with_hop (- h_hop (m_ham m))%R m)) with (m_lattice m). unfold g0_delta_omega. rewrite Rabs_Ropp.
  destruct (Req_EM_T (- h_hop (m_ham m)) 0) as [H|H], (Req_EM_T (h_hop (m_ham m)) 0) as [H'|H']; try reflexivity; exfalso; lra.
Qed.

(** Negating the hopping at fixed momentum changes the band but not the
    self-energy: with the same [s], g = 1 / (z - band - s) and
    g' = 1 / (z + band - s). *)
Theorem C84_same_self_energy : forall m ae c ord ord' sp sp' k w eta, good_model m ae -> hermitian (phys_env m k w eta) m -> on_lattice m c ->
  exact_lattice m -> (0 < eta)%R -> (forall k l, Permutation (ord k l) l) -> (forall k l, Permutation (ord' k l) l) -> spsolve_ok sp -> spsolve_ok sp' ->
  let m' := with_hop (- h_hop (m_ham m))%R m in
  exists g g' s : C, greens (phys_env m k w eta) sp ord m = Ok g /\ greens (phys_env m' k w eta) sp' ord' m' = Ok g' /\
    dyson m k w eta s g /\ dyson m' k w eta s g' /\ band m' k = (- band m k)%R.
Proof.
  intros m ae c ord ord' sp sp' k w eta G H L Hl He P P' SO SO' m'.
  set (e := phys_env m k w eta). set (e' := phys_env m' k w eta).
  assert (Hl' : exact_lattice m') by (destruct Hl as [Hl|Hl]; [left; exact Hl|right; unfold m'; cbn; rewrite Hl; lra]).
  pose proof (C52_regular m ae c ord k w eta G H L Hl He P) as R0.
  pose proof (C52_regular m' ae c ord' k w eta (Neghop_proofs.hop_good _ m ae G) H L Hl' He P') as R1.
  apply Neghop_proofs.hop_regular in R1.
  destruct (C84_dressing R CR e e' m ae ord ord' sp sp' G (neg_redressed m k w eta) P P' SO SO' R0 R1) as [g [g' [Eg [Eg' D]]]].
  destruct (C59_self_energy m ae c ord sp k w eta G H L Hl He P SO) as [g1 [s [Eg1 [Dy _]]]]. assert (g1 = g) as -> by (unfold e in Eg; congruence).
  exists g, g', s. split; [exact Eg|]. split; [change (greens e' sp' ord' (with_hop (- h_hop (m_ham m))%R m) = Ok g'); rewrite Neghop_proofs.hop_greens; exact Eg'|]. split; [exact Dy|].
  assert (Bn : band m' k = (- band m k)%R) by (unfold band, m'; cbn; ring). split; [|exact Bn].
  assert (CA : forall x : C, Cmul x g = Cplx.C0 -> x = Cplx.C0).
  { intros x Hx. transitivity (Cmul (Cmul x g) (Csub ((w - band m k)%R, eta) s)); [|rewrite Hx; ring].
    transitivity (Cmul x (Cmul g (Csub ((w - band m k)%R, eta) s))); [rewrite Dy|]; ring. }
  specialize (D CA). change (Cmul (Cmul (Csub (G0 e') (G0 e)) g) g' = Cmul (Cmul (G0 e) (G0 e')) (Csub g' g)) in D.
  assert (F : forall q : model R, Cmul (G0 (phys_env q k w eta)) ((w - band q k)%R, eta) = Cplx.C1).
  { intros q. cbn [phys_env G0]. unfold G0_k_omega.
    replace (Cadd (Cadd (RtoC w) (Cmul Ci (RtoC eta))) (RtoC (2 * h_hop (m_ham q) * cos (k * m_lattice q)))) with ((w - band q k)%R, eta)
      by (apply Ceq; unfold band, Cadd, Cmul, RtoC, Ci, Re, Im; cbn [fst snd]; ring).
    transitivity (Cmul (Cinv ((w - band q k)%R, eta)) ((w - band q k)%R, eta)); [unfold Cdiv; ring|]. apply Cinv_l. intros X. injection X as _ X. lra. }
  pose proof (F m) as F0. fold e in F0. pose proof (F m') as F1. fold e' in F1.
  set (x := G0 e) in *. set (y := G0 e') in *. set (a := ((w - band m k)%R, eta)) in *. set (b := ((w - band m' k)%R, eta)) in *.
  unfold dyson in *. fold a in Dy. fold b.
  (* multiply the relation by a b *)
  assert (D2 : Cmul (Cmul (Csub a b) g) g' = Csub g' g).
  { transitivity (Cmul (Cmul a b) (Cmul (Cmul (Csub y x) g) g')).
    - transitivity (Cmul (Cmul (Csub (Cmul a (Cmul y b)) (Cmul b (Cmul x a))) g) g'); [rewrite F0, F1; ring|ring].
    - rewrite D. transitivity (Cmul (Cmul (Cmul x a) (Cmul y b)) (Csub g' g)); [ring|]. rewrite F0, F1. ring. }
  assert (Z : Csub (Cmul g' (Csub b s)) Cplx.C1 = Cplx.C0).
  { apply CA. transitivity (Csub (Csub (Cmul g' (Cmul g (Csub a s))) (Cmul (Cmul (Csub a b) g) g')) g); [ring|]. rewrite Dy, D2. ring. }
  transitivity (Cadd (Csub (Cmul g' (Csub b s)) Cplx.C1) Cplx.C1); [ring|]. rewrite Z. ring.
Qed.
Print Assumptions C84_same_self_energy.

(** * The symmetry of the lattice *)
(** With a sign for every site in the phases and in the propagators the Green's
    function is the same. *)
Theorem C84_gauge : forall T (K : cring) (e e' : env T K) m ae c f x ord ord' sp, good_model m ae -> on_lattice m c -> moves f m -> site_sign x -> sign_changed x e e' ->
  (forall k l, Permutation (ord k l) l) -> (forall k l, Permutation (ord' k l) l) -> spsolve_ok sp ->
  regular_at e ord m -> regular_at e' ord' m /\ exists g, greens e sp ord m = Ok g /\ greens e' sp ord' m = Ok g.
Proof.
  intros T K e e' m ae c f x ord ord' sp G L Mv SS S P P' SO [s [X [v [E [ES NS]]]]].
  destruct (primes e' m ae ord' G P') as [s' [X' [v' [E' ES']]]].
  destruct (Neghop_proofs.sign_result m ae c f x ord ord' s s' e e' sp X v X' v' G L Mv SS S P P' E E' ES ES' NS) as [NS' R].
  split; [exists s', X', v'; auto|].
  destruct (scaffold_shape e m ae ord s X v G P E ES) as [S1 S2]. destruct (scaffold_shape e' m ae ord' s' X' v' G P' E' ES') as [S1' S2'].
  assert (SV : solves X v (sp X v)) by (apply SO; assumption). assert (SV' : solves X' v' (sp X' v')) by (apply SO; assumption).
  destruct (greens_ok e m ae ord s sp X v G P E ES SV) as [g Eg]. exists g. unfold greens. rewrite E, E'. cbn [bind].
  rewrite (R SV SV'). auto.
Qed.
Print Assumptions C84_gauge.

Theorem C84_moves : forall m fs cs, built Rnum 1 m fs cs -> exists f, moves f m.
Proof. exact Neghop_proofs.built_moves. Qed.
Print Assumptions C84_moves.

(** The point (k, w, eta) with the lattice's own propagator: for a negative
    hopping it changes its sign from site to site. *)
Definition right_env (m : model R) (k w eta : R) : env R CR :=
  mkEnv (K := CR) (ev (phys_env m k w eta)) (ph (phys_env m k w eta))
    (fun v l => if Rlt_dec (h_hop (m_ham m)) 0 then if Z.odd (hd 0 v / 2) then Copp (g0 (phys_env m k w eta) v l) else g0 (phys_env m k w eta) v l
                else g0 (phys_env m k w eta) v l)
    (G0 (phys_env m k w eta)).

(** It is the resolvent of the lattice for either sign. *)
Theorem C84_resolvent : forall m k w eta l, m_lattice m = 1%R -> (0 < eta)%R ->
  resolvent (fun d => g0 (right_env m k w eta) [2 * d] l) (z_of (RtoC (w - shift_of l)) eta) (h_hop (m_ham m)).
Proof.
  intros m k w eta l Hl He. set (t := h_hop (m_ham m)). set (om := RtoC (w - shift_of l)).
  assert (I : (0 < Im om + eta)%R) by (unfold om, RtoC, Im; cbn [snd]; lra).
  assert (V : forall d, g0 (phys_env m k w eta) [2 * d] l = g0_site om 1 eta t d).
  { intros d. cbn [phys_env g0]. unfold g0_site. fold t om. rewrite Hl. f_equal. unfold half_of. cbn [hd]. rewrite mult_IZR. field. }
  assert (Od : forall d, Z.odd (hd 0 [2 * d] / 2) = Z.odd d) by (intros d; cbn [hd]; rewrite Z.mul_comm, Z.div_mul by lia; reflexivity).
  intros d. unfold right_env. cbn [g0]. fold t. destruct (Rlt_dec t 0) as [N|N].
  - rewrite !V, !Od. pose proof (proj2 (C37_negative_hopping om eta t I N) d) as E. rewrite Rabs_left in E by exact N.
    rewrite !Z.odd_sub, !Z.odd_add. change (Z.odd 1) with true. rewrite !xorb_true_r.
    set (A := g0_site om 1 eta t d) in *. set (B := g0_site om 1 eta t (d + 1)) in *. set (B' := g0_site om 1 eta t (d - 1)) in *.
    assert (RO : RtoC (- t) = Copp (RtoC t)) by (apply Ceq; unfold RtoC, Copp, Re, Im; cbn [fst snd]; lra). rewrite RO in E.
    destruct (Z.odd d) eqn:D; cbn [negb].
    + destruct (Z.eq_dec d 0) as [->|_]; [discriminate D|]. transitivity (Copp (Cadd (Cmul (z_of om eta) A) (Cmul (Copp (RtoC t)) (Cadd B B')))); [ring|]. rewrite E. ring.
    + rewrite <- E. ring.
  - rewrite !V. apply (C37_resolvent om eta t I). lra.
Qed.
Print Assumptions C84_resolvent.

Lemma Cexpi_plus : forall a b, Cexpi (a + b) = Cmul (Cexpi a) (Cexpi b).
Proof. intros a b. apply Ceq; unfold Cexpi, Cmul, Re, Im; cbn [fst snd]; [rewrite cos_plus; ring|rewrite sin_plus; ring]. Qed.

Definition turn (d : Z) : C := Cexpi (- (PI * (IZR d / 2))).
Lemma turn_sign : site_sign (K := CR) turn.
Proof.
  unfold turn. constructor.
  - change (Cexpi (- (PI * (0 / 2))) = Cplx.C1). replace (- (PI * (0 / 2)))%R with 0%R by field. apply Ceq; unfold Cexpi, Cplx.C1, Re, Im; cbn [fst snd]; [apply cos_0|apply sin_0].
  - intros a b. change (Cexpi (- (PI * (IZR (a + b) / 2))) = Cmul (Cexpi (- (PI * (IZR a / 2)))) (Cexpi (- (PI * (IZR b / 2))))). rewrite <- Cexpi_plus, plus_IZR. f_equal. field.
  - change (Cexpi (- (PI * (2 / 2))) = Copp Cplx.C1). replace (- (PI * (2 / 2)))%R with (- PI)%R by field.
    apply Ceq; unfold Cexpi, Copp, Cplx.C1, Re, Im; cbn [fst snd]; [rewrite cos_neg; apply cos_PI|rewrite sin_neg, sin_PI; ring].
Qed.

Lemma one_neg : forall z : C, Copp z = Cmul (Copp Cplx.C1) z. Proof. intros. ring. Qed.
Lemma one_pos : forall z : C, z = Cmul Cplx.C1 z. Proof. intros. ring. Qed.
Lemma right_signed : forall m k w eta, m_lattice m = 1%R -> (0 < h_hop (m_ham m))%R ->
  sign_changed (K := CR) turn (phys_env m (k + PI) w eta) (right_env (with_hop (- h_hop (m_ham m))%R m) k w eta).
Proof.
  intros m k w eta Hl Ht. set (m' := with_hop (- h_hop (m_ham m))%R m). constructor.
  - reflexivity.
  - intros d. change (Cexpi (k * (m_lattice m * half_of [d])) = Cmul (turn d) (Cexpi ((k + PI) * (m_lattice m * half_of [d])))). unfold turn. rewrite <- Cexpi_plus, Hl. f_equal. unfold half_of. cbn [hd]. field.
  - intros d l. rewrite (Neghop_proofs.sign_sites (K := CR) turn turn_sign). unfold right_env. cbn [g0]. change (h_hop (m_ham m')) with (- h_hop (m_ham m))%R.
    destruct (Rlt_dec (- h_hop (m_ham m)) 0) as [_|N]; [|exfalso; lra]. cbn [hd]. rewrite (Z.mul_comm 2 d), Z.div_mul by lia. rewrite (Z.mul_comm d 2).
    rewrite (rd_g0 _ _ (neg_redressed m k w eta)). change (g0 (phys_env m (k + PI) w eta) [2 * d] l) with (g0 (phys_env m k w eta) [2 * d] l).
    set (g := g0 (phys_env m k w eta) [2 * d] l). destruct (Z.odd d); [exact (one_neg g)|exact (one_pos g)].
  - change (G0_k_omega k (RtoC w) (m_lattice m) eta (- h_hop (m_ham m)) = G0_k_omega (k + PI) (RtoC w) (m_lattice m) eta (h_hop (m_ham m))). unfold G0_k_omega. rewrite Hl, !Rmult_1_r, neg_cos.
    do 3 f_equal. ring.
Qed.

(** With that propagator a negative hopping is the same as a positive one at the
    momentum k + pi. *)
Theorem C84_momentum : forall m fs cs ae ord ord' sp k w eta, built Rnum 1 m fs cs -> good_model m ae -> m_lattice m = 1%R -> (0 < h_hop (m_ham m))%R -> (0 < eta)%R ->
  (forall k l, Permutation (ord k l) l) -> (forall k l, Permutation (ord' k l) l) -> spsolve_ok sp ->
  let m' := with_hop (- h_hop (m_ham m))%R m in
  regular_at (right_env m' k w eta) ord' m' /\
  exists g, greens (phys_env m (k + PI) w eta) sp ord m = Ok g /\ greens (right_env m' k w eta) sp ord' m' = Ok g.
Proof.
  intros m fs cs ae ord ord' sp k w eta B G Hl Ht He P P' SO m'. destruct (C50_lattice m fs cs ae B G) as [c L]. destruct (C84_moves m fs cs B) as [f Mv].
  pose proof (C52_regular m ae c ord (k + PI)%R w eta G (C51_hermitian m fs cs ae _ w eta B G) L (or_introl Hl) He P) as R0.
  destruct (C84_gauge R CR _ _ m ae c f turn ord ord' sp G L Mv turn_sign (right_signed m k w eta Hl Ht) P P' SO R0) as [R1 [g [E1 E2]]].
  split; [apply Neghop_proofs.hop_regular; exact R1|]. exists g. split; [exact E1|]. change (greens (right_env m' k w eta) sp ord' (with_hop (- h_hop (m_ham m))%R m) = Ok g). rewrite Neghop_proofs.hop_greens. exact E2.
Qed.
Print Assumptions C84_momentum.

(** * The code's propagator *)
(** One phonon on the bonds, coupling and frequency 1, hopping [t]. *)
Definition b_args : add_args R := mkAdd "BondPeierls" 1%R 1 1 None None (Some 1%R) None None.
Definition b_term (p q : Z) (s : dagger) : hterm R := mkHterm "BondPeierls" (iv p) (mkVec true [q]) s (1 * 1)%R 0 1%R.
Definition b_model (t : R) : model R :=
  mkModel 1%R 0%R (mkHam [ b_term 1 1 Plus; b_term 1 1 Minus; b_term (-1) (-1) Plus; b_term (-1) (-1) Minus ] [1%R] 1 t) None [1] [1] None 1.
Lemma b_add : forall t, model_add Rnum (from_parameters t 1%R 0%R None 1) b_args = Ok ([LDebug], b_model t).
Proof.
  intros t. unfold model_add, b_args. cbn [from_parameters m_temp Rnum n_ltb n_0]. destruct (Rlt_dec 0 0) as [H|H]; [lra|]. cbn [andb a_N a_M a_Mtfd a_Ntfd a_cs a_dcs a_override is_none lt1 orb xorb negb].
  change (1 <? 1) with false. cbn [orb]. rewrite andb_false_r. unfold tfd_prefactors. cbn [Rnum n_ltb n_0]. destruct (Rlt_dec 0 0) as [H'|_]; [lra|]. reflexivity.
Qed.
Lemma b_built : forall t, built Rnum 1 (b_model t) [1%R] ["BondPeierls"%string].
Proof.
  intros t. pose proof (built_add Rnum 1 _ [] [] _ _ _ (built_start Rnum 1 t 1%R 0%R None) (b_add t)) as B. cbn [app from_parameters m_temp] in B.
  cbn [Rnum n_ltb n_0] in B. destruct (Rlt_dec 0 0) as [H|H]; [lra|]. apply B; [|reflexivity]. intros [X|[]]. discriminate X.
Qed.
Lemma b_good : forall t, good_model (b_model t) 1.
Proof.
  intros t. constructor; try (simpl; lia).
  - repeat split; simpl; lia.
  - reflexivity.
  - discriminate.
  - intros [|i] H; simpl in *; lia.
  - intros [|i] H; simpl in *; lia.
  - intros h H. simpl in H. repeat (destruct H as [<-|H]; [simpl; lia|]). destruct H.
  - intros h H. simpl in H. repeat (destruct H as [<-|H]; [reflexivity|]). destruct H.
  - intros h H. simpl in H. repeat (destruct H as [<-|H]; [reflexivity|]). destruct H.
  - intros [|i] H; [|simpl in H; lia]. eexists. split; [left; reflexivity|]. split; reflexivity.
  - eexists. split; [right; left; reflexivity|reflexivity].
  - intros h h' H _ _. simpl in H. repeat (destruct H as [<-|H]; [reflexivity|]). destruct H.
Qed.

Definition b_coef {K : cring} (e : env R K) : K := kmul (ev e (1 * 1)%R) (kadd k1 k0).
Definition b_mat {K : cring} (e : env R K) : coo K :=
  mkCoo 3 3 [(2%nat, 0%nat, kmul (kmul (b_coef e) (G0 e)) (ph e [1])); (2%nat, 1%nat, kmul (kmul (b_coef e) (G0 e)) (ph e [-1])); (2%nat, 2%nat, k1);
     (0%nat, 2%nat, kadd (kmul (kmul (b_coef e) (ph e [1])) (g0 e [2] [(1%R, 1)])) (kmul (kmul (b_coef e) (ph e [-1])) (g0 e [0] [(1%R, 1)]))); (0%nat, 0%nat, k1);
     (1%nat, 2%nat, kadd (kmul (kmul (b_coef e) (ph e [1])) (g0 e [0] [(1%R, 1)])) (kmul (kmul (b_coef e) (ph e [-1])) (g0 e [-2] [(1%R, 1)]))); (1%nat, 1%nat, k1)].
Definition b_rhs {K : cring} (e : env R K) : coo K := mkCoo 3 1 [(2%nat, 0%nat, G0 e)].
Lemma b_system : forall t (K : cring) (e : env R K), exists s, prime_system id_ord (b_model t) = Ok s /\ scaffold e (full_basis s) s = Ok (b_mat e, b_rhs e) /\
  forall sp, sparse_solve e sp s = Ok (sp (b_mat e) (b_rhs e) 2%nat).
Proof. intros t K e. eexists. split; [vm_compute; reflexivity|]. split; [vm_compute; reflexivity|intros sp; vm_compute; reflexivity]. Qed.

(** The result for this model in closed form. *)
Section Bond.
Context {K : cring}.
Add Ring KRbond : (klaws K).
Definition b_self (e : env R K) : K :=
  kadd (kmul (ph e [1]) (kadd (kmul (ph e [1]) (g0 e [2] [(1%R, 1)])) (kmul (ph e [-1]) (g0 e [0] [(1%R, 1)]))))
    (kmul (ph e [-1]) (kadd (kmul (ph e [1]) (g0 e [0] [(1%R, 1)])) (kmul (ph e [-1]) (g0 e [-2] [(1%R, 1)])))).
Lemma b_value : forall t sp (e : env R K), ev e (1 * 1)%R = k1 -> regular_at e id_ord (b_model t) -> spsolve_ok sp ->
  exists g : K, greens e sp id_ord (b_model t) = Ok g /\ kmul g (ksub k1 (kmul (G0 e) (b_self e))) = G0 e.
Proof.
  intros t sp e Ev [s0 [X [v [E0 [ES0 NS]]]]] SO. destruct (b_system t K e) as [s [E [ES V]]]. assert (s0 = s) as -> by congruence.
  rewrite ES in ES0. injection ES0 as <- <-. exists (sp (b_mat e) (b_rhs e) 2%nat). split; [unfold greens; rewrite E; cbn [bind]; apply V|].
  destruct (scaffold_shape e (b_model t) 1 id_ord s _ _ (b_good t) id_perm E ES) as [S1 S2]. pose proof (SO _ _ S1 S2 NS) as SV.
  set (x := sp (b_mat e) (b_rhs e)) in *. unfold solves in SV.
  assert (L0 : (0 < c_rows (b_mat e))%nat) by (cbn; lia). assert (L1 : (1 < c_rows (b_mat e))%nat) by (cbn; lia). assert (L2 : (2 < c_rows (b_mat e))%nat) by (cbn; lia).
  pose proof (SV 0%nat L0) as X0. pose proof (SV 1%nat L1) as X1. pose proof (SV 2%nat L2) as X2. clear SV.
  unfold mv, entry, b_mat, b_rhs, b_coef in X0, X1, X2. cbn [c_ent filter map fst snd Nat.eqb andb] in X0, X1, X2. rewrite Ev in X0, X1, X2. unfold ksum in X0, X1, X2. cbn [fold_right] in X0, X1, X2.
  unfold b_self. set (a := ph e [1]) in *. set (b := ph e [-1]) in *. set (p := g0 e [2] [(1%R, 1)]) in *. set (q := g0 e [0] [(1%R, 1)]) in *. set (r := g0 e [-2] [(1%R, 1)]) in *.
  assert (Y0 : x 0%nat = kopp (kmul (kadd (kmul a p) (kmul b q)) (x 2%nat))).
  { transitivity (ksub (kadd (kmul (kadd (kmul (kmul (kmul k1 (kadd k1 k0)) a) p) (kmul (kmul (kmul k1 (kadd k1 k0)) b) q)) (x 2%nat)) (kadd (kmul k1 (x 0%nat)) k0)) (kmul (kadd (kmul a p) (kmul b q)) (x 2%nat))); [ring|]. rewrite X0. ring. }
  assert (Y1 : x 1%nat = kopp (kmul (kadd (kmul a q) (kmul b r)) (x 2%nat))).
  { transitivity (ksub (kadd (kmul (kadd (kmul (kmul (kmul k1 (kadd k1 k0)) a) q) (kmul (kmul (kmul k1 (kadd k1 k0)) b) r)) (x 2%nat)) (kadd (kmul k1 (x 1%nat)) k0)) (kmul (kadd (kmul a q) (kmul b r)) (x 2%nat))); [ring|]. rewrite X1. ring. }
  rewrite Y0, Y1 in X2. match type of X2 with _ = ?r => transitivity r; [|ring] end. rewrite <- X2. ring.
Qed.
End Bond.

(** Negative hopping at k = 0 against positive hopping at k = pi, with one phonon
    on the bonds: the lattice has the same Green's function at both points, the
    code has different ones, for every frequency, broadening and hopping. *)
Theorem C84_bond : forall t w eta sp, (0 < t)%R -> (0 < eta)%R -> spsolve_ok sp ->
  exists g g', greens (phys_env (b_model t) PI w eta) sp id_ord (b_model t) = Ok g /\
    greens (phys_env (b_model (- t)) 0 w eta) sp id_ord (b_model (- t)) = Ok g' /\ g' <> g.
Proof.
  intros t w eta sp Ht He SO. set (e := phys_env (b_model t) PI w eta). set (e' := phys_env (b_model (- t)) 0 w eta).
  assert (Reg : forall t k, regular_at (phys_env (b_model t) k w eta) id_ord (b_model t)).
  { intros t0 k. destruct (C50_lattice _ _ _ 1 (b_built t0) (b_good t0)) as [c L].
    exact (C52_regular _ 1 c id_ord k w eta (b_good t0) (C51_hermitian _ _ _ 1 k w eta (b_built t0) (b_good t0)) L (or_introl eq_refl) He id_perm). }
  assert (Ev : forall t k, ev (phys_env (b_model t) k w eta) (1 * 1)%R = Cplx.C1) by (intros; cbn [phys_env ev]; apply Ceq; unfold RtoC, Cplx.C1, Re, Im; cbn [fst snd]; lra).
  destruct (b_value t sp e (Ev t PI) (Reg t PI) SO) as [g [Eg Vg]]. destruct (b_value (- t)%R sp e' (Ev (- t)%R 0%R) (Reg (- t)%R 0%R) SO) as [g' [Eg' Vg']].
  exists g, g'. split; [exact Eg|]. split; [exact Eg'|]. intros Q. change C in (type of g). change C in (type of g'). subst g'.
  pose proof (neg_redressed (b_model t) 0 w eta) as D. change (with_hop (- h_hop (m_ham (b_model t)))%R (b_model t)) with (b_model (- t)) in D. fold e' in D.
  set (p := g0 e [2] [(1%R, 1)] : C). set (q := g0 e [0] [(1%R, 1)] : C).
  assert (Gp : g0 e [-2] [(1%R, 1)] = p).
  { unfold p. cbn [e phys_env g0]. change (half_of [-2]) with (- 2 / 2)%R. replace (-2 / 2)%R with (- half_of [2%Z])%R by (unfold half_of; cbn [hd]; field).
    apply Physics_proofs.g0_even. cbn. lra. }
  assert (Gsame : forall v, g0 e' v [(1%R, 1)] = g0 e v [(1%R, 1)]) by (intros v; exact (rd_g0 _ _ D v [(1%R, 1)])).
  assert (GG : G0 e' = G0 e).
  { cbn [e e' phys_env G0]. unfold G0_k_omega. cbn [b_model m_lattice m_ham h_hop]. rewrite !Rmult_1_r, cos_0, cos_PI. do 3 f_equal. ring. }
  assert (Pp : ph e [1] = Ci) by (cbn [e phys_env ph b_model m_lattice]; unfold half_of; cbn [hd]; replace (PI * (1 * (1 / 2)))%R with (PI / 2)%R by field; unfold Cexpi, Ci; rewrite cos_PI2, sin_PI2; reflexivity).
  assert (Pm : ph e [-1] = Copp Ci).
  { cbn [e phys_env ph b_model m_lattice]. unfold half_of. cbn [hd]. replace (PI * (1 * (-1 / 2)))%R with (- (PI / 2))%R by field. unfold Cexpi, Ci, Copp, Re, Im. cbn [fst snd]. rewrite cos_neg, sin_neg, cos_PI2, sin_PI2. f_equal. ring. }
  assert (P0 : forall d, ph e' [d] = Cplx.C1) by (intros d; cbn [e' phys_env ph]; rewrite Rmult_0_l; unfold Cexpi; rewrite cos_0, sin_0; reflexivity).
  assert (S : b_self e = Csub (Cadd q q) (Cadd p p)).
  { unfold b_self. rewrite Pp, Pm, Gp. fold p q. apply Ceq; cbn; unfold Cadd, Csub, Cmul, Copp, Ci, Re, Im; cbn [fst snd]; ring. }
  assert (S' : b_self e' = Cadd (Cadd q q) (Cadd p p)).
  { unfold b_self. rewrite !P0, !Gsame, Gp. fold p q. apply Ceq; cbn; unfold Cadd, Csub, Cmul, Cplx.C1, Re, Im; cbn [fst snd]; ring. }
  rewrite S in Vg. rewrite S', GG in Vg'. set (y := G0 e : C) in *.
  change (Cmul g (Csub Cplx.C1 (Cmul y (Csub (Cadd q q) (Cadd p p)))) = y) in Vg. change (Cmul g (Csub Cplx.C1 (Cmul y (Cadd (Cadd q q) (Cadd p p)))) = y) in Vg'.
  assert (Yn : y <> Cplx.C0).
  { unfold y. cbn [e phys_env G0]. unfold G0_k_omega. intros X. apply C1_neq_C0. set (d := Cadd (Cadd (RtoC w) (Cmul Ci (RtoC eta))) _) in X.
    assert (Dn : d <> Cplx.C0) by (intros Y; apply (f_equal Im) in Y; unfold d, Cadd, Cmul, Ci, RtoC, Cplx.C0, Im, Re in Y; cbn [fst snd] in Y; lra).
    transitivity (Cmul (Cdiv Cplx.C1 d) d); [field; exact Dn|]. rewrite X. ring. }
  assert (Gn : g <> Cplx.C0) by (intros X; apply Yn; rewrite <- Vg, X; ring).
  assert (Pn : p <> Cplx.C0) by (unfold p; cbn [e phys_env g0]; apply Physics_proofs.g0_nz; [unfold RtoC, Im; cbn [snd]; lra|cbn; lra]).
  assert (Z : Cmul (RtoC 4) (Cmul (Cmul g y) p) = Cplx.C0).
  { transitivity (Csub (Cmul g (Csub Cplx.C1 (Cmul y (Csub (Cadd q q) (Cadd p p))))) (Cmul g (Csub Cplx.C1 (Cmul y (Cadd (Cadd q q) (Cadd p p)))))).
    - replace (RtoC 4) with (Cadd (Cadd Cplx.C1 Cplx.C1) (Cadd Cplx.C1 Cplx.C1)) by (apply Ceq; unfold Cadd, RtoC, Cplx.C1, Re, Im; cbn [fst snd]; lra). ring.
    - rewrite Vg, Vg'. ring. }
  assert (F4 : RtoC 4 <> Cplx.C0) by (intros X; apply (f_equal Re) in X; unfold RtoC, Re in X; cbn [fst] in X; cbn in X; lra).
  apply Pn. transitivity (Cmul (Cinv (Cmul (RtoC 4) (Cmul g y))) (Cmul (RtoC 4) (Cmul (Cmul g y) p))); [field; auto|]. rewrite Z. ring.
Qed.
Print Assumptions C84_bond.

(** So the code does not have the symmetry of the lattice. *)
Theorem C84_momentum_refuted : exists m fs cs ae k w eta sp, built Rnum 1 m fs cs /\ good_model m ae /\ m_lattice m = 1%R /\ (0 < h_hop (m_ham m))%R /\ (0 < eta)%R /\ spsolve_ok sp /\
  let m' := with_hop (- h_hop (m_ham m))%R m in
  exists g g', greens (phys_env m (k + PI) w eta) sp id_ord m = Ok g /\ greens (phys_env m' k w eta) sp id_ord m' = Ok g' /\ g' <> g.
Proof.
  exists (b_model 1), [1%R], ["BondPeierls"%string], 1, 0%R, 0%R, 1%R, (gauss_sparse (F := CF) C_eq_dec).
  split; [apply b_built|]. split; [apply b_good|]. split; [reflexivity|]. split; [cbn; lra|]. split; [lra|]. split; [exact (gauss_spsolve_ok (F := CF) C_eq_dec)|]. intros m'.
  change m' with (b_model (- (1))). rewrite Rplus_0_l. apply C84_bond; [lra|lra|exact (gauss_spsolve_ok (F := CF) C_eq_dec)].
Qed.
Print Assumptions C84_momentum_refuted.

(** * Examples *)
Example C84_nonvacuous : built Rnum 1 (b_model 1) [1%R] ["BondPeierls"%string] /\ good_model (b_model 1) 1 /\ m_lattice (b_model 1) = 1%R /\ (0 < h_hop (m_ham (b_model 1)))%R /\
  moves (fun _ => true) (b_model 1) /\ on_lattice (b_model 1) 1 /\ site_sign (K := CR) turn /\ spsolve_ok (gauss_sparse (F := CF) C_eq_dec) /\
  redressed (phys_env (b_model 1) 0 0 1) (phys_env (b_model (- (1))) 0 0 1) /\ G0 (phys_env (b_model 1) 0 0 1) <> G0 (phys_env (b_model (- (1))) 0 0 1) /\
  sign_changed (K := CR) turn (phys_env (b_model 1) (0 + PI) 0 1) (right_env (b_model (- (1))) 0 0 1).
Proof.
  split; [apply b_built|]. split; [apply b_good|]. split; [reflexivity|]. split; [cbn; lra|]. split.
  { intros h H. cbn in H. repeat (destruct H as [<-|H]; [first [exists 1; split; reflexivity|exists (-1); split; reflexivity]|]). destruct H. } split.
  { intros h H. cbn in H. repeat (destruct H as [<-|H]; [split; cbn; first [exists 1; reflexivity|exists (-1); reflexivity|exists 0; reflexivity]|]). destruct H. }
  split; [exact turn_sign|]. split; [exact (gauss_spsolve_ok (F := CF) C_eq_dec)|]. split; [exact (neg_redressed (b_model 1) 0 0 1)|]. split.
  - cbn [phys_env G0]. unfold G0_k_omega. cbn [b_model m_lattice m_ham h_hop]. rewrite Rmult_0_l, cos_0. intros X. apply (f_equal Re) in X.
    unfold Cdiv, Cinv, Cadd, Cmul, Ci, RtoC, Cplx.C1, Cnorm2, Re, Im in X. cbn [fst snd] in X. field_simplify in X; lra.
  - exact (right_signed (b_model 1) 0 0 1 eq_refl ltac:(cbn; lra)).
Qed.
