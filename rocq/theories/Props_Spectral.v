(** Property theorems C50-C53: the Green's function as a function of momentum,
    its spectral function, and solvability for every broadening eta > 0. *)
From Coq Require Import String ZArith List Bool Lia Permutation Reals Lra.
From Verif Require Import Base NdArray Config Spec Model HModel Space Spec_space Term Equation System Spec_engine Props_Engine
  Ring Coef Spec_eom Solvers Spec_solve LinSolve Spec_model Spec_sym Cplx Physics Props_Physics Props_Model Props_Solve Props_Sym Spec_spectral.
From Verif Require HModel_proofs Physics_proofs Sysok_proofs Sparse_proofs Dense_proofs Prime_proofs Rows_proofs Spectral_proofs Pivot_proofs Period_proofs.
Import ListNotations.
Open Scope list_scope.
Open Scope Z_scope.

Lemma ev_phys : forall m k w eta x, ev (phys_env m k w eta) x = RtoC x. Proof. reflexivity. Qed.

(** * C50: momentum *)
(** [staggered e e']: [e'] is [e] at the next equivalent momentum. *)
Theorem C50_periodic : forall T (K : cring) (e e' : env T K) m ae c ord ord' sp, good_model m ae -> on_lattice m c -> staggered e e' ->
  (forall k l, Permutation (ord k l) l) -> (forall k l, Permutation (ord' k l) l) -> spsolve_ok sp ->
  regular_at e ord m -> regular_at e' ord' m /\ exists g, greens e sp ord m = Ok g /\ greens e' sp ord' m = Ok g.
Proof.
  intros T K e e' m ae c ord ord' sp G L S P P' SO [s [X [v [E [ES NS]]]]].
  destruct (primes e' m ae ord' G P') as [s' [X' [v' [E' ES']]]].
  destruct (Period_proofs.period_result m ae c ord ord' s s' e e' sp X v X' v' G L S P P' E E' ES ES' NS) as [NS' R].
  split; [exists s', X', v'; auto|].
  destruct (scaffold_shape e m ae ord s X v G P E ES) as [S1 S2]. destruct (scaffold_shape e' m ae ord' s' X' v' G P' E' ES') as [S1' S2'].
  assert (SV : solves X v (sp X v)) by (apply SO; assumption). assert (SV' : solves X' v' (sp X' v')) by (apply SO; assumption).
  destruct (greens_ok e m ae ord s sp X v G P E ES SV) as [g Eg]. exists g. unfold greens. rewrite E, E'. cbn [bind].
  rewrite (R SV SV'). auto.
Qed.
Print Assumptions C50_periodic.

Lemma Cexpi_PI : forall (d : Z) x, Cexpi (x + PI * IZR d) = if Z.even d then Cexpi x else Copp (Cexpi x).
Proof.
  assert (S : forall x, Cexpi (x + PI) = Copp (Cexpi x)).
  { intros x. apply Ceq; unfold Cexpi, Copp, Re, Im; cbn [fst snd]; [apply neg_cos|apply neg_sin]. }
  apply (Z.bi_induction (fun d => forall x, Cexpi (x + PI * IZR d) = if Z.even d then Cexpi x else Copp (Cexpi x))).
  - intros a b ->. reflexivity.
  - intros x. cbn [Z.even]. f_equal. lra.
  - intros d. rewrite Z.even_succ, <- Z.negb_even. rewrite succ_IZR.
    assert (E : forall x, Cexpi (x + PI * (IZR d + 1)) = Copp (Cexpi (x + PI * IZR d))) by (intros x; rewrite <- S; f_equal; ring).
    split; intros H x.
    + rewrite E, H. destruct (Z.even d); cbn [negb]; ring.
    + specialize (H x). rewrite E in H. destruct (Z.even d); cbn [negb] in H.
      * transitivity (Copp (Copp (Cexpi (x + PI * IZR d)))); [ring|]. rewrite H. ring.
      * transitivity (Copp (Copp (Cexpi (x + PI * IZR d)))); [ring|]. rewrite H. ring.
Qed.

Lemma phys_staggered : forall m k w eta, m_lattice m <> 0%R -> staggered (phys_env m k w eta) (phys_env m (k + 2 * PI / m_lattice m) w eta).
Proof.
  intros m k w eta Ha. constructor; try reflexivity.
  - intros d. cbn [phys_env ph]. unfold half_of. cbn [hd].
    replace ((k + 2 * PI / m_lattice m) * (m_lattice m * (IZR d / 2)))%R with (k * (m_lattice m * (IZR d / 2)) + PI * IZR d)%R by (field; exact Ha).
    apply Cexpi_PI.
  - cbn [phys_env G0]. unfold G0_k_omega. replace ((k + 2 * PI / m_lattice m) * m_lattice m)%R with (k * m_lattice m + 2 * PI)%R by (field; exact Ha).
    rewrite (cos_plus _ (2 * PI)), cos_2PI, sin_2PI. do 4 f_equal. ring.
Qed.

(** Momenta that differ by a multiple of 2 pi / a: the same result, for all
    models built from supported couplings on which the engine works. *)
Theorem C50_brillouin : forall m fs cs ae ord ord' sp k w eta (n : Z), built Rnum 1 m fs cs -> good_model m ae -> m_lattice m <> 0%R ->
  (forall k l, Permutation (ord k l) l) -> (forall k l, Permutation (ord' k l) l) -> spsolve_ok sp ->
  regular_at (phys_env m k w eta) ord m ->
  regular_at (phys_env m (k + 2 * PI * IZR n / m_lattice m) w eta) ord' m /\
  exists g, greens (phys_env m k w eta) sp ord m = Ok g /\ greens (phys_env m (k + 2 * PI * IZR n / m_lattice m) w eta) sp ord' m = Ok g.
Proof.
  intros m fs cs ae ord ord' sp k w eta n B G Ha P P' SO R.
  destruct (Spectral_proofs.built_lattice m fs cs ae B G (proj1 Rnum_ok)) as [c L].
  set (en := fun n : Z => phys_env m (k + 2 * PI * IZR n / m_lattice m) w eta).
  assert (ST : forall n, staggered (en n) (en (Z.succ n))).
  { intros n0. unfold en. rewrite succ_IZR.
    replace (k + 2 * PI * (IZR n0 + 1) / m_lattice m)%R with (k + 2 * PI * IZR n0 / m_lattice m + 2 * PI / m_lattice m)%R by (field; exact Ha).
    apply phys_staggered. exact Ha. }
  assert (E0 : en 0 = phys_env m k w eta) by (unfold en; f_equal; field; exact Ha).
  destruct (C50_periodic _ CR (phys_env m k w eta) _ m ae c ord ord sp G L (phys_staggered m k w eta Ha) P P SO R) as [_ [g [Eg _]]].
  assert (A : forall n, regular_at (en n) ord m /\ greens (en n) sp ord m = Ok g).
  { apply (Z.bi_induction (fun n => regular_at (en n) ord m /\ greens (en n) sp ord m = Ok g)).
    - intros a b ->. reflexivity.
    - rewrite E0. auto.
    - intros n0. split; intros [R0 E].
      + destruct (C50_periodic _ CR (en n0) (en (Z.succ n0)) m ae c ord ord sp G L (ST n0) P P SO R0) as [R1 [g' [E1 E2]]]. split; [exact R1|congruence].
      + destruct (C50_periodic _ CR (en (Z.succ n0)) (en n0) m ae c ord ord sp G L (Period_proofs.staggered_sym _ _ (ST n0)) P P SO R0) as [R1 [g' [E1 E2]]]. split; [exact R1|congruence]. }
  destruct (A (Z.pred n)) as [R0 E]. pose proof (ST (Z.pred n)) as S1. rewrite Z.succ_pred in S1.
  destruct (C50_periodic _ CR _ _ m ae c ord ord' sp G L S1 P P' SO R0) as [R1 [g' [E1 E2]]]. split; [exact R1|].
  exists g. split; [exact Eg|]. fold (en n). congruence.
Qed.
Print Assumptions C50_brillouin.

(** Real-space propagators are needed only between sites, not half-way between
    them: two environments that differ elsewhere give the same equations. *)
Theorem C50_separations : forall T (K : cring) (e e' : env T K) m ae c ord s, good_model m ae -> on_lattice m c -> same_on_sites e e' ->
  (forall k l, Permutation (ord k l) l) -> prime_system ord m = Ok s ->
  forall u q, proper u -> In q (all_eqs s) -> row e' u q = row e u q.
Proof. intros T K e e' m ae c ord s G L S P E u q Pu Hq. exact (Period_proofs.separations m ae c ord s e e' G L S P E u q Pu Hq). Qed.
Print Assumptions C50_separations.

(** All models built from supported couplings on which the engine works. *)
Theorem C50_lattice : forall m fs cs ae, built Rnum 1 m fs cs -> good_model m ae -> exists c, on_lattice m c.
Proof. intros m fs cs ae B G. exact (Spectral_proofs.built_lattice m fs cs ae B G (proj1 Rnum_ok)). Qed.
Print Assumptions C50_lattice.

(** * C51, C52: solvability and the spectral function *)
(** [hermitian e m]: every operator comes with its Hermitian conjugate. *)
Theorem C51_hermitian : forall m fs cs ae k w eta, built Rnum 1 m fs cs -> good_model m ae -> hermitian (phys_env m k w eta) m.
Proof. intros m fs cs ae k w eta B G. exact (Spectral_proofs.built_hermitian m fs cs ae _ (ev_phys m k w eta) B G (proj1 Rnum_ok)). Qed.
Print Assumptions C51_hermitian.

(** For eta > 0 the linear system is nonsingular at every momentum, frequency,
    hopping, coupling strength and cloud size. *)
Theorem C52_regular : forall m ae c ord k w eta, good_model m ae -> hermitian (phys_env m k w eta) m -> on_lattice m c ->
  exact_lattice m -> (0 < eta)%R -> (forall k l, Permutation (ord k l) l) -> regular_at (phys_env m k w eta) ord m.
Proof.
  intros m ae c ord k w eta G H L Hl He P. destruct (primes (phys_env m k w eta) m ae ord G P) as [s [X [v [E ES]]]]. exists s, X, v. split; [exact E|]. split; [exact ES|].
  destruct (Sysok_proofs.sys_ok_good m ae ord s G P E) as [O _]. rewrite (Sparse_proofs.scaffold_ok _ s O) in ES.
  assert (X = mkCoo (Sparse_proofs.NN s) (Sparse_proofs.NN s) (Sparse_proofs.triplets (phys_env m k w eta) s)) as -> by congruence.
  exact (Spectral_proofs.phys_regular m ae c ord s k w eta G P E Hl He H L).
Qed.
Print Assumptions C52_regular.

(** The spectral function - Im G / pi is positive and G is bounded by 1 / eta. *)
Theorem C51_spectral : forall m ae c ord sp k w eta, good_model m ae -> hermitian (phys_env m k w eta) m -> on_lattice m c ->
  exact_lattice m -> (0 < eta)%R -> (forall k l, Permutation (ord k l) l) -> spsolve_ok sp ->
  exists g : C, greens (phys_env m k w eta) sp ord m = Ok g /\
    (Im g < 0)%R /\ (Im g <= - eta * Cnorm2 g)%R /\ (Cabs g <= 1 / eta)%R.
Proof.
  intros m ae c ord sp k w eta G H L Hl He P SO. destruct (C52_regular m ae c ord k w eta G H L Hl He P) as [s [X [v [E [ES NS]]]]].
  destruct (Sysok_proofs.sys_ok_good m ae ord s G P E) as [O _]. destruct (scaffold_shape _ m ae ord s X v G P E ES) as [S1 S2].
  destruct (Sparse_proofs.sparse_result (phys_env m k w eta) s O sp X v ES (SO X v S1 S2 NS)) as [g [Eg [[u [Pu [Su Gu]]] _]]].
  pose proof (Sparse_proofs.g_value_unique s O u g (u (Prime_proofs.vac m, [0])) Gu (Rows_proofs.g_value_vac m ae G ord P s E u)) as EQ.
  destruct (Spectral_proofs.phys_bound m ae c ord s k w eta G P E Hl He H L u Pu Su) as [B1 B2]. rewrite <- EQ in B1, B2.
  exists g. split; [unfold greens; rewrite E; exact Eg|]. split; [|split; [exact B1|apply Spectral_proofs.bound_abs; assumption]].
  pose proof (Physics_proofs.Cnorm2_pos g B2). nra.
Qed.
Print Assumptions C51_spectral.

(** The same from the user's side: any sequence of calls with distinct
    frequencies, and no BondPeierls next to another coupling. *)
Theorem C51_histories : forall m fs cs ord sp k w eta, built Rnum 1 m fs cs -> cs <> [] -> distinct Rnum fs ->
  (forall k, m_mps m = Some k -> 1 <= k) -> (forall k, m_aext m = Some k -> 1 <= k) ->
  (forall c, In c cs -> c = "BondPeierls"%string) \/ (forall c, In c cs -> c <> "BondPeierls"%string) ->
  exact_lattice m -> (0 < eta)%R -> (forall k l, Permutation (ord k l) l) -> spsolve_ok sp ->
  exists g : C, greens (phys_env m k w eta) sp ord m = Ok g /\
    (Im g < 0)%R /\ (Im g <= - eta * Cnorm2 g)%R /\ (Cabs g <= 1 / eta)%R.
Proof.
  intros m fs cs ord sp k w eta B Hc D Hm Ha Hb Hl He P SO.
  destruct (HModel_proofs.built_good Rnum (proj1 Rnum_ok) m fs cs B Hc D Hm Ha Hb) as [ae G]. destruct (C50_lattice m fs cs ae B G) as [c L].
  exact (C51_spectral m ae c ord sp k w eta G (C51_hermitian m fs cs ae k w eta B G) L Hl He P SO).
Qed.
Print Assumptions C51_histories.

(** Hence the symmetries of C47 and C50 hold without further conditions. *)
Theorem C52_symmetric : forall m fs cs ae ord ord' sp k w eta (n : Z), built Rnum 1 m fs cs -> good_model m ae ->
  exact_lattice m -> m_lattice m <> 0%R -> (0 < eta)%R -> (forall k l, Permutation (ord k l) l) -> (forall k l, Permutation (ord' k l) l) -> spsolve_ok sp ->
  exists g, greens (phys_env m k w eta) sp ord m = Ok g /\ greens (phys_env m (- k) w eta) sp ord' m = Ok g /\
    greens (phys_env m (k + 2 * PI * IZR n / m_lattice m) w eta) sp ord' m = Ok g.
Proof.
  intros m fs cs ae ord ord' sp k w eta n B G Hl Hz He P P' SO. destruct (C50_lattice m fs cs ae B G) as [c L].
  pose proof (C52_regular m ae c ord k w eta G (C51_hermitian m fs cs ae k w eta B G) L Hl He P) as R.
  destruct (C47_physical m fs cs ae ord ord' sp k w eta B G P P' SO R) as [_ [g [E1 E2]]].
  destruct (C50_brillouin m fs cs ae ord ord' sp k w eta n B G Hz P P' SO R) as [_ [g' [E1' E3]]].
  exists g. split; [exact E1|]. split; [exact E2|]. congruence.
Qed.
Print Assumptions C52_symmetric.

(** * C53: DenseSolver never meets a singular matrix *)
Theorem C53_pivots : forall m ae c ord s ls k w eta, good_model m ae -> hermitian (phys_env m k w eta) m -> on_lattice m c ->
  exact_lattice m -> (0 < eta)%R -> (forall k l, Permutation (ord k l) l) -> prime_system ord m = Ok s -> lsolve_ok (F := CF) ls ->
  forall j X, 1 <= j < total_bosons s -> pivot (F := CF) (phys_env m k w eta) ls s j = Ok X -> dnonsingular X.
Proof.
  intros m ae c ord s ls k w eta G H L Hl He P E LO j X Hj EX.
  exact (Pivot_proofs.pivots_regular m ae G (phys_env m k w eta) eta c He H L (Spectral_proofs.phys_ph m k w eta) (Spectral_proofs.phys_g0 m k w eta Hl He) ord P s E ls LO j X Hj EX).
Qed.
Print Assumptions C53_pivots.

Theorem C53_dense : forall m ae c ord s ls sp k w eta, good_model m ae -> hermitian (phys_env m k w eta) m -> on_lattice m c ->
  exact_lattice m -> (0 < eta)%R -> (forall k l, Permutation (ord k l) l) -> prime_system ord m = Ok s -> lsolve_ok (F := CF) ls -> spsolve_ok sp ->
  exists D g : C, denominator (F := CF) (phys_env m k w eta) ls s = Ok D /\ D <> Cplx.C0 /\
    dense_solve (F := CF) (phys_env m k w eta) ls s = Ok g /\ greens (phys_env m k w eta) sp ord m = Ok g /\ (Im g < 0)%R.
Proof.
  intros m ae c ord s ls sp k w eta G H L Hl He P E LO SO.
  pose proof (C53_pivots m ae c ord s ls k w eta G H L Hl He P E LO) as PN.
  destruct (Sysok_proofs.sys_ok_good m ae ord s G P E) as [O _].
  destruct (C52_regular m ae c ord k w eta G H L Hl He P) as [s' [X [v [E' [ES NS]]]]]. assert (s' = s) by congruence. subst s'.
  destruct (scaffold_shape _ m ae ord s X v G P E ES) as [S1 S2].
  destruct (C23_dense_is_sparse _ CF (phys_env m k w eta) m ae ord s ls sp X v G P E (Dense_proofs.pivots_ok (F := CF) (phys_env m k w eta) s O ls LO PN) ES NS (SO X v S1 S2 NS)) as [D [ED [ND EQ]]].
  destruct (C51_spectral m ae c ord sp k w eta G H L Hl He P SO) as [g [Eg [N _]]]. exists D, g. split; [exact ED|]. split; [exact ND|].
  unfold greens in *. rewrite E in *. cbn [bind] in *. split; [rewrite <- Eg; exact EQ|]. auto.
Qed.
Print Assumptions C53_dense.

Ltac inC := match goal with |- ?a = ?b => change (@eq C a b) end.

(** * Examples *)
(** Edwards' model with hopping 1 / 2, coupling 2 and lattice constant [a]. *)
Definition x_args (n : Z) : add_args R := mkAdd "EdwardsFermionBoson" 1%R 1 n None None (Some 2%R) None None.
Definition x_term (p q : Z) (s : dagger) : hterm R := mkHterm "EdwardsFermionBoson" (iv p) (iv q) s (2 * 1)%R 0 1%R.
Definition x_models (a : R) (n : Z) : model R :=
  mkModel a 0%R (mkHam [ x_term 1 1 Plus; x_term (-1) (-1) Plus; x_term 1 0 Minus; x_term (-1) 0 Minus ] [1%R] 1 (1 / 2)%R) None [1] [n] None 1.
Definition x_model (a : R) : model R := x_models a 1.

Lemma x_add : forall a n, 1 <= n -> model_add Rnum (from_parameters (1 / 2)%R a 0%R None 1) (x_args n) = Ok ([LDebug], x_models a n).
Proof.
  intros a n Hn. unfold model_add, x_args. cbn [from_parameters m_temp Rnum n_ltb n_0]. destruct (Rlt_dec 0 0) as [H|H]; [lra|]. cbn [andb a_N a_M a_Mtfd a_Ntfd a_cs a_dcs a_override is_none lt1 orb xorb negb].
  replace (n <? 1) with false by (symmetry; apply Z.ltb_ge; exact Hn). change (1 <? 1) with false. cbn [orb]. rewrite andb_false_r. unfold tfd_prefactors. cbn [Rnum n_ltb n_0]. destruct (Rlt_dec 0 0) as [H'|_]; [lra|]. reflexivity.
Qed.
Lemma x_builts : forall a n, 1 <= n -> built Rnum 1 (x_models a n) [1%R] ["EdwardsFermionBoson"%string].
Proof.
  intros a n Hn. pose proof (built_add Rnum 1 _ [] [] _ _ _ (built_start Rnum 1 (1 / 2)%R a 0%R None) (x_add a n Hn)) as B. cbn [app from_parameters m_temp] in B.
  cbn [Rnum n_ltb n_0] in B. destruct (Rlt_dec 0 0) as [H|H]; [lra|]. apply B; [|reflexivity]. intros [X|[]]. discriminate X.
Qed.
Lemma x_built : forall a, built Rnum 1 (x_model a) [1%R] ["EdwardsFermionBoson"%string]. Proof. intros a. apply x_builts. lia. Qed.
Lemma x_goods : forall a n, 1 <= n -> good_model (x_models a n) 1.
Proof.
  intros a n Hn. constructor; try (simpl; lia).
  - repeat split; simpl; lia.
  - reflexivity.
  - discriminate.
  - intros [|t] H; simpl in *; lia.
  - intros [|t] H; simpl in *; lia.
  - intros h H. simpl in H. repeat (destruct H as [<-|H]; [simpl; lia|]). destruct H.
  - intros h H. simpl in H. repeat (destruct H as [<-|H]; [reflexivity|]). destruct H.
  - intros h H. simpl in H. repeat (destruct H as [<-|H]; [reflexivity|]). destruct H.
  - intros [|t] H; [|simpl in H; lia]. eexists. split; [left; reflexivity|]. split; reflexivity.
  - eexists. split; [right; right; left; reflexivity|reflexivity].
  - intros h h' _ H. simpl in H. repeat (destruct H as [<-|H]; [discriminate|]). destruct H.
Qed.

Lemma x_good : forall a, good_model (x_model a) 1. Proof. intros a. apply x_goods. lia. Qed.

Definition x_coef {K : cring} (e : env R K) : K := kmul (ev e (2 * 1)%R) (kadd k1 k0).
Definition x_mat {K : cring} (e : env R K) : coo K :=
  mkCoo 3 3 [(2%nat, 0%nat, kmul (kmul (x_coef e) (G0 e)) (ph e [0])); (2%nat, 1%nat, kmul (kmul (x_coef e) (G0 e)) (ph e [0])); (2%nat, 2%nat, k1);
     (0%nat, 2%nat, kadd (kmul (kmul (x_coef e) (ph e [0])) (g0 e [4] [(1%R, 1)])) (kmul (kmul (x_coef e) (ph e [0])) (g0 e [0] [(1%R, 1)]))); (0%nat, 0%nat, k1);
     (1%nat, 2%nat, kadd (kmul (kmul (x_coef e) (ph e [0])) (g0 e [0] [(1%R, 1)])) (kmul (kmul (x_coef e) (ph e [0])) (g0 e [-4] [(1%R, 1)]))); (1%nat, 1%nat, k1)].
Definition x_rhs {K : cring} (e : env R K) : coo K := mkCoo 3 1 [(2%nat, 0%nat, G0 e)].
Lemma x_system : forall a (K : cring) (e : env R K), exists s, prime_system id_ord (x_model a) = Ok s /\ scaffold e (full_basis s) s = Ok (x_mat e, x_rhs e) /\
  forall sp, sparse_solve e sp s = Ok (sp (x_mat e) (x_rhs e) 2%nat).
Proof. intros a K e. eexists. split; [vm_compute; reflexivity|]. split; [vm_compute; reflexivity|intros sp; vm_compute; reflexivity]. Qed.

Example C51_nonvacuous : built Rnum 1 (x_model 1) [1%R] ["EdwardsFermionBoson"%string] /\ good_model (x_model 1) 1 /\ m_lattice (x_model 1) = 1%R /\
  h_hop (m_ham (x_model 1)) <> 0%R /\ hermitian (phys_env (x_model 1) 3 0 1) (x_model 1) /\ on_lattice (x_model 1) 0.
Proof.
  split; [apply x_built|]. split; [apply x_good|]. split; [reflexivity|]. split; [cbn; lra|].
  split; [exact (C51_hermitian _ _ _ 1 3 0 1 (x_built 1) (x_good 1))|].
  intros h H. cbn in H. repeat (destruct H as [<-|H]; [split; cbn; [try (exists 1; reflexivity); exists (-1); reflexivity|]; first [exists 1; reflexivity|exists (-1); reflexivity|exists 0; reflexivity]|]). destruct H.
Qed.

Example C50_nonvacuous : forall k w eta, (0 < eta)%R -> regular_at (phys_env (x_model 1) k w eta) id_ord (x_model 1) /\
  staggered (phys_env (x_model 1) k w eta) (phys_env (x_model 1) (k + 2 * PI) w eta).
Proof.
  intros k w eta He. destruct C51_nonvacuous as [B [G [Hl [_ [_ L]]]]]. split; [exact (C52_regular _ 1 0 id_ord k w eta G (C51_hermitian _ _ _ 1 k w eta B G) L (or_introl Hl) He id_perm)|].
  replace (k + 2 * PI)%R with (k + 2 * PI / m_lattice (x_model 1))%R by (cbn; field). apply phys_staggered. cbn. lra.
Qed.

Definition C_eq_dec (x y : C) : {x = y} + {x <> y}.
Proof. destruct x as [a b], y as [c d]. destruct (Req_EM_T a c) as [-> |N]; [destruct (Req_EM_T b d) as [-> |N]; [left; reflexivity|]|]; right; congruence. Defined.

(** There are solvers as assumed, and systems with a pivot. *)
Example C53_nonvacuous : (exists s, good_model (x_models 1 2) 1 /\ built Rnum 1 (x_models 1 2) [1%R] ["EdwardsFermionBoson"%string] /\ prime_system id_ord (x_models 1 2) = Ok s /\ total_bosons s = 2) /\
  lsolve_ok (F := CF) (gauss_dense (F := CF) C_eq_dec) /\ spsolve_ok (gauss_sparse (F := CF) C_eq_dec).
Proof.
  split; [eexists; split; [apply x_goods; lia|]; split; [apply x_builts; lia|]; split; vm_compute; reflexivity|]. split; [apply gauss_lsolve_ok|apply gauss_spsolve_ok].
Qed.

(** * The lattice constant *)
Lemma Csqrt_of : forall s : C, (0 < Re s)%R -> Csqrt (Cmul s s) = s.
Proof.
  intros [p q] H. unfold Re in H. cbn in H. set (z := Cmul (p, q) (p, q)).
  assert (A : Cabs z = (p * p + q * q)%R).
  { unfold Cabs. replace (Cnorm2 z) with ((p * p + q * q) * (p * p + q * q))%R by (unfold z, Cnorm2, Cmul, Re, Im; cbn; ring). apply sqrt_square. nra. }
  assert (R1 : Re z = (p * p - q * q)%R) by reflexivity. assert (I1 : Im z = (2 * p * q)%R) by (unfold z, Cmul, Re, Im; cbn; ring).
  unfold Csqrt. rewrite A, R1, I1. replace ((p * p + q * q + (p * p - q * q)) / 2)%R with (p * p)%R by field. replace ((p * p + q * q - (p * p - q * q)) / 2)%R with (q * q)%R by field.
  rewrite sqrt_square by lra. f_equal. destruct (Rle_dec 0 (2 * p * q)) as [L|L].
  - rewrite sqrt_square by nra. ring.
  - replace (q * q)%R with ((- q) * (- q))%R by ring. rewrite sqrt_square by nra. ring.
Qed.

Lemma Cpow_half : forall z : C, z <> Cplx.C0 -> (0 <= Im z)%R -> Cpow z (1 / 2) = Csqrt z.
Proof.
  intros z H I. pose proof (Physics_proofs.Cabs_pos z H) as P. pose proof (Physics_proofs.Cabs_re z) as B.
  unfold Cpow, Csqrt, Carg. destruct (Rle_dec 0 (Im z)) as [_|N]; [|contradiction]. replace (1 / 2)%R with (/ 2)%R by field. rewrite Rpower_sqrt by exact P.
  set (c := (Re z / Cabs z)%R). assert (Ec : (c * Cabs z = Re z)%R) by (unfold c; field; lra).
  assert (D : (-1 <= c <= 1)%R) by (split; apply (Rmult_le_reg_r (Cabs z)); try exact P; lra).
  set (th := acos c). assert (T : (0 <= th <= PI)%R) by apply acos_bound. assert (CT : cos th = c) by (apply cos_acos; exact D).
  assert (Ch : (0 <= cos (/ 2 * th))%R) by (apply cos_ge_0; lra). assert (Sh : (0 <= sin (/ 2 * th))%R) by (apply sin_ge_0; lra).
  pose proof (cos_2a_cos (/ 2 * th)) as E1. pose proof (cos_2a_sin (/ 2 * th)) as E2. replace (2 * (/ 2 * th))%R with th in E1, E2 by field. rewrite CT in E1, E2.
  rewrite Rmult_1_l. f_equal.
  - replace (cos (/ 2 * th)) with (sqrt (cos (/ 2 * th) * cos (/ 2 * th))) by (apply sqrt_square; exact Ch). rewrite <- sqrt_mult by (try apply Rle_0_sqr; lra). f_equal. rewrite <- Ec. nra.
  - replace (sin (/ 2 * th)) with (sqrt (sin (/ 2 * th) * sin (/ 2 * th))) by (apply sqrt_square; exact Sh). rewrite <- sqrt_mult by (try apply Rle_0_sqr; lra). f_equal. rewrite <- Ec. nra.
Qed.

(** A point where the propagator is rational: b = (-99 + 20 i) / 400 is its base. *)
Definition y_x : C := ((99 / 800 + 19800 / 10201)%R, (- (1 / 40) + 4000 / 10201)%R).
Definition y_s : C := ((1 / 40 + 4000 / 10201)%R, (99 / 800 - 19800 / 10201)%R).
Definition y_b : C := ((- 99 / 400)%R, (1 / 20)%R).
Definition y_beta : C := ((1 / 20)%R, (1 / 2)%R).

Lemma y_root : Csqrt (Csub Cplx.C1 (Cmul y_x y_x)) = y_s.
Proof.
  replace (Csub Cplx.C1 (Cmul y_x y_x)) with (Cmul y_s y_s) by (apply Ceq; unfold y_s, y_x, Csub, Cmul, Cplx.C1, Re, Im; cbn [fst snd]; field).
  apply Csqrt_of. unfold y_s, Re. cbn [fst]. lra.
Qed.
Lemma y_base : Physics_proofs.base y_x = y_b.
Proof. unfold Physics_proofs.base. rewrite y_root. apply Ceq; unfold y_s, y_x, y_b, Cadd, Copp, Cmul, Ci, Re, Im; cbn [fst snd]; field. Qed.
Lemma y_half : Cpow y_b (1 / 2) = y_beta.
Proof.
  rewrite Cpow_half; [|intros H; apply (f_equal Re) in H; unfold y_b, Cplx.C0, Re in H; cbn [fst] in H; lra|unfold y_b, Im; cbn [snd]; lra].
  replace y_b with (Cmul y_beta y_beta) by (apply Ceq; unfold y_b, y_beta, Cmul, Re, Im; cbn [fst snd]; field). apply Csqrt_of. unfold y_beta, Re. cbn [fst]. lra.
Qed.

Definition y_env : env R CR := phys_env (x_model (1 / 4)) 0 (Re y_x + 1) (Im y_x).
Definition y_p : C := Cdiv (Copp Ci) y_s.

Lemma y_g0 : forall d, g0 y_env [d] [(1%R, 1)] = Cmul (Cpow y_b (Rabs (IZR d / 2 * (1 / 4)))) y_p.
Proof.
  intros d. unfold y_env. cbn [phys_env g0]. unfold half_of, shift_of. cbn [x_model x_models m_lattice m_ham h_hop hd fold_right fst snd].
  rewrite Physics_proofs.g0_form by lra.
  assert (B : (2 * Rabs (1 / 2) = 1)%R) by (rewrite Rabs_right; lra). rewrite B.
  match goal with |- context [Physics_proofs.base ?z] => assert (E : z = y_x) end.
  { apply Ceq; unfold y_x, Cdiv, Cinv, Cmul, Cadd, RtoC, Ci, Cnorm2, Re, Im; cbn [fst snd]; field. }
  rewrite E, y_root, y_base. unfold y_p. f_equal. f_equal. apply Ceq; unfold Cmul, RtoC, Re, Im; cbn [fst snd]; ring.
Qed.

Lemma y_sites : g0 y_env [4] [(1%R, 1)] = Cmul y_beta y_p /\ g0 y_env [-4] [(1%R, 1)] = Cmul y_beta y_p /\ g0 y_env [0] [(1%R, 1)] = y_p.
Proof.
  rewrite !y_g0. replace (Rabs (4 / 2 * (1 / 4))) with (1 / 2)%R by (rewrite Rabs_right; lra). replace (Rabs (-4 / 2 * (1 / 4))) with (1 / 2)%R by (rewrite Rabs_left; lra).
  replace (Rabs (0 / 2 * (1 / 4))) with (INR 0) by (replace (0 / 2 * (1 / 4))%R with 0%R by field; rewrite Rabs_R0; reflexivity).
  rewrite y_half. split; [reflexivity|]. split; [reflexivity|]. rewrite Physics_proofs.Cpow_nat by (intros H; apply (f_equal Re) in H; unfold y_b, Cplx.C0, Re in H; cbn [fst] in H; lra).
  cbn [Physics_proofs.Cpown]. inC; ring.
Qed.

(** The self-energy at this point. *)
Definition y_q : C := Cadd (Cmul y_beta y_p) y_p.
Definition y_D : C := Csub (Re y_x + 1 + 2 * (1 / 2) * cos (0 * (1 / 4)), Im y_x)%R (Cmul (RtoC 8) y_q).

Lemma y_neg : (Im y_D < 0)%R.
Proof.
  unfold y_D, y_q, y_p, y_s, y_x, y_beta, Cdiv, Cinv, Csub, Cadd, Cmul, Copp, Ci, RtoC, Cnorm2, Re, Im. cbn [fst snd].
  match goal with |- (?a < 0)%R => field_simplify a end; lra.
Qed.
Lemma y_nz : y_D <> Cplx.C0. Proof. intros H. pose proof y_neg as N. rewrite H in N. unfold Cplx.C0, Im in N. cbn in N. lra. Qed.

Lemma y_rows : forall x : nat -> C, let A := G0 y_env in
  mv (c_ent (x_mat y_env)) x 2%nat = Cadd (x 2%nat) (Cmul (Cmul (RtoC 2) A) (Cadd (x 0%nat) (x 1%nat))) /\
  mv (c_ent (x_mat y_env)) x 0%nat = Cadd (x 0%nat) (Cmul (Cmul (RtoC 2) y_q) (x 2%nat)) /\
  mv (c_ent (x_mat y_env)) x 1%nat = Cadd (x 1%nat) (Cmul (Cmul (RtoC 2) y_q) (x 2%nat)).
Proof.
  intros x A. destruct y_sites as [S1 [S2 S3]].
  assert (V2 : ph y_env [0] = Cplx.C1) by apply (op_one _ _ (C47_opposite (x_model (1 / 4)) 0 (Re y_x + 1) (Im y_x))).
  assert (V3 : x_coef y_env = RtoC 2) by (unfold x_coef; apply Ceq; unfold y_env, Re, Im; cbn; ring).
  unfold x_mat. rewrite S1, S2, S3, V2, V3. unfold y_q. fold A. generalize y_p as p. intros p. generalize (RtoC 2) as c. intros c. clearbody A.
  unfold mv. cbn. change (car CR) with C in *. repeat split; inC; ring.
Qed.

(** With a = 1 / 4 the spectral function is negative somewhere: the real-space
    propagator of physics.py raises its base to the power |delta| a, where
    [delta] already counts sites. *)
Theorem C51_lattice_refuted : exists m fs cs ae k w eta, built Rnum 1 m fs cs /\ good_model m ae /\ (0 < m_lattice m)%R /\ (0 < eta)%R /\
  regular_at (phys_env m k w eta) id_ord m /\
  forall sp, spsolve_ok sp -> exists g : C, greens (phys_env m k w eta) sp id_ord m = Ok g /\ (0 < Im g)%R.
Proof.
  exists (x_model (1 / 4)), [1%R], ["EdwardsFermionBoson"%string], 1, 0%R, (Re y_x + 1)%R, (Im y_x).
  split; [apply x_built|]. split; [apply x_good|]. split; [cbn; lra|]. assert (He : (0 < Im y_x)%R) by (unfold y_x, Im; cbn [snd]; lra). split; [exact He|]. fold y_env.
  assert (EA : Cmul (G0 y_env) (Cadd y_D (Cmul (RtoC 8) y_q)) = Cplx.C1).
  { rewrite <- (Spectral_proofs.phys_G0 (x_model (1 / 4)) 0 (Re y_x + 1) (Im y_x) He). unfold y_env. f_equal. unfold y_D. cbn [x_model x_models m_ham h_hop m_lattice]. ring. }
  assert (K8 : forall a b : C, Cmul (Cmul (RtoC 2) a) (Cmul (RtoC 2) b) = Cmul (RtoC 4) (Cmul a b)) by (intros a b; apply Ceq; unfold Cmul, RtoC, Re, Im; cbn [fst snd]; ring).
  assert (K4 : forall a : C, Cadd (Cmul (RtoC 4) a) (Cmul (RtoC 4) a) = Cmul (RtoC 8) a) by (intros a; apply Ceq; unfold Cadd, Cmul, RtoC, Re, Im; cbn [fst snd]; ring).
  destruct (x_system (1 / 4) CR y_env) as [s [E [ES SP]]].
  assert (Main : forall x : nat -> C, mv (c_ent (x_mat y_env)) x 0%nat = Cplx.C0 -> mv (c_ent (x_mat y_env)) x 1%nat = Cplx.C0 ->
     forall r, mv (c_ent (x_mat y_env)) x 2%nat = Cmul (G0 y_env) r -> Cmul y_D (x 2%nat) = r).
  { intros x H0 H1 r H2. destruct (y_rows x) as [R2 [R0 R1]]. rewrite R0 in H0. rewrite R1 in H1. rewrite R2 in H2. set (A := G0 y_env) in *. change (car CR) with C in *.
    set (f := Cmul (Cmul (RtoC 2) y_q) (x 2%nat)) in *.
    assert (X0 : x 0%nat = Copp f) by (transitivity (Csub (Cadd (x 0%nat) f) f); [ring|rewrite H0; ring]).
    assert (X1 : x 1%nat = Copp f) by (transitivity (Csub (Cadd (x 1%nat) f) f); [ring|rewrite H1; ring]).
    rewrite X0, X1 in H2. clear X0 X1 H0 H1 R0 R1 R2.
    assert (F : Cmul (Cmul (RtoC 2) A) (Cadd (Copp f) (Copp f)) = Copp (Cmul A (Cmul (Cmul (RtoC 8) y_q) (x 2%nat)))).
    { rewrite <- (K4 y_q). pose proof (K8 Cplx.C1 y_q) as K2. replace (Cmul Cplx.C1 y_q) with y_q in K2 by ring. rewrite <- K2. unfold f. ring. }
    rewrite F in H2. set (z := Cadd y_D (Cmul (RtoC 8) y_q)) in *.
    transitivity (Cmul (Cmul A z) r); [|rewrite EA; ring]. transitivity (Cmul z (Cmul A r)); [|ring]. rewrite <- H2.
    transitivity (Csub (Cmul z (x 2%nat)) (Cmul (Cmul A z) (Cmul (Cmul (RtoC 8) y_q) (x 2%nat)))); [rewrite EA; unfold z; ring|ring]. }
  assert (NS : nonsingular (x_mat y_env)).
  { intros x Hx. pose proof (Main x (Hx 0%nat ltac:(cbn; lia)) (Hx 1%nat ltac:(cbn; lia)) Cplx.C0) as M. rewrite (Hx 2%nat ltac:(cbn; lia)) in M.
    assert (Z2 : x 2%nat = Cplx.C0).
    { specialize (M ltac:(change (k0 (c := CR)) with Cplx.C0; inC; ring)). exact (Physics_proofs.C_integral _ _ y_nz M). }
    destruct (y_rows x) as [_ [R0 R1]]. rewrite (Hx 0%nat ltac:(cbn; lia)), Z2 in R0. rewrite (Hx 1%nat ltac:(cbn; lia)), Z2 in R1.
    intros i Hi. cbn in Hi. change (car CR) with C in *. change (k0 (c := CR)) with Cplx.C0 in *.
    destruct i as [|[|[|i]]]; [rewrite R0; inC; ring|rewrite R1; inC; ring|exact Z2|lia]. }
  split; [exists s, (x_mat y_env), (x_rhs y_env); auto|].
  intros sp SO. destruct (scaffold_shape y_env (x_model (1 / 4)) 1 id_ord s _ _ (x_good _) id_perm E ES) as [S1 S2].
  pose proof (SO _ _ S1 S2 NS) as SV. exists (sp (x_mat y_env) (x_rhs y_env) 2%nat). split; [unfold greens; rewrite E; cbn [bind]; apply SP|].
  set (g := sp (x_mat y_env) (x_rhs y_env)) in *.
  assert (V : Cmul y_D (g 2%nat) = Cplx.C1).
  { apply Main; [rewrite (SV 0%nat ltac:(cbn; lia)); reflexivity|rewrite (SV 1%nat ltac:(cbn; lia)); reflexivity|rewrite (SV 2%nat ltac:(cbn; lia))]. unfold x_rhs. cbn. inC. ring. }
  pose proof y_neg as N. destruct (g 2%nat) as [a b]. destruct y_D as [c d]. unfold Cmul, Cplx.C1, Re, Im in *. cbn [fst snd] in *.
  assert (V1 : (c * a - d * b = 1)%R) by congruence. assert (V2 : (c * b + d * a = 0)%R) by congruence.
  assert (0 < - d * ((c * c + d * d) * b))%R. 
  { replace ((c * c + d * d) * b)%R with (c * (c * b) + d * (d * b))%R by ring. replace (c * b)%R with (- (d * a))%R by lra. replace (d * b)%R with (c * a - 1)%R by lra.
    replace (c * - (d * a) + d * (c * a - 1))%R with (- d)%R by ring. nra. }
  apply Rnot_le_lt. intros L. assert (0 <= (- d * (c * c + d * d)) * (- b))%R by (apply Rmult_le_pos; nra). nra.
Qed.
Print Assumptions C51_lattice_refuted.
