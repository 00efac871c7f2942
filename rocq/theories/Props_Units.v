(** Property theorem C85: the units of energy and length. *)
From Coq Require Import String ZArith List Bool Lia Permutation Reals Lra.
From Verif Require Import Base NdArray Config Spec Model HModel Space Spec_space Term Equation System Spec_engine Props_Engine
  Ring Coef Spec_eom Solvers Spec_solve LinSolve Spec_model Spec_sym Cplx Physics Props_Physics Props_Model Props_Solve Props_Sym Spec_spectral Props_Spectral Spec_self Props_Self Spec_neghop Props_Neghop Spec_units.
From Verif Require Units_proofs Neghop_proofs HModel_proofs Physics_proofs Sysok_proofs Sparse_proofs.
Import ListNotations.
Open Scope list_scope.
Open Scope Z_scope.

(** For any numbers: if energies are multiplied by [c] and propagators divided by
    it, the Green's function is divided by it. *)
Theorem C85_ratios : forall T (K : cring) (f : T -> T) (c : K) (e e' : env T K) m ae ord ord' sp sp', good_model m ae -> units_changed f c e e' ->
  (forall k l, Permutation (ord k l) l) -> (forall k l, Permutation (ord' k l) l) -> spsolve_ok sp -> spsolve_ok sp' -> regular_at e ord m ->
  regular_at e' ord' (in_units f m) /\ exists g g', greens e sp ord m = Ok g /\ greens e' sp' ord' (in_units f m) = Ok g' /\ kmul c g' = g.
Proof.
  intros T K f c e e' m ae ord ord' sp sp' G U P P' SO SO' [s [X [v [E [ES NS]]]]]. pose proof (Units_proofs.units_good m ae f G) as G'.
  destruct (primes e' (in_units f m) ae ord' G' P') as [s' [X' [v' [E' ES']]]].
  destruct (Units_proofs.units_result m ae f c ord ord' s s' e e' sp sp' X v X' v' G U P P' E E' ES ES' NS) as [NS' R].
  split; [exists s', X', v'; auto|].
  destruct (scaffold_shape e m ae ord s X v G P E ES) as [S1 S2]. destruct (scaffold_shape e' (in_units f m) ae ord' s' X' v' G' P' E' ES') as [S1' S2'].
  destruct (R (SO X v S1 S2 NS) (SO' X' v' S1' S2' NS')) as [g [g' [Eg [Eg' Q]]]]. exists g, g'. unfold greens. rewrite E, E'. auto.
Qed.
Print Assumptions C85_ratios.

(** ** Physical values *)
Lemma RtoC_mul : forall a b, RtoC (a * b) = Cmul (RtoC a) (RtoC b).
Proof. intros a b. apply Ceq; unfold RtoC, Cmul, Re, Im; cbn [fst snd]; ring. Qed.
Lemma C_scaled_inv : forall (c : R) (z : C), (0 < c)%R -> Cmul (RtoC c) (Cinv (Cmul (RtoC c) z)) = Cinv z.
Proof.
  intros c z Hc. destruct (Req_EM_T (Cnorm2 z) 0) as [Z|Z].
  - assert (Re z = 0 /\ Im z = 0)%R as [R0 I0] by (unfold Cnorm2 in Z; split; nra).
    assert (z = Cplx.C0) as -> by (apply Ceq; unfold Cplx.C0, Re, Im in *; cbn [fst snd]; assumption). apply Ceq; unfold Cinv, Cmul, RtoC, Cplx.C0, Re, Im; cbn [fst snd]; unfold Rdiv; ring.
  - assert (N : Cnorm2 (Cmul (RtoC c) z) = (c * c * Cnorm2 z)%R) by (unfold Cnorm2, Cmul, RtoC, Re, Im; cbn [fst snd]; ring).
    apply Ceq; unfold Cinv; rewrite N; unfold Cmul, RtoC, Re, Im in *; cbn [fst snd]; field; split; [exact Z|lra| exact Z|lra].
Qed.
Lemma C_ratio : forall (c : R) (z w : C), (0 < c)%R -> Cdiv (Cmul (RtoC c) z) (Cmul (RtoC c) w) = Cdiv z w.
Proof.
  intros c z w Hc. unfold Cdiv. rewrite <- (C_scaled_inv c w Hc). generalize (Cinv (Cmul (RtoC c) w)). intros q. apply Ceq; unfold Cmul, RtoC, Re, Im; cbn [fst snd]; ring.
Qed.

Theorem C85_g0 : forall c delta w a eta t, (0 < c)%R ->
  Cmul (RtoC c) (g0_delta_omega delta (RtoC (c * w)) a (c * eta) (c * t) 1 0) = g0_delta_omega delta (RtoC w) a eta t 1 0.
Proof.
  intros c delta w a eta t Hc. unfold g0_delta_omega.
  assert (Ez : Cadd (RtoC (c * w)) (Cmul (RtoC (c * eta)) Ci) = Cmul (RtoC c) (Cadd (RtoC w) (Cmul (RtoC eta) Ci))) by (apply Ceq; unfold Cadd, Cmul, RtoC, Ci, Re, Im; cbn [fst snd]; ring).
  destruct (Req_EM_T (c * t) 0) as [T0|T0], (Req_EM_T t 0) as [T1|T1]; [| exfalso; nra | exfalso; nra |].
  - destruct (Req_EM_T delta 0); [|apply Ceq; unfold Cmul, RtoC, Cplx.C0, Re, Im; cbn [fst snd]; ring].
    rewrite Ez. unfold Cdiv. rewrite <- (C_scaled_inv c (Cadd (RtoC w) (Cmul (RtoC eta) Ci)) Hc). generalize (Cinv (Cmul (RtoC c) (Cadd (RtoC w) (Cmul (RtoC eta) Ci)))). intros q. apply Ceq; unfold Cmul, RtoC, Cplx.C1, Re, Im; cbn [fst snd]; ring.
  - rewrite Ez. set (z := Cadd (RtoC w) (Cmul (RtoC eta) Ci)).
    assert (A : (2 * Rabs (c * t) = c * (2 * Rabs t))%R) by (rewrite Rabs_mult, (Rabs_right c) by lra; ring). rewrite A. set (B := (2 * Rabs t)%R).
    assert (S0 : forall y : C, Csub y (RtoC 0) = y) by (intros y; apply Ceq; unfold Csub, RtoC, Re, Im; cbn [fst snd]; ring). rewrite !S0.
    rewrite (RtoC_mul c B), (C_ratio c z (RtoC B) Hc).
    assert (Q : Csub (RtoC (c * B * (c * B))) (Cmul (Cmul (RtoC c) z) (Cmul (RtoC c) z)) = Cmul (RtoC (c * c)) (Csub (RtoC (B * B)) (Cmul z z))) by (apply Ceq; unfold Csub, Cmul, RtoC, Re, Im; cbn [fst snd]; ring).
    rewrite Q, (Physics_proofs.Csqrt_scale c _ Hc). set (s := Csqrt (Csub (RtoC (B * B)) (Cmul z z))). unfold Cdiv. rewrite <- (C_scaled_inv c s Hc).
    match goal with |- Cmul _ (Cmul ?p _) = _ => generalize p end. intros p. generalize (Cinv (Cmul (RtoC c) s)). intros q. apply Ceq; unfold Cmul, Copp, RtoC, Ci, Re, Im; cbn [fst snd]; ring.
Qed.
Print Assumptions C85_g0.

Lemma scaled_shift : forall c l, shift_of (map (fun p => (c * fst p, snd p)%R) l) = (c * shift_of l)%R.
Proof. intros c l. induction l as [|p l IH]; [cbn; ring|]. cbn [map]. unfold shift_of in *. cbn [fold_right fst snd]. rewrite IH. ring. Qed.

(** The point (k, c w, c eta) of the model in the new unit. *)
Theorem C85_point : forall c m k w eta, (0 < c)%R ->
  units_changed (K := CR) (Rmult c) (RtoC c) (phys_env m k w eta) (phys_env (in_units (Rmult c) m) k (c * w) (c * eta)).
Proof.
  intros c m k w eta Hc. constructor.
  - intros x. exact (RtoC_mul c x).
  - intros v. reflexivity.
  - intros v l. cbn [phys_env g0 in_units m_lattice m_ham h_hop]. rewrite scaled_shift, <- Rmult_minus_distr_l. exact (C85_g0 c _ _ _ _ _ Hc).
  - cbn [phys_env G0 in_units m_lattice m_ham h_hop]. unfold G0_k_omega. set (z := Cadd (Cadd (RtoC w) (Cmul Ci (RtoC eta))) (RtoC (2 * h_hop (m_ham m) * cos (k * m_lattice m)))).
    assert (E : Cadd (Cadd (RtoC (c * w)) (Cmul Ci (RtoC (c * eta)))) (RtoC (2 * (c * h_hop (m_ham m)) * cos (k * m_lattice m))) = Cmul (RtoC c) z) by (unfold z; apply Ceq; unfold Cadd, Cmul, RtoC, Ci, Re, Im; cbn [fst snd]; ring).
    rewrite E. unfold Cdiv. rewrite <- (C_scaled_inv c z Hc). generalize (Cinv (Cmul (RtoC c) z)). intros q. change (@eq C (Cmul (RtoC c) (Cmul Cplx.C1 q)) (Cmul Cplx.C1 (Cmul (RtoC c) q))). apply Ceq; unfold Cmul, RtoC, Cplx.C1, Re, Im; cbn [fst snd]; ring.
Qed.
Print Assumptions C85_point.

(** ** The calls *)
Section Calls.
Variable c : R.
Hypothesis Hc : (0 < c)%R.
Let f := Rmult c.

Lemma units_ltb : forall x, n_ltb Rnum (n_0 Rnum) (f x) = n_ltb Rnum (n_0 Rnum) x.
Proof. intros x. cbn [Rnum n_ltb n_0]. unfold f. destruct (Rlt_dec 0 (c * x)), (Rlt_dec 0 x); try reflexivity; exfalso; nra. Qed.
Lemma units_neg : forall x, n_ltb Rnum (f x) (n_0 Rnum) = n_ltb Rnum x (n_0 Rnum).
Proof. intros x. cbn [Rnum n_ltb n_0]. unfold f. destruct (Rlt_dec (c * x) 0), (Rlt_dec x 0); try reflexivity; exfalso; nra. Qed.
Lemma units_eqb : forall x y, n_eqb Rnum (f x) (f y) = n_eqb Rnum x y.
Proof. intros x y. cbn [Rnum n_eqb]. unfold f. destruct (Req_EM_T (c * x) (c * y)) as [E|E], (Req_EM_T x y) as [E'|E']; try reflexivity; [apply Rmult_eq_reg_l in E; [contradiction|lra]|subst; contradiction]. Qed.
Lemma units_eq0 : forall x, n_eqb Rnum (f x) (n_0 Rnum) = n_eqb Rnum x (n_0 Rnum).
Proof. intros x. rewrite <- (units_eqb x (n_0 Rnum)). unfold f. cbn [Rnum n_0]. rewrite Rmult_0_r. reflexivity. Qed.

Lemma units_tfd : forall temp W, tfd_prefactors Rnum (f temp) (f W) = tfd_prefactors Rnum temp W.
Proof.
  intros temp W. unfold tfd_prefactors. rewrite units_ltb. destruct (n_ltb Rnum (n_0 Rnum) temp) eqn:E; [|reflexivity].
  cbn [Rnum n_ltb n_0] in E. destruct (Rlt_dec 0 temp) as [H|H]; [|discriminate].
  assert (X : n_div Rnum (n_mul Rnum (n_opp Rnum (n_div Rnum (n_1 Rnum) (f temp))) (f W)) (n_2 Rnum) = n_div Rnum (n_mul Rnum (n_opp Rnum (n_div Rnum (n_1 Rnum) temp)) W) (n_2 Rnum)).
  { cbn [Rnum n_div n_mul n_opp n_1 n_2]. unfold f. field. lra. }
  rewrite X. reflexivity.
Qed.

Lemma units_root : forall x y, y = (c * c * x)%R -> n_sqrt Rnum y = match n_sqrt Rnum x with Ok g => Ok (f g) | Err z => Err z end.
Proof.
  intros x y ->. assert (P : (0 < c * c)%R) by nra. assert (S1 : (x < 0 -> c * c * x < 0)%R) by nra. assert (S2 : (c * c * x < 0 -> x < 0)%R).
  { intros H. apply (Rmult_lt_reg_l (c * c)); [exact P|]. rewrite Rmult_0_r. exact H. }
  cbn [Rnum n_sqrt]. destruct (Rlt_dec (c * c * x) 0) as [H|H], (Rlt_dec x 0) as [H'|H']; try reflexivity; try (exfalso; tauto).
  f_equal. unfold f. rewrite sqrt_mult; [|nra|apply Rnot_lt_le; exact H']. rewrite sqrt_square by lra. reflexivity.
Qed.

Lemma units_map : forall ty t W lam, ty <> "EdwardsFermionBoson"%string ->
  model_coupling_map Rnum ty (f t) (f W) lam = match model_coupling_map Rnum ty t W lam with Ok g => Ok (f g) | Err z => Err z end.
Proof.
  intros ty t W lam NE. unfold model_coupling_map. assert (A : Rabs (c * W) = (c * Rabs W)%R) by (rewrite Rabs_mult, (Rabs_right c) by lra; reflexivity).
  destruct (String.eqb_spec ty "Holstein"); [apply units_root; cbn [Rnum n_mul n_2 n_abs]; unfold f; rewrite A; ring|].
  destruct (String.eqb_spec ty "EdwardsFermionBoson"); [contradiction|].
  destruct (String.eqb_spec ty "Peierls"); [apply units_root; cbn [Rnum n_mul n_2 n_abs n_div]; unfold f; rewrite A; field|].
  destruct (String.eqb_spec ty "BondPeierls"); [apply units_root; cbn [Rnum n_mul n_2 n_abs n_div]; unfold f; rewrite A; ring|reflexivity].
Qed.

Lemma units_terms : forall dim ty g idx W, get_terms Rnum dim ty (f g) idx (f W) = option_map (map (op_in f)) (get_terms Rnum dim ty g idx W).
Proof.
  intros dim ty g idx W. assert (O : n_opp Rnum (f g) = f (n_opp Rnum g)) by (cbn [Rnum n_opp]; unfold f; ring).
  unfold get_terms. rewrite O. destruct (String.eqb ty "Holstein"); [reflexivity|]. destruct (String.eqb ty "EdwardsFermionBoson"); [reflexivity|].
  destruct (String.eqb ty "BondPeierls"); [reflexivity|]. destruct (String.eqb ty "Peierls"); reflexivity.
Qed.

Definition ham_in (h : hamiltonian R) : hamiltonian R := mkHam (map (op_in f) (h_terms h)) (map f (h_freqs h)) (h_dim h) (f (h_hop h)).

Lemma units_ham : forall h ty idx W cs dcs mult, (dcs = None \/ ty <> "EdwardsFermionBoson"%string) ->
  ham_add Rnum (ham_in h) ty idx (f W) (option_map f cs) dcs mult = match ham_add Rnum h ty idx W cs dcs mult with Ok (l, h') => Ok (l, ham_in h') | Err z => Err z end.
Proof.
  intros h ty idx W cs dcs mult HE. unfold ham_add. change (h_hop (ham_in h)) with (f (h_hop h)). change (h_dim (ham_in h)) with (h_dim h).
  set (gx := match option_map f cs with Some g => match dcs with Some _ => Err ValueError | None => Ok g end | None => match dcs with Some lam => model_coupling_map Rnum ty (f (h_hop h)) (f W) lam | None => Err ValueError end end).
  set (g0 := match cs with Some g => match dcs with Some _ => Err ValueError | None => Ok g end | None => match dcs with Some lam => model_coupling_map Rnum ty (h_hop h) W lam | None => Err ValueError end end).
  assert (Eg : gx = match g0 with Ok g => Ok (f g) | Err z => Err z end).
  { unfold gx, g0. destruct cs as [g|], dcs as [lam|]; cbn [option_map]; try reflexivity. apply units_map. destruct HE as [HE|HE]; [discriminate|exact HE]. }
  rewrite Eg. clearbody g0. clear gx Eg. destruct g0 as [g|[]]; try reflexivity.
  assert (M : n_mul Rnum (f g) mult = f (n_mul Rnum g mult)) by (cbn [Rnum n_mul]; unfold f; ring). rewrite M, units_terms.
  destruct (get_terms Rnum (h_dim h) ty (n_mul Rnum g mult) (Z.to_nat idx) W) as [ts|]; cbn [option_map]; [|reflexivity].
  destruct (0 <=? idx); cbn [guard bind]; [|reflexivity].
  assert (EX : existsb (n_eqb Rnum (f W)) (h_freqs (ham_in h)) = existsb (n_eqb Rnum W) (h_freqs h)).
  { unfold ham_in. cbn [h_freqs]. induction (h_freqs h) as [|x l IH]; [reflexivity|]. cbn [map existsb]. rewrite units_eqb, IH. reflexivity. }
  rewrite EX. unfold ham_in. cbn [h_terms h_freqs h_dim h_hop]. rewrite map_app. destruct (existsb (n_eqb Rnum W) (h_freqs h)); [reflexivity|]. rewrite map_app. reflexivity.
Qed.

(** A call with energies in the new unit gives the same messages and the model
    in the new unit. *)
Theorem C85_call : forall m a, a_dcs a = None \/ a_type a <> "EdwardsFermionBoson"%string ->
  model_add Rnum (in_units f m) (call_in f a) = match model_add Rnum m a with Ok (l, m') => Ok (l, in_units f m') | Err z => Err z end.
Proof.
  intros m a HE. unfold model_add. change (m_temp (in_units f m)) with (f (m_temp m)). rewrite units_ltb, units_eq0. cbn [call_in a_type a_freq a_M a_N a_Mtfd a_Ntfd a_cs a_dcs a_override].
  change (m_ntypes (in_units f m)) with (m_ntypes m). change (m_ham (in_units f m)) with (ham_in (m_ham m)). rewrite units_tfd.
  assert (NN : is_none (option_map f (a_cs a)) = is_none (a_cs a)) by (destruct (a_cs a); reflexivity). rewrite NN.
  destruct (_ && (_ || _)); [reflexivity|]. destruct (_ || _); [reflexivity|]. destruct (_ || _); [reflexivity|]. destruct (negb (xorb _ _)); [reflexivity|].
  destruct (match a_override a with Some o => _ | None => false end); [reflexivity|].
  destruct (tfd_prefactors Rnum (m_temp m) (a_freq a)) as [V Vt]. rewrite units_ham by exact HE.
  destruct (ham_add Rnum (m_ham m) _ _ _ _ _ V) as [[l1 h1]|]; [|reflexivity]. cbn [bind].
  destruct (n_ltb Rnum (n_0 Rnum) (m_temp m)); [|reflexivity].
  assert (O : n_opp Rnum (f (a_freq a)) = f (n_opp Rnum (a_freq a))) by (cbn [Rnum n_opp]; unfold f; ring). rewrite O, units_ham by exact HE.
  destruct (ham_add Rnum h1 _ _ _ _ _ Vt) as [[l2 h2]|]; [|reflexivity]. cbn [bind]. destruct (a_Mtfd a), (a_Ntfd a); reflexivity.
Qed.

Theorem C85_calls : forall hop lat temp mps dim l, (forall a, In a l -> a_dcs a = None \/ a_type a <> "EdwardsFermionBoson"%string) ->
  adds Rnum (from_parameters (c * hop)%R lat (c * temp)%R mps dim) (map (call_in f) l) =
  match adds Rnum (from_parameters hop lat temp mps dim) l with Ok m => Ok (in_units f m) | Err z => Err z end.
Proof.
  intros hop lat temp mps dim l HE. change (from_parameters (c * hop)%R lat (c * temp)%R mps dim) with (in_units f (from_parameters hop lat temp mps dim)).
  revert HE. generalize (from_parameters hop lat temp mps dim). induction l as [|a l IH]; intros m HE; [reflexivity|]. cbn [map adds].
  rewrite (C85_call m a (HE a (or_introl eq_refl))). destruct (model_add Rnum m a) as [[logs m1]|]; [|reflexivity]. cbn [bind snd]. apply IH. intros x Hx. apply HE. right. exact Hx.
Qed.

Theorem C85_set_temperature : forall m x, set_temperature Rnum (in_units f m) (option_map f x) =
  let (l, m') := set_temperature Rnum m x in (l, in_units f m').
Proof.
  intros m [v|]; cbn [option_map set_temperature]; [|reflexivity]. rewrite units_neg. destruct (n_ltb Rnum v (n_0 Rnum)); reflexivity.
Qed.
End Calls.
Print Assumptions C85_call.
Print Assumptions C85_calls.
Print Assumptions C85_set_temperature.

(** The Green's function of the model in the new unit. *)
Theorem C85_physical : forall c m fs cs ae ord ord' sp sp' k w eta, (0 < c)%R -> built Rnum 1 m fs cs -> good_model m ae -> exact_lattice m -> (0 < eta)%R ->
  (forall k l, Permutation (ord k l) l) -> (forall k l, Permutation (ord' k l) l) -> spsolve_ok sp -> spsolve_ok sp' ->
  let m' := in_units (Rmult c) m in
  regular_at (phys_env m' k (c * w) (c * eta)) ord' m' /\
  exists g g' : C, greens (phys_env m k w eta) sp ord m = Ok g /\ greens (phys_env m' k (c * w) (c * eta)) sp' ord' m' = Ok g' /\
    Re g' = (Re g / c)%R /\ (- Im g' / PI = - Im g / PI / c)%R.
Proof.
  intros c m fs cs ae ord ord' sp sp' k w eta Hc B G La He P P' SO SO' m'. destruct (C50_lattice m fs cs ae B G) as [d L].
  pose proof (C52_regular m ae d ord k w eta G (C51_hermitian m fs cs ae k w eta B G) L La He P) as Rg.
  destruct (C85_ratios R CR (Rmult c) (RtoC c) _ _ m ae ord ord' sp sp' G (C85_point c m k w eta Hc) P P' SO SO' Rg) as [R1 [g [g' [E1 [E2 Q]]]]].
  split; [exact R1|]. exists g, g'. split; [exact E1|]. split; [exact E2|]. change (@eq C (Cmul (RtoC c) g') g) in Q. rewrite <- Q.
  unfold Cmul, RtoC, Re, Im. cbn [fst snd]. pose proof PI_RGT_0. split; field; lra.
Qed.
Print Assumptions C85_physical.

(** From the calls: only the ratios of hopping, frequencies, couplings,
    temperature, w and eta matter. *)
Theorem C85_from_calls : forall c hop lat temp mps l m fs cs ae ord ord' sp sp' k w eta, (0 < c)%R ->
  (forall a, In a l -> a_dcs a = None \/ a_type a <> "EdwardsFermionBoson"%string) -> adds Rnum (from_parameters hop lat temp mps 1) l = Ok m ->
  built Rnum 1 m fs cs -> good_model m ae -> exact_lattice m -> (0 < eta)%R ->
  (forall k l, Permutation (ord k l) l) -> (forall k l, Permutation (ord' k l) l) -> spsolve_ok sp -> spsolve_ok sp' ->
  exists m', adds Rnum (from_parameters (c * hop)%R lat (c * temp)%R mps 1) (map (call_in (Rmult c)) l) = Ok m' /\
  exists g g' : C, greens (phys_env m k w eta) sp ord m = Ok g /\ greens (phys_env m' k (c * w) (c * eta)) sp' ord' m' = Ok g' /\
    Re g' = (Re g / c)%R /\ (- Im g' / PI = - Im g / PI / c)%R.
Proof.
  intros c hop lat temp mps l m fs cs ae ord ord' sp sp' k w eta Hc HE E B G La He P P' SO SO'. exists (in_units (Rmult c) m).
  split; [rewrite (C85_calls c Hc _ _ _ _ _ _ HE), E; reflexivity|]. exact (proj2 (C85_physical c m fs cs ae ord ord' sp sp' k w eta Hc B G La He P P' SO SO')).
Qed.
Print Assumptions C85_from_calls.

(** The dimensionless coupling strength of EdwardsFermionBoson is not one: it is
    taken as an energy (model.py:42-43). *)
Theorem C85_edwards_refuted : exists a m m', a_type a = "EdwardsFermionBoson"%string /\ a_dcs a = Some 1%R /\ a_cs a = None /\
  adds Rnum (from_parameters 1 1 0 None 1)%R [a] = Ok m /\ adds Rnum (from_parameters (2 * 1) 1 (2 * 0) None 1)%R [call_in (Rmult 2) a] = Ok m' /\
  (exists h, In h (h_terms (m_ham m))) /\ (forall h, In h (h_terms (m_ham m)) -> ht_coupling h = 1%R) /\ (forall h, In h (h_terms (m_ham m')) -> ht_coupling h = 1%R).
Proof.
  pose (a := mkAdd "EdwardsFermionBoson" 1%R 1 1 None None None (Some 1%R) None : add_args R).
  assert (X : forall hop temp W, temp = 0%R -> exists m, adds Rnum (from_parameters hop 1%R temp None 1) [mkAdd "EdwardsFermionBoson" W 1 1 None None None (Some 1%R) None] = Ok m /\
    (exists h, In h (h_terms (m_ham m))) /\ forall h, In h (h_terms (m_ham m)) -> ht_coupling h = 1%R).
  { intros hop temp W ->. eexists. split.
    - cbn [adds]. unfold model_add. cbn [from_parameters m_temp Rnum n_ltb n_0 a_N a_M a_Mtfd a_Ntfd a_cs a_dcs a_override is_none lt1 orb xorb negb]. destruct (Rlt_dec 0 0) as [H|H]; [lra|].
      cbn [andb]. change (1 <? 1) with false. cbn [orb]. rewrite andb_false_r. unfold tfd_prefactors. cbn [Rnum n_ltb n_0]. destruct (Rlt_dec 0 0) as [H'|_]; [lra|]. reflexivity.
    - split; [eexists; left; reflexivity|]. intros h Hh. cbn in Hh. repeat (destruct Hh as [<-|Hh]; [cbn; ring|]). destruct Hh. }
  destruct (X 1%R 0%R 1%R eq_refl) as [m [E [N C]]]. destruct (X (2 * 1)%R (2 * 0)%R (2 * 1)%R ltac:(ring)) as [m' [E' [_ C']]].
  exists a, m, m'. split; [reflexivity|]. split; [reflexivity|]. split; [reflexivity|]. split; [exact E|]. split; [exact E'|]. auto.
Qed.
Print Assumptions C85_edwards_refuted.

(** ** Length *)
Lemma lattice_greens : forall {T} {K : cring} (e : env T K) sp ord x m, greens e sp ord (with_lattice x m) = greens e sp ord m.
Proof.
  intros T K e sp ord x m. unfold greens.
  assert (L : prime_system ord (with_lattice x m) = match prime_system ord m with Ok s => Ok (mkSys (with_lattice x m) (s_gen s) (s_fargs s) (s_eqs s)) | Err z => Err z end).
  { unfold prime_system. assert (E1 : generate_space (with_lattice x m) = generate_space m) by reflexivity.
    assert (E2 : forall l, generalized ord (with_lattice x m) l = generalized ord m l) by reflexivity.
    rewrite E1. destruct (generate_space m) as [l|]; [|reflexivity]. cbn [bind]. rewrite E2.
    destruct (generalized ord m l) as [[gen fl]|]; [|reflexivity]. cbn [bind]. destruct (full_equations fl gen) as [q|]; [|reflexivity]. cbn [bind].
    destruct (final_checks q); reflexivity. }
  rewrite L. destruct (prime_system ord m) as [s|] eqn:E; [|reflexivity]. pose proof (Neghop_proofs.prime_model ord m s E) as M. cbn [bind].
  destruct s as [m' gen fl eqs]. cbn [s_model] in M. subst m'. reflexivity.
Qed.

(** Without hopping only k a matters: the same result, whatever it is. *)
Theorem C85_length : forall m ord sp a k k' w eta, h_hop (m_ham m) = 0%R -> (k' * a = k * m_lattice m)%R ->
  greens (phys_env (with_lattice a m) k' w eta) sp ord (with_lattice a m) = greens (phys_env m k w eta) sp ord m.
Proof.
  intros m ord sp a k k' w eta T0 K. rewrite lattice_greens. f_equal. unfold phys_env. cbn [with_lattice m_lattice m_ham]. f_equal.
  - apply FunctionalExtensionality.functional_extensionality. intros v. f_equal. rewrite <- !Rmult_assoc, K. reflexivity.
  - apply FunctionalExtensionality.functional_extensionality. intros v. apply FunctionalExtensionality.functional_extensionality. intros l. unfold g0_delta_omega. rewrite T0.
    destruct (Req_EM_T 0 0) as [_|N]; [reflexivity|contradiction].
  - unfold G0_k_omega. rewrite K. reflexivity.
Qed.
Print Assumptions C85_length.

(** With hopping it is not so: the propagator has the lattice constant in its
    exponent (physics.py:70).  One phonon on the bonds, k = 0, lattice
    constants 1 and 2. *)
Section BondRegular.
Context {K : cring}.
Add Ring KRbr : (klaws K).
Lemma b_regular : forall t (e : env R K), ev e (1 * 1)%R = k1 -> (forall y, kmul y (ksub k1 (kmul (G0 e) (b_self e))) = k0 -> y = k0) -> regular_at e id_ord (b_model t).
Proof.
  intros t e Ev D. destruct (b_system t K e) as [s [E [ES _]]]. exists s, (b_mat e), (b_rhs e). split; [exact E|]. split; [exact ES|].
  intros x SV. assert (L0 : (0 < c_rows (b_mat e))%nat) by (cbn; lia). assert (L1 : (1 < c_rows (b_mat e))%nat) by (cbn; lia). assert (L2 : (2 < c_rows (b_mat e))%nat) by (cbn; lia).
  pose proof (SV 0%nat L0) as X0. pose proof (SV 1%nat L1) as X1. pose proof (SV 2%nat L2) as X2. clear SV.
  unfold mv, b_mat, b_coef in X0, X1, X2. cbn [c_ent filter map fst snd Nat.eqb andb] in X0, X1, X2. rewrite Ev in X0, X1, X2. unfold ksum in X0, X1, X2. cbn [fold_right] in X0, X1, X2.
  unfold b_self in D. set (a := ph e [1]) in *. set (b := ph e [-1]) in *. set (p := g0 e [2] [(1%R, 1)]) in *. set (q := g0 e [0] [(1%R, 1)]) in *. set (r := g0 e [-2] [(1%R, 1)]) in *.
  assert (Y0 : x 0%nat = kopp (kmul (kadd (kmul a p) (kmul b q)) (x 2%nat))).
  { transitivity (ksub (kadd (kmul (kadd (kmul (kmul (kmul k1 (kadd k1 k0)) a) p) (kmul (kmul (kmul k1 (kadd k1 k0)) b) q)) (x 2%nat)) (kadd (kmul k1 (x 0%nat)) k0)) (kmul (kadd (kmul a p) (kmul b q)) (x 2%nat))); [ring|]. rewrite X0. ring. }
  assert (Y1 : x 1%nat = kopp (kmul (kadd (kmul a q) (kmul b r)) (x 2%nat))).
  { transitivity (ksub (kadd (kmul (kadd (kmul (kmul (kmul k1 (kadd k1 k0)) a) q) (kmul (kmul (kmul k1 (kadd k1 k0)) b) r)) (x 2%nat)) (kadd (kmul k1 (x 1%nat)) k0)) (kmul (kadd (kmul a q) (kmul b r)) (x 2%nat))); [ring|]. rewrite X1. ring. }
  assert (Z2 : x 2%nat = k0).
  { apply D. rewrite <- X2, Y0, Y1. ring. }
  intros i Hi. cbn in Hi. destruct i as [|[|[|i]]]; [rewrite Y0, Z2; ring|rewrite Y1, Z2; ring|exact Z2|lia].
Qed.
End BondRegular.

Lemma lat_g0 : forall delta a n, Rabs (delta * a) = INR n ->
  g0_delta_omega delta (RtoC (1 - shift_of [(1%R, 1)])) a (3 / 4) (1 / 2) 1 0 = Cmul (Physics_proofs.Cpown (0, 1 / 2)%R n) (0, - (4 / 5))%R.
Proof.
  intros delta a n En. unfold g0_delta_omega. destruct (Req_EM_T (1 / 2) 0) as [H|_]; [lra|]. rewrite En.
  assert (E1 : Cadd (RtoC (1 - shift_of [(1%R, 1)])) (Cmul (RtoC (3 / 4)) Ci) = (0, 3 / 4)%R) by (unfold shift_of; apply Ceq; unfold Cadd, Cmul, RtoC, Ci, Re, Im; cbn [fold_right fst snd]; lra).
  assert (E2 : (2 * Rabs (1 / 2) = 1)%R) by (rewrite Rabs_right; lra). cbv zeta. rewrite E1, E2.
  assert (E3 : Csub (0, 3 / 4)%R (RtoC 0) = (0, 3 / 4)%R) by (apply Ceq; unfold Csub, RtoC, Re, Im; cbn [fst snd]; lra). rewrite E3.
  assert (E4 : Cdiv (0, 3 / 4)%R (RtoC 1) = (0, 3 / 4)%R) by (apply Ceq; unfold Cdiv, Cmul, Cinv, Cnorm2, RtoC, Re, Im; cbn [fst snd]; field). rewrite E4.
  assert (E5 : Csub (RtoC (1 * 1)) (Cmul (0, 3 / 4) (0, 3 / 4))%R = Cmul (5 / 4, 0)%R (5 / 4, 0)%R) by (apply Ceq; unfold Csub, Cmul, RtoC, Re, Im; cbn [fst snd]; lra).
  assert (E6 : Csub Cplx.C1 (Cmul (0, 3 / 4) (0, 3 / 4))%R = Cmul (5 / 4, 0)%R (5 / 4, 0)%R) by (apply Ceq; unfold Csub, Cmul, Cplx.C1, Re, Im; cbn [fst snd]; lra).
  assert (Pz : (0 < Re (5 / 4, 0))%R) by (unfold Re; cbn [fst]; lra).
  rewrite E5, E6, (Csqrt_of (5 / 4, 0)%R Pz).
  assert (E7 : Cadd (Copp (0, 3 / 4)%R) (Cmul (Cmul (RtoC 1) Ci) (5 / 4, 0)%R) = (0, 1 / 2)%R) by (apply Ceq; unfold Cadd, Copp, Cmul, RtoC, Ci, Re, Im; cbn [fst snd]; lra). rewrite E7.
  assert (NZ : (0, 1 / 2)%R <> Cplx.C0) by (intros X; apply (f_equal Im) in X; unfold Im, Cplx.C0 in X; cbn [snd] in X; lra).
  rewrite (Physics_proofs.Cpow_nat _ n NZ). f_equal. apply Ceq; unfold Cdiv, Cmul, Cinv, Cnorm2, Copp, RtoC, Ci, Re, Im; cbn [fst snd]; field.
Qed.

Lemma lat_env : forall n, let e := phys_env (with_lattice (INR n) (b_model (1 / 2))) 0 1 (3 / 4) in
  ev e (1 * 1)%R = Cplx.C1 /\ G0 e = Cinv (2, 3 / 4)%R /\
  b_self (K := CR) e = Cadd (Cmul (RtoC 2) (Cmul (Physics_proofs.Cpown (0, 1 / 2)%R n) (0, - (4 / 5))%R)) (0, - (8 / 5))%R.
Proof.
  intros n e. split; [apply Ceq; unfold e; cbn [phys_env ev]; unfold RtoC, Cplx.C1, Re, Im; cbn [fst snd]; lra|]. split.
  - unfold e. cbn [phys_env G0 with_lattice m_lattice m_ham b_model h_hop]. unfold G0_k_omega. rewrite Rmult_0_l, cos_0.
    assert (E : Cadd (Cadd (RtoC 1) (Cmul Ci (RtoC (3 / 4)))) (RtoC (2 * (1 / 2) * 1)) = (2, 3 / 4)%R) by (apply Ceq; unfold Cadd, Cmul, Ci, RtoC, Re, Im; cbn [fst snd]; lra).
    rewrite E. unfold Cdiv. apply Ceq; unfold Cmul, Cplx.C1, Re, Im; cbn [fst snd]; ring.
  - unfold b_self. assert (P1 : forall d, ph e [d] = Cplx.C1) by (intros d; unfold e; cbn [phys_env ph]; rewrite Rmult_0_l; unfold Cexpi; rewrite cos_0, sin_0; reflexivity).
    rewrite !P1.
    assert (Gq : g0 e [0] [(1%R, 1)] = (0, - (4 / 5))%R).
    { unfold e. cbn [phys_env g0 with_lattice m_lattice m_ham b_model h_hop]. rewrite (lat_g0 _ _ 0%nat); [cbn [Physics_proofs.Cpown]; apply Ceq; unfold Cmul, Cplx.C1, Re, Im; cbn [fst snd]; ring|]. unfold half_of. cbn [hd INR]. replace (0 / 2 * INR n)%R with 0%R by field. apply Rabs_R0. }
    assert (Gp : g0 e [2] [(1%R, 1)] = Cmul (Physics_proofs.Cpown (0, 1 / 2)%R n) (0, - (4 / 5))%R).
    { unfold e. cbn [phys_env g0 with_lattice m_lattice m_ham b_model h_hop]. apply lat_g0. unfold half_of. cbn [hd]. replace (2 / 2 * INR n)%R with (INR n) by field. apply Rabs_right, Rle_ge, pos_INR. }
    assert (Gr : g0 e [-2] [(1%R, 1)] = Cmul (Physics_proofs.Cpown (0, 1 / 2)%R n) (0, - (4 / 5))%R).
    { unfold e. cbn [phys_env g0 with_lattice m_lattice m_ham b_model h_hop]. apply lat_g0. unfold half_of. cbn [hd]. replace (-2 / 2 * INR n)%R with (- INR n)%R by field. rewrite Rabs_Ropp. apply Rabs_right, Rle_ge, pos_INR. }
    rewrite Gq, Gp, Gr. set (p := Cmul (Physics_proofs.Cpown (0, 1 / 2)%R n) (0, - (4 / 5))%R).
    change (@eq C (Cadd (Cmul Cplx.C1 (Cadd (Cmul Cplx.C1 p) (Cmul Cplx.C1 (0, - (4 / 5))%R))) (Cmul Cplx.C1 (Cadd (Cmul Cplx.C1 (0, - (4 / 5))%R) (Cmul Cplx.C1 p)))) (Cadd (Cmul (RtoC 2) p) (0, - (8 / 5))%R)).
    apply Ceq; unfold Cadd, Cmul, Cplx.C1, RtoC, Re, Im; cbn [fst snd]; lra.
Qed.

Lemma C_back : forall y z d : C, z <> Cplx.C0 -> d <> Cplx.C0 -> y = Cmul (Cmul (Cmul (Cmul y z) (Cinv d)) d) (Cinv z).
Proof. intros y z d N M. field. split; assumption. Qed.
Lemma C_back0 : forall z d : C, z <> Cplx.C0 -> Cmul (Cmul Cplx.C0 d) (Cinv z) = Cplx.C0.
Proof. intros z d N. field. exact N. Qed.
Lemma C_back1 : forall y d : C, d <> Cplx.C0 -> y = Cmul (Cmul y (Cinv d)) d.
Proof. intros y d N. field. exact N. Qed.
Lemma C_one : forall d : C, d <> Cplx.C0 -> Cmul (Cinv d) d = Cplx.C1.
Proof. intros d N. field. exact N. Qed.
Lemma C_common : forall y d q : C, d <> Cplx.C0 -> Cmul y (Csub Cplx.C1 (Cmul (Cinv d) q)) = Cmul (Cmul y (Csub d q)) (Cinv d).
Proof. intros y d q N. field. exact N. Qed.

Lemma lat_value : forall n (z : C) sp, Csub (2, 3 / 4)%R (Cadd (Cmul (RtoC 2) (Cmul (Physics_proofs.Cpown (0, 1 / 2)%R n) (0, - (4 / 5))%R)) (0, - (8 / 5))%R) = z -> z <> Cplx.C0 -> spsolve_ok (K := CR) sp ->
  exists g : C, greens (phys_env (with_lattice (INR n) (b_model (1 / 2))) 0 1 (3 / 4)) sp id_ord (with_lattice (INR n) (b_model (1 / 2))) = Ok g /\ Cmul g z = Cplx.C1.
Proof.
  intros n z sp Ez NZ SO. destruct (lat_env n) as [Ev [EG ES]]. set (e := phys_env (with_lattice (INR n) (b_model (1 / 2))) 0 1 (3 / 4)) in *.
  set (D := (2, 3 / 4)%R : C). assert (ND : D <> Cplx.C0) by (intros X; apply (f_equal Re) in X; unfold D, Re, Cplx.C0 in X; cbn [fst] in X; lra).
  assert (Q : forall y : C, Cmul y (Csub Cplx.C1 (Cmul (Cinv D) (b_self (K := CR) e))) = Cmul (Cmul y z) (Cinv D)).
  { intros y. rewrite <- Ez. rewrite ES. fold D. generalize (Cadd (Cmul (RtoC 2) (Cmul (Physics_proofs.Cpown (0, 1 / 2)%R n) (0, - (4 / 5))%R)) (0, - (8 / 5))%R). intros q.
    apply C_common. exact ND. }
  assert (Rg : regular_at e id_ord (b_model (1 / 2))).
  { apply (b_regular (K := CR) (1 / 2) e Ev). rewrite EG. fold D. intros y Hy. change (@eq C (Cmul y (Csub Cplx.C1 (Cmul (Cinv D) (b_self (K := CR) e)))) Cplx.C0) in Hy. rewrite Q in Hy.
    change (@eq C y Cplx.C0). rewrite (C_back y z D NZ ND), Hy. apply C_back0. exact NZ. }
  destruct (b_value (K := CR) (1 / 2) sp e Ev Rg SO) as [g [Eg Vg]]. exists g. split; [rewrite lattice_greens; exact Eg|].
  rewrite EG in Vg. fold D in Vg. change (@eq C (Cmul g (Csub Cplx.C1 (Cmul (Cinv D) (b_self (K := CR) e)))) (Cinv D)) in Vg. rewrite Q in Vg.
  rewrite (C_back1 (Cmul g z) D ND), Vg. apply C_one. exact ND.
Qed.

Theorem C85_length_refuted : exists m fs cs ae w eta, built Rnum 1 m fs cs /\ good_model m ae /\ m_lattice m = 1%R /\ (0 < h_hop (m_ham m))%R /\ (0 < eta)%R /\
  forall sp, spsolve_ok (K := CR) sp -> exists g g' : C, greens (phys_env m 0 w eta) sp id_ord m = Ok g /\
    greens (phys_env (with_lattice 2%R m) 0 w eta) sp id_ord (with_lattice 2%R m) = Ok g' /\ g' <> g.
Proof.
  exists (b_model (1 / 2)), [1%R], ["BondPeierls"%string], 1, 1%R, (3 / 4)%R. split; [apply b_built|]. split; [apply b_good|]. split; [reflexivity|]. split; [cbn; lra|]. split; [lra|]. intros sp SO.
  destruct (lat_value 1 (6 / 5, 47 / 20)%R sp) as [g [Eg Vg]]; [|intros X; apply (f_equal Re) in X; unfold Re, Cplx.C0 in X; cbn [fst] in X; lra|exact SO|].
  { cbn [Physics_proofs.Cpown]. apply Ceq; unfold Csub, Cadd, Cmul, RtoC, Cplx.C1, Re, Im; cbn [fst snd]; lra. }
  destruct (lat_value 2 (2, 39 / 20)%R sp) as [g' [Eg' Vg']]; [|intros X; apply (f_equal Re) in X; unfold Re, Cplx.C0 in X; cbn [fst] in X; lra|exact SO|].
  { cbn [Physics_proofs.Cpown]. apply Ceq; unfold Csub, Cadd, Cmul, RtoC, Cplx.C1, Re, Im; cbn [fst snd]; lra. }
  change (INR 1) with 1%R in Eg. change (with_lattice 1%R (b_model (1 / 2))) with (b_model (1 / 2)) in Eg. replace (INR 2) with 2%R in Eg' by (cbn; ring).
  exists g, g'. split; [exact Eg|]. split; [exact Eg'|]. intros ->.
  assert (X : Cmul g (4 / 5, - (2 / 5))%R = Cplx.C0).
  { transitivity (Csub (Cmul g (2, 39 / 20)%R) (Cmul g (6 / 5, 47 / 20)%R)); [apply Ceq; unfold Csub, Cmul, Re, Im; cbn [fst snd]; field|]. rewrite Vg, Vg'. apply Ceq; unfold Csub, Cplx.C0, Cplx.C1, Re, Im; cbn [fst snd]; lra. }
  pose proof (f_equal Re X) as X1. pose proof (f_equal Im X) as X2. pose proof (f_equal Re Vg) as X3. unfold Cmul, Cplx.C0, Cplx.C1, Re, Im in X1, X2, X3. cbn [fst snd] in X1, X2, X3. lra.
Qed.
Print Assumptions C85_length_refuted.

(** The theorems apply to the model of C84 at hopping 1. *)
Example C85_nonvacuous : built Rnum 1 (b_model 1) [1%R] ["BondPeierls"%string] /\ good_model (b_model 1) 1 /\ exact_lattice (b_model 1) /\
  spsolve_ok (gauss_sparse (F := CF) C_eq_dec) /\ adds Rnum (from_parameters 1 1 0 None 1)%R [b_args] = Ok (b_model 1) /\
  units_changed (K := CR) (Rmult 3) (RtoC 3) (phys_env (b_model 1) 0 0 1) (phys_env (in_units (Rmult 3) (b_model 1)) 0 (3 * 0) (3 * 1)) /\
  in_units (Rmult 3) (b_model 1) <> b_model 1.
Proof.
  split; [apply b_built|]. split; [apply b_good|]. split; [left; reflexivity|]. split; [exact (gauss_spsolve_ok (F := CF) C_eq_dec)|].
  split; [cbn [adds]; rewrite b_add; reflexivity|]. split; [apply C85_point; lra|]. intros X. apply (f_equal (fun m => h_hop (m_ham m))) in X. cbn in X. lra.
Qed.
