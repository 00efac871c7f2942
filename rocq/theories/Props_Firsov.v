(** Property theorem C67: without hopping the Green's function of the Holstein
    model is the one of Lang and Firsov. *)
From Coq Require Import String ZArith List Bool Lia Permutation Reals Lra.
From Verif Require Import Base NdArray Config Spec Model HModel Space Spec_space Term Equation System Spec_engine Props_Engine
  Ring Coef Spec_eom Solvers Spec_solve LinSolve Spec_model Spec_sym Cplx Physics Props_Physics Props_Model Props_Solve Props_Sym Spec_spectral Props_Spectral
  Spec_ma Props_MA Spec_self Spec_green Props_Green Spec_cutoff Props_Cutoff Spec_extent Props_Extent Spec_exact Props_Exact Spec_firsov.
From Verif Require HModel_proofs Physics_proofs Exact_proofs Firsov_proofs.
Import ListNotations.
Open Scope list_scope.
Open Scope Z_scope.

(** What add_("Holstein", ...) makes of a model without hopping. *)
Definition atom (lat Om g : R) (M N : Z) : model R :=
  mkModel lat 0%R (mkHam [mkHterm "Holstein" (iv 0) (iv 0) Plus (- (g * 1))%R 0 Om; mkHterm "Holstein" (iv 0) (iv 0) Minus (- (g * 1))%R 0 Om] [Om] 1 0%R) None [M] [N] None 1.
Lemma atom_good : forall lat Om g M N, 1 <= M -> 1 <= N -> good_model (atom lat Om g M N) M.
Proof. intros lat Om g M N HM HN. exact (holstein_good 0 lat None (- (g * 1))%R Om M N HM HN ltac:(discriminate)). Qed.
Lemma atom_lattice : forall lat Om g M N, on_lattice (atom lat Om g M N) 0.
Proof. intros lat Om g M N h [<- | [<- | []]]; (split; exists 0; reflexivity). Qed.
Lemma atom_hermitian : forall lat Om g M N k w eta, hermitian (phys_env (atom lat Om g M N) k w eta) (atom lat Om g M N).
Proof.
  intros lat Om g M N k w eta. eexists. split; [apply perm_swap|]. cbn [atom m_ham h_terms].
  constructor; [|constructor; [|constructor]]; (split; [reflexivity|]; split; [reflexivity|]; split; [reflexivity|]; split; [reflexivity|]; split; [|reflexivity]); cbn; apply Cplx.Ceq; cbn; ring.
Qed.

Lemma line_is : forall Om g w eta n, Om <> 0%R -> line Om g (w, eta) n = Cmul (RtoC (exp (- (g / Om * (g / Om))))) (Firsov_proofs.part Om g w eta 0 n).
Proof.
  intros Om g w eta n H. unfold line, Firsov_proofs.part, Firsov_proofs.res, Firsov_proofs.level, Cdiv, polaron_level, poisson, Firsov_proofs.uu, Firsov_proofs.pp. cbn [Firsov_proofs.dd].
  replace (Csub (w, eta) (RtoC (INR n * Om - g * g / Om))) with ((w + g * g / Om - INR n * Om, eta)%R) by (apply Cplx.Ceq; unfold Csub, Cadd, Copp, RtoC, Re, Im; cbn [fst snd]; ring).
  rewrite Rpow_mult_distr. generalize (Cinv ((w + g * g / Om - INR n * Om)%R, eta)). intros [z1 z2]. generalize ((g / Om) ^ n)%R. intros x. generalize (exp (- (g / Om * (g / Om)))). intros e.
  apply Cplx.Ceq; unfold Cmul, RtoC, Re, Im; cbn [fst snd]; unfold Rdiv; ring.
Qed.
Lemma lang_firsov_is : forall Om g w eta N, Om <> 0%R -> lang_firsov Om g (w, eta) N = Cmul (RtoC (exp (- (g / Om * (g / Om))))) (Firsov_proofs.csum (Firsov_proofs.part Om g w eta 0) N).
Proof. intros Om g w eta N H. induction N as [|N IH]; cbn [lang_firsov Firsov_proofs.csum]; rewrite line_is by exact H; [reflexivity|]. rewrite IH. ring. Qed.

(** The weights are those of a probability distribution. *)
Theorem C67_weights : forall x, (0 <= x)%R -> (forall n, (0 <= poisson x n)%R) /\ Un_cv (sum_f_R0 (poisson x)) 1%R.
Proof.
  intros x Hx. split.
  - intros n. unfold poisson. apply Rmult_le_pos; [left; apply exp_pos|]. apply Rmult_le_pos; [apply pow_le; exact Hx|left; apply Rinv_0_lt_compat, INR_fact_lt_0].
  - assert (E : exists l, Un_cv (sum_f_R0 (fun i => / INR (fact i) * x ^ i)%R) l /\ l = exp x).
    { unfold exp. destruct (exist_exp x) as [l Hl]. exists l. split; [exact Hl|reflexivity]. }
    destruct E as [l [Hl El]]. pose proof (CV_mult _ _ _ _ (Exact_proofs.cv_const (exp (- x))) Hl) as H. rewrite El, <- exp_plus in H. replace (- x + x)%R with 0%R in H by ring. rewrite exp_0 in H.
    intros eps He. destruct (H eps He) as [N HN]. exists N. intros n Hn. specialize (HN n Hn). replace (sum_f_R0 (poisson x) n) with (exp (- x) * sum_f_R0 (fun i => / INR (fact i) * x ^ i) n)%R; [exact HN|].
    rewrite scal_sum. apply sum_eq. intros i _. unfold poisson, Rdiv. ring.
Qed.
Print Assumptions C67_weights.

(** The exact Green's function of C66 is the sum of all lines, ... *)
Theorem C67_exact : forall lat Om g M N k w eta Psi, Om <> 0%R -> (0 < eta)%R -> 1 <= M -> 1 <= N ->
  exact_row (atom lat Om g M N) 0 k (w, eta) Psi -> tends (lang_firsov Om g (w, eta)) (Psi vacuum 0).
Proof.
  intros lat Om g M N k w eta Psi HO He HM HN E. pose proof (atom_good lat Om g M N HM HN) as G.
  destruct (Firsov_proofs.amp_ex Om g w eta He) as [f Hf]. destruct (Firsov_proofs.at_pile_ex f) as [F HF].
  pose proof (Exact_proofs.rows_exact (atom lat Om g M N) M 0 k w eta G F _ (Firsov_proofs.onsite_support lat Om g M N f F HF)
    (Firsov_proofs.onsite_rows lat Om g w eta k M N HO He f Hf F HF) (Firsov_proofs.onsite_norm lat Om g w eta M N He f Hf F HF)) as E'.
  rewrite (C66_unique _ _ _ _ _ _ Psi _ G (atom_hermitian lat Om g M N k w eta) (atom_lattice lat Om g M N) He E E' vacuum 0).
  rewrite (f_equal (fun h => h vacuum) (Exact_proofs.spread_0 (atom lat Om g M N) k F)). rewrite <- Firsov_proofs.pile_0, (proj1 HF).
  destruct (Hf 0%nat) as [H1 H2]. split; intros eps Hp; [destruct (H1 eps Hp) as [q Hq]|destruct (H2 eps Hp) as [q Hq]]; exists q; intros n Hn; rewrite lang_firsov_is by exact HO; apply Hq; exact Hn.
Qed.
Print Assumptions C67_exact.

Lemma line_abs : forall Om g w eta n, (0 < eta)%R -> (Cabs (line Om g (w, eta) n) <= poisson (g / Om * (g / Om)) n / eta)%R.
Proof.
  intros Om g w eta n He. unfold line, Cdiv. rewrite Physics_proofs.Cabs_mul, Physics_proofs.Cabs_R. set (z := Csub _ _).
  assert (P : (0 <= poisson (g / Om * (g / Om)) n)%R) by (apply C67_weights; apply Rle_0_sqr). rewrite Rabs_right by (apply Rle_ge; exact P). apply Rmult_le_compat_l; [exact P|].
  assert (Iz : Im z = eta) by (unfold z, Csub, Cadd, Copp, RtoC, Im; cbn [fst snd]; ring). assert (Nz : z <> Cplx.C0) by (intros X; rewrite X in Iz; cbn in Iz; lra).
  assert (B : (eta <= Cabs z)%R) by (rewrite <- Iz; apply Cutoff_proofs.Im_abs).
  apply (Rmult_le_reg_r (Cabs z)); [lra|]. rewrite <- Physics_proofs.Cabs_mul, Cinv_l by exact Nz. replace (Cabs Cplx.C1) with 1%R; [|unfold Cabs, Cnorm2, Cplx.C1, Re, Im; cbn [fst snd]; replace (1 * 1 + 0 * 0)%R with 1%R by ring; symmetry; exact sqrt_1].
  apply (Rmult_le_reg_l eta); [exact He|]. replace (eta * (/ eta * Cabs z))%R with (Cabs z) by (field; lra). lra.
Qed.

(** ... and the first L + 1 lines miss it by at most the missing weight over
    eta. *)
Theorem C67_tail : forall Om g w eta G L, (0 < eta)%R -> tends (lang_firsov Om g (w, eta)) G ->
  (Cabs (Csub G (lang_firsov Om g (w, eta) L)) <= (1 - sum_f_R0 (poisson (g / Om * (g / Om))) L) / eta)%R.
Proof.
  intros Om g w eta G L He T. set (x := (g / Om * (g / Om))%R). destruct (C67_weights x (Rle_0_sqr _)) as [P0 S1]. set (u := lang_firsov Om g (w, eta)) in *.
  assert (Gr : Un_growing (sum_f_R0 (poisson x))) by (intros n; cbn [sum_f_R0]; specialize (P0 (S n)); lra).
  assert (Le : forall n, (sum_f_R0 (poisson x) n <= 1)%R) by (intros n; exact (growing_ineq _ _ Gr S1 n)).
  assert (D : forall d, (Cabs (Csub (u (L + d)%nat) (u L)) <= (sum_f_R0 (poisson x) (L + d) - sum_f_R0 (poisson x) L) / eta)%R).
  { induction d as [|d IH].
    - rewrite Nat.add_0_r. replace (Csub (u L) (u L)) with Cplx.C0 by ring. rewrite Cutoff_proofs.Cabs_0. unfold Rdiv. rewrite Rminus_diag_eq by reflexivity. lra.
    - replace (L + S d)%nat with (S (L + d)) by lia. change (u (S (L + d))) with (Cadd (u (L + d)%nat) (line Om g (w, eta) (S (L + d)))).
      replace (Csub (Cadd (u (L + d)%nat) (line Om g (w, eta) (S (L + d)))) (u L)) with (Cadd (Csub (u (L + d)%nat) (u L)) (line Om g (w, eta) (S (L + d)))) by ring.
      eapply Rle_trans; [apply Physics_proofs.Cabs_triangle|]. pose proof (line_abs Om g w eta (S (L + d)) He) as B. fold x in B. cbn [sum_f_R0].
      replace ((sum_f_R0 (poisson x) (L + d) + poisson x (S (L + d)) - sum_f_R0 (poisson x) L) / eta)%R with ((sum_f_R0 (poisson x) (L + d) - sum_f_R0 (poisson x) L) / eta + poisson x (S (L + d)) / eta)%R by (field; lra). lra. }
  set (b := ((1 - sum_f_R0 (poisson x) L) / eta)%R). assert (B0 : (0 <= b)%R) by (unfold b; apply Rmult_le_pos; [specialize (Le L); lra|left; apply Rinv_0_lt_compat; exact He]).
  assert (B2 : (Cnorm2 (Csub G (u L)) <= b * b)%R).
  { pose proof (Exact_proofs.Ccv_norm2 _ _ (Exact_proofs.Ccv_sub u (fun _ => u L) G (u L) T (Exact_proofs.Ccv_const (u L)))) as Hn.
    apply Rnot_lt_le. intros X. set (l := Cnorm2 (Csub G (u L))) in *. destruct (Hn (l - b * b)%R ltac:(lra)) as [q Hq]. specialize (Hq (L + q)%nat ltac:(lia)). cbv beta in Hq.
    assert (C : (Cnorm2 (Csub (u (L + q)%nat) (u L)) <= b * b)%R).
    { rewrite <- Physics_proofs.Cabs_sq. assert (Y : (Cabs (Csub (u (L + q)%nat) (u L)) <= b)%R).
      - eapply Rle_trans; [apply D|]. unfold b, Rdiv. apply Rmult_le_compat_r; [left; apply Rinv_0_lt_compat; exact He|]. specialize (Le (L + q)%nat). lra.
      - apply Rmult_le_compat; try apply Physics_proofs.Cabs_ge0; exact Y. }
    unfold R_dist in Hq. rewrite Rabs_left in Hq by lra. lra. }
  unfold Cabs. rewrite <- (sqrt_square b B0). apply sqrt_le_1_alt. exact B2.
Qed.
Print Assumptions C67_tail.

(** The code: Model.from_parameters(hopping=0, ...).add_("Holstein", ...) with
    at least P - 1 phonons on any number of sites. *)
Theorem C67_code : forall lat Om g k w eta, Om <> 0%R -> (0 < eta)%R ->
  exists G : C, tends (lang_firsov Om g (w, eta)) G /\
    forall P M N logs m ord sp, model_add Rnum (from_parameters 0%R lat 0%R None 1) (mkAdd "Holstein" Om M N None None (Some g) None None) = Ok (logs, m) -> ~ In LError logs ->
      1 <= P -> P - 1 <= N -> (forall k l, Permutation (ord k l) l) -> spsolve_ok sp ->
      exists x : C, greens (phys_env m k w eta) sp ord m = Ok x /\ (eta ^ 3 * dist2 x G <= 4 * Rabs g / sqrt (IZR P))%R.
Proof.
  intros lat Om g k w eta HO He.
  destruct (C66_exists (atom lat Om g 1 1) 1 0 k w eta (atom_good lat Om g 1 1 ltac:(lia) ltac:(lia)) (atom_hermitian lat Om g 1 1 k w eta) (atom_lattice lat Om g 1 1) (or_intror eq_refl) (Rle_refl 0) He) as [Psi E].
  exists (Psi vacuum 0). split; [exact (C67_exact lat Om g 1 1 k w eta Psi HO He ltac:(lia) ltac:(lia) E)|].
  intros P M N logs m ord sp Em NE P1 HN Pm SO.
  destruct (holstein_call 0 lat None (mkAdd "Holstein" Om M N None None (Some g) None None) g logs m eq_refl eq_refl (or_introl eq_refl) Em NE) as [-> [H1 H2]]. cbn [a_M a_N a_freq] in *. fold (atom lat Om g M N).
  destruct (C66_error (atom lat Om g 1 1) (atom lat Om g M N) 1 M 0 ord sp k w eta 0 1 P Psi (atom_good lat Om g 1 1 ltac:(lia) ltac:(lia)) (atom_good lat Om g M N H1 H2)) as [x [Ex B]];
    try assumption; try (repeat split; reflexivity); try lia; [apply atom_hermitian|apply atom_lattice|exact (or_intror eq_refl)|cbn; lra| | |].
  - intros h [<- | [<- | []]]; vm_compute; discriminate.
  - split; [reflexivity|]. split; [lia|]. intros [|t] Hx; [cbn [atom m_pe m_pn nth]; lia|cbn in Hx; lia].
  - exists x. split; [exact Ex|]. replace (carried (atom lat Om g 1 1)) with 0%R in B by (unfold carried, psi1; cbn; lra).
    replace (coupling_sum (atom lat Om g 1 1)) with (2 * Rabs g)%R in B by (unfold coupling_sum; cbn [atom m_ham h_terms map fold_right ht_coupling]; rewrite Rabs_Ropp, Rmult_1_r; ring).
    cbn [atom m_ham h_hop] in B. replace (4 * Rabs g)%R with (2 * (2 * Rabs g))%R by ring. rewrite !Rmult_0_r, Rplus_0_r in B. unfold Rdiv in B at 1. rewrite Rmult_0_l, Rplus_0_l in B. exact B.
Qed.
Print Assumptions C67_code.

(** Against finitely many lines. *)
Theorem C67_lines : forall lat Om g k w eta P M N L logs m ord sp, Om <> 0%R -> (0 < eta)%R ->
  model_add Rnum (from_parameters 0%R lat 0%R None 1) (mkAdd "Holstein" Om M N None None (Some g) None None) = Ok (logs, m) -> ~ In LError logs ->
  1 <= P -> P - 1 <= N -> (forall k l, Permutation (ord k l) l) -> spsolve_ok sp ->
  exists x : C, greens (phys_env m k w eta) sp ord m = Ok x /\
    (Cabs (Csub x (lang_firsov Om g (w, eta) L)) <= sqrt (4 * Rabs g / (eta ^ 3 * sqrt (IZR P))) + (1 - sum_f_R0 (poisson (g / Om * (g / Om))) L) / eta)%R.
Proof.
  intros lat Om g k w eta P M N L logs m ord sp HO He Em NE P1 HN Pm SO. destruct (C67_code lat Om g k w eta HO He) as [G [T Q]].
  destruct (Q P M N logs m ord sp Em NE P1 HN Pm SO) as [x [Ex B]]. exists x. split; [exact Ex|].
  replace (Csub x (lang_firsov Om g (w, eta) L)) with (Cadd (Csub x G) (Csub G (lang_firsov Om g (w, eta) L))) by ring.
  eapply Rle_trans; [apply Physics_proofs.Cabs_triangle|]. apply Rplus_le_compat; [|exact (C67_tail Om g w eta G L He T)].
  unfold Cabs. apply sqrt_le_1_alt. fold (dist2 x G). assert (H3 : (0 < eta ^ 3)%R) by (apply pow_lt; exact He). assert (PP : (0 < sqrt (IZR P))%R) by (apply sqrt_lt_R0, IZR_lt; lia).
  apply (Rmult_le_reg_l (eta ^ 3)); [exact H3|]. eapply Rle_trans; [exact B|]. right. field. split; lra.
Qed.
Print Assumptions C67_lines.

Lemma atom_add : forall g M N, 1 <= M -> 1 <= N -> model_add Rnum (from_parameters 0%R 1%R 0%R None 1) (mkAdd "Holstein" 2%R M N None None (Some g) None None) = Ok ([LDebug], atom 1 2 g M N).
Proof.
  intros g M N HM HN. unfold model_add. cbn [from_parameters m_temp Rnum n_ltb n_0 a_N a_M a_Mtfd a_Ntfd a_cs a_dcs a_override is_none lt1 orb xorb negb].
  destruct (Rlt_dec 0 0) as [H|H]; [lra|]. cbn [andb]. destruct (Z.ltb_spec M 1); [lia|]. destruct (Z.ltb_spec N 1); [lia|]. cbn [orb]. rewrite ?andb_false_r. unfold tfd_prefactors. cbn [Rnum n_ltb n_0].
  destruct (Rlt_dec 0 0) as [H'|_]; [lra|]. reflexivity.
Qed.

(** Frequency 2, coupling 4: mean 4; the polaron is at -8 with weight e^-4; the
    number with q^2 phonons on one site at eta = 1 is within 4 / sqrt q of the sum. *)
Example C67_nonvacuous : poisson (4 / 2 * (4 / 2)) 0 = exp (-4) /\ polaron_level 2 4 0 = (-8)%R /\
  forall k w, exists G : C, tends (lang_firsov 2 4 (w, 1%R)) G /\
    forall q, 1 <= q -> exists x : C, greens (phys_env (atom 1 2 4 1 (q * q)) k w 1) (gauss_sparse (F := CF) C_eq_dec) id_ord (atom 1 2 4 1 (q * q)) = Ok x /\ (dist2 x G <= 16 / IZR q)%R.
Proof.
  split; [|split].
  - unfold poisson. cbn [fact pow]. replace (- (4 / 2 * (4 / 2)))%R with (-4)%R by field. cbn [INR]. field.
  - unfold polaron_level. cbn [INR]. field.
  - intros k w. destruct (C67_code 1 2 4 k w 1 ltac:(lra) ltac:(lra)) as [G [T Q]]. exists G. split; [exact T|]. intros q Hq.
    destruct (Q (q * q) 1 (q * q) [LDebug] _ id_ord (gauss_sparse (F := CF) C_eq_dec) (atom_add 4 1 (q * q) ltac:(lia) ltac:(nia)) ltac:(intros [H | []]; discriminate) ltac:(nia) ltac:(nia) id_perm (gauss_spsolve_ok (F := CF) C_eq_dec)) as [x [Ex B]].
    exists x. split; [exact Ex|]. rewrite pow1, Rmult_1_l, mult_IZR, sqrt_square in B by (apply IZR_le; lia). rewrite (Rabs_right 4) in B by lra. replace (4 * 4)%R with 16%R in B by ring. exact B.
Qed.
Print Assumptions C67_nonvacuous.
