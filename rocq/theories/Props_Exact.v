(** Property theorem C66: the computed Green's function converges to that of the
    Hamiltonian on all states when extents and numbers of phonons grow. *)
From Coq Require Import String ZArith List Bool Lia Permutation Reals Lra.
From Verif Require Import Base NdArray Config Spec Model HModel Space Spec_space Term Equation System Spec_engine Props_Engine
  Ring Coef Spec_eom Solvers Spec_solve LinSolve Spec_model Spec_sym Cplx Physics Props_Physics Props_Model Props_Solve Props_Sym Spec_spectral Props_Spectral
  Spec_ma Props_MA Spec_self Spec_green Props_Green Spec_cutoff Props_Cutoff Spec_extent Props_Extent Spec_exact.
From Verif Require HModel_proofs Physics_proofs Green_proofs Bounded_proofs Cutoff_proofs Extent_proofs Exact_proofs.
Import ListNotations.
Open Scope list_scope.
Open Scope Z_scope.

(** The same Hamiltonian with other limits. *)
Definition with_limits (m : model R) (e n : Z) : model R :=
  mkModel (m_lattice m) (m_temp m) (m_ham m) (m_mps m) (repeat e (m_ntypes m)) (repeat n (m_ntypes m)) None (m_ntypes m).
Lemma limits_good : forall m ae e n, good_model m ae -> 1 <= e -> 1 <= n -> good_model (with_limits m e n) e.
Proof.
  intros m ae e n G He Hn. pose proof (numbers_good _ _ n (extents_good m ae e G He) Hn) as [? ? ? ? ? ? ? ? ? ? ? ? ?]. constructor; assumption.
Qed.

(** The functional <k| (z - H)^-1 on all states with finitely many phonons
    exists, ... *)
Theorem C66_exists : forall m ae c k w eta, good_model m ae -> hermitian (phys_env m k w eta) m -> on_lattice m c ->
  exact_lattice m -> (0 <= h_hop (m_ham m))%R -> (0 < eta)%R -> exists Psi, exact_row m c k (w, eta) Psi.
Proof.
  intros m ae c k w eta G H L Hl Ht He. destruct (Extent_proofs.couples_ex m c) as [rho [R0 CW]].
  set (side := fun q : nat => Z.of_nat q + 1). set (ee := fun q => 2 * (side q * (side q * side q) + rho) - 1).
  set (mm := fun q => with_limits m (ee q) (side q * side q)).
  assert (S1 : forall q, 1 <= side q) by (intros q; unfold side; lia). assert (S2 : forall q, 1 <= side q * side q) by (intros q; specialize (S1 q); nia).
  assert (S3 : forall q, 1 <= ee q) by (intros q; unfold ee; specialize (S1 q); specialize (S2 q); nia).
  assert (GM : forall q, good_model (mm q) (ee q)) by (intros q; apply (limits_good m ae); [exact G|apply S3|apply S2]).
  destruct (Exact_proofs.rows_choice (fun q Psi => greens_row (mm q) (ee q) c k (w, eta) Psi)) as [Ps Ro].
  - intros q. apply C56_exists; [apply GM|exact H|exact L|exact Hl|exact Ht|exact He].
  - intros q Psi Psi' R R'. apply (C56_unique (mm q) (ee q) c k w eta); [apply GM|exact H|exact L|exact Hl|exact Ht|exact He|exact R|exact R'].
  - destruct (Exact_proofs.limit_rows m ae c k w eta He G L H rho R0 CW mm ee Ps GM (fun _ => eq_refl) (fun _ => eq_refl) (fun _ => eq_refl)) as [F [HF [HR HN]]].
    + intros q. split; [reflexivity|]. split; [unfold ee, side; lia|]. intros t Hx. cbn [mm with_limits m_pe m_pn]. rewrite !nth_repeat_lt by exact Hx. unfold ee, side. lia.
    + exact Ro.
    + eexists. exact (Exact_proofs.rows_exact m ae c k w eta G F _ HF HR HN).
Qed.
Print Assumptions C66_exists.

(** ... is unique, ... *)
Theorem C66_unique : forall m ae c k w eta Psi Psi', good_model m ae -> hermitian (phys_env m k w eta) m -> on_lattice m c -> (0 < eta)%R ->
  exact_row m c k (w, eta) Psi -> exact_row m c k (w, eta) Psi' -> forall n j, Psi n j = Psi' n j.
Proof.
  intros m ae c k w eta Psi Psi' G H L He E E' n j. destruct (Extent_proofs.couples_ex m c) as [rho [R0 CW]].
  destruct (Exact_proofs.exact_norm m c k w eta Psi E) as [V HV]. destruct (Exact_proofs.exact_norm m c k w eta Psi' E') as [V' HV'].
  rewrite (Extent_proofs.frame m k Psi (er_momentum _ _ _ _ _ E) n j), (Extent_proofs.frame m k Psi' (er_momentum _ _ _ _ _ E') n j). f_equal.
  exact (Exact_proofs.rows_unique m ae c k w eta He G L H rho R0 CW _ _ V V' (Exact_proofs.exact_support m c k w eta Psi E) (Exact_proofs.exact_support m c k w eta Psi' E')
    (Exact_proofs.exact_rows m c k w eta Psi E) (Exact_proofs.exact_rows m c k w eta Psi' E') HV HV' _).
Qed.
Print Assumptions C66_unique.

(** ... and its value on the phonon-free state has the sign and the bound of a
    Green's function. *)
Theorem C66_spectral : forall m ae c k w eta Psi, good_model m ae -> hermitian (phys_env m k w eta) m -> on_lattice m c -> (0 < eta)%R ->
  exact_row m c k (w, eta) Psi -> (Im (Psi vacuum 0%Z) < 0)%R /\ (Cabs (Psi vacuum 0%Z) <= 1 / eta)%R.
Proof.
  intros m ae c k w eta Psi G H L He E. destruct (Extent_proofs.couples_ex m c) as [rho [R0 CW]]. destruct (Exact_proofs.exact_norm m c k w eta Psi E) as [V HV].
  pose proof (Exact_proofs.exact_support m c k w eta Psi E) as HF. pose proof (Exact_proofs.exact_rows m c k w eta Psi E) as HR. split.
  - exact (Exact_proofs.rows_negative m ae c k w eta He G L H rho R0 CW _ V HF HR HV).
  - pose proof (Exact_proofs.rows_norm m ae c k w eta He G L H rho R0 CW _ V HF HR HV 0 [vacuum] ltac:(lia) ltac:(repeat constructor; intros [])
      ltac:(intros n [<- | []]; split; [exact (Exact_proofs.full_vacuum m ae G)|apply Reach_proofs.inside_vacuum])) as B.
    cbn [map] in B. unfold Toeplitz_proofs.Rsum, Reach_proofs.mass in B. cbn [fold_right] in B. rewrite Walk_proofs.wt_vacuum in B.
    assert (P : (0 < 1 / eta)%R) by (apply Rdiv_lt_0_compat; lra). unfold Cabs. rewrite <- (sqrt_square (1 / eta)%R) by lra. apply sqrt_le_1_alt.
    replace (1 / eta * (1 / eta))%R with (1 / (eta * eta))%R by (field; lra). lra.
Qed.
Print Assumptions C66_spectral.

(** The number that SparseSolver returns for a model with room for P - 1 phonons
    of each type on 2 (K + rho) - 1 sites:
    eta^3 |g - G|^2 <= 4 t / K + 2 sqrt P carried / K + 2 couplings / sqrt P. *)
Theorem C66_error : forall m m' ae ae' c ord sp k w eta rho K P Psi, good_model m ae -> good_model m' ae' -> same_physics m m' ->
  hermitian (phys_env m k w eta) m -> on_lattice m c -> exact_lattice m -> (0 <= h_hop (m_ham m))%R -> (0 < eta)%R ->
  (forall k l, Permutation (ord k l) l) -> spsolve_ok sp -> 0 <= rho -> couples_within m c rho ->
  exact_row m c k (w, eta) Psi -> 1 <= K -> 1 <= P -> room m m' ae' (2 * (K + rho) - 1) (P - 1) ->
  exists g : C, greens (phys_env m' k w eta) sp ord m' = Ok g /\
    (eta ^ 3 * dist2 g (Psi vacuum 0%Z) <= (4 * h_hop (m_ham m) + 2 * sqrt (IZR P) * carried m) / IZR K + 2 * coupling_sum m / sqrt (IZR P))%R.
Proof.
  intros m m' ae ae' c ord sp k w eta rho K P Psi G G' [E1 [E2 E3]] H L Hl Ht He Pm SO R0 CW E HK HP Rm.
  assert (H' : hermitian (phys_env m' k w eta) m') by (rewrite (Cutoff_proofs.phys_same m m') by assumption; unfold hermitian; rewrite <- E1; exact H).
  assert (L' : on_lattice m' c) by (unfold on_lattice; rewrite <- E1; exact L). assert (Hl' : exact_lattice m') by (unfold exact_lattice; rewrite <- E1, <- E2; exact Hl).
  assert (Ht' : (0 <= h_hop (m_ham m'))%R) by (rewrite <- E1; exact Ht).
  destruct (C56_exists m' ae' c k w eta G' H' L' Hl' Ht' He) as [Ps Ro]. exists (Ps vacuum 0). split; [exact (C56_green m' ae' c ord sp k w eta Ps G' H' L' Hl' Ht' He Pm SO Ro)|].
  destruct (Exact_proofs.exact_norm m c k w eta Psi E) as [V HV].
  pose proof (Exact_proofs.exact_error m ae c k w eta He G L H rho R0 CW _ V m' ae' Ps K P (Exact_proofs.exact_support m c k w eta Psi E) (Exact_proofs.exact_rows m c k w eta Psi E) HV
    G' E1 E2 E3 Ro HK HP Rm) as B.
  rewrite (Rabs_right (h_hop (m_ham m))) in B by lra. fold (dist2 (Ps vacuum 0) (Psi vacuum 0)) in B. set (d := dist2 _ _) in *.
  assert (PK : (0 < IZR K)%R) by (apply IZR_lt; lia). assert (PP : (0 < IZR P)%R) by (apply IZR_lt; lia). pose proof (sqrt_lt_R0 _ PP) as PS. pose proof (sqrt_sqrt (IZR P) ltac:(lra)) as SS.
  apply (Rmult_le_reg_l (IZR P * IZR K)); [apply Rmult_lt_0_compat; assumption|]. set (s := sqrt (IZR P)) in *.
  replace (IZR P * IZR K * (eta ^ 3 * d))%R with (eta * eta * eta * (IZR P * IZR K) * d)%R by ring. eapply Rle_trans; [exact B|]. right.
  rewrite <- SS. field. split; apply Rgt_not_eq; assumption.
Qed.
Print Assumptions C66_error.

(** Hence every sequence of limits that grow beyond all bounds gives the same
    result: the exact Green's function. *)
Theorem C66_converges : forall m ae c k w eta Psi eps, good_model m ae -> hermitian (phys_env m k w eta) m -> on_lattice m c -> exact_lattice m ->
  (0 <= h_hop (m_ham m))%R -> (0 < eta)%R -> exact_row m c k (w, eta) Psi -> (0 < eps)%R ->
  exists M N, forall m' ae' ord sp, good_model m' ae' -> same_physics m m' -> room m m' ae' M N -> (forall k l, Permutation (ord k l) l) -> spsolve_ok sp ->
    exists g : C, greens (phys_env m' k w eta) sp ord m' = Ok g /\ (dist2 g (Psi vacuum 0%Z) <= eps)%R.
Proof.
  intros m ae c k w eta Psi eps G H L Hl Ht He E Hp. destruct (Extent_proofs.couples_ex m c) as [rho [R0 CW]].
  assert (H3 : (0 < eta ^ 3)%R) by (apply pow_lt; exact He). set (y := (eta ^ 3 * eps / 2)%R). assert (Y0 : (0 < y)%R) by (unfold y; apply Rdiv_lt_0_compat; [apply Rmult_lt_0_compat; assumption|lra]).
  assert (AR : forall x, exists z, 1 <= z /\ (x <= y * IZR z)%R).
  { intros x. destruct (archimed (x / y)) as [U _]. exists (Z.max 1 (up (x / y))). split; [lia|]. apply Rle_trans with (y * (x / y))%R; [right; field; lra|]. apply Rmult_le_compat_l; [lra|].
    left. eapply Rlt_le_trans; [exact U|apply IZR_le; lia]. }
  destruct (AR (2 * coupling_sum m)%R) as [p [P1 HP]]. destruct (AR (4 * h_hop (m_ham m) + 2 * sqrt (IZR (p * p)) * carried m)%R) as [K [K1 HK]].
  exists (2 * (K + rho) - 1), (p * p - 1). intros m' ae' ord sp G' S Rm Pm SO.
  destruct (C66_error m m' ae ae' c ord sp k w eta rho K (p * p) Psi G G' S H L Hl Ht He Pm SO R0 CW E K1 ltac:(nia) Rm) as [g [Eg B]]. exists g. split; [exact Eg|].
  apply (Rmult_le_reg_l (eta ^ 3)); [exact H3|]. eapply Rle_trans; [exact B|]. replace (eta ^ 3 * eps)%R with (y + y)%R by (unfold y; field).
  assert (SP : sqrt (IZR (p * p)) = IZR p) by (rewrite mult_IZR; apply sqrt_square; apply IZR_le; lia).
  assert (Kp : (0 < IZR K)%R) by (apply IZR_lt; lia). assert (Pp : (0 < IZR p)%R) by (apply IZR_lt; lia).
  assert (DV : forall x z, (0 < z)%R -> (x <= y * z)%R -> (x / z <= y)%R).
  { intros x z Z0 Hx. apply (Rmult_le_reg_r z); [exact Z0|]. replace (x / z * z)%R with x by (field; lra). exact Hx. }
  apply Rplus_le_compat; apply DV; [exact Kp|exact HK|rewrite SP; exact Pp|rewrite SP; exact HP].
Qed.
Print Assumptions C66_converges.

(** Every model made by the public calls. *)
Theorem C66_histories : forall m fs cs k w eta, built Rnum 1 m fs cs -> cs <> [] -> distinct Rnum fs ->
  (forall k, m_mps m = Some k -> 1 <= k) -> (forall e, m_aext m = Some e -> 1 <= e) ->
  (forall c, In c cs -> c = "BondPeierls"%string) \/ (forall c, In c cs -> c <> "BondPeierls"%string) ->
  exact_lattice m -> (0 <= h_hop (m_ham m))%R -> (0 < eta)%R ->
  exists c Psi, exact_row m c k (w, eta) Psi /\ (forall Psi', exact_row m c k (w, eta) Psi' -> forall n j, Psi n j = Psi' n j) /\
    forall m' ae' ord sp K P, good_model m' ae' -> same_physics m m' -> 1 <= K -> 1 <= P -> room m m' ae' (2 * K + 1) (P - 1) ->
      (forall k l, Permutation (ord k l) l) -> spsolve_ok sp ->
      exists g : C, greens (phys_env m' k w eta) sp ord m' = Ok g /\
        (eta ^ 3 * dist2 g (Psi vacuum 0%Z) <= (4 * h_hop (m_ham m) + 2 * sqrt (IZR P) * carried m) / IZR K + 2 * coupling_sum m / sqrt (IZR P))%R.
Proof.
  intros m fs cs k w eta B Hc D Hm Ha Hb Hl Ht He. destruct (HModel_proofs.built_good Rnum (proj1 Rnum_ok) m fs cs B Hc D Hm Ha Hb) as [ae G].
  destruct (Extent_proofs.built_couples m fs cs ae B G (proj1 Rnum_ok)) as [c [L CW]]. pose proof (C51_hermitian m fs cs ae k w eta B G) as H.
  destruct (C66_exists m ae c k w eta G H L Hl Ht He) as [Psi E]. exists c, Psi. split; [exact E|]. split; [intros Psi' E'; exact (C66_unique m ae c k w eta Psi Psi' G H L He E E')|].
  intros m' ae' ord sp K P G' S K1 P1 Rm Pm SO. apply (C66_error m m' ae ae' c ord sp k w eta 1 K P Psi); try assumption; try lia.
  replace (2 * (K + 1) - 1) with (2 * K + 1) by lia. exact Rm.
Qed.
Print Assumptions C66_histories.

(** Holstein: there is one number G such that add_("Holstein", ...) with
    phonon_extent at least M0 and phonon_number at least N0 gives a Green's
    function within any distance of G. *)
Theorem C66_holstein : forall hop lat mps fr g k w eta, (forall k, mps = Some k -> 1 <= k) -> lat = 1%R \/ hop = 0%R -> (0 <= hop)%R -> (0 < eta)%R ->
  exists G : C, (Im G < 0)%R /\ (Cabs G <= 1 / eta)%R /\
    forall K P M N logs m ord sp, model_add Rnum (from_parameters hop lat 0%R mps 1) (mkAdd "Holstein" fr M N None None (Some g) None None) = Ok (logs, m) -> ~ In LError logs ->
      1 <= K -> 1 <= P -> 2 * K - 1 <= M -> P - 1 <= N -> (forall k l, Permutation (ord k l) l) -> spsolve_ok sp ->
      exists x : C, greens (phys_env m k w eta) sp ord m = Ok x /\ (eta ^ 3 * dist2 x G <= 4 * hop / IZR K + 4 * Rabs g / sqrt (IZR P))%R.
Proof.
  intros hop lat mps fr g k w eta Hk Hl Ht He.
  set (mk := fun M N => mkModel lat 0%R (mkHam [mkHterm "Holstein" (iv 0) (iv 0) Plus (- (g * 1))%R 0 fr; mkHterm "Holstein" (iv 0) (iv 0) Minus (- (g * 1))%R 0 fr] [fr] 1 hop) mps [M] [N] None 1).
  assert (GM : forall M N, 1 <= M -> 1 <= N -> good_model (mk M N) M) by (intros M N H1 H2; apply (holstein_good hop lat mps (- (g * 1))%R fr M N H1 H2 Hk)).
  assert (L : forall M N, on_lattice (mk M N) 0) by (intros M N h [<- | [<- | []]]; (split; exists 0; reflexivity)).
  assert (H : forall M N, hermitian (phys_env (mk M N) k w eta) (mk M N)).
  { intros M N. eexists. split; [apply perm_swap|]. cbn [mk m_ham h_terms]. constructor; [|constructor; [|constructor]]; (split; [reflexivity|]; split; [reflexivity|]; split; [reflexivity|]; split; [reflexivity|]; split; [|reflexivity]); cbn; apply Cplx.Ceq; cbn; ring. }
  assert (CW : forall M N, couples_within (mk M N) 0 0) by (intros M N h [<- | [<- | []]]; vm_compute; discriminate).
  destruct (C66_exists (mk 1 1) 1 0 k w eta (GM 1 1 ltac:(lia) ltac:(lia)) (H 1 1) (L 1 1) Hl Ht He) as [Psi E]. exists (Psi vacuum 0).
  destruct (C66_spectral _ _ _ _ _ _ Psi (GM 1 1 ltac:(lia) ltac:(lia)) (H 1 1) (L 1 1) He E) as [S1 S2]. split; [exact S1|]. split; [exact S2|].
  intros K P M N logs m ord sp Em NE K1 P1 HM HN Pm SO.
  destruct (holstein_call hop lat mps (mkAdd "Holstein" fr M N None None (Some g) None None) g logs m eq_refl eq_refl (or_introl eq_refl) Em NE) as [-> [H1 H2]]. cbn [a_M a_N a_freq] in *. fold (mk M N).
  destruct (C66_error (mk 1 1) (mk M N) 1 M 0 ord sp k w eta 0 K P Psi (GM 1 1 ltac:(lia) ltac:(lia)) (GM M N H1 H2)) as [x [Ex B]]; try assumption; try (repeat split; reflexivity); try lia; [apply H|apply L|apply CW| |].
  - split; [reflexivity|]. split; [lia|]. intros [|t] Hx; [cbn [mk m_pe m_pn nth]; lia|cbn in Hx; lia].
  - exists x. split; [exact Ex|]. replace (carried (mk 1 1)) with 0%R in B by (unfold carried, psi1; cbn; lra).
    replace (coupling_sum (mk 1 1)) with (2 * Rabs g)%R in B by (unfold coupling_sum; cbn [mk m_ham h_terms map fold_right ht_coupling]; rewrite Rabs_Ropp, Rmult_1_r; ring).
    cbn [mk m_ham h_hop] in B. replace (4 * Rabs g)%R with (2 * (2 * Rabs g))%R by ring. rewrite Rmult_0_r, Rplus_0_r in B. exact B.
Qed.
Print Assumptions C66_holstein.

Definition wide_many (M N : Z) : model R :=
  mkModel 1%R 0%R (mkHam [mkHterm "Holstein" (iv 0) (iv 0) Plus (- (3 * 1))%R 0 2%R; mkHterm "Holstein" (iv 0) (iv 0) Minus (- (3 * 1))%R 0 2%R] [2%R] 1 1%R) None [M] [N] None 1.
Lemma wide_many_add : forall M N, 1 <= M -> 1 <= N -> model_add Rnum (from_parameters 1%R 1%R 0%R None 1) (mkAdd "Holstein" 2%R M N None None (Some 3%R) None None) = Ok ([LDebug], wide_many M N).
Proof.
  intros M N HM HN. unfold model_add. cbn [from_parameters m_temp Rnum n_ltb n_0 a_N a_M a_Mtfd a_Ntfd a_cs a_dcs a_override is_none lt1 orb xorb negb].
  destruct (Rlt_dec 0 0) as [H|H]; [lra|]. cbn [andb]. destruct (Z.ltb_spec M 1); [lia|]. destruct (Z.ltb_spec N 1); [lia|]. cbn [orb]. rewrite ?andb_false_r. unfold tfd_prefactors. cbn [Rnum n_ltb n_0].
  destruct (Rlt_dec 0 0) as [H'|_]; [lra|]. reflexivity.
Qed.

(** The Holstein model with hopping 1, coupling 3 and frequency 2 at eta = 1:
    with 15 sites and 575 phonons |g - G|^2 <= 1, with 2 q - 1 sites and q^2
    phonons |g - G|^2 <= 16 / q. *)
Example C66_nonvacuous : forall k w, exists G : C, (Im G < 0)%R /\
  (exists g : C, greens (phys_env (wide_many 15 575) k w 1) (gauss_sparse (F := CF) C_eq_dec) id_ord (wide_many 15 575) = Ok g /\ (dist2 g G <= 1)%R) /\
  forall q, 1 <= q -> exists g : C, greens (phys_env (wide_many (2 * q - 1) (q * q)) k w 1) (gauss_sparse (F := CF) C_eq_dec) id_ord (wide_many (2 * q - 1) (q * q)) = Ok g /\ (dist2 g G <= 16 / IZR q)%R.
Proof.
  intros k w. destruct (C66_holstein 1 1 None 2 3 k w 1 ltac:(discriminate) (or_introl eq_refl) ltac:(lra) ltac:(lra)) as [G [I [_ Q]]]. exists G. split; [exact I|].
  assert (Q' : forall K p M N, 1 <= K -> 1 <= p -> 1 <= M -> 1 <= N -> 2 * K - 1 <= M -> p * p - 1 <= N -> exists g : C,
    greens (phys_env (wide_many M N) k w 1) (gauss_sparse (F := CF) C_eq_dec) id_ord (wide_many M N) = Ok g /\ (dist2 g G <= 4 / IZR K + 12 / IZR p)%R).
  { intros K p M N K1 P1 M1 N1 HM HN.
    destruct (Q K (p * p) M N [LDebug] (wide_many M N) id_ord (gauss_sparse (F := CF) C_eq_dec) (wide_many_add M N M1 N1) ltac:(intros [H | []]; discriminate) K1 ltac:(nia) HM HN id_perm (gauss_spsolve_ok (F := CF) C_eq_dec)) as [g [Eg B]].
    exists g. split; [exact Eg|]. rewrite pow1, Rmult_1_l, Rmult_1_r, mult_IZR, sqrt_square in B by (apply IZR_le; lia). rewrite (Rabs_right 3) in B by lra. replace (4 * 3)%R with 12%R in B by ring. exact B. }
  split.
  - destruct (Q' 8 24 15 575) as [g [Eg B]]; try lia. exists g. split; [exact Eg|]. lra.
  - intros q Hq. destruct (Q' q q (2 * q - 1) (q * q)) as [g [Eg B]]; try nia. exists g. split; [exact Eg|]. replace (16 / IZR q)%R with (4 / IZR q + 12 / IZR q)%R; [exact B|].
    field. apply Rgt_not_eq. apply IZR_lt. lia.
Qed.
Print Assumptions C66_nonvacuous.
