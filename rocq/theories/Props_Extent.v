(** Property theorem C65: the computed Green's function converges as the extents
    of the clouds grow, with a rate. *)
From Coq Require Import String ZArith List Bool Lia Permutation Reals Lra.
From Verif Require Import Base NdArray Config Spec Model HModel Space Spec_space Term Equation System Spec_engine Props_Engine
  Ring Coef Spec_eom Solvers Spec_solve LinSolve Spec_model Spec_sym Cplx Physics Props_Physics Props_Model Props_Solve Props_Sym Spec_spectral Props_Spectral
  Spec_ma Props_MA Spec_self Spec_green Props_Green Spec_cutoff Props_Cutoff Spec_extent.
From Verif Require HModel_proofs Physics_proofs Green_proofs Bounded_proofs Cutoff_proofs Extent_proofs.
Import ListNotations.
Open Scope list_scope.
Open Scope Z_scope.

(** Two variational spaces of the same Hamiltonian with the same clouds of up to
    2 (K + rho) - 1 sites, and at most N phonons in a mode:
    |G - G'|^2 <= (4 t + 2 sqrt N carried) / (eta^3 K). *)
Theorem C65_spaces : forall m m' ae ae' c ord ord' sp sp' k w eta N rho K, good_model m ae -> good_model m' ae' -> same_physics m m' ->
  hermitian (phys_env m k w eta) m -> on_lattice m c -> exact_lattice m -> (0 <= h_hop (m_ham m))%R -> (0 < eta)%R ->
  (forall k l, Permutation (ord k l) l) -> (forall k l, Permutation (ord' k l) l) -> spsolve_ok sp -> spsolve_ok sp' ->
  at_most m ae N -> at_most m' ae' N -> 0 <= rho -> couples_within m c rho -> 1 <= K -> same_narrow m ae m' ae' (2 * (K + rho) - 1) ->
  exists g g' : C, greens (phys_env m k w eta) sp ord m = Ok g /\ greens (phys_env m' k w eta) sp' ord' m' = Ok g' /\
    (eta ^ 3 * IZR K * dist2 g g' <= 4 * h_hop (m_ham m) + 2 * sqrt (IZR N) * carried m)%R.
Proof.
  intros m m' ae ae' c ord ord' sp sp' k w eta N rho K G G' [E1 [E2 E3]] H L Hl Ht He P P' SO SO' AN AN' R0 CW K1 SN.
  assert (H' : hermitian (phys_env m' k w eta) m') by (rewrite (Cutoff_proofs.phys_same m m') by assumption; unfold hermitian; rewrite <- E1; exact H).
  assert (L' : on_lattice m' c) by (unfold on_lattice; rewrite <- E1; exact L). assert (Hl' : exact_lattice m') by (unfold exact_lattice; rewrite <- E1, <- E2; exact Hl).
  assert (Ht' : (0 <= h_hop (m_ham m'))%R) by (rewrite <- E1; exact Ht).
  destruct (C56_exists m ae c k w eta G H L Hl Ht He) as [Psi Ro]. destruct (C56_exists m' ae' c k w eta G' H' L' Hl' Ht' He) as [Psi' Ro'].
  exists (Psi vacuum 0), (Psi' vacuum 0). split; [exact (C56_green m ae c ord sp k w eta Psi G H L Hl Ht He P SO Ro)|].
  split; [exact (C56_green m' ae' c ord' sp' k w eta Psi' G' H' L' Hl' Ht' He P' SO' Ro')|].
  assert (AM : forall (n : model R) aen, at_most n aen N -> at_most n aen (Z.max 0 N)) by (intros n aen A a t x Sa; specialize (A a t x Sa); lia).
  pose proof (Extent_proofs.extent_error m m' ae ae' c k w eta He G G' L E1 E2 E3 H (Z.max 0 N) rho ltac:(lia) (AM _ _ AN) (AM _ _ AN') R0 CW Psi Psi' Ro Ro' K K1 SN) as B.
  assert (SQ : sqrt (IZR (Z.max 0 N)) = sqrt (IZR N)).
  { destruct (Z.max_spec 0 N) as [[_ ->]|[Hn ->]]; [reflexivity|]. rewrite sqrt_0. symmetry. apply sqrt_neg_0. apply IZR_le. exact Hn. }
  rewrite SQ, (Rabs_right (h_hop (m_ham m))) in B by lra. unfold dist2. replace (eta ^ 3)%R with (eta * eta * eta)%R by ring. exact B.
Qed.
Print Assumptions C65_spaces.

(** Models that differ in the extents only. *)
Theorem C65_extents : forall m m' ae ae' c ord ord' sp sp' k w eta N rho K, good_model m ae -> good_model m' ae' -> same_physics m m' ->
  hermitian (phys_env m k w eta) m -> on_lattice m c -> exact_lattice m -> (0 <= h_hop (m_ham m))%R -> (0 < eta)%R ->
  (forall k l, Permutation (ord k l) l) -> (forall k l, Permutation (ord' k l) l) -> spsolve_ok sp -> spsolve_ok sp' ->
  same_numbers m m' -> (forall t, (t < m_ntypes m)%nat -> nth t (m_pn m) 0 <= N) -> 0 <= rho -> couples_within m c rho -> 1 <= K ->
  extents_agree m m' ae ae' (2 * (K + rho) - 1) ->
  exists g g' : C, greens (phys_env m k w eta) sp ord m = Ok g /\ greens (phys_env m' k w eta) sp' ord' m' = Ok g' /\
    (eta ^ 3 * IZR K * dist2 g g' <= 4 * h_hop (m_ham m) + 2 * sqrt (IZR N) * carried m)%R.
Proof.
  intros m m' ae ae' c ord ord' sp sp' k w eta N rho K G G' S H L Hl Ht He P P' SO SO' SN HN R0 CW K1 EA. pose proof S as [E1 [E2 E3]].
  assert (NT : (0 < m_ntypes m)%nat) by (destruct (gm_minus _ _ G) as [h [Hh _]]; pose proof (gm_index _ _ G h Hh); lia).
  assert (N0 : 0 <= N) by (pose proof (HN 0%nat NT); pose proof (gm_pn _ _ G 0%nat NT); lia).
  apply (C65_spaces m m' ae ae' c ord ord' sp sp' k w eta N rho K); try assumption.
  - apply Extent_proofs.numbers_at_most; assumption.
  - apply Extent_proofs.numbers_at_most; [|exact N0]. intros t Hn. destruct SN as [<- _]. apply HN. rewrite E3. exact Hn.
  - intros a Wa. split; [apply (Extent_proofs.narrow_clouds m m' ae ae' _ E3 SN EA a Wa)|].
    apply (Extent_proofs.narrow_clouds m' m ae' ae (2 * (K + rho) - 1)); [congruence|destruct SN; split; congruence|apply Extent_proofs.extents_sym; assumption|exact Wa].
Qed.
Print Assumptions C65_extents.

Lemma lmax_repeat : forall e n, (0 < n)%nat -> lmaxZ (repeat e n) = Some e.
Proof.
  intros e n H. destruct n as [|n]; [lia|]. cbn [repeat lmaxZ]. f_equal. clear H. induction n as [|n IH]; [reflexivity|]. cbn [repeat fold_left]. rewrite Z.max_id. exact IH.
Qed.

Lemma extents_good : forall (m : model R) ae e, good_model m ae -> 1 <= e -> good_model (with_extents m (repeat e (m_ntypes m))) e.
Proof.
  intros m ae e G He. assert (NT : (0 < m_ntypes m)%nat) by (destruct (gm_minus _ _ G) as [h [Hh _]]; pose proof (gm_index _ _ G h Hh); lia).
  pose proof G as [[W1 [W2 [W3 W4]]] ? ? ? ? ? ? ? ? ? ? ? ?]. constructor; try assumption.
  - split; [exact W1|]. split; [apply repeat_length|]. split; [exact W3|]. exact W4.
  - unfold absolute_extent. cbn [with_extents m_aext m_pe]. apply lmax_repeat. exact NT.
  - intros t Ht. cbn [with_extents m_pe m_ntypes] in *. rewrite nth_repeat_lt by exact Ht. exact He.
Qed.

(** The limit of clouds of any extent exists, and every result with room for
    clouds of 2 (K + rho) - 1 sites is within the same distance of it. *)
Theorem C65_limit : forall m ae c k w eta N rho, good_model m ae -> hermitian (phys_env m k w eta) m -> on_lattice m c -> exact_lattice m ->
  (0 <= h_hop (m_ham m))%R -> (0 < eta)%R -> (forall t, (t < m_ntypes m)%nat -> nth t (m_pn m) 0 <= N) -> 0 <= rho -> couples_within m c rho ->
  exists G : C, (Im G <= 0)%R /\ (Cabs G <= 1 / eta)%R /\
    forall m' ae' ord sp K, good_model m' ae' -> same_physics m m' -> same_numbers m m' -> 1 <= K -> 2 * (K + rho) - 1 <= ae' ->
      (forall t, (t < m_ntypes m')%nat -> 2 * (K + rho) - 1 <= nth t (m_pe m') 0) ->
      (forall k l, Permutation (ord k l) l) -> spsolve_ok sp ->
      exists g : C, greens (phys_env m' k w eta) sp ord m' = Ok g /\
        (eta ^ 3 * IZR K * dist2 g G <= 4 * h_hop (m_ham m) + 2 * sqrt (IZR N) * carried m)%R.
Proof.
  intros m ae c k w eta N rho G0' H L Hl Ht He HN R0 CW.
  set (ee := fun n : nat => 2 * (Z.of_nat n + 1 + rho) - 1).
  set (mm := fun n : nat => with_extents m (repeat (ee n) (m_ntypes m))).
  assert (GM : forall n, good_model (mm n) (ee n)) by (intros n; apply (extents_good m ae); [exact G0'|unfold ee; lia]).
  set (sp0 := gauss_sparse (F := CF) C_eq_dec). assert (SO0 : spsolve_ok sp0) by apply gauss_spsolve_ok.
  set (g := fun n => match greens (phys_env (mm n) k w eta) sp0 id_ord (mm n) with Ok x => x | Err _ => Cplx.C0 end).
  set (B0 := (4 * h_hop (m_ham m) + 2 * sqrt (IZR N) * carried m)%R).
  assert (Q : forall n m' ae' ord sp K, K <= Z.of_nat n + 1 -> good_model m' ae' -> same_physics m m' -> same_numbers m m' -> 1 <= K -> 2 * (K + rho) - 1 <= ae' ->
    (forall t, (t < m_ntypes m')%nat -> 2 * (K + rho) - 1 <= nth t (m_pe m') 0) -> (forall k l, Permutation (ord k l) l) -> spsolve_ok sp ->
    exists x : C, greens (phys_env m' k w eta) sp ord m' = Ok x /\ (eta ^ 3 * IZR K * dist2 x (g n) <= B0)%R).
  { intros n m' ae' ord sp K Hn G' [E1 [E2 E3]] [X1 X2] K1 Ka Ke P SO.
    destruct (C65_extents m' (mm n) ae' (ee n) c ord id_ord sp sp0 k w eta N rho K G' (GM n)) as [x [y [Ex [Ey B]]]]; try assumption.
    - repeat split; cbn [mm with_extents m_ham m_lattice m_ntypes]; congruence.
    - rewrite (Cutoff_proofs.phys_same m m') by congruence. unfold hermitian. rewrite <- E1. exact H.
    - unfold on_lattice. rewrite <- E1. exact L.
    - unfold exact_lattice. rewrite <- E1, <- E2. exact Hl.
    - rewrite <- E1. exact Ht.
    - exact id_perm.
    - split; cbn [mm with_extents m_pn m_mps]; congruence.
    - intros t Hx. rewrite <- X1. apply HN. rewrite E3. exact Hx.
    - unfold couples_within. rewrite <- E1. exact CW.
    - split; [|right; split; [exact Ka|unfold ee; lia]]. intros t Hx. right. split; [apply Ke; exact Hx|].
      cbn [mm with_extents m_pe]. rewrite nth_repeat_lt by (rewrite E3; exact Hx). unfold ee. lia.
    - exists x. split; [exact Ex|]. unfold g. rewrite Ey. unfold B0, carried in *. rewrite E1. exact B. }
  assert (GS : forall n, greens (phys_env (mm n) k w eta) sp0 id_ord (mm n) = Ok (g n) /\ (Im (g n) < 0)%R /\ (Cabs (g n) <= 1 / eta)%R).
  { intros n. destruct (C51_spectral (mm n) (ee n) c id_ord sp0 k w eta (GM n) H L Hl He id_perm SO0) as [x [Ex [I [_ A]]]]. unfold g. rewrite Ex. auto. }
  assert (DD : forall n p K, 1 <= K -> K <= Z.of_nat n + 1 -> K <= Z.of_nat p + 1 -> (eta ^ 3 * IZR K * dist2 (g p) (g n) <= B0)%R).
  { intros n p K K1 Hn Hp. destruct (Q n (mm p) (ee p) id_ord sp0 K Hn (GM p)) as [x [Ex B]]; try (repeat split; reflexivity); try assumption.
    - unfold ee. lia.
    - intros t Hx. cbn [mm with_extents m_pe m_ntypes] in *. rewrite nth_repeat_lt by exact Hx. unfold ee. lia.
    - destruct (GS p) as [Ep _]. rewrite Ep in Ex. assert (g p = x) as -> by congruence. exact B. }
  assert (H3 : (0 < eta ^ 3)%R) by (apply pow_lt; exact He).
  destruct (Cutoff_proofs.limit_ex g) as [Gl [C1' C2']].
  { intros eps Heps. set (S := (B0 / (eta ^ 3 * eps))%R). destruct (archimed S) as [U _]. set (Z0 := Z.max 1 (up S)).
    exists (Z.to_nat Z0). intros n p Hn Hp. specialize (DD p n Z0 ltac:(unfold Z0; lia) ltac:(lia) ltac:(lia)).
    fold (dist2 (g n) (g p)) in *. destruct (Rlt_le_dec (dist2 (g n) (g p)) eps) as [LT|GE]; [exact LT|exfalso].
    assert (UZ : (S < IZR Z0)%R) by (eapply Rlt_le_trans; [exact U|apply IZR_le; unfold Z0; lia]).
    assert (PE : (0 < eta ^ 3 * eps)%R) by (apply Rmult_lt_0_compat; assumption).
    assert (E : (B0 = eta ^ 3 * eps * S)%R) by (unfold S; field; split; apply Rgt_not_eq; assumption).
    assert (A1 : (eta ^ 3 * eps * S < eta ^ 3 * eps * IZR Z0)%R) by (apply Rmult_lt_compat_l; assumption).
    assert (A2 : (eta ^ 3 * IZR Z0 * eps <= eta ^ 3 * IZR Z0 * dist2 (g n) (g p))%R).
    { apply Rmult_le_compat_l; [|exact GE]. apply Rmult_le_pos; [lra|apply IZR_le; unfold Z0; lia]. }
    lra. }
  exists Gl. split; [|split].
  - apply (Rle_cv_lim (Un := fun n => Im (g n)) (Vn := fun _ => 0%R)) with (2 := C2'); [intros n; destruct (GS n) as [_ [I _]]; lra|].
    intros eps Heps. exists 0%nat. intros n _. unfold R_dist. rewrite Rminus_diag_eq, Rabs_R0 by reflexivity. exact Heps.
  - assert (B : (Cnorm2 (Csub Cplx.C0 Gl) <= 1 / eta * (1 / eta))%R).
    { apply (Cutoff_proofs.limit_le g Gl Cplx.C0 _ 0 C1' C2'). intros n _. destruct (GS n) as [_ [_ A]].
      replace (Cnorm2 (Csub Cplx.C0 (g n))) with (Cabs (g n) * Cabs (g n))%R.
      - pose proof (Physics_proofs.Cabs_ge0 (g n)). apply Rmult_le_compat; assumption.
      - rewrite Physics_proofs.Cabs_sq. unfold Cnorm2, Csub, Cadd, Copp, Cplx.C0, Re, Im. cbn [fst snd]. ring. }
    replace (Cnorm2 (Csub Cplx.C0 Gl)) with (Cnorm2 Gl) in B by (unfold Cnorm2, Csub, Cadd, Copp, Cplx.C0, Re, Im; cbn [fst snd]; ring).
    assert (P : (0 < 1 / eta)%R) by (apply Rdiv_lt_0_compat; lra). unfold Cabs. rewrite <- (sqrt_square (1 / eta)%R) by lra. apply sqrt_le_1_alt. exact B.
  - intros m' ae' ord sp K G' S X K1 Ka Ke P SO. destruct (Q (Z.to_nat K) m' ae' ord sp K ltac:(lia) G' S X K1 Ka Ke P SO) as [x [Ex _]]. exists x. split; [exact Ex|].
    assert (PK : (0 < eta ^ 3 * IZR K)%R) by (apply Rmult_lt_0_compat; [exact H3|apply IZR_lt; lia]). fold B0.
    apply (Rmult_le_reg_l (/ (eta ^ 3 * IZR K))); [apply Rinv_0_lt_compat; exact PK|]. rewrite <- Rmult_assoc, Rinv_l, Rmult_1_l by lra.
    apply (Cutoff_proofs.limit_le g Gl x _ (Z.to_nat K) C1' C2'). intros n Hn. destruct (Q n m' ae' ord sp K ltac:(lia) G' S X K1 Ka Ke P SO) as [y [Ey B]].
    assert (y = x) as -> by congruence. fold (dist2 x (g n)). apply (Rmult_le_reg_l (eta ^ 3 * IZR K)); [exact PK|]. rewrite <- Rmult_assoc, Rinv_r, Rmult_1_l by lra. exact B.
Qed.
Print Assumptions C65_limit.

(** Every model made by the public calls, and every other extents given to it:
    the operators change modes next to the particle, so that clouds of 2 K + 1
    sites are enough. *)
Theorem C65_histories : forall m fs cs ord ord' sp sp' k w eta pe N K, built Rnum 1 m fs cs -> cs <> [] -> distinct Rnum fs ->
  (forall k, m_mps m = Some k -> 1 <= k) -> (forall e, m_aext m = Some e -> 2 * K + 1 <= e) ->
  (forall c, In c cs -> c = "BondPeierls"%string) \/ (forall c, In c cs -> c <> "BondPeierls"%string) ->
  exact_lattice m -> (0 <= h_hop (m_ham m))%R -> (0 < eta)%R ->
  (forall k l, Permutation (ord k l) l) -> (forall k l, Permutation (ord' k l) l) -> spsolve_ok sp -> spsolve_ok sp' ->
  (forall t, (t < m_ntypes m)%nat -> nth t (m_pn m) 0 <= N) -> 1 <= K ->
  List.length pe = m_ntypes m -> (forall t, (t < m_ntypes m)%nat -> 2 * K + 1 <= nth t pe 0) ->
  (forall t, (t < m_ntypes m)%nat -> 2 * K + 1 <= nth t (m_pe m) 0) ->
  exists g g' : C, greens (phys_env m k w eta) sp ord m = Ok g /\
    greens (phys_env (with_extents m pe) k w eta) sp' ord' (with_extents m pe) = Ok g' /\
    (eta ^ 3 * IZR K * dist2 g g' <= 4 * h_hop (m_ham m) + 2 * sqrt (IZR N) * carried m)%R.
Proof.
  intros m fs cs ord ord' sp sp' k w eta pe N K B Hc D Hm Ha Hb Hl Ht He P P' SO SO' HN K1 Lp Np Nm.
  destruct (HModel_proofs.built_good Rnum (proj1 Rnum_ok) m fs cs B Hc D Hm ltac:(intros e E; specialize (Ha e E); lia) Hb) as [ae G].
  destruct (Extent_proofs.built_couples m fs cs ae B G (proj1 Rnum_ok)) as [c [L CW]].
  assert (NT : (0 < m_ntypes m)%nat) by (destruct (gm_minus _ _ G) as [h [Hh _]]; pose proof (gm_index _ _ G h Hh); lia).
  assert (MX : forall l, (0 < List.length l)%nat -> exists e, lmaxZ l = Some e /\ forall t, (t < List.length l)%nat -> nth t l 0 <= e).
  { intros [|x l] H0; [cbn in H0; lia|]. exists (fold_left Z.max l x). split; [reflexivity|].
    assert (Q : forall l x, x <= fold_left Z.max l x /\ forall t, (t < List.length l)%nat -> nth t l 0 <= fold_left Z.max l x).
    { clear. induction l as [|y l IH]; intros x; cbn [fold_left List.length]; [split; [lia|intros; lia]|]. destruct (IH (Z.max x y)) as [Q1 Q2].
      split; [lia|]. intros [|t] Hx; cbn [nth]; [lia|apply Q2; lia]. }
    destruct (Q l x) as [Q1 Q2]. intros [|t] Hx; cbn [nth]; [exact Q1|apply Q2; cbn in Hx; lia]. }
  destruct (MX pe ltac:(lia)) as [e' [Ee' Le']].
  assert (G' : good_model (with_extents m pe) e').
  { pose proof (Le' 0%nat ltac:(lia)) as Q0. pose proof (Np 0%nat NT) as Q1. pose proof G as [[W1 [W2 [W3 W4]]] ? ? ? ? ? ? ? ? ? ? ? ?]. constructor; try assumption.
    - split; [exact W1|]. split; [exact Lp|]. split; [exact W3|exact W4].
    - lia.
    - intros t Hx. cbn [with_extents m_pe m_ntypes] in *. specialize (Np t Hx). lia. }
  apply (C65_extents m (with_extents m pe) ae e' c ord ord' sp sp' k w eta N 1 K G G'); try assumption; try (repeat split; reflexivity); try lia.
  - exact (C51_hermitian m fs cs ae k w eta B G).
  - replace (2 * (K + 1) - 1) with (2 * K + 1) by lia. split.
    + intros t Hx. right. split; [apply Nm; exact Hx|apply Np; exact Hx].
    + right. split; [|pose proof (Le' 0%nat ltac:(lia)); pose proof (Np 0%nat NT); lia].
      pose proof (gm_ae _ _ G) as A. unfold absolute_extent in A. destruct (m_aext m) as [e|]; [injection A as <-; apply Ha; reflexivity|].
      pose proof (gm_wf _ _ G) as [_ [W2 _]]. destruct (MX (m_pe m) ltac:(lia)) as [e [Ee Le]]. rewrite Ee in A. injection A as <-. pose proof (Le 0%nat ltac:(lia)). pose proof (Nm 0%nat NT). lia.
Qed.
Print Assumptions C65_histories.

(** Two Holstein models that differ in the argument phonon_extent only:
    |G - G'|^2 <= 4 t / (eta^3 K) for clouds of at least 2 K - 1 sites, whatever
    the coupling, the frequency and the number of phonons. *)
Theorem C65_holstein : forall hop lat mps fr M M' N g logs logs' m m' ord ord' sp sp' k w eta K,
  model_add Rnum (from_parameters hop lat 0%R mps 1) (mkAdd "Holstein" fr M N None None (Some g) None None) = Ok (logs, m) -> ~ In LError logs ->
  model_add Rnum (from_parameters hop lat 0%R mps 1) (mkAdd "Holstein" fr M' N None None (Some g) None None) = Ok (logs', m') -> ~ In LError logs' ->
  (forall k, mps = Some k -> 1 <= k) -> lat = 1%R \/ hop = 0%R -> (0 <= hop)%R -> (0 < eta)%R ->
  (forall k l, Permutation (ord k l) l) -> (forall k l, Permutation (ord' k l) l) ->
  spsolve_ok sp -> spsolve_ok sp' -> 1 <= K -> 2 * K - 1 <= M -> 2 * K - 1 <= M' ->
  exists G G' : C, greens (phys_env m k w eta) sp ord m = Ok G /\ greens (phys_env m' k w eta) sp' ord' m' = Ok G' /\
    (eta ^ 3 * IZR K * dist2 G G' <= 4 * hop)%R.
Proof.
  intros hop lat mps fr M M' N g logs logs' m m' ord ord' sp sp' k w eta K E NE E' NE' Hk Hl Ht He P P' SO SO' K1 HM HM'.
  set (a := mkAdd "Holstein" fr M N None None (Some g) None None) in *. set (a' := mkAdd "Holstein" fr M' N None None (Some g) None None) in *.
  assert (B : built Rnum 1 m [fr] ["Holstein"%string]).
  { pose proof (built_add Rnum 1 _ [] [] _ _ _ (built_start Rnum 1 hop lat 0%R mps) E NE eq_refl) as B. cbn [app from_parameters m_temp Rnum n_ltb n_0 n_opp a a_type a_freq] in B.
    destruct (Rlt_dec 0 0); [lra|]. exact B. }
  destruct (holstein_call hop lat mps a g logs m eq_refl eq_refl (or_introl eq_refl) E NE) as [-> [H1 H2]].
  destruct (holstein_call hop lat mps a' g logs' m' eq_refl eq_refl (or_introl eq_refl) E' NE') as [-> [H1' _]]. clear E E'.
  cbn [a a' a_M a_N a_freq] in *.
  pose proof (holstein_good hop lat mps (- (g * 1))%R fr M N H1 H2 Hk) as G. pose proof (holstein_good hop lat mps (- (g * 1))%R fr M' N H1' H2 Hk) as G'.
  set (m := mkModel lat 0%R _ _ [M] _ _ _) in *. set (m' := mkModel lat 0%R _ _ [M'] _ _ _) in *.
  assert (L : on_lattice m 0). { intros h [<- | [<- | []]]; (split; exists 0; reflexivity). }
  destruct (C65_extents m m' M M' 0 ord ord' sp sp' k w eta N 0 K G G') as [x [y [Ex [Ey Bd]]]]; try assumption; try (repeat split; reflexivity); try lia.
  - exact (C51_hermitian m _ _ _ k w eta B G).
  - intros [|t] Hx; [cbn; lia|cbn in Hx; lia].
  - intros h [<- | [<- | []]]; vm_compute; discriminate.
  - split; [|right; lia]. intros [|t] Hx; [|cbn in Hx; lia]. right. cbn [m m' m_pe nth]. lia.
  - exists x, y. split; [exact Ex|]. split; [exact Ey|]. replace (carried m) with 0%R in Bd; [cbn [m m_ham h_hop] in Bd; lra|].
    unfold carried. cbn [m m_ham h_terms map fold_right ht_coupling]. unfold psi1. cbn. lra.
Qed.
Print Assumptions C65_holstein.

Definition wide (M : Z) : model R :=
  mkModel 1%R 0%R (mkHam [mkHterm "Holstein" (iv 0) (iv 0) Plus (- (3 * 1))%R 0 2%R; mkHterm "Holstein" (iv 0) (iv 0) Minus (- (3 * 1))%R 0 2%R] [2%R] 1 1%R) None [M] [5] None 1.

Lemma wide_add : forall M, 1 <= M -> model_add Rnum (from_parameters 1%R 1%R 0%R None 1) (mkAdd "Holstein" 2%R M 5 None None (Some 3%R) None None) = Ok ([LDebug], wide M).
Proof.
  intros M HM. unfold model_add. cbn [from_parameters m_temp Rnum n_ltb n_0 a_N a_M a_Mtfd a_Ntfd a_cs a_dcs a_override is_none lt1 orb xorb negb].
  destruct (Rlt_dec 0 0) as [H|H]; [lra|]. cbn [andb]. change (5 <? 1) with false. destruct (Z.ltb_spec M 1); [lia|]. cbn [orb]. rewrite ?andb_false_r. unfold tfd_prefactors. cbn [Rnum n_ltb n_0].
  destruct (Rlt_dec 0 0) as [H'|_]; [lra|]. reflexivity.
Qed.

(** The Holstein model with hopping 1, coupling 3, frequency 2 and 5 phonons:
    |G - G'|^2 <= 1 between clouds of 7 and of 50 sites at eta = 1; and its
    limit. *)
Example C65_nonvacuous : forall k w, (exists g g' : C,
    greens (phys_env (wide 7) k w 1) (gauss_sparse (F := CF) C_eq_dec) id_ord (wide 7) = Ok g /\
    greens (phys_env (wide 50) k w 1) (gauss_sparse (F := CF) C_eq_dec) id_ord (wide 50) = Ok g' /\ (dist2 g g' <= 1)%R) /\
  exists G : C, forall K, 1 <= K -> exists g : C,
    greens (phys_env (wide (2 * K - 1)) k w 1) (gauss_sparse (F := CF) C_eq_dec) id_ord (wide (2 * K - 1)) = Ok g /\ (IZR K * dist2 g G <= 4)%R.
Proof.
  intros k w. split.
  - destruct (C65_holstein 1 1 None 2 7 50 5 3 [LDebug] [LDebug] (wide 7) (wide 50) id_ord id_ord _ _ k w 1 4 (wide_add 7 ltac:(lia)) ltac:(intros [H | []]; discriminate) (wide_add 50 ltac:(lia)) ltac:(intros [H | []]; discriminate)
      ltac:(discriminate) (or_introl eq_refl) ltac:(lra) ltac:(lra) id_perm id_perm (gauss_spsolve_ok (F := CF) C_eq_dec) (gauss_spsolve_ok (F := CF) C_eq_dec) ltac:(lia) ltac:(lia) ltac:(lia)) as [g [g' [E [E' B]]]].
    exists g, g'. split; [exact E|]. split; [exact E'|]. lra.
  - assert (GW : forall M, 1 <= M -> good_model (wide M) M) by (intros M HM; apply holstein_good; [exact HM|lia|discriminate]).
    assert (B : built Rnum 1 (wide 1) [2%R] ["Holstein"%string]).
    { pose proof (built_add Rnum 1 _ [] [] _ _ _ (built_start Rnum 1 1%R 1%R 0%R None) (wide_add 1 ltac:(lia)) ltac:(intros [H | []]; discriminate) eq_refl) as B. cbn [app from_parameters m_temp Rnum n_ltb n_0 n_opp a_type a_freq] in B.
      destruct (Rlt_dec 0 0); [lra|]. exact B. }
    assert (L : on_lattice (wide 1) 0). { intros h [<- | [<- | []]]; (split; exists 0; reflexivity). }
    destruct (C65_limit (wide 1) 1 0 k w 1 5 0 (GW 1 ltac:(lia)) (C51_hermitian _ _ _ _ k w 1 B (GW 1 ltac:(lia))) L (or_introl eq_refl) ltac:(cbn; lra) ltac:(lra)) as [G [_ [_ Q]]].
    + intros [|t] Hx; [cbn; lia|cbn in Hx; lia].
    + lia.
    + intros h [<- | [<- | []]]; vm_compute; discriminate.
    + exists G. intros K K1. destruct (Q (wide (2 * K - 1)) (2 * K - 1) id_ord (gauss_sparse (F := CF) C_eq_dec) K (GW (2 * K - 1) ltac:(lia)) ltac:(repeat split; reflexivity) ltac:(split; reflexivity) K1 ltac:(lia)) as [g [E Bg]].
      * intros [|t] Hx; [cbn [wide m_pe nth]; lia|cbn in Hx; lia].
      * exact id_perm.
      * exact (gauss_spsolve_ok (F := CF) C_eq_dec).
      * exists g. split; [exact E|]. replace (carried (wide 1)) with 0%R in Bg by (unfold carried, psi1; cbn; lra). cbn [wide m_ham h_hop] in Bg. rewrite pow1 in Bg. lra.
Qed.
