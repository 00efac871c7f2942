(** Property theorem C61: the computed Green's function converges as the limits
    on the number of phonons grow, with a rate. *)
From Coq Require Import String ZArith List Bool Lia Permutation Reals Lra.
From Verif Require Import Base NdArray Config Spec Model HModel Space Spec_space Term Equation System Spec_engine Props_Engine
  Ring Coef Spec_eom Solvers Spec_solve LinSolve Spec_model Spec_sym Cplx Physics Props_Physics Props_Model Props_Solve Props_Sym Spec_spectral Props_Spectral
  Spec_ma Props_MA Spec_self Spec_cutoff.
From Verif Require HModel_proofs Physics_proofs Sysok_proofs Sparse_proofs Prime_proofs Rows_proofs Spectral_proofs Self_proofs Bounded_proofs Cutoff_proofs.
Import ListNotations.
Open Scope list_scope.
Open Scope Z_scope.

Lemma nth_repeat_lt : forall {X} (x d : X) n t, (t < n)%nat -> nth t (repeat x n) d = x.
Proof. intros X x d n. induction n as [|n IH]; intros [|t] H; cbn [repeat nth]; try lia; [reflexivity|apply IH; lia]. Qed.

(** Two variational spaces of the same Hamiltonian with the same clouds of up to
    K + 1 phonons: |G - G'|^2 <= 4 strength / (eta^3 sqrt K), for every momentum
    and frequency, whatever the spaces contain beyond. *)
Theorem C61_spaces : forall m m' ae ae' c ord ord' sp sp' k w eta K, good_model m ae -> good_model m' ae' -> same_physics m m' ->
  hermitian (phys_env m k w eta) m -> on_lattice m c -> exact_lattice m -> (0 < eta)%R ->
  (forall k l, Permutation (ord k l) l) -> (forall k l, Permutation (ord' k l) l) -> spsolve_ok sp -> spsolve_ok sp' ->
  same_clouds m ae m' ae' (Z.of_nat K + 1) ->
  exists g g' : C, greens (phys_env m k w eta) sp ord m = Ok g /\ greens (phys_env m' k w eta) sp' ord' m' = Ok g' /\
    (eta ^ 3 * sqrt (INR K) * dist2 g g' <= 4 * strength m)%R.
Proof.
  intros m m' ae ae' c ord ord' sp sp' k w eta K G G' [E1 [E2 E3]] H L Hl He P P' SO SO' SC.
  assert (Q : forall n aen on spn, good_model n aen -> (forall k l, Permutation (on k l) l) -> spsolve_ok spn -> m_ham n = m_ham m -> m_lattice n = m_lattice m ->
    exists (g : C) (u : nd * list Z -> CR), greens (phys_env n k w eta) spn on n = Ok g /\ g = u (Prime_proofs.vac n, [0]) /\ proper u /\ Rows_proofs.conditions n aen (phys_env m k w eta) u (G0 (phys_env m k w eta))).
  { intros n aen on spn Gn Pn Sn F1 F2.
    assert (Hn : hermitian (phys_env n k w eta) n) by (rewrite (Cutoff_proofs.phys_same m n) by congruence; unfold hermitian; rewrite F1; exact H).
    assert (Ln : on_lattice n c) by (unfold on_lattice; rewrite F1; exact L). assert (Xn : exact_lattice n) by (unfold exact_lattice; rewrite F1, F2; exact Hl).
    destruct (C52_regular n aen c on k w eta Gn Hn Ln Xn He Pn) as [s [X [v [E [ES NS]]]]].
    destruct (Sysok_proofs.sys_ok_good n aen on s Gn Pn E) as [O _]. destruct (scaffold_shape _ n aen on s X v Gn Pn E ES) as [S1 S2].
    destruct (Sparse_proofs.sparse_result (phys_env n k w eta) s O spn X v ES (Sn X v S1 S2 NS)) as [g [Eg [[u [Pu [Su Gu]]] _]]].
    pose proof (Sparse_proofs.g_value_unique s O u g (u (Prime_proofs.vac n, [0])) Gu (Rows_proofs.g_value_vac n aen Gn on Pn s E u)) as EQ.
    exists g, u. split; [unfold greens; rewrite E; exact Eg|]. split; [exact EQ|]. split; [exact Pu|].
    apply (Rows_proofs.solution_iff n aen Gn on Pn s E _ u Pu) in Su. rewrite (Cutoff_proofs.phys_same m n) in Su by congruence. exact Su. }
  destruct (Q m ae ord sp G P SO eq_refl eq_refl) as [g [u [Eg [Vg [Pu Cu]]]]].
  destruct (Q m' ae' ord' sp' G' P' SO' (eq_sym E1) (eq_sym E2)) as [g' [u' [Eg' [Vg' [Pu' Cu']]]]].
  exists g, g'. split; [exact Eg|]. split; [exact Eg'|]. rewrite <- (Cutoff_proofs.strength_phys m k w eta H).
  pose proof (Cutoff_proofs.cutoff_error m m' ae ae' G G' E1 E3 K SC (phys_env m k w eta) eta c He H L (Spectral_proofs.phys_ph m k w eta) (Self_proofs.phys_unit m k w eta)
    (Spectral_proofs.phys_g0 m k w eta Hl He) _ (Spectral_proofs.phys_G0 m k w eta He) u u' Pu Pu' Cu Cu') as B.
  assert (Vv : Prime_proofs.vac m' = Prime_proofs.vac m) by (unfold Prime_proofs.vac; rewrite E3; reflexivity). rewrite Vv in Vg'. rewrite <- Vg, <- Vg' in B.
  unfold dist2. replace (eta ^ 3)%R with (eta * eta * eta)%R by ring. exact B.
Qed.
Print Assumptions C61_spaces.

(** Models that differ in the limits per phonon type and per site only. *)
Theorem C61_numbers : forall m m' ae ae' c ord ord' sp sp' k w eta K, good_model m ae -> good_model m' ae' -> same_physics m m' ->
  hermitian (phys_env m k w eta) m -> on_lattice m c -> exact_lattice m -> (0 < eta)%R ->
  (forall k l, Permutation (ord k l) l) -> (forall k l, Permutation (ord' k l) l) -> spsolve_ok sp -> spsolve_ok sp' ->
  same_extents m m' -> numbers_agree m m' (Z.of_nat K + 1) ->
  exists g g' : C, greens (phys_env m k w eta) sp ord m = Ok g /\ greens (phys_env m' k w eta) sp' ord' m' = Ok g' /\
    (eta ^ 3 * sqrt (INR K) * dist2 g g' <= 4 * strength m)%R.
Proof.
  intros m m' ae ae' c ord ord' sp sp' k w eta K G G' S H L Hl He P P' SO SO' X N. pose proof S as [E1 [E2 E3]]. pose proof X as [X1 X2].
  assert (ae' = ae) as ->.
  { pose proof (gm_ae _ _ G) as A. pose proof (gm_ae _ _ G') as A'. unfold absolute_extent in *. rewrite X1, X2 in A. congruence. }
  apply (C61_spaces m m' ae ae c ord ord' sp sp' k w eta K); try assumption. intros a Ta. split.
  - apply (Cutoff_proofs.numbers_clouds m m' ae _ E3 X N a Ta).
  - apply (Cutoff_proofs.numbers_clouds m' m ae (Z.of_nat K + 1)); [congruence|split; congruence|apply Cutoff_proofs.agree_sym; assumption|exact Ta].
Qed.
Print Assumptions C61_numbers.

Lemma numbers_good : forall {T} (m : model T) ae n, good_model m ae -> 1 <= n -> good_model (with_numbers m (repeat n (m_ntypes m))) ae.
Proof.
  intros T m ae n G Hn. pose proof G as [[W1 [W2 [W3 W4]]] ? ? ? ? ? ? ? ? ? ? ? ?]. constructor; try assumption.
  - split; [exact W1|]. split; [exact W2|]. split; [apply repeat_length|exact W4].
  - intros t Ht. cbn [with_numbers m_pn m_ntypes] in *. rewrite nth_repeat_lt by exact Ht. exact Hn.
Qed.

(** The limit of infinitely many phonons exists, and every result with room for
    K + 1 phonons of each type is within the same distance of it. *)
Theorem C61_limit : forall m ae c k w eta, good_model m ae -> hermitian (phys_env m k w eta) m -> on_lattice m c -> exact_lattice m -> (0 < eta)%R ->
  exists G : C, (Im G <= 0)%R /\ (Cabs G <= 1 / eta)%R /\
    forall m' ord sp K, good_model m' ae -> same_physics m m' -> same_extents m m' -> m_mps m = m_mps m' ->
      (forall t, (t < m_ntypes m')%nat -> Z.of_nat K + 1 <= nth t (m_pn m') 0) ->
      (forall k l, Permutation (ord k l) l) -> spsolve_ok sp ->
      exists g : C, greens (phys_env m' k w eta) sp ord m' = Ok g /\ (eta ^ 3 * sqrt (INR K) * dist2 g G <= 4 * strength m)%R.
Proof.
  intros m ae c k w eta G0' H L Hl He.
  set (mm := fun n : nat => with_numbers m (repeat (Z.of_nat n + 1) (m_ntypes m))).
  assert (GM : forall n, good_model (mm n) ae) by (intros n; apply numbers_good; [exact G0'|lia]).
  set (sp0 := gauss_sparse (F := CF) C_eq_dec). assert (SO0 : spsolve_ok sp0) by apply gauss_spsolve_ok.
  set (g := fun n => match greens (phys_env (mm n) k w eta) sp0 id_ord (mm n) with Ok x => x | Err _ => Cplx.C0 end).
  assert (Q : forall n m' ord sp K, (K <= n)%nat -> good_model m' ae -> same_physics m m' -> same_extents m m' -> m_mps m = m_mps m' ->
    (forall t, (t < m_ntypes m')%nat -> Z.of_nat K + 1 <= nth t (m_pn m') 0) -> (forall k l, Permutation (ord k l) l) -> spsolve_ok sp ->
    exists x : C, greens (phys_env m' k w eta) sp ord m' = Ok x /\ (eta ^ 3 * sqrt (INR K) * dist2 x (g n) <= 4 * strength m)%R).
  { intros n m' ord sp K Hn G' [E1 [E2 E3]] [X1 X2] Mp Nn P SO.
    destruct (C61_numbers m' (mm n) ae ae c ord id_ord sp sp0 k w eta K G' (GM n)) as [x [y [Ex [Ey B]]]]; try assumption.
    - repeat split; cbn [mm with_numbers m_ham m_lattice m_ntypes]; congruence.
    - rewrite (Cutoff_proofs.phys_same m m') by congruence. unfold hermitian. rewrite <- E1. exact H.
    - unfold on_lattice. rewrite <- E1. exact L.
    - unfold exact_lattice. rewrite <- E1, <- E2. exact Hl.
    - exact id_perm.
    - split; cbn [mm with_numbers m_pe m_aext]; congruence.
    - split; [|left; cbn [mm with_numbers m_mps]; congruence]. intros t Ht. right. split; [apply Nn; exact Ht|].
      cbn [mm with_numbers m_pn]. rewrite nth_repeat_lt by (rewrite E3; exact Ht). lia.
    - exists x. split; [exact Ex|]. unfold g. rewrite Ey. unfold strength in *. rewrite E1. exact B. }
  assert (GS : forall n, greens (phys_env (mm n) k w eta) sp0 id_ord (mm n) = Ok (g n) /\ (Im (g n) < 0)%R /\ (Cabs (g n) <= 1 / eta)%R).
  { intros n. destruct (C51_spectral (mm n) ae c id_ord sp0 k w eta (GM n) H L Hl He id_perm SO0) as [x [Ex [I [_ A]]]]. unfold g. rewrite Ex. auto. }
  assert (DD : forall n p K, (K <= n)%nat -> (K <= p)%nat -> (eta ^ 3 * sqrt (INR K) * dist2 (g p) (g n) <= 4 * strength m)%R).
  { intros n p K Hn Hp. destruct (Q n (mm p) id_ord sp0 K Hn (GM p)) as [x [Ex B]]; try (repeat split; reflexivity).
    - intros t Ht. cbn [mm with_numbers m_pn m_ntypes] in *. rewrite nth_repeat_lt by exact Ht. lia.
    - exact SO0.
    - destruct (GS p) as [Ep _]. rewrite Ep in Ex. assert (g p = x) as -> by congruence. exact B. }
  assert (H3 : (0 < eta ^ 3)%R) by (apply pow_lt; exact He).
  destruct (Cutoff_proofs.limit_ex g) as [Gl [C1' C2']].
  { intros eps Heps. set (S := (4 * strength m / (eta ^ 3 * eps) + 1)%R).
    destruct (Bounded_proofs.above (S * S)%R) as [N HN].
    assert (HS : (0 <= 4 * strength m)%R).
    { specialize (DD 0%nat 0%nat 0%nat (le_n _) (le_n _)). cbn [INR] in DD. rewrite sqrt_0, Rmult_0_r, Rmult_0_l in DD. exact DD. }
    assert (S1 : (1 <= S)%R). { unfold S. assert (0 <= 4 * strength m / (eta ^ 3 * eps))%R by (apply Rmult_le_pos; [exact HS|left; apply Rinv_0_lt_compat, Rmult_lt_0_compat; assumption]). lra. }
    exists N. intros n p Hn Hp. specialize (DD p n N Hp Hn). fold (dist2 (g n) (g p)) in *.
    assert (SN : (S < sqrt (INR N))%R). { rewrite <- (sqrt_Rsqr S) by lra. apply sqrt_lt_1_alt. unfold Rsqr. split; [nra|exact HN]. }
    destruct (Rlt_le_dec (dist2 (g n) (g p)) eps) as [LT|GE]; [exact LT|exfalso].
    assert (E : (4 * strength m = eta ^ 3 * eps * (S - 1))%R) by (unfold S; field; split; apply Rgt_not_eq; assumption).
    rewrite E in DD. assert (A1 : (eta ^ 3 * eps * S < eta ^ 3 * eps * sqrt (INR N))%R) by (apply Rmult_lt_compat_l; [apply Rmult_lt_0_compat; assumption|exact SN]).
    assert (A2 : (eta ^ 3 * sqrt (INR N) * eps <= eta ^ 3 * sqrt (INR N) * dist2 (g n) (g p))%R).
    { apply Rmult_le_compat_l; [|exact GE]. apply Rmult_le_pos; [left; exact H3|apply sqrt_pos]. }
    assert (0 < eta ^ 3 * eps)%R by (apply Rmult_lt_0_compat; assumption). nra. }
  exists Gl. split; [|split].
  - apply (Rle_cv_lim (Un := fun n => Im (g n)) (Vn := fun _ => 0%R)) with (2 := C2'); [intros n; destruct (GS n) as [_ [I _]]; lra|].
    intros eps Heps. exists 0%nat. intros n _. unfold R_dist. rewrite Rminus_diag_eq, Rabs_R0 by reflexivity. exact Heps.
  - assert (B : (Cnorm2 (Csub Cplx.C0 Gl) <= 1 / eta * (1 / eta))%R).
    { apply (Cutoff_proofs.limit_le g Gl Cplx.C0 _ 0 C1' C2'). intros n _. destruct (GS n) as [_ [_ A]].
      replace (Cnorm2 (Csub Cplx.C0 (g n))) with (Cabs (g n) * Cabs (g n))%R.
      - pose proof (Physics_proofs.Cabs_ge0 (g n)). apply Rmult_le_compat; assumption.
      - rewrite Physics_proofs.Cabs_sq. unfold Cnorm2, Csub, Cadd, Copp, Cplx.C0, Re, Im. cbn [fst snd]. ring. }
    replace (Cnorm2 (Csub Cplx.C0 Gl)) with (Cnorm2 Gl) in B by (unfold Cnorm2, Csub, Cadd, Copp, Cplx.C0, Re, Im; cbn [fst snd]; ring).
    assert (P : (0 < 1 / eta)%R) by (apply Rdiv_lt_0_compat; lra). unfold Cabs. rewrite <- (sqrt_square (1 / eta)%R) by lra. apply sqrt_le_1_alt. exact B.
  - intros m' ord sp K G' S X Mp Nn P SO. destruct (Q K m' ord sp K (le_n _) G' S X Mp Nn P SO) as [x [Ex _]]. exists x. split; [exact Ex|].
    destruct (Req_dec (sqrt (INR K)) 0) as [Z0|NZ].
    + rewrite Z0, Rmult_0_r, Rmult_0_l. destruct (Q 0%nat m' ord sp 0%nat (le_n _) G' S X Mp) as [y [_ B0]]; [intros t Ht; specialize (Nn t Ht); lia|exact P|exact SO|].
      cbn [INR] in B0. rewrite sqrt_0, Rmult_0_r, Rmult_0_l in B0. exact B0.
    + assert (PK : (0 < eta ^ 3 * sqrt (INR K))%R) by (apply Rmult_lt_0_compat; [exact H3|pose proof (sqrt_pos (INR K)); lra]).
      apply (Rmult_le_reg_l (/ (eta ^ 3 * sqrt (INR K)))); [apply Rinv_0_lt_compat; exact PK|]. rewrite <- Rmult_assoc, Rinv_l, Rmult_1_l by lra.
      apply (Cutoff_proofs.limit_le g Gl x _ K C1' C2'). intros n Hn. destruct (Q n m' ord sp K Hn G' S X Mp Nn P SO) as [y [Ey B]].
      assert (y = x) as -> by congruence. fold (dist2 x (g n)). apply (Rmult_le_reg_l (eta ^ 3 * sqrt (INR K))); [exact PK|]. rewrite <- Rmult_assoc, Rinv_r, Rmult_1_l by lra. exact B.
Qed.
Print Assumptions C61_limit.

(** Every model made by the public calls, and every other limits given to it. *)
Theorem C61_histories : forall m fs cs ord ord' sp sp' k w eta pn K, built Rnum 1 m fs cs -> cs <> [] -> distinct Rnum fs ->
  (forall k, m_mps m = Some k -> 1 <= k) -> (forall k, m_aext m = Some k -> 1 <= k) ->
  (forall c, In c cs -> c = "BondPeierls"%string) \/ (forall c, In c cs -> c <> "BondPeierls"%string) ->
  exact_lattice m -> (0 < eta)%R -> (forall k l, Permutation (ord k l) l) -> (forall k l, Permutation (ord' k l) l) -> spsolve_ok sp -> spsolve_ok sp' ->
  List.length pn = m_ntypes m -> (forall t, (t < m_ntypes m)%nat -> Z.of_nat K + 1 <= nth t pn 0) ->
  (forall t, (t < m_ntypes m)%nat -> Z.of_nat K + 1 <= nth t (m_pn m) 0) ->
  exists g g' : C, greens (phys_env m k w eta) sp ord m = Ok g /\
    greens (phys_env (with_numbers m pn) k w eta) sp' ord' (with_numbers m pn) = Ok g' /\ (eta ^ 3 * sqrt (INR K) * dist2 g g' <= 4 * strength m)%R.
Proof.
  intros m fs cs ord ord' sp sp' k w eta pn K B Hc D Hm Ha Hb Hl He P P' SO SO' Lp Np Nm.
  destruct (HModel_proofs.built_good Rnum (proj1 Rnum_ok) m fs cs B Hc D Hm Ha Hb) as [ae G]. destruct (C50_lattice m fs cs ae B G) as [c L].
  assert (G' : good_model (with_numbers m pn) ae).
  { pose proof G as [[W1 [W2 [W3 W4]]] ? ? ? ? ? ? ? ? ? ? ? ?]. constructor; try assumption.
    - split; [exact W1|]. split; [exact W2|]. split; [exact Lp|exact W4].
    - intros t Ht. cbn [with_numbers m_pn m_ntypes] in *. specialize (Np t Ht). lia. }
  apply (C61_numbers m (with_numbers m pn) ae ae c ord ord' sp sp' k w eta K G G'); try assumption; try (repeat split; reflexivity).
  - exact (C51_hermitian m fs cs ae k w eta B G).
  - split; [|left; reflexivity]. intros t Ht. right. split; [apply Nm; exact Ht|apply Np; exact Ht].
Qed.
Print Assumptions C61_histories.

(** Two Holstein models that differ in the argument phonon_number only. *)
Theorem C61_holstein : forall hop lat mps fr M N N' g logs logs' m m' ord ord' sp sp' k w eta K,
  model_add Rnum (from_parameters hop lat 0%R mps 1) (mkAdd "Holstein" fr M N None None (Some g) None None) = Ok (logs, m) -> ~ In LError logs ->
  model_add Rnum (from_parameters hop lat 0%R mps 1) (mkAdd "Holstein" fr M N' None None (Some g) None None) = Ok (logs', m') -> ~ In LError logs' ->
  (forall k, mps = Some k -> 1 <= k) -> lat = 1%R \/ hop = 0%R -> (0 < eta)%R -> (forall k l, Permutation (ord k l) l) -> (forall k l, Permutation (ord' k l) l) ->
  spsolve_ok sp -> spsolve_ok sp' -> Z.of_nat K < N -> Z.of_nat K < N' ->
  exists G G' : C, greens (phys_env m k w eta) sp ord m = Ok G /\ greens (phys_env m' k w eta) sp' ord' m' = Ok G' /\
    (eta ^ 3 * sqrt (INR K) * dist2 G G' <= 4 * Rabs g)%R.
Proof.
  intros hop lat mps fr M N N' g logs logs' m m' ord ord' sp sp' k w eta K E NE E' NE' Hk Hl He P P' SO SO' HN HN'.
  set (a := mkAdd "Holstein" fr M N None None (Some g) None None) in *. set (a' := mkAdd "Holstein" fr M N' None None (Some g) None None) in *.
  assert (B : built Rnum 1 m [fr] ["Holstein"%string]).
  { pose proof (built_add Rnum 1 _ [] [] _ _ _ (built_start Rnum 1 hop lat 0%R mps) E NE eq_refl) as B. cbn [app from_parameters m_temp Rnum n_ltb n_0 n_opp a a_type a_freq] in B.
    destruct (Rlt_dec 0 0); [lra|]. exact B. }
  destruct (holstein_call hop lat mps a g logs m eq_refl eq_refl (or_introl eq_refl) E NE) as [-> [HM H1]].
  destruct (holstein_call hop lat mps a' g logs' m' eq_refl eq_refl (or_introl eq_refl) E' NE') as [-> [_ H1']]. clear E E'.
  cbn [a a' a_M a_N a_freq] in *.
  pose proof (holstein_good hop lat mps (- (g * 1))%R fr M N HM H1 Hk) as G. pose proof (holstein_good hop lat mps (- (g * 1))%R fr M N' HM H1' Hk) as G'.
  set (m := mkModel lat 0%R _ _ _ [N] _ _) in *. set (m' := mkModel lat 0%R _ _ _ [N'] _ _) in *.
  destruct (C50_lattice m _ _ _ B G) as [c L].
  destruct (C61_numbers m m' M M c ord ord' sp sp' k w eta K G G') as [x [y [Ex [Ey Bd]]]]; try assumption; try (repeat split; reflexivity).
  - exact (C51_hermitian m _ _ _ k w eta B G).
  - split; [|left; reflexivity]. intros [|t] Ht; [|cbn in Ht; lia]. right. cbn [m m' m_pn nth]. lia.
  - exists x, y. split; [exact Ex|]. split; [exact Ey|]. unfold strength in Bd. cbn [m m_ham h_terms map fold_right ht_dag ht_coupling] in Bd. rewrite !Rplus_0_r in Bd.
    rewrite Rabs_Ropp, Rmult_1_r in Bd. exact Bd.
Qed.
Print Assumptions C61_holstein.

(** The bosonic hopping model on one site per cloud, 5 against 50 phonons:
    |G - G'|^2 <= 4 * 4 / sqrt 4 at eta = 1; and its limit. *)
Example C61_nonvacuous : forall k w, (exists g g' : C,
    greens (phys_env (x_models 1 5) k w 1) (gauss_sparse (F := CF) C_eq_dec) id_ord (x_models 1 5) = Ok g /\
    greens (phys_env (x_models 1 50) k w 1) (gauss_sparse (F := CF) C_eq_dec) id_ord (x_models 1 50) = Ok g' /\ (dist2 g g' <= 8)%R) /\
  exists G : C, forall K, exists g : C,
    greens (phys_env (x_models 1 (Z.of_nat K + 1)) k w 1) (gauss_sparse (F := CF) C_eq_dec) id_ord (x_models 1 (Z.of_nat K + 1)) = Ok g /\
    (sqrt (INR K) * dist2 g G <= 16)%R.
Proof.
  intros k w. assert (L : on_lattice (x_models 1 5) 0) by exact (proj2 (proj2 (proj2 (proj2 (proj2 C51_nonvacuous))))).
  assert (G5 : good_model (x_models 1 5) 1) by (apply x_goods; lia). assert (G50 : good_model (x_models 1 50) 1) by (apply x_goods; lia).
  assert (H : hermitian (phys_env (x_models 1 5) k w 1) (x_models 1 5)) by (eapply C51_hermitian; [apply x_builts; lia|exact G5]).
  assert (St : strength (x_models 1 5) = 4%R). { unfold strength. cbn. rewrite Rabs_right by lra. lra. }
  split.
  - destruct (C61_numbers _ _ 1 1 0 id_ord id_ord _ _ k w 1 4 G5 G50 ltac:(repeat split; reflexivity) H L (or_introl eq_refl) ltac:(lra) id_perm id_perm
      (gauss_spsolve_ok (F := CF) C_eq_dec) (gauss_spsolve_ok (F := CF) C_eq_dec) ltac:(split; reflexivity)) as [g [g' [E [E' B]]]].
    + split; [|left; reflexivity]. intros [|t] Ht; [|cbn in Ht; lia]. right. cbn [x_models m_pn nth]. lia.
    + exists g, g'. split; [exact E|]. split; [exact E'|]. rewrite St in B. replace (INR 4) with (2 * 2)%R in B by (cbn; lra). rewrite sqrt_square in B by lra. lra.
  - destruct (C61_limit _ 1 0 k w 1 G5 H L (or_introl eq_refl) ltac:(lra)) as [G [_ [_ B]]]. exists G. intros K.
    destruct (B (x_models 1 (Z.of_nat K + 1)) id_ord (gauss_sparse (F := CF) C_eq_dec) K ltac:(apply x_goods; lia) ltac:(repeat split; reflexivity) ltac:(split; reflexivity) eq_refl) as [g [E Bg]].
    + intros [|t] Ht; [|cbn in Ht; lia]. cbn [x_models m_pn nth]. lia.
    + exact id_perm.
    + exact (gauss_spsolve_ok (F := CF) C_eq_dec).
    + exists g. split; [exact E|]. rewrite St in Bg. rewrite pow1, Rmult_1_l in Bg. lra.
Qed.
