(** Property theorems C76: the values of the Green's function at different points. *)
From Coq Require Import String ZArith List Bool Lia Permutation Reals Lra Psatz.
From Verif Require Import Base NdArray Config Spec Model HModel Space Spec_space Term Equation System Spec_engine Props_Engine
  Ring Coef Spec_eom Solvers Spec_solve LinSolve Spec_model Spec_sym Cplx Physics Props_Physics Props_Model Props_Solve Props_Sym Spec_spectral Props_Spectral
  Spec_green Props_Green Spec_cutoff Spec_exact Spec_self Spec_moments Props_Moments Props_Pipeline Props_Thermal Spec_sum Props_Sum Spec_band Props_Band Spec_pick.
From Verif Require HModel_proofs Physics_proofs Extent_proofs Band_proofs Pick_proofs Nevan_proofs Fit_proofs.
Import ListNotations.
Open Scope list_scope.
Open Scope Z_scope.

(** The code returns [g] at momentum [k], frequency [w] and broadening [eta]. *)
Definition returned (m : model R) (k w eta : R) (g : C) : Prop :=
  (0 < eta)%R /\ exists ord sp, (forall k l, Permutation (ord k l) l) /\ spsolve_ok sp /\ greens (phys_env m k w eta) sp ord m = Ok g.
Definition sampled (m : model R) (k : R) (s : sample) : Prop := exists w eta, sa_at s = (w, eta) /\ returned m k w eta (sa_value s).
Definition sampled_self (m : model R) (k : R) (s : sample) : Prop :=
  exists w eta g, sa_at s = (w, eta) /\ returned m k w eta g /\ dyson m k w eta (sa_value s) g.

Lemma numbers_ex : forall m : model R, exists N, numbers m N.
Proof.
  intros m. unfold numbers. exists (fold_right Z.max 0 (m_pn m)). assert (P : forall l, 0 <= fold_right Z.max 0 l) by (induction l; cbn; lia). split; [apply P|]. intros t _.
  generalize t. induction (m_pn m) as [|x l IH]; intros [|n]; cbn; try lia; specialize (IH n); lia.
Qed.

Lemma returned_im : forall m k w eta g, usable m -> returned m k w eta g -> (Im g < 0)%R.
Proof. intros m k w eta g U (He & ord & sp & P & SO & E). destruct (usable_sound m U) as [ae [c S]]. destruct (on_row m ae c k w eta S He) as (Psi & _ & N & Ec). rewrite (Ec ord sp P SO) in E. injection E as <-. exact N. Qed.
Lemma returned_ex : forall m k w eta, usable m -> (0 < eta)%R -> exists g, returned m k w eta g.
Proof.
  intros m k w eta U He. destruct (usable_sound m U) as [ae [c S]]. destruct (on_row m ae c k w eta S He) as (Psi & _ & _ & Ec). exists (Psi vacuum 0). split; [exact He|].
  pose proof (gauss_spsolve_ok (F := CF) C_eq_dec) as SO. exists id_ord, (gauss_sparse (F := CF) C_eq_dec). split; [exact id_perm|]. split; [exact SO|]. apply Ec; [exact id_perm|exact SO].
Qed.

(** The Pick matrix of the returned numbers, at any points, is hermitian and
    positive: it is at least the matrix of rank one of the numbers themselves. *)
Theorem C76_pick : forall m k l, usable m -> (forall s, In s l -> sampled m k s) ->
  Im (pick_form l) = 0%R /\ (Cnorm2 (value_form l) <= Re (pick_form l))%R.
Proof.
  intros m k l U Hl. destruct (usable_sound m U) as [ae [c S]]. destruct (numbers_ex m) as [N [N0 HN]]. destruct (Extent_proofs.couples_ex m c) as [rho [R0 HR]].
  assert (X : exists L, (forall p, In p L -> Pick_proofs.at_point m ae c k p) /\ map Pick_proofs.to_sample L = l).
  { clear HN. induction l as [|s l IH]; [exists []; split; [intros p []|reflexivity]|]. destruct IH as [L [A B]]; [intros p Hp; apply Hl; right; exact Hp|].
    destruct (Hl s (or_introl eq_refl)) as (w & eta & Ez & He & ord & sp & P & SO & E). destruct (on_row m ae c k w eta S He) as (Psi & Ro & _ & Ec). rewrite (Ec ord sp P SO) in E. injection E as E.
    exists (Pick_proofs.mkPoint (sa_coef s) w eta Psi :: L). split.
    - intros p [<- | Hp]; [split; [exact He|exact Ro]|apply A; exact Hp].
    - cbn [map]. rewrite B. f_equal. unfold Pick_proofs.to_sample, Pick_proofs.pz, Pick_proofs.F. cbn [Pick_proofs.pt_a Pick_proofs.pt_w Pick_proofs.pt_eta Pick_proofs.pt_row]. rewrite <- Ez, E. destruct s; reflexivity. }
  destruct X as [L [A <-]]. destruct S as [G La H _ _].
  exact (Pick_proofs.pick_positive m ae c k G La (H k) N rho N0 (Extent_proofs.numbers_at_most m ae N HN N0) R0 HR L A).
Qed.
Print Assumptions C76_pick.

Lemma two_values : forall m k w eta g w' eta' g', usable m -> returned m k w eta g -> returned m k w' eta' g' ->
  forall a b, (Cnorm2 (value_form [mkSample a (w, eta) g; mkSample b (w', eta') g']) <= Re (pick_form [mkSample a (w, eta) g; mkSample b (w', eta') g']))%R.
Proof.
  intros m k w eta g w' eta' g' U R R' a b. apply (C76_pick m k _ U). intros s [<- | [<- | []]]; [exists w, eta|exists w', eta']; (split; [reflexivity|assumption]).
Qed.

(** The same for the self-energy of the returned numbers. *)
Theorem C76_self : forall m k l, usable m -> (forall s, In s l -> sampled_self m k s) -> Im (pick_form l) = 0%R /\ (0 <= Re (pick_form l))%R.
Proof.
  intros m k l U Hl. set (h := fun s => Csub (Csub (sa_at s) (RtoC (band m k))) (sa_value s)).
  assert (X : exists L : list (sample * C), map fst L = l /\ forall q, In q L -> (exists w eta, sa_at (fst q) = (w, eta) /\ returned m k w eta (snd q)) /\ Cmul (snd q) (h (fst q)) = Cplx.C1).
  { induction l as [|s l IH]; [exists []; split; [reflexivity|intros q []]|]. destruct IH as [L [A B]]; [intros p Hp; apply Hl; right; exact Hp|].
    destruct (Hl s (or_introl eq_refl)) as (w & eta & g & Ez & Rt & D). exists ((s, g) :: L). split; [cbn [map fst]; rewrite A; reflexivity|]. intros q [<- | Hq]; [|apply B; exact Hq]. cbn [fst snd]. split; [exists w, eta; split; assumption|].
    unfold dyson in D. unfold h. rewrite Ez. rewrite <- D. f_equal. apply Ceq; unfold Csub, RtoC, Re, Im; cbn [fst snd]; ring. }
  destruct X as [L [<- HL]]. clear Hl. set (up := fun q : sample * C => mkSample (Cmul (sa_coef (fst q)) (h (fst q))) (sa_at (fst q)) (snd q)).
  destruct (C76_pick m k (map up L) U) as [I J].
  { intros s Hs. apply in_map_iff in Hs. destruct Hs as [q [<- Hq]]. destruct (HL q Hq) as [(w & eta & Ez & Rt) _]. exists w, eta. split; [exact Ez|exact Rt]. }
  assert (V : value_form (map up L) = Csum_list (map (fun q => sa_coef (fst q)) L)).
  { unfold value_form. rewrite map_map. apply Pick_proofs.Csum_ext. intros q Hq. destruct (HL q Hq) as [_ D]. unfold up. cbn [sa_coef sa_value].
    replace (Cmul (Cmul (sa_coef (fst q)) (h (fst q))) (snd q)) with (Cmul (sa_coef (fst q)) (Cmul (snd q) (h (fst q)))) by ring. rewrite D. ring. }
  assert (F : pick_form (map up L) = Cadd (Cmul (Csum_list (map (fun q => sa_coef (fst q)) L)) (conjugate (Csum_list (map (fun q => sa_coef (fst q)) L)))) (pick_form (map fst L))).
  { unfold pick_form. rewrite !map_map.
    change (conjugate (Csum_list (map (fun q => sa_coef (fst q)) L))) with (Toeplitz_proofs.Cconj (Csum_list (map (fun q => sa_coef (fst q)) L))). rewrite Pick_proofs.Csum_conj, <- Pick_proofs.Csum_prod, <- Pick_proofs.Csum_add.
    apply Pick_proofs.Csum_ext. intros p Hp. rewrite !map_map, <- Pick_proofs.Csum_add. apply Pick_proofs.Csum_ext. intros q Hq.
    destruct (HL p Hp) as [(w & eta & Ez & Rt) Dp]. destruct (HL q Hq) as [(w' & eta' & Ez' & Rt') Dq]. unfold pick, up. cbn [sa_coef sa_at sa_value].
    set (zp := sa_at (fst p)) in *. set (zq := sa_at (fst q)) in *. assert (Nz : Csub zp (conjugate zq) <> Cplx.C0).
    { rewrite Ez, Ez'. intros Z. apply (f_equal snd) in Z. unfold Csub, conjugate, Cplx.C0, Re, Im in Z. cbn [fst snd] in Z. destruct Rt as [He _]. destruct Rt' as [He' _]. lra. }
    assert (Cd : forall x y, conjugate (Cmul x y) = Cmul (conjugate x) (conjugate y)) by (intros x y; apply Ceq; unfold conjugate, Cmul, Re, Im; cbn [fst snd]; ring).
    assert (Dq' : Cmul (conjugate (snd q)) (conjugate (h (fst q))) = Cplx.C1) by (rewrite <- Cd, Dq; apply Ceq; unfold conjugate, Cplx.C1, Re, Im; cbn [fst snd]; ring).
    assert (Hq' : conjugate (h (fst q)) = Csub (Csub (conjugate zq) (RtoC (band m k))) (conjugate (sa_value (fst q)))) by (unfold h; fold zq; apply Ceq; unfold conjugate, Csub, RtoC, Re, Im; cbn [fst snd]; ring).
    change (Toeplitz_proofs.Cconj (sa_coef (fst q))) with (conjugate (sa_coef (fst q))). rewrite Cd. set (d := Csub zp (conjugate zq)) in *.
    assert (E : Cmul (Cmul (h (fst p)) (conjugate (h (fst q)))) (Csub (conjugate (snd q)) (snd p)) = Cadd d (Csub (conjugate (sa_value (fst q))) (sa_value (fst p)))).
    { replace (Cmul (Cmul (h (fst p)) (conjugate (h (fst q)))) (Csub (conjugate (snd q)) (snd p))) with (Csub (Cmul (h (fst p)) (Cmul (conjugate (snd q)) (conjugate (h (fst q))))) (Cmul (conjugate (h (fst q))) (Cmul (snd p) (h (fst p))))) by ring.
      rewrite Dq', Dp, Hq'. unfold h, d. fold zp. ring. }
    unfold Cdiv. replace (Cmul (Cmul (Cmul (sa_coef (fst p)) (h (fst p))) (Cmul (conjugate (sa_coef (fst q))) (conjugate (h (fst q))))) (Cmul (Csub (conjugate (snd q)) (snd p)) (Cinv d)))
      with (Cmul (Cmul (Cmul (sa_coef (fst p)) (conjugate (sa_coef (fst q)))) (Cinv d)) (Cmul (Cmul (h (fst p)) (conjugate (h (fst q)))) (Csub (conjugate (snd q)) (snd p)))) by ring.
    rewrite E. pose proof (Cplx.Cinv_l d Nz) as Di.
    replace (Cmul (Cmul (Cmul (sa_coef (fst p)) (conjugate (sa_coef (fst q)))) (Cinv d)) (Cadd d (Csub (conjugate (sa_value (fst q))) (sa_value (fst p)))))
      with (Cadd (Cmul (Cmul (sa_coef (fst p)) (conjugate (sa_coef (fst q)))) (Cmul (Cinv d) d)) (Cmul (Cmul (sa_coef (fst p)) (conjugate (sa_coef (fst q)))) (Cmul (Csub (conjugate (sa_value (fst q))) (sa_value (fst p))) (Cinv d)))) by ring.
    rewrite Di. ring. }
  rewrite F in I, J. rewrite V in J. set (t := Csum_list (map (fun q => sa_coef (fst q)) L)) in *. set (f := pick_form (map fst L)) in *. clearbody t f.
  unfold Cadd, Cmul, conjugate, Cnorm2, Re, Im in I, J |- *. cbn [fst snd] in I, J. split; lra.
Qed.
Print Assumptions C76_self.

(** The lemma of Schwarz and Pick: how much the returned numbers can change
    between two points. *)
Theorem C76_schwarz : forall m k w eta g w' eta' g', usable m -> returned m k w eta g -> returned m k w' eta' g' ->
  (Cnorm2 (Csub g g') * (eta * eta') <= Cnorm2 (Csub (w, eta) (w', eta')) * (Im g * Im g'))%R.
Proof.
  intros m k w eta g w' eta' g' U R R'. exact (Nevan_proofs.schwarz_pick w eta w' eta' g g' (proj1 R) (proj1 R') (two_values m k w eta g w' eta' g' U R R')).
Qed.
Print Assumptions C76_schwarz.

(** Larger broadening at the same frequency. *)
Theorem C76_broadening : forall m k w eta eta' sp ord sp' ord' A A', usable m -> (0 < eta < eta')%R -> (forall k l, Permutation (ord k l) l) -> spsolve_ok sp -> (forall k l, Permutation (ord' k l) l) -> spsolve_ok sp' ->
  spectral_function m sp ord k eta A -> spectral_function m sp' ord' k eta' A' ->
  (eta * A w <= eta' * A' w)%R /\ (eta * A' w < eta' * A w)%R /\ (eta / A w + PI * (eta' ^ 2 - eta ^ 2) <= eta' / A' w)%R.
Proof.
  intros m k w eta eta' sp ord sp' ord' A A' U [He Hl] P SO P' SO' HA HA'. destruct (HA w) as [g [E Ea]]. destruct (HA' w) as [g' [E' Ea']]. pose proof PI_RGT_0 as HP.
  assert (Rt : returned m k w eta g) by (split; [exact He|exists ord, sp; repeat split; assumption]). assert (Rt' : returned m k w eta' g') by (split; [lra|exists ord', sp'; repeat split; assumption]).
  pose proof (returned_im _ _ _ _ _ U Rt) as N. pose proof (returned_im _ _ _ _ _ U Rt') as N'. pose proof (two_values m k w eta g w eta' g' U Rt Rt') as Pk.
  pose proof (Nevan_proofs.widths_up w eta eta' g g' He Hl N N' Pk) as H1. pose proof (Nevan_proofs.widths_down w eta eta' g g' He Hl N N' Pk) as H2. pose proof (Nevan_proofs.widths_weight w eta eta' g g' He Hl N N' Pk) as H3.
  rewrite Ea, Ea'. split; [|split].
  - apply (Rmult_le_reg_r PI); [exact HP|]. replace (eta * (- Im g / PI) * PI)%R with (- Im g * eta)%R by (field; lra). replace (eta' * (- Im g' / PI) * PI)%R with (- Im g' * eta')%R by (field; lra). exact H1.
  - apply (Rmult_lt_reg_r PI); [exact HP|]. replace (eta * (- Im g' / PI) * PI)%R with (- Im g' * eta)%R by (field; lra). replace (eta' * (- Im g / PI) * PI)%R with (- Im g * eta')%R by (field; lra). exact H2.
  - replace (eta / (- Im g / PI) + PI * (eta' ^ 2 - eta ^ 2))%R with (PI * (eta / - Im g + (eta' * eta' - eta * eta)))%R by (field; lra). replace (eta' / (- Im g' / PI))%R with (PI * (eta' / - Im g'))%R by (field; lra).
    apply Rmult_le_compat_l; [lra|exact H3].
Qed.
Print Assumptions C76_broadening.

Lemma A_step : forall m k eta sp ord A w w', usable m -> (0 < eta)%R -> (forall k l, Permutation (ord k l) l) -> spsolve_ok sp -> spectral_function m sp ord k eta A ->
  (0 < A w)%R /\ (0 < A w')%R /\ let t := (Rabs (w - w') / eta)%R in ((A w - A w') * (A w - A w') <= t * t * (A w * A w'))%R.
Proof.
  intros m k eta sp ord A w w' U He P SO HA. destruct (HA w) as [g [E Ea]]. destruct (HA w') as [g' [E' Ea']]. pose proof PI_RGT_0 as HP.
  assert (Rt : returned m k w eta g) by (split; [exact He|exists ord, sp; repeat split; assumption]). assert (Rt' : returned m k w' eta g') by (split; [exact He|exists ord, sp; repeat split; assumption]).
  pose proof (returned_im _ _ _ _ _ U Rt) as N. pose proof (returned_im _ _ _ _ _ U Rt') as N'. pose proof (C76_schwarz m k w eta g w' eta g' U Rt Rt') as H. rewrite Ea, Ea'.
  split; [apply Rdiv_lt_0_compat; lra|]. split; [apply Rdiv_lt_0_compat; lra|]. cbv zeta.
  assert (T : (Rabs (w - w') / eta * (Rabs (w - w') / eta) = (w - w') * (w - w') / (eta * eta))%R).
  { pose proof (Rsqr_abs (w - w')) as Q. unfold Rsqr in Q. rewrite Q. field. lra. }
  rewrite T. assert (Z : Cnorm2 (Csub (w, eta) (w', eta)) = ((w - w') * (w - w'))%R) by (unfold Cnorm2, Csub, Re, Im; cbn [fst snd]; ring). rewrite Z in H.
  assert (Y : ((Im g - Im g') * (Im g - Im g') * (eta * eta) <= (w - w') * (w - w') * (Im g * Im g'))%R).
  { eapply Rle_trans; [|exact H]. apply Rmult_le_compat_r; [nra|]. unfold Cnorm2, Csub, Re, Im. cbn [fst snd]. pose proof (Rle_0_sqr (fst g - fst g')) as Q. unfold Rsqr in Q. lra. }
  apply (Rmult_le_reg_r (eta * eta * (PI * PI))); [apply Rmult_lt_0_compat; apply Rmult_lt_0_compat; assumption|].
  replace ((- Im g / PI - - Im g' / PI) * (- Im g / PI - - Im g' / PI) * (eta * eta * (PI * PI)))%R with ((Im g - Im g') * (Im g - Im g') * (eta * eta))%R by (field; lra).
  replace ((w - w') * (w - w') / (eta * eta) * (- Im g / PI * (- Im g' / PI)) * (eta * eta * (PI * PI)))%R with ((w - w') * (w - w') * (Im g * Im g'))%R by (field; lra). exact Y.
Qed.

(** The spectral function changes by at most a factor between two frequencies,
    which depends on their distance in units of the broadening only. *)
Theorem C76_resolution : forall m k eta sp ord A w w', usable m -> (0 < eta)%R -> (forall k l, Permutation (ord k l) l) -> spsolve_ok sp -> spectral_function m sp ord k eta A ->
  let t := (Rabs (w - w') / (2 * eta))%R in (A w <= (t + sqrt (t ^ 2 + 1)) ^ 2 * A w')%R.
Proof.
  intros m k eta sp ord A w w' U He P SO HA t. destruct (A_step m k eta sp ord A w w' U He P SO HA) as (P1 & P2 & B). cbv zeta in B.
  assert (T0 : (0 <= Rabs (w - w') / eta)%R) by (apply Rmult_le_pos; [apply Rabs_pos|left; apply Rinv_0_lt_compat; exact He]).
  pose proof (Fit_proofs.ratio _ _ _ P1 P2 T0 B) as Q. cbv zeta in Q. replace (Rabs (w - w') / eta)%R with (2 * t)%R in Q by (unfold t; field; lra).
  replace (2 * t * (2 * t) + 4)%R with (2 * 2 * (t ^ 2 + 1))%R in Q by ring. rewrite sqrt_mult in Q by (try lra; pose proof (pow2_ge_0 t); lra). rewrite sqrt_square in Q by lra.
  replace ((t + sqrt (t ^ 2 + 1)) ^ 2)%R with ((2 * t + 2 * sqrt (t ^ 2 + 1)) / 2 * ((2 * t + 2 * sqrt (t ^ 2 + 1)) / 2))%R by field. exact Q.
Qed.
Print Assumptions C76_resolution.

(** No peak is lost between the points of a grid which is as fine as the
    broadening: at one of the two neighbours of any frequency the spectral
    function is at least 3/5 of its value there. *)
Theorem C76_grid : forall m k eta sp ord A a h n w, usable m -> (0 < eta)%R -> (forall k l, Permutation (ord k l) l) -> spsolve_ok sp -> spectral_function m sp ord k eta A ->
  (0 < h <= eta)%R -> (a <= w <= a + INR n * h)%R -> exists j, (j <= n)%nat /\ (Rabs (w - (a + INR j * h)) <= h / 2)%R /\ (3 / 5 * A w <= A (a + INR j * h))%R.
Proof.
  intros m k eta sp ord A a h n w U He P SO HA [H0 H1] [W0 W1].
  assert (X : exists j, (j <= n)%nat /\ (Rabs (w - (a + INR j * h)) <= h / 2)%R).
  { clear - H0 W0 W1. induction n as [|n IH].
    - exists 0%nat. split; [lia|]. cbn [INR] in *. replace (w - (a + 0 * h))%R with 0%R by lra. rewrite Rabs_R0. lra.
    - rewrite S_INR in W1. destruct (Rle_lt_dec w (a + INR n * h)) as [L|L]; [destruct (IH L) as [j [A B]]; exists j; split; [lia|exact B]|].
      destruct (Rle_lt_dec (w - (a + INR n * h)) (h / 2)) as [Q|Q].
      + exists n. split; [lia|]. rewrite Rabs_right by lra. exact Q.
      + exists (S n). split; [lia|]. rewrite S_INR. apply Rabs_le. lra. }
  destruct X as [j [J1 J2]]. exists j. split; [exact J1|]. split; [exact J2|]. destruct (A_step m k eta sp ord A w (a + INR j * h)%R U He P SO HA) as (P1 & P2 & B). cbv zeta in B.
  refine (Fit_proofs.ratio_half _ _ _ P1 P2 _ B). split; [apply Rmult_le_pos; [apply Rabs_pos|left; apply Rinv_0_lt_compat; exact He]|].
  apply (Rmult_le_reg_r eta); [exact He|]. replace (Rabs (w - (a + INR j * h)) / eta * eta)%R with (Rabs (w - (a + INR j * h))) by (field; lra). lra.
Qed.
Print Assumptions C76_grid.

(** Models at a temperature. *)
Theorem C76_thermal : forall T hop lat l m k s, (0 < T)%R -> l <> [] -> (forall a, In a l -> a_override a = None) -> distinct Rnum (doubled_freqs Rnum l) ->
  (forall a, In a l -> a_type a = "BondPeierls"%string) \/ (forall a, In a l -> a_type a <> "BondPeierls"%string) ->
  lat = 1%R \/ hop = 0%R -> (0 <= hop)%R -> accepts Rnum (from_parameters hop lat T None 1) l m ->
  (forall p, In p s -> sampled m k p) -> Im (pick_form s) = 0%R /\ (Cnorm2 (value_form s) <= Re (pick_form s))%R.
Proof. intros T hop lat l m k s HT Ln Pl Df Bp Hl Ht A Hs. exact (C76_pick m k s (hot_usable T hop lat l m HT Ln Pl Df Bp Hl Ht A) Hs). Qed.
Print Assumptions C76_thermal.

(** Edwards' model: the self-energy and the Green's function at two points, and
    the spectral function on a grid. *)
Example C76_nonvacuous : usable (x_model 1) /\ forall k eta, (0 < eta)%R ->
  (exists g g' : C, returned (x_model 1) k (-2) eta g /\ returned (x_model 1) k 1 (2 * eta) g' /\ (Im g < 0)%R /\ (Im g' < 0)%R /\
    (Cnorm2 (Csub g g') * (2 * eta ^ 2) <= (9 + eta ^ 2) * (Im g * Im g'))%R) /\
  exists A, spectral_function (x_model 1) (gauss_sparse (F := CF) C_eq_dec) id_ord k eta A /\ (0 < A (- (1 / 4) * eta))%R /\ (3 / 5 * A (- (1 / 4) * eta) <= A 0)%R.
Proof.
  destruct C57_nonvacuous as [U _]. split; [exact U|]. intros k eta He. pose proof (gauss_spsolve_ok (F := CF) C_eq_dec) as SO. split.
  - destruct (returned_ex (x_model 1) k (-2) eta U He) as [g Rt]. destruct (returned_ex (x_model 1) k 1 (2 * eta) U ltac:(lra)) as [g' Rt']. exists g, g'. split; [exact Rt|]. split; [exact Rt'|].
    split; [exact (returned_im _ _ _ _ _ U Rt)|]. split; [exact (returned_im _ _ _ _ _ U Rt')|]. pose proof (C76_schwarz _ _ _ _ _ _ _ _ U Rt Rt') as H.
    replace (Cnorm2 (Csub (-2, eta) (1, 2 * eta)))%R with (9 + eta ^ 2)%R in H by (unfold Cnorm2, Csub, Re, Im; cbn [fst snd]; ring). replace (2 * eta ^ 2)%R with (eta * (2 * eta))%R by ring. exact H.
  - destruct (C74_defined (x_model 1) k eta id_ord _ U He id_perm SO) as [A [HA [Pos _]]]. exists A. split; [exact HA|]. split; [apply Pos|].
    destruct (C76_grid (x_model 1) k eta _ id_ord A (- eta) eta 1 (- (1 / 4) * eta) U He id_perm SO HA ltac:(lra) ltac:(cbn [INR]; lra)) as [j [J1 [J2 J3]]].
    destruct j as [|[|j]]; [exfalso|cbn [INR] in J3; replace (- eta + 1 * eta)%R with 0%R in J3 by ring; exact J3|lia].
    cbn [INR] in J2. rewrite Rabs_right in J2 by lra. lra.
Qed.
Print Assumptions C76_nonvacuous.
