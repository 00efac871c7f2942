(** Property theorems C34, C36, C37, C38, C43, C46: formulas over the real and
    complex numbers. *)
From Coq Require Import String Reals ZArith List Lra Lia Psatz.
From Verif Require Import Base Model HModel Spec_model Ring Coef Cplx Physics.
From Verif Require Physics_proofs.
Import ListNotations.
Open Scope list_scope.
Open Scope R_scope.

(** The arithmetic assumptions of Props_Model.v hold for the reals. *)
Theorem Rnum_ok : num_ok Rnum /\ forall x, n_opp Rnum (n_opp Rnum x) = x.
Proof.
  split; [constructor; cbn|cbn; intros; ring].
  - intros. apply Rabs_Ropp.
  - intros x e. destruct (Rlt_dec x 0); congruence.
Qed.
Print Assumptions Rnum_ok.

(** C46.  [square c t O lam] is the value of g^2 for the coupling [c]. *)
Definition square (c : string) (t O lam : R) : option R :=
  if String.eqb c "Holstein" then Some (2 * t * Rabs O * lam)
  else if String.eqb c "Peierls" then Some (t * Rabs O * lam / 2)
  else if String.eqb c "BondPeierls" then Some (t * Rabs O * lam)
  else None.

Theorem C46_square_root : forall c t O lam v, square c t O lam = Some v ->
  (0 <= v -> exists g, model_coupling_map Rnum c t O lam = Ok g /\ 0 <= g /\ g * g = v) /\
  (v < 0 -> model_coupling_map Rnum c t O lam = Err ValueError).
Proof.
  intros c t O lam v. unfold square, model_coupling_map.
  assert (X : forall u, (0 <= u -> exists g, n_sqrt Rnum u = Ok g /\ 0 <= g /\ g * g = u) /\ (u < 0 -> n_sqrt Rnum u = Err ValueError)).
  { intros u. cbn. split; intros H; destruct (Rlt_dec u 0) as [L|L]; try lra; [|reflexivity].
    exists (sqrt u). split; [reflexivity|]. split; [apply sqrt_pos|apply sqrt_sqrt; exact H]. }
  destruct (String.eqb_spec c "Holstein") as [->|]; [intros E; assert (v = 2 * t * Rabs O * lam) as -> by congruence; apply X|].
  destruct (String.eqb_spec c "Peierls") as [->|]; [intros E; assert (v = t * Rabs O * lam / 2) as -> by congruence; apply X|].
  destruct (String.eqb_spec c "BondPeierls") as [->|]; [intros E; assert (v = t * Rabs O * lam) as -> by congruence; apply X|]. discriminate.
Qed.
Print Assumptions C46_square_root.

Theorem C46_edwards : forall t O lam, model_coupling_map Rnum "EdwardsFermionBoson" t O lam = Ok lam.
Proof. reflexivity. Qed.
Print Assumptions C46_edwards.

Theorem C46_sign_of_frequency : forall c t O lam, model_coupling_map Rnum c t (- O) lam = model_coupling_map Rnum c t O lam.
Proof. intros. unfold model_coupling_map. cbn [n_abs Rnum]. rewrite Rabs_Ropp. reflexivity. Qed.
Print Assumptions C46_sign_of_frequency.

Theorem C46_unknown : forall c t O lam, model_coupling_map Rnum c t O lam = Err RuntimeError <-> ~ supported c.
Proof.
  intros c t O lam. unfold model_coupling_map, supported.
  assert (X : forall u, n_sqrt Rnum u <> Err RuntimeError) by (intros u; cbn; destruct (Rlt_dec u 0); discriminate).
  destruct (String.eqb_spec c "Holstein"); [split; [intros H; exfalso; exact (X _ H)|tauto]|].
  destruct (String.eqb_spec c "EdwardsFermionBoson"); [split; [discriminate|tauto]|].
  destruct (String.eqb_spec c "Peierls"); [split; [intros H; exfalso; exact (X _ H)|tauto]|].
  destruct (String.eqb_spec c "BondPeierls"); [split; [intros H; exfalso; exact (X _ H)|tauto]|].
  split; [intros _ [?|[?|[?|?]]]; congruence|reflexivity].
Qed.
Print Assumptions C46_unknown.

Example C46_nonvacuous : model_coupling_map Rnum "Holstein" 1 (-2) 1 = Ok 2 /\ square "Holstein" 1 (-2) 1 = Some 4.
Proof.
  assert (E : 2 * 1 * Rabs (-2) * 1 = 4) by (rewrite Rabs_left by lra; lra).
  destruct (C46_square_root "Holstein" 1 (-2) 1 4) as [H _]; [unfold square; cbn; rewrite E; reflexivity|].
  split; [|unfold square; cbn; rewrite E; reflexivity].
  destruct H as [g [-> [H1 H2]]]; [lra|]. f_equal. nra.
Qed.

(** C34 *)
Definition bose (T O : R) : R := 1 / (exp (O / T) - 1).

Theorem C34_prefactors : forall T O c s, 0 < T -> 0 < O -> tfd_prefactors Rnum T O = (c, s) ->
  c * c - s * s = 1 /\ c * c = 1 + bose T O /\ s * s = bose T O /\ 1 <= c /\ 0 < s.
Proof. intros. eapply Physics_proofs.prefactors; eassumption. Qed.
Print Assumptions C34_prefactors.

Theorem C34_zero_temperature : forall T O, T <= 0 -> tfd_prefactors Rnum T O = (1, 0).
Proof. intros T O H. unfold tfd_prefactors. cbn [n_ltb n_0 n_1 Rnum]. destruct (Rlt_dec 0 T); [lra|reflexivity]. Qed.
Print Assumptions C34_zero_temperature.

(** The fictitious prefactor vanishes with the temperature. *)
Theorem C34_low_temperature : forall T O c s, 0 < T -> 0 < O -> tfd_prefactors Rnum T O = (c, s) ->
  0 < s * s <= T / O /\ 1 < c * c <= 1 + T / O.
Proof. intros. eapply Physics_proofs.low_temperature; eassumption. Qed.
Print Assumptions C34_low_temperature.

Example C34_nonvacuous : exists c s, tfd_prefactors Rnum 1 (ln 2) = (c, s) /\ s = 1 /\ c * c = 2.
Proof.
  destruct (tfd_prefactors Rnum 1 (ln 2)) as [c s] eqn:E. exists c, s. split; [reflexivity|].
  assert (L : 0 < ln 2) by (rewrite <- ln_1; apply ln_increasing; lra).
  assert (B : bose 1 (ln 2) = 1). { unfold bose. replace (ln 2 / 1) with (ln 2) by field. rewrite exp_ln by lra. field. }
  destruct (C34_prefactors 1 (ln 2) c s Rlt_0_1 L E) as [H1 [H2 [H3 [H4 H5]]]]. rewrite B in *. split; [nra|lra].
Qed.

(** C36 *)
Theorem C36_inverse : forall k omega a eta t, 0 < Im omega + eta ->
  Cmul (G0_k_omega k omega a eta t) (Cadd (Cadd omega (Cmul Ci (RtoC eta))) (RtoC (2 * t * cos (k * a)))) = C1 /\
  Im (G0_k_omega k omega a eta t) < 0.
Proof. intros. apply Physics_proofs.G0_inverse. assumption. Qed.
Print Assumptions C36_inverse.

Theorem C36_even : forall k omega a eta t, G0_k_omega (- k) omega a eta t = G0_k_omega k omega a eta t.
Proof. intros. unfold G0_k_omega. rewrite Ropp_mult_distr_l_reverse, cos_neg. reflexivity. Qed.
Print Assumptions C36_even.

Theorem C36_periodic : forall k omega a eta t, a <> 0 -> G0_k_omega (k + 2 * PI / a) omega a eta t = G0_k_omega k omega a eta t.
Proof.
  intros k omega a eta t A. unfold G0_k_omega. replace ((k + 2 * PI / a) * a) with (k * a + 2 * PI) by (field; exact A).
  rewrite <- (cos_period (k * a) 1). replace (k * a + 2 * INR 1 * PI) with (k * a + 2 * PI) by (cbn; ring). reflexivity.
Qed.
Print Assumptions C36_periodic.

Example C36_nonvacuous : 0 < Im (RtoC 0) + 1 /\ G0_k_omega 0 (RtoC 0) 1 1 0 = (0, -1).
Proof.
  split; [cbn; lra|]. unfold G0_k_omega, Cdiv, Cmul, Cinv, C1, Cadd, Ci, RtoC, Cnorm2, Re, Im. cbn. f_equal; field_simplify; nra.
Qed.

(** C37.  The resolvent equation of the chain. *)
Definition resolvent (g : Z -> C) (z : C) (t : R) : Prop := forall d : Z,
  Cadd (Cmul z (g d)) (Cmul (RtoC t) (Cadd (g (d + 1)%Z) (g (d - 1)%Z))) = if Z.eq_dec d 0 then C1 else C0.
Definition g0_site (omega : C) (a eta t : R) (d : Z) : C := g0_delta_omega (IZR d) omega a eta t 1 0.
Definition z_of (omega : C) (eta : R) : C := Cadd omega (Cmul (RtoC eta) Ci).

(** True for non-negative hopping and unit lattice constant ... *)
Theorem C37_resolvent : forall omega eta t, 0 < Im omega + eta -> 0 <= t -> resolvent (g0_site omega 1 eta t) (z_of omega eta) t.
Proof. intros. apply Physics_proofs.resolvent_ok; assumption. Qed.
Print Assumptions C37_resolvent.

(** ... with hopping zero also for every other lattice constant ... *)
Theorem C37_resolvent_no_hopping : forall omega a eta, 0 < Im omega + eta -> resolvent (g0_site omega a eta 0) (z_of omega eta) 0.
Proof. intros. apply Physics_proofs.resolvent_0; assumption. Qed.
Print Assumptions C37_resolvent_no_hopping.

(** ... false for every negative hopping: there it solves the equation with
    |t| instead ... *)
Theorem C37_negative_hopping : forall omega eta t, 0 < Im omega + eta -> t < 0 ->
  ~ resolvent (g0_site omega 1 eta t) (z_of omega eta) t /\ resolvent (g0_site omega 1 eta t) (z_of omega eta) (Rabs t).
Proof. intros. apply Physics_proofs.resolvent_neg; assumption. Qed.
Print Assumptions C37_negative_hopping.

(** ... and false for every other lattice constant, since the separation (a
    number of sites) is multiplied by it. *)
Theorem C37_lattice_constant : forall omega a eta t, 0 < Im omega + eta -> 0 < t -> 0 < a -> a <> 1 ->
  ~ resolvent (g0_site omega a eta t) (z_of omega eta) t.
Proof. intros. apply Physics_proofs.resolvent_a; assumption. Qed.
Print Assumptions C37_lattice_constant.

Theorem C37_negative_hopping_refuted : exists omega eta t, 0 < Im omega + eta /\ ~ resolvent (g0_site omega 1 eta t) (z_of omega eta) t.
Proof. exists (0, 0), 1, (-1). assert (H : 0 < Im (0, 0) + 1) by (unfold Im; cbn; lra). split; [exact H|]. apply C37_negative_hopping; [exact H|lra]. Qed.
Print Assumptions C37_negative_hopping_refuted.
Theorem C37_lattice_constant_refuted : exists omega a eta t, 0 < Im omega + eta /\ 0 < t /\ 0 < a /\ ~ resolvent (g0_site omega a eta t) (z_of omega eta) t.
Proof.
  exists (0, 0), 2, 1, 1. assert (H : 0 < Im (0, 0) + 1) by (unfold Im; cbn; lra). split; [exact H|]. split; [lra|]. split; [lra|]. apply C37_lattice_constant; [exact H|lra|lra|lra].
Qed.
Print Assumptions C37_lattice_constant_refuted.

Theorem C37_even : forall omega a eta t d, 0 < Im omega + eta -> g0_site omega a eta t (- d) = g0_site omega a eta t d.
Proof. intros. apply Physics_proofs.site_even; assumption. Qed.
Print Assumptions C37_even.

(** Geometric decay with ratio r < 1 per site. *)
Theorem C37_decay : forall omega a eta t, 0 < Im omega + eta -> 0 < a -> exists r c, 0 < r < 1 /\ 0 < c /\
  forall d, Cabs (g0_site omega a eta t d) <= c * r ^ Z.abs_nat d.
Proof. intros. apply Physics_proofs.site_decay; assumption. Qed.
Print Assumptions C37_decay.

(** The Fourier partner of [G0_k_omega]: the partial sums over |d| <= n of
    g(d) exp(i k d) converge to it. *)
Fixpoint fourier (g : Z -> C) (k : R) (n : nat) : C :=
  match n with
  | O => g 0%Z
  | S m => Cadd (fourier g k m) (Cadd (Cmul (g (Z.of_nat n)) (Cexpi (k * INR n))) (Cmul (g (- Z.of_nat n)%Z) (Cexpi (- (k * INR n)))))
  end.

Theorem C37_fourier : forall omega eta t k, 0 < Im omega + eta -> 0 <= t -> forall eps, 0 < eps ->
  exists n0, forall n, (n0 <= n)%nat -> Cabs (Csub (fourier (g0_site omega 1 eta t) k n) (G0_k_omega k omega 1 eta t)) < eps.
Proof. intros. apply Physics_proofs.fourier_ok; assumption. Qed.
Print Assumptions C37_fourier.

Example C37_nonvacuous : 0 < Im (RtoC 0) + 1 /\ 0 < 1 /\ g0_site (RtoC 0) 1 1 0 0 = (0, -1).
Proof.
  split; [cbn; lra|]. split; [lra|]. unfold g0_site, g0_delta_omega. destruct (Req_EM_T 0 0); [|lra].
  unfold Cdiv, Cmul, Cinv, C1, Cadd, Ci, RtoC, Cnorm2, Re, Im. cbn. f_equal; field_simplify; nra.
Qed.

(** C38.  Above the peak, two broadenings give location and weight. *)
Theorem C38_two_broadenings : forall w E W eta eta', 0 < W -> 0 < eta -> 0 < eta' -> eta <> eta' -> E < w ->
  peak_location_and_weight w (lorentzian w E W eta) (lorentzian w E W eta') eta eta' = (E, W).
Proof. intros. apply Physics_proofs.peak_ok; assumption. Qed.
Print Assumptions C38_two_broadenings.

(** Below the peak the location found is its mirror image. *)
Theorem C38_below_peak : forall w E W eta eta', 0 < W -> 0 < eta -> 0 < eta' -> eta <> eta' -> w < E ->
  peak_location_and_weight w (lorentzian w E W eta) (lorentzian w E W eta') eta eta' = (2 * w - E, W) /\ 2 * w - E <> E.
Proof. intros. split; [apply Physics_proofs.peak_below; assumption|lra]. Qed.
Print Assumptions C38_below_peak.
Theorem C38_below_peak_refuted : exists w E W eta eta', 0 < W /\ 0 < eta /\ 0 < eta' /\ eta <> eta' /\
  peak_location_and_weight w (lorentzian w E W eta) (lorentzian w E W eta') eta eta' <> (E, W).
Proof.
  exists 0, 1, 1, 1, 2. split; [lra|]. split; [lra|]. split; [lra|]. split; [lra|].
  destruct (C38_below_peak 0 1 1 1 2) as [-> H]; try lra. congruence.
Qed.
Print Assumptions C38_below_peak_refuted.

(** Two frequencies: the result is one of the (at most two) Lorentzians of this
    width through the two points; the true one when the other root of the
    equation has a weight above 1 and the true weight is not. *)
Theorem C38_two_frequencies : forall w w' E W eta, 0 < W -> 0 < eta ->
  lorentzian w E W eta <> lorentzian w' E W eta ->
  let r := peak_location_and_weight_wstep w w' (lorentzian w E W eta) (lorentzian w' E W eta) eta in
  (lorentzian w (fst r) (snd r) eta = lorentzian w E W eta /\ lorentzian w' (fst r) (snd r) eta = lorentzian w' E W eta) /\
  (W <= 1 ->
   (forall E' W', lorentzian w E' W' eta = lorentzian w E W eta -> lorentzian w' E' W' eta = lorentzian w' E W eta -> E' <> E -> 1 < W') ->
   r = (E, W)).
Proof. intros. apply Physics_proofs.wstep_ok; assumption. Qed.
Print Assumptions C38_two_frequencies.

(** Without that the wrong one may be returned. *)
Theorem C38_two_frequencies_refuted : exists w w' E W eta, 0 < W <= 1 /\ 0 < eta /\ lorentzian w E W eta <> lorentzian w' E W eta /\
  fst (peak_location_and_weight_wstep w w' (lorentzian w E W eta) (lorentzian w' E W eta) eta) <> E.
Proof. exact Physics_proofs.wstep_wrong. Qed.
Print Assumptions C38_two_frequencies_refuted.

Example C38_nonvacuous : peak_location_and_weight 1 (lorentzian 1 0 (1/2) 1) (lorentzian 1 0 (1/2) 2) 1 2 = (0, 1/2).
Proof. apply C38_two_broadenings; lra. Qed.

(** C43 *)
Definition seconds_in (u : string) : R :=
  if String.eqb u "s" then 1 else if String.eqb u "m" then 60 else if String.eqb u "h" then 3600 else 86400.

Theorem C43_duration : forall dt x u, elapsed_time_str dt = (x, u) ->
  x * seconds_in u = dt /\
  (dt < 10 <-> u = "s"%string) /\ (10 <= dt < 600 <-> u = "m"%string) /\ (600 <= dt < 36000 <-> u = "h"%string) /\ (36000 <= dt <-> u = "d"%string).
Proof.
  intros dt x u. unfold elapsed_time_str.
  destruct (Rlt_dec dt 10); [|destruct (Rlt_dec dt 600); [|destruct (Rlt_dec dt 36000)]]; intros H; injection H as <- <-; cbn;
    (split; [try lra; field|]); repeat split; intros; try lra; try discriminate; try reflexivity.
Qed.
Print Assumptions C43_duration.

Theorem C43_remaining : forall e p,
  (p = 100 -> time_remaining e p = Ok 0) /\
  (p <> 0 -> exists r, time_remaining e p = Ok r /\ r * p = e * (100 - p)) /\
  (p = 0 -> time_remaining e p = Err ZeroDivisionError).
Proof.
  intros e p. unfold time_remaining. destruct (Req_EM_T p 100) as [->|N].
  - split; [reflexivity|]. split; [intros _; exists 0; split; [reflexivity|lra]|lra].
  - split; [intros; contradiction|]. destruct (Req_EM_T p 0) as [->|Z0].
    + split; [intros H; exfalso; apply H; reflexivity|reflexivity].
    + split; [intros _; eexists; split; [reflexivity|field; exact Z0]|intros; contradiction].
Qed.
Print Assumptions C43_remaining.

Example C43_nonvacuous : elapsed_time_str 120 = (2, "m"%string) /\ time_remaining 3 25 = Ok 9.
Proof.
  split.
  - unfold elapsed_time_str. destruct (Rlt_dec 120 10); [lra|]. destruct (Rlt_dec 120 600); [|lra]. f_equal. lra.
  - unfold time_remaining. destruct (Req_EM_T 25 100); [lra|]. destruct (Req_EM_T 25 0); [lra|]. f_equal. lra.
Qed.
