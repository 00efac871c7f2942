(** Property theorem C87: values between the points of a grid, and what the
    spectral function on an interval determines. *)
From Coq Require Import String ZArith List Bool Lia Permutation Reals Ratan RiemannInt Lra.
From Verif Require Import Base NdArray Config Spec Model HModel Space Spec_space Term Equation System Spec_engine Props_Engine
  Ring Coef Spec_eom Solvers Spec_solve LinSolve Spec_model Spec_sym Cplx Physics Props_Physics Props_Model Props_Solve Props_Sym Spec_spectral Props_Spectral
  Spec_green Props_Green Spec_cutoff Spec_exact Spec_self Props_Self Spec_moments Props_MA Props_Moments Props_Pipeline Props_Thermal Spec_sum Props_Sum Spec_blur Props_Blur Spec_interp.
From Verif Require HModel_proofs Band_proofs Physics_proofs Walk_proofs Moments_proofs Contour_proofs Divided_proofs Blur_proofs Interp_proofs.
Import ListNotations.
Open Scope list_scope.
Open Scope R_scope.

(** Newton's polynomial through the values at any distinct frequencies goes
    through these values, and its error elsewhere is bounded. *)
Theorem C87_newton : forall m k ord sp g, usable m -> allowed ord -> spsolve_ok sp -> green_at m sp ord k g ->
  forall y (l : list C) (z : C), 0 < y -> NoDup l -> (forall p, In p (z :: l) -> y <= Im p) ->
  (In z l -> newton g l z = g z) /\ Cabs (Csub (g z) (newton g l z)) <= Cabs (nodes l z) / y ^ S (length l).
Proof.
  intros m k ord sp g U P SO Hg y l z Hy ND HP. split; [apply Interp_proofs.newton_in; exact ND|].
  assert (Y : 0 < / y ^ S (length l)) by (apply Rinv_0_lt_compat, pow_lt; exact Hy).
  destruct (in_dec Blur_proofs.dec_C z l) as [I|N].
  - rewrite (Interp_proofs.newton_in g l z ND I). replace (Csub (g z) (g z)) with Cplx.C0 by ring. rewrite Moments_proofs.Cabs_C0. apply Rmult_le_pos; [apply Physics_proofs.Cabs_ge0|lra].
  - rewrite (Interp_proofs.remainder g l z N), Physics_proofs.Cabs_mul, Rmult_comm. unfold Rdiv. apply Rmult_le_compat_l; [apply Physics_proofs.Cabs_ge0|].
    rewrite <- pow_inv. apply (C86_divided m k ord sp g U P SO Hg y l z Hy); [constructor; assumption|exact HP].
Qed.
Print Assumptions C87_newton.

(** The straight line between neighbouring values of the array. *)
Theorem C87_linear : forall m k eta sp ord A, usable m -> 0 < eta -> allowed ord -> spsolve_ok sp -> spectral_function m sp ord k eta A ->
  forall x x' t, x < x' -> x <= t <= x' -> Rabs (A t - straight x (A x) x' (A x') t) <= (x' - x) ^ 2 / (4 * PI * eta ^ 3).
Proof.
  intros m k eta sp ord A U He P SO HA x x' t Hx Ht. pose proof PI_RGT_0 as PP. set (g := fun z => code_g m sp ord k (Re z) (Im z)).
  assert (NN : ((x, eta) : C) <> (x', eta)) by (intros E; injection E; lra).
  assert (ND : NoDup [((x, eta) : C); (x', eta)]) by (constructor; [intros [E|[]]; congruence|repeat constructor; intros []]).
  destruct (C87_newton m k ord sp g U P SO (code_at m k ord sp U P SO) eta [(x, eta); (x', eta)] (t, eta) He ND ltac:(intros p [<- |[<- |[<- |[]]]]; unfold Im; cbn [snd]; lra)) as [_ B].
  cbn [newton nodes divided length] in B. set (gt := g (t, eta)) in *. set (ga := g (x, eta)) in *. set (gb := g (x', eta)) in *.
  rewrite !(code_A m sp ord k eta A HA). change (code_g m sp ord k t eta) with gt. change (code_g m sp ord k x eta) with ga. change (code_g m sp ord k x' eta) with gb.
  pose proof (Walk_proofs.Im_abs_le (Csub gt (Cadd (Cadd Cplx.C0 (Cmul gb Cplx.C1)) (Cmul (Cmul (Cinv (Csub (x, eta) (x', eta))) (Csub ga gb)) (Cmul (Csub (t, eta) (x', eta)) Cplx.C1))))) as I.
  replace (Csub (x, eta) (x', eta)) with (RtoC (x - x')) in * by (apply Ceq; unfold Csub, RtoC, Re, Im; cbn [fst snd]; ring).
  replace (Csub (t, eta) (x', eta)) with (RtoC (t - x')) in * by (apply Ceq; unfold Csub, RtoC, Re, Im; cbn [fst snd]; ring).
  replace (Csub (t, eta) (x, eta)) with (RtoC (t - x)) in * by (apply Ceq; unfold Csub, RtoC, Re, Im; cbn [fst snd]; ring).
  rewrite Interp_proofs.inv_real in *. set (D := Csub gt _) in *.
  assert (E : - Im gt / PI - straight x (- Im ga / PI) x' (- Im gb / PI) t = - (/ PI) * Im D).
  { unfold D, straight, Cadd, Csub, Cmul, RtoC, Cplx.C0, Cplx.C1, Re, Im. cbn [fst snd]. field. repeat split; lra. }
  rewrite E, Rabs_mult, Rabs_Ropp, (Rabs_pos_eq (/ PI)) by (left; apply Rinv_0_lt_compat; lra).
  rewrite !Physics_proofs.Cabs_mul, !Moments_proofs.Cabs_RtoC in B. replace (Cabs Cplx.C1) with 1 in B by (change Cplx.C1 with (RtoC 1); rewrite Moments_proofs.Cabs_RtoC, Rabs_pos_eq; lra).
  rewrite (Rabs_pos_eq (t - x)), (Rabs_minus_sym t x'), (Rabs_pos_eq (x' - t)) in B by lra.
  assert (H3 : 0 < eta ^ 3) by (apply pow_lt; exact He).
  assert (Q : (t - x) * ((x' - t) * 1) / eta ^ 3 <= (x' - x) ^ 2 / 4 / eta ^ 3) by (apply Rmult_le_compat_r; [left; apply Rinv_0_lt_compat; exact H3|]; pose proof (Rle_0_sqr ((t - x) - (x' - t))) as S; unfold Rsqr in S; nra).
  replace ((x' - x) ^ 2 / (4 * PI * eta ^ 3)) with (/ PI * ((x' - x) ^ 2 / 4 / eta ^ 3)) by (field; split; lra). apply Rmult_le_compat_l; [left; apply Rinv_0_lt_compat; lra|lra].
Qed.
Print Assumptions C87_linear.

(** The limits of the same integrals. *)
Lemma same_above : forall m m' k k' ord ord' sp sp' eta delta A A' D D', usable m -> usable m' -> allowed ord -> allowed ord' -> spsolve_ok sp -> spsolve_ok sp' -> 0 < eta -> 0 < delta ->
  spectral_function m sp ord k eta A -> spectral_function m' sp' ord' k' eta A' -> (forall w, A w = A' w) ->
  spectral_function m sp ord k (eta + delta) D -> spectral_function m' sp' ord' k' (eta + delta) D' -> forall w, D w = D' w.
Proof.
  intros m m' k k' ord ord' sp sp' eta delta A A' D D' U U' P P' SO SO' He Hd HA HA' E HD HD' w.
  assert (X : Rabs (D w - D' w) <= 0); [|destruct (Req_dec (D w) (D' w)) as [Q|Q]; [exact Q|]; pose proof (Rabs_pos_lt (D w - D' w) ltac:(lra)); lra].
  apply Blur_proofs.le_any. intros e Hp. destruct (C86_broadened eta delta w (e / 2) He Hd ltac:(lra)) as [r0 H].
  set (r := Rmax r0 0). assert (R1 : r0 <= r) by apply Rmax_l. assert (R2 : 0 <= r) by apply Rmax_r.
  pose proof (C86_integrable m k eta delta w sp ord A U He Hd P SO HA (- r) r) as pr. pose proof (C86_integrable m' k' eta delta w sp' ord' A' U' He Hd P' SO' HA' (- r) r) as pr'.
  pose proof (H m k ord sp A D U P SO HA HD r pr R1) as X1. pose proof (H m' k' ord' sp' A' D' U' P' SO' HA' HD' r pr' R1) as X2.
  assert (EI : RiemannInt pr = RiemannInt pr') by (apply Rle_antisym; apply RiemannInt_P19; try lra; intros x _; rewrite E; right; reflexivity).
  rewrite EI in X1. replace (D w - D' w) with ((RiemannInt pr' - D' w) - (RiemannInt pr' - D w)) by ring. unfold Rminus at 1. eapply Rle_trans; [apply Rabs_triang|]. rewrite Rabs_Ropp. lra.
Qed.

(** The spectral function on any interval, with one broadening, determines the
    Green's function at all frequencies and broadenings. *)
Theorem C87_determined : forall m m' k k' ord ord' sp sp' eta A A' a b, usable m -> usable m' -> allowed ord -> allowed ord' -> spsolve_ok sp -> spsolve_ok sp' -> 0 < eta -> a < b ->
  spectral_function m sp ord k eta A -> spectral_function m' sp' ord' k' eta A' -> (forall w, a <= w <= b -> A w = A' w) ->
  forall w eta', 0 < eta' -> greens (phys_env m k w eta') sp ord m = greens (phys_env m' k' w eta') sp' ord' m'.
Proof.
  intros m m' k k' ord ord' sp sp' eta A A' a b U U' P P' SO SO' He Hab HA HA' E w eta' He'. pose proof PI_RGT_0 as PP.
  pose proof (code_at m k ord sp U P SO) as Hg. pose proof (code_at m' k' ord' sp' U' P' SO') as Hg'.
  set (g := fun z => code_g m sp ord k (Re z) (Im z)) in *. set (g' := fun z => code_g m' sp' ord' k' (Re z) (Im z)) in *.
  assert (B : Interp_proofs.bounded g) by (intros y l q Hy; exact (at_divided m k ord sp g U P SO Hg y l q Hy)).
  assert (B' : Interp_proofs.bounded g') by (intros y l q Hy; exact (at_divided m' k' ord' sp' g' U' P' SO' Hg' y l q Hy)).
  assert (L : forall x, Im (g (x, eta)) = Im (g' (x, eta))).
  { apply (Interp_proofs.line_all g g' B B' eta He a b Hab). intros x Hx. specialize (E x Hx). rewrite (code_A m sp ord k eta A HA), (code_A m' sp' ord' k' eta A' HA') in E.
    change (code_g m sp ord k x eta) with (g (x, eta)) in E. change (code_g m' sp' ord' k' x eta) with (g' (x, eta)) in E. unfold Rdiv in E. apply Rmult_eq_reg_r in E; [lra|]. apply Rinv_neq_0_compat. lra. }
  assert (EA : forall x, A x = A' x).
  { intros x. rewrite (code_A m sp ord k eta A HA), (code_A m' sp' ord' k' eta A' HA'). change (code_g m sp ord k x eta) with (g (x, eta)). change (code_g m' sp' ord' k' x eta) with (g' (x, eta)). rewrite L. reflexivity. }
  assert (Real : forall z, eta <= Im z -> Im (Csub (g z) (g' z)) = 0).
  { intros [x v] Hv. unfold Im in Hv. cbn [snd] in Hv. change (Im (Csub (g (x, v)) (g' (x, v)))) with (Im (g (x, v)) - Im (g' (x, v))).
    destruct (Req_dec v eta) as [-> |N]; [rewrite L; ring|].
    destruct (C74_defined m k v ord sp U ltac:(lra) P SO) as [D [HD _]]. destruct (C74_defined m' k' v ord' sp' U' ltac:(lra) P' SO') as [D' [HD' _]].
    replace v with (eta + (v - eta)) in HD, HD' by ring.
    pose proof (same_above m m' k k' ord ord' sp sp' eta (v - eta) A A' D D' U U' P P' SO SO' He ltac:(lra) HA HA' EA HD HD' x) as ED. replace (eta + (v - eta)) with v in HD, HD' by ring.
    rewrite (code_A m sp ord k v D HD), (code_A m' sp' ord' k' v D' HD') in ED. change (code_g m sp ord k x v) with (g (x, v)) in ED. change (code_g m' sp' ord' k' x v) with (g' (x, v)) in ED.
    unfold Rdiv in ED. apply Rmult_eq_reg_r in ED; [lra|]. apply Rinv_neq_0_compat. lra. }
  pose proof (Interp_proofs.real_equal g g' B B' eta He Real (w, eta') He') as G.
  pose proof (Hg (w, eta') He') as G1. pose proof (Hg' (w, eta') He') as G2. change (greens (phys_env m k w eta') sp ord m = Ok (g (w, eta'))) in G1. change (greens (phys_env m' k' w eta') sp' ord' m' = Ok (g' (w, eta'))) in G2. rewrite G1, G2, G. reflexivity.
Qed.
Print Assumptions C87_determined.

(** Hence it determines the energy of the free particle. *)
Theorem C87_band : forall m m' k k' ord ord' sp sp' eta A A' a b, usable m -> usable m' -> allowed ord -> allowed ord' -> spsolve_ok sp -> spsolve_ok sp' -> 0 < eta -> a < b ->
  spectral_function m sp ord k eta A -> spectral_function m' sp' ord' k' eta A' -> (forall w, a <= w <= b -> A w = A' w) -> band m k = band m' k'.
Proof.
  intros m m' k k' ord ord' sp sp' eta A A' a b U U' P P' SO SO' He Hab HA HA' E. pose proof (C87_determined m m' k k' ord ord' sp sp' eta A A' a b U U' P P' SO SO' He Hab HA HA' E) as G.
  destruct (usable_sound m U) as [ae [c [GM L H Hl _]]]. destruct (usable_sound m' U') as [ae' [c' [GM' L' H' Hl' _]]].
  set (K := strength m * strength m + strength m' * strength m').
  assert (X : forall y, 0 < y -> Rabs (band m k - band m' k') <= K / y).
  { intros y Hy. destruct (C59_self_energy m ae c ord sp k 0 y GM (H k 0 y) L Hl Hy P SO) as [g [s [Eg [D [_ B]]]]].
    destruct (C59_self_energy m' ae' c' ord' sp' k' 0 y GM' (H' k' 0 y) L' Hl' Hy P' SO') as [g' [s' [Eg' [D' [_ B']]]]].
    assert (gg : g = g') by (specialize (G 0 y Hy); congruence). subst g'. unfold dyson in D, D'.
    assert (Q : Csub (0 - band m k, y) s = Csub (0 - band m' k', y) s').
    { replace (Csub (0 - band m k, y) s) with (Cmul (Cmul g (Csub (0 - band m' k', y) s')) (Csub (0 - band m k, y) s)) by (rewrite D'; ring).
      replace (Cmul (Cmul g (Csub (0 - band m' k', y) s')) (Csub (0 - band m k, y) s)) with (Cmul (Cmul g (Csub (0 - band m k, y) s)) (Csub (0 - band m' k', y) s')) by ring. rewrite D. ring. }
    apply (f_equal Re) in Q. unfold Csub, Re in Q. cbn [fst] in Q. fold (Re s) in Q. fold (Re s') in Q.
    pose proof (Band_proofs.Re_abs_le s) as R1. pose proof (Band_proofs.Re_abs_le s') as R2. replace (K / y) with (strength m * strength m / y + strength m' * strength m' / y) by (unfold K; field; lra).
    replace (band m k - band m' k') with (Re s' + - Re s) by lra. eapply Rle_trans; [apply Rabs_triang|]. rewrite Rabs_Ropp. lra. }
  assert (K0 : 0 <= K) by (unfold K; nra).
  assert (Z : Rabs (band m k - band m' k') <= 0).
  { apply Blur_proofs.le_any. intros e Hp. assert (Y : 0 < (K + 1) / e) by (apply Rdiv_lt_0_compat; lra). specialize (X _ Y). replace (K / ((K + 1) / e)) with (e * (K / (K + 1))) in X by (field; split; lra).
    assert (K / (K + 1) <= 1) by (apply (Rmult_le_reg_r (K + 1)); [lra|]; unfold Rdiv; rewrite Rmult_assoc, Rinv_l; lra). nra. }
  destruct (Req_dec (band m k) (band m' k')) as [Q|Q]; [exact Q|]. pose proof (Rabs_pos_lt (band m k - band m' k') ltac:(lra)). lra.
Qed.
Print Assumptions C87_band.

(** The model made by Model.from_parameters(hop, lat, 0, mps) and
    add_("Holstein", fr, M, N, coupling_strength=g). *)
Definition holstein (hop lat fr g : R) (mps : option Z) (M N : Z) (m : model R) : Prop :=
  (forall q, mps = Some q -> (1 <= q)%Z) /\ (lat = 1 \/ hop = 0) /\ 0 <= hop /\
  exists logs, model_add Rnum (from_parameters hop lat 0 mps 1) (mkAdd "Holstein" fr M N None None (Some g) None None) = Ok (logs, m) /\ ~ In LError logs.

Lemma holstein_usable : forall hop lat fr g mps M N m, holstein hop lat fr g mps M N m -> usable m.
Proof.
  intros hop lat fr g mps M N m [Hk [Hl [Ht [logs [E NE]]]]]. pose proof (holstein_call hop lat mps (mkAdd "Holstein" fr M N None None (Some g) None None) g logs m eq_refl eq_refl (or_introl eq_refl) E NE) as [Em _].
  pose proof (built_add Rnum 1%nat _ _ _ _ logs m (built_start Rnum 1%nat hop lat 0 mps) E NE eq_refl) as B. cbn [from_parameters m_temp Rnum n_ltb n_0] in B. destruct (Rlt_dec 0 0) as [X|_]; [lra|]. cbn [app a_freq a_type] in B.
  split.
  - exists [fr], ["Holstein"%string]. split; [exact B|]. split; [discriminate|]. split; [repeat constructor|right; intros c [<- |[]]; discriminate].
  - intros q Q. rewrite Em in Q. cbn in Q. auto.
  - intros q Q. rewrite Em in Q. discriminate Q.
  - rewrite Em. unfold exact_lattice. cbn. exact Hl.
  - rewrite Em. cbn. exact Ht.
Qed.

(** The moments follow from the values. *)
Lemma holstein_moments : forall hop lat fr g mps M N m k ord sp (d : nat), holstein hop lat fr g mps M N m -> (Z.of_nat d - 1 <= M)%Z -> (Z.of_nat d <= N)%Z -> allowed ord -> spsolve_ok sp ->
  exists mu B, moments (hol hop lat fr g mps 1 1) 0 k mu /\
    forall y, 1 <= y -> exists x : C, greens (phys_env m k 0 y) sp ord m = Ok x /\ y ^ S (2 * d + 2) * Cabs (Csub x (series (0, y) (fun q => mu q vacuum 0%Z) (2 * d + 2))) <= B.
Proof.
  intros hop lat fr g mps M N m k ord sp d [Hk [Hl [Ht [logs [E NE]]]]] HM HN P SO. destruct (C69_holstein hop lat fr g mps Hk Hl Ht) as [B HB]. destruct (HB k) as [mu [Mu Q]]. exists mu, (B d). split; [exact Mu|].
  intros y Hy. destruct (Q d M N logs m 0 y ord sp E NE HM HN ltac:(lra) P SO) as [x [Ex D]]. exists x. split; [exact Ex|]. rewrite Moments_proofs.Cabs_iy in D by lra.
  cbn [pow]. apply (Rmult_le_compat_l y) in D; [|lra]. replace (y * (B d / y)) with (B d) in D by (field; lra). rewrite Rmult_assoc. exact D.
Qed.

(** For the Holstein model it determines the coupling up to its sign, the
    frequency of the phonons and, given two phonons, the hopping. *)
Theorem C87_holstein : forall hop lat fr g mps M N m hop' lat' fr' g' mps' M' N' m' k k' ord ord' sp sp' eta A A' a b,
  holstein hop lat fr g mps M N m -> holstein hop' lat' fr' g' mps' M' N' m' -> allowed ord -> allowed ord' -> spsolve_ok sp -> spsolve_ok sp' -> 0 < eta -> a < b ->
  spectral_function m sp ord k eta A -> spectral_function m' sp' ord' k' eta A' -> (forall w, a <= w <= b -> A w = A' w) ->
  hop * cos (k * lat) = hop' * cos (k' * lat') /\ g ^ 2 = g' ^ 2 /\
  (g <> 0 -> fr = fr' /\ ((2 <= N)%Z -> (2 <= N')%Z -> (forall q, mps = Some q -> (2 <= q)%Z) -> (forall q, mps' = Some q -> (2 <= q)%Z) -> hop = hop')).
Proof.
  intros hop lat fr g mps M N m hop' lat' fr' g' mps' M' N' m' k k' ord ord' sp sp' eta A A' a b Hm Hm' P P' SO SO' He Hab HA HA' E.
  pose proof (C87_determined m m' k k' ord ord' sp sp' eta A A' a b (holstein_usable _ _ _ _ _ _ _ _ Hm) (holstein_usable _ _ _ _ _ _ _ _ Hm') P P' SO SO' He Hab HA HA' E) as G.
  assert (R : (1 <= M)%Z /\ (1 <= N)%Z) by (destruct Hm as [_ [_ [_ [logs [E1 NE]]]]]; apply (holstein_call hop lat mps (mkAdd "Holstein" fr M N None None (Some g) None None) g logs m eq_refl eq_refl (or_introl eq_refl) E1 NE)).
  assert (R' : (1 <= M')%Z /\ (1 <= N')%Z) by (destruct Hm' as [_ [_ [_ [logs [E1 NE]]]]]; apply (holstein_call hop' lat' mps' (mkAdd "Holstein" fr' M' N' None None (Some g') None None) g' logs m' eq_refl eq_refl (or_introl eq_refl) E1 NE)).
  set (e0 := - (2 * hop * cos (k * lat))). set (e0' := - (2 * hop' * cos (k' * lat'))).
  assert (MM : forall d : nat, (Z.of_nat d - 1 <= M)%Z -> (Z.of_nat d <= N)%Z -> (Z.of_nat d - 1 <= M')%Z -> (Z.of_nat d <= N')%Z -> exists mu mu',
    moments (hol hop lat fr g mps 1 1) 0 k mu /\ moments (hol hop' lat' fr' g' mps' 1 1) 0 k' mu' /\ forall q, (q < 2 * d + 2)%nat -> mu q vacuum 0%Z = mu' q vacuum 0%Z).
  { intros d D1 D2 D3 D4. destruct (holstein_moments _ _ _ _ _ _ _ m k ord sp d Hm D1 D2 P SO) as [mu [B [Mu HB]]]. destruct (holstein_moments _ _ _ _ _ _ _ m' k' ord' sp' d Hm' D3 D4 P' SO') as [mu' [B' [Mu' HB']]].
    exists mu, mu'. split; [exact Mu|]. split; [exact Mu'|].
    apply (Moments_proofs.series_unique (fun y => match greens (phys_env m k 0 y) sp ord m with Ok x => (x : C) | _ => Cplx.C0 end) (fun q => mu q vacuum 0%Z) (fun q => mu' q vacuum 0%Z) (2 * d + 2) B B').
    - intros y Hy. destruct (HB y Hy) as [x [Ex D]]. rewrite Ex. exact D.
    - intros y Hy. destruct (HB' y Hy) as [x [Ex D]]. rewrite (G 0 y) by lra. rewrite Ex. exact D. }
  destruct (MM 1%nat) as [mu [mu' [Mu [Mu' Q]]]]; try lia.
  destruct (C69_values hop lat fr g mps 1 1 k mu (proj1 Hm) Mu) as [V _]. destruct (C69_values hop' lat' fr' g' mps' 1 1 k' mu' (proj1 Hm') Mu') as [V' _]. fold e0 in V. fold e0' in V'.
  assert (W : forall q, (q <= 3)%nat -> moment_of e0 hop fr g q = moment_of e0' hop' fr' g' q).
  { intros q Hq. specialize (Q q ltac:(lia)). rewrite (V q Hq), (V' q Hq) in Q. apply (f_equal Re) in Q. exact Q. }
  pose proof (W 1%nat ltac:(lia)) as W1. pose proof (W 2%nat ltac:(lia)) as W2. pose proof (W 3%nat ltac:(lia)) as W3. unfold moment_of in W1, W2, W3. cbn [nth] in W1, W2, W3.
  assert (G2 : g ^ 2 = g' ^ 2) by (rewrite W1 in W2; lra). split; [unfold e0, e0' in W1; lra|]. split; [exact G2|]. intros Ng.
  assert (P2 : 0 < g ^ 2) by (rewrite <- Rsqr_pow2; apply Rsqr_pos_lt; exact Ng). assert (F : fr = fr') by (rewrite W1, <- G2 in W3; apply (Rmult_eq_reg_r (g ^ 2)); lra). split; [exact F|].
  intros HN HN' K2 K2'. destruct (MM 2%nat) as [nu [nu' [Nu [Nu' Q4]]]]; try lia.
  destruct (C69_values hop lat fr g mps 1 1 k nu (proj1 Hm) Nu) as [_ V4]. destruct (C69_values hop' lat' fr' g' mps' 1 1 k' nu' (proj1 Hm') Nu') as [_ V4']. fold e0 in V4. fold e0' in V4'.
  specialize (Q4 4%nat ltac:(lia)). rewrite (V4 K2), (V4' K2') in Q4. apply (f_equal Re) in Q4. unfold RtoC, Re, moment_of in Q4. cbn [fst nth] in Q4.
  replace (3 * g ^ 4) with (3 * (g ^ 2) ^ 2) in Q4 by ring. replace (3 * g' ^ 4) with (3 * (g' ^ 2) ^ 2) in Q4 by ring. rewrite W1, F, <- G2 in Q4.
  assert (S : hop ^ 2 = hop' ^ 2) by (apply (Rmult_eq_reg_r (2 * g ^ 2)); lra).
  destruct Hm as [_ [_ [T _]]]. destruct Hm' as [_ [_ [T' _]]]. assert (Z : (hop - hop') * (hop + hop') = 0) by lra. apply Rmult_integral in Z. lra.
Qed.
Print Assumptions C87_holstein.

(** Edwards' model with one boson: the two momenta k and - k meet the hypotheses
    of C87_determined.  A Holstein model with two phonons and hopping 1. *)
Example C87_nonvacuous : usable (x_model 1) /\ holstein 1 1 1 1 None 2 2 (hol 1 1 1 1 None 2 2) /\ forall k, exists A, spectral_function (x_model 1) (gauss_sparse (F := CF) C_eq_dec) id_ord k 1 A /\
  spectral_function (x_model 1) (gauss_sparse (F := CF) C_eq_dec) id_ord (- k) 1 A /\ (exists w w', A w <> A w') /\ forall x t, x <= t <= x + 1 / 10 -> Rabs (A t - straight x (A x) (x + 1 / 10) (A (x + 1 / 10)) t) <= 1 / 1000.
Proof.
  destruct C74_nonvacuous as [_ [U H]]. split; [exact U|]. split.
  { split; [discriminate|]. split; [left; reflexivity|]. split; [lra|]. exists [LDebug]. split; [|intros [X|[]]; discriminate X]. unfold model_add. cbn [from_parameters m_temp Rnum n_ltb n_0 a_N a_M a_Mtfd a_Ntfd a_cs a_dcs a_override is_none lt1 orb xorb negb].
    destruct (Rlt_dec 0 0) as [X|_]; [lra|]. cbn [andb]. change (2 <? 1)%Z with false. cbn [orb]. rewrite ?andb_false_r. unfold tfd_prefactors. cbn [Rnum n_ltb n_0]. destruct (Rlt_dec 0 0) as [X|_]; [lra|]. reflexivity. }
  intros k. pose proof (gauss_spsolve_ok (F := CF) C_eq_dec) as SO. destruct (H k) as [A [HA [NC _]]]. exists A. split; [exact HA|]. split; [|split; [exact NC|]].
  { intros w. destruct (HA w) as [g [E X]]. exists g. split; [|exact X]. destruct U as [[fs [cs [B [Hc [D Hb]]]]] Hm Ha Hl Ht]. destruct (HModel_proofs.built_good Rnum (proj1 Rnum_ok) _ fs cs B Hc D Hm Ha Hb) as [ae G].
    destruct (C52_symmetric (x_model 1) fs cs ae id_ord id_ord _ k w 1 0 B G Hl ltac:(cbn; lra) ltac:(lra) id_perm id_perm SO) as [g' [E1 [E2 _]]]. congruence. }
  intros x t Ht. eapply Rle_trans; [apply (C87_linear (x_model 1) k 1 _ id_ord A U ltac:(lra) id_perm SO HA x (x + 1 / 10) t); lra|].
  assert (3 <= PI) by (pose proof PI2_3_2; lra). replace ((x + 1 / 10 - x) ^ 2 / (4 * PI * 1 ^ 3)) with (1 / 400 * / PI) by (field; lra).
  apply Rle_trans with (1 / 400 * / 3); [apply Rmult_le_compat_l; [lra|apply Rinv_le_contravar; lra]|lra].
Qed.
Print Assumptions C87_nonvacuous.
