(** Property theorem C69: how many moments of the spectral function a
    variational space gets right. *)
From Coq Require Import String ZArith List Bool Lia Permutation Reals Lra.
From Verif Require Import Base NdArray Config Spec Model HModel Space Spec_space Term Equation System Spec_engine Props_Engine
  Ring Coef Spec_eom Solvers Spec_solve LinSolve Spec_model Spec_sym Cplx Physics Props_Physics Props_Model Props_Solve Props_Sym Spec_spectral Props_Spectral
  Spec_ma Props_MA Spec_self Spec_green Props_Green Spec_cutoff Props_Cutoff Spec_extent Props_Extent Spec_exact Props_Exact Props_Firsov Spec_moments.
From Verif Require HModel_proofs Physics_proofs Cutoff_proofs Walk_proofs Extent_proofs Exact_proofs Energy_proofs Moments_proofs.
Import ListNotations.
Open Scope list_scope.
Open Scope Z_scope.

(** The functionals <k| H^q exist and are unique. *)
Theorem C69_defined : forall m ae c k, good_model m ae ->
  (exists mu, moments m c k mu) /\ forall mu mu', moments m c k mu -> moments m c k mu' -> forall q n j, mu q n j = mu' q n j.
Proof. intros m ae c k G. split; [exact (Moments_proofs.moments_ex m ae c k G)|exact (Moments_proofs.moments_unique m c k)]. Qed.
Print Assumptions C69_defined.

Lemma jumps_bounded : forall m, exists r, 0 <= r /\ forall o, In o (Extent_proofs.moves m) -> Z.abs (Walk_proofs.ahead o) <= r.
Proof.
  intros m. induction (Extent_proofs.moves m) as [|o l [r [R0 IH]]]; [exists 0; split; [lia|intros o []]|]. exists (Z.max r (Z.abs (Walk_proofs.ahead o))). split; [lia|].
  intros x [<- | Hx]; [lia|]. specialize (IH x Hx). lia.
Qed.

(** The exact Green's function of C66 is their generating function: it is
    mu_0 / z + ... + mu_{Q-1} / z^Q up to a constant over eta |z|^Q.  The
    constant depends on neither k nor z. *)
Theorem C69_exact : forall m ae c, good_model m ae -> on_lattice m c -> exists B : nat -> R,
  forall k w eta mu Psi Q, hermitian (phys_env m k w eta) m -> (0 < eta)%R -> moments m c k mu -> exact_row m c k (w, eta) Psi ->
    (Cabs (w, eta) ^ Q * Cabs (Csub (Psi vacuum 0%Z) (series (w, eta) (fun q => mu q vacuum 0%Z) Q)) <= B Q / eta)%R.
Proof.
  intros m ae c G L. destruct (Extent_proofs.couples_ex m c) as [rho [R0 CW]]. destruct (jumps_bounded m) as [r [r0 Hr]].
  exists (fun Q => Moments_proofs.cst m c r Q rho vacuum). intros k w eta mu Psi Q H He Mu E.
  eapply Rle_trans; [exact (Moments_proofs.exact_expand m ae c k G L rho r R0 CW r0 Hr mu Mu w eta He H Psi E Q)|]. right. field. lra.
Qed.
Print Assumptions C69_exact.

(** What the code computes: in a space with all that d applications of H reach
    the first 2 d + 2 moments are those of the Hamiltonian on all states. *)
Theorem C69_moments : forall m ae c, good_model m ae -> on_lattice m c -> exact_lattice m -> (0 <= h_hop (m_ham m))%R -> exists B : nat -> R,
  forall m' ae' d k w eta mu ord sp, good_model m' ae' -> same_physics m m' -> covers m c m' ae' d -> hermitian (phys_env m k w eta) m -> (0 < eta)%R -> moments m c k mu ->
    (forall k l, Permutation (ord k l) l) -> spsolve_ok sp ->
    exists g : C, greens (phys_env m' k w eta) sp ord m' = Ok g /\
      (Cabs (w, eta) ^ (2 * d + 2) * Cabs (Csub g (series (w, eta) (fun q => mu q vacuum 0%Z) (2 * d + 2))) <= B d / eta)%R.
Proof.
  intros m ae c G L Hl Ht. destruct (Extent_proofs.couples_ex m c) as [rho [R0 CW]]. destruct (jumps_bounded m) as [r [r0 Hr]].
  exists (fun d => 3 * Moments_proofs.cst m c r (2 * d + 2) rho vacuum)%R. intros m' ae' d k w eta mu ord sp G' [E1 [E2 E3]] [E4 Cv] H He Mu Pm SO.
  assert (H' : hermitian (phys_env m' k w eta) m') by (rewrite (Cutoff_proofs.phys_same m m') by assumption; unfold hermitian; rewrite <- E1; exact H).
  assert (L' : on_lattice m' c) by (unfold on_lattice; rewrite <- E1; exact L). assert (Hl' : exact_lattice m') by (unfold exact_lattice; rewrite <- E1, <- E2; exact Hl).
  assert (Ht' : (0 <= h_hop (m_ham m'))%R) by (rewrite <- E1; exact Ht).
  destruct (C56_exists m' ae' c k w eta G' H' L' Hl' Ht' He) as [Ps Ro]. exists (Ps vacuum 0). split; [exact (C56_green m' ae' c ord sp k w eta Ps G' H' L' Hl' Ht' He Pm SO Ro)|].
  destruct (C66_exists m ae c k w eta G H L Hl Ht He) as [Psi E].
  pose proof (Moments_proofs.exact_expand m ae c k G L rho r R0 CW r0 Hr mu Mu w eta He H Psi E (2 * d + 2)) as A.
  assert (Cl : forall n, Moments_proofs.lv m c d n -> allowed m' ae' n).
  { intros n Hn. destruct (Moments_proofs.lv_reached m c d n Hn) as [j Rj]. exact (Moments_proofs.allowed_translated m' ae' n j (Cv _ _ Rj)). }
  pose proof (Moments_proofs.computed_close m ae c k G L rho r R0 CW r0 Hr w eta He H Psi E m' ae' G' E1 E2 E3 E4 Ps Ro d Cl) as D.
  set (S := series _ _ _) in *. set (z := Cabs (w, eta)) in *. set (K := Moments_proofs.cst _ _ _ _ _ _) in *.
  assert (Z0 : (0 <= z ^ (2 * d + 2))%R) by (apply pow_le, Physics_proofs.Cabs_ge0).
  replace (3 * K / eta)%R with (2 * (1 / eta) * K + 1 / eta * K)%R by (field; lra).
  replace (Csub (Ps vacuum 0) S) with (Csub (Csub (Psi vacuum 0) S) (Csub (Psi vacuum 0) (Ps vacuum 0))) by ring.
  pose proof (Moments_proofs.Cabs_sub (Csub (Psi vacuum 0) S) (Csub (Psi vacuum 0) (Ps vacuum 0))) as T.
  pose proof (Rmult_le_compat_l _ _ _ Z0 T) as T'. lra.
Qed.
Print Assumptions C69_moments.

(** No other numbers fit: whatever describes the numbers of the code at z = i
    eta as well, has these coefficients. *)
Theorem C69_determined : forall m ae c m' ae' d k mu ord sp b B, good_model m ae -> on_lattice m c -> exact_lattice m -> (0 <= h_hop (m_ham m))%R ->
  good_model m' ae' -> same_physics m m' -> covers m c m' ae' d -> (forall eta, hermitian (phys_env m k 0 eta) m) -> moments m c k mu ->
  (forall k l, Permutation (ord k l) l) -> spsolve_ok sp ->
  (forall eta, (1 <= eta)%R -> exists g : C, greens (phys_env m' k 0 eta) sp ord m' = Ok g /\ (eta ^ (2 * d + 3) * Cabs (Csub g (series (0%R, eta) b (2 * d + 2))) <= B)%R) ->
  forall q, (q < 2 * d + 2)%nat -> b q = mu q vacuum 0%Z.
Proof.
  intros m ae c m' ae' d k mu ord sp b B G L Hl Ht G' S Cv H Mu Pm SO Hb. destruct (C69_moments m ae c G L Hl Ht) as [K HK].
  set (f := fun eta : R => match greens (phys_env m' k 0 eta) sp ord m' with Ok g => (g : C) | _ => Cplx.C0 end).
  apply (Moments_proofs.series_unique f b (fun q => mu q vacuum 0) (2 * d + 2) B (K d)).
  - intros eta He. destruct (Hb eta He) as [g [Eg D]]. unfold f. rewrite Eg. replace (Datatypes.S (2 * d + 2)) with (2 * d + 3)%nat by lia. exact D.
  - intros eta He. destruct (HK m' ae' d k 0%R eta mu ord sp G' S Cv (H eta) ltac:(lra) Mu Pm SO) as [g [Eg D]]. unfold f. rewrite Eg.
    rewrite Moments_proofs.Cabs_iy in D by lra. cbn [pow]. apply (Rmult_le_compat_l eta) in D; [|lra]. replace (eta * (K d / eta))%R with (K d) in D by (field; lra).
    rewrite Rmult_assoc. exact D.
Qed.
Print Assumptions C69_determined.

(** How much room d needs: d phonons of each type and r d + 2 rho + 1 sites, r
    the longest jump and rho the distance of the modes from the particle. *)
Theorem C69_room : forall m ae c m' ae' rho r d, good_model m ae -> same_physics m m' -> 0 <= rho -> couples_within m c rho -> jumps_within m r ->
  room m m' ae' (r * Z.of_nat d + 2 * rho + 1) (Z.of_nat d) -> covers m c m' ae' d.
Proof. intros m ae c m' ae' rho r d G [_ [_ E3]] R0 CW J Rm. exact (Moments_proofs.room_covers m ae c G rho r R0 CW J m' ae' d E3 Rm). Qed.
Print Assumptions C69_room.

Lemma built_jumps : forall m fs cs, built Rnum 1 m fs cs -> jumps_within m 1.
Proof.
  intros m fs cs B. pose proof (HModel_proofs.i_terms _ _ _ _ _ (HModel_proofs.built_inv Rnum (proj1 Rnum_ok) 1%nat m fs cs B)) as I. split; [lia|].
  intros h Hh. destruct (I h Hh) as [g [psi [phi [d [s [_ [_ [O [X _]]]]]]]]]. assert (Ep : psi1 h = hd 0 psi) by (rewrite X; reflexivity).
  unfold target. rewrite Ep. inversion O; subst; cbn [hd repeat]; try (match goal with H : ?s0 = 1 \/ ?s0 = -1 |- _ => destruct H as [-> | ->] end); vm_compute; discriminate.
Qed.

(** Every model made by the public calls, with any limits: d phonons of each
    type on d + 3 sites give 2 d + 2 moments. *)
Theorem C69_histories : forall m fs cs, built Rnum 1 m fs cs -> cs <> [] -> distinct Rnum fs ->
  (forall k, m_mps m = Some k -> 1 <= k) -> (forall e, m_aext m = Some e -> 1 <= e) ->
  (forall c, In c cs -> c = "BondPeierls"%string) \/ (forall c, In c cs -> c <> "BondPeierls"%string) ->
  exact_lattice m -> (0 <= h_hop (m_ham m))%R ->
  exists c (B : nat -> R), forall k, exists mu, moments m c k mu /\
    forall m' ae' d w eta ord sp, good_model m' ae' -> same_physics m m' -> room m m' ae' (Z.of_nat d + 3) (Z.of_nat d) -> (0 < eta)%R ->
      (forall k l, Permutation (ord k l) l) -> spsolve_ok sp ->
      exists g : C, greens (phys_env m' k w eta) sp ord m' = Ok g /\
        (Cabs (w, eta) ^ (2 * d + 2) * Cabs (Csub g (series (w, eta) (fun q => mu q vacuum 0%Z) (2 * d + 2))) <= B d / eta)%R.
Proof.
  intros m fs cs Bt Hc D Hm Ha Hb Hl Ht. destruct (HModel_proofs.built_good Rnum (proj1 Rnum_ok) m fs cs Bt Hc D Hm Ha Hb) as [ae G].
  destruct (Extent_proofs.built_couples m fs cs ae Bt G (proj1 Rnum_ok)) as [c [L CW]]. destruct (C69_moments m ae c G L Hl Ht) as [B HB]. exists c, B. intros k.
  destruct (C69_defined m ae c k G) as [[mu Mu] _]. exists mu. split; [exact Mu|]. intros m' ae' d w eta ord sp G' S Rm He Pm SO.
  apply (HB m' ae' d k w eta mu ord sp G' S); try assumption; [|exact (C51_hermitian m fs cs ae k w eta Bt G)].
  apply (C69_room m ae c m' ae' 1 1 d G S ltac:(lia) CW (built_jumps m fs cs Bt)). replace (1 * Z.of_nat d + 2 * 1 + 1) with (Z.of_nat d + 3) by lia. exact Rm.
Qed.
Print Assumptions C69_histories.

(** What add_("Holstein", ...) makes of a model at temperature 0. *)
Definition hol (hop lat fr g : R) (mps : option Z) (M N : Z) : model R :=
  mkModel lat 0%R (mkHam [mkHterm "Holstein" (iv 0) (iv 0) Plus (- (g * 1))%R 0 fr; mkHterm "Holstein" (iv 0) (iv 0) Minus (- (g * 1))%R 0 fr] [fr] 1 hop) mps [M] [N] None 1.
Lemma hol_lattice : forall hop lat fr g mps M N, on_lattice (hol hop lat fr g mps M N) 0.
Proof. intros hop lat fr g mps M N h [<- | [<- | []]]; (split; exists 0; reflexivity). Qed.
Lemma hol_hermitian : forall hop lat fr g mps M N k w eta, hermitian (phys_env (hol hop lat fr g mps M N) k w eta) (hol hop lat fr g mps M N).
Proof.
  intros hop lat fr g mps M N k w eta. eexists. split; [apply perm_swap|]. cbn [hol m_ham h_terms].
  constructor; [|constructor; [|constructor]]; (split; [reflexivity|]; split; [reflexivity|]; split; [reflexivity|]; split; [reflexivity|]; split; [|reflexivity]); cbn; apply Cplx.Ceq; cbn; ring.
Qed.

(** The first five moments of the Holstein model; e = - 2 t cos (k a).  The
    last one wants room for two phonons on a site. *)
Definition moment_of (e hop fr g : R) (q : nat) : R := nth q [1; e; e ^ 2 + g ^ 2; e ^ 3 + 2 * e * g ^ 2 + fr * g ^ 2;
  e ^ 4 + 3 * e ^ 2 * g ^ 2 + 2 * fr * e * g ^ 2 + fr ^ 2 * g ^ 2 + 2 * hop ^ 2 * g ^ 2 + 3 * g ^ 4]%R 0%R.
Theorem C69_values : forall hop lat fr g mps M N k mu, (forall q, mps = Some q -> 1 <= q) -> moments (hol hop lat fr g mps M N) 0 k mu ->
  (forall q, (q <= 3)%nat -> mu q vacuum 0 = RtoC (moment_of (- (2 * hop * cos (k * lat))) hop fr g q)) /\
  ((forall q, mps = Some q -> 2 <= q) -> mu 4%nat vacuum 0 = RtoC (moment_of (- (2 * hop * cos (k * lat))) hop fr g 4)).
Proof.
  intros hop lat fr g mps M N k mu Hk Mu. split.
  - destruct (Moments_proofs.holstein_moments hop lat (- (g * 1)) fr mps M N k Hk mu Mu) as [A0 [A1 [A2 A3]]].
    intros [|[|[|[|q]]]] Hq; [rewrite A0|rewrite A1|rewrite A2|rewrite A3|lia]; unfold moment_of; cbn [nth]; try reflexivity; f_equal; ring.
  - intros H2. rewrite (Moments_proofs.holstein_fourth hop lat (- (g * 1)) fr mps M N k Hk mu Mu H2). unfold moment_of. cbn [nth]. f_equal. ring.
Qed.
Print Assumptions C69_values.

(** Holstein: N phonons and N - 1 sites give 2 N + 2 moments. *)
Theorem C69_holstein : forall hop lat fr g mps, (forall q, mps = Some q -> 1 <= q) -> lat = 1%R \/ hop = 0%R -> (0 <= hop)%R -> exists B : nat -> R,
  forall k, exists mu, moments (hol hop lat fr g mps 1 1) 0 k mu /\
    forall d M N logs m w eta ord sp, model_add Rnum (from_parameters hop lat 0%R mps 1) (mkAdd "Holstein" fr M N None None (Some g) None None) = Ok (logs, m) -> ~ In LError logs ->
      Z.of_nat d - 1 <= M -> Z.of_nat d <= N -> (0 < eta)%R -> (forall k l, Permutation (ord k l) l) -> spsolve_ok sp ->
      exists x : C, greens (phys_env m k w eta) sp ord m = Ok x /\
        (Cabs (w, eta) ^ (2 * d + 2) * Cabs (Csub x (series (w, eta) (fun q => mu q vacuum 0%Z) (2 * d + 2))) <= B d / eta)%R.
Proof.
  intros hop lat fr g mps Hk Hl Ht.
  assert (GM : forall M N, 1 <= M -> 1 <= N -> good_model (hol hop lat fr g mps M N) M) by (intros M N H1 H2; apply (holstein_good hop lat mps (- (g * 1))%R fr M N H1 H2 Hk)).
  pose proof (GM 1 1 ltac:(lia) ltac:(lia)) as G. destruct (C69_moments (hol hop lat fr g mps 1 1) 1 0 G (hol_lattice _ _ _ _ _ _ _) Hl Ht) as [B HB]. exists B. intros k.
  destruct (C69_defined _ 1 0 k G) as [[mu Mu] _]. exists mu. split; [exact Mu|]. intros d M N logs m w eta ord sp Em NE HM HN He Pm SO.
  destruct (holstein_call hop lat mps (mkAdd "Holstein" fr M N None None (Some g) None None) g logs m eq_refl eq_refl (or_introl eq_refl) Em NE) as [-> [H1 H2]]. cbn [a_M a_N a_freq] in *. fold (hol hop lat fr g mps M N).
  apply (HB (hol hop lat fr g mps M N) M d k w eta mu ord sp (GM M N H1 H2)); try assumption; [repeat split; reflexivity| |apply hol_hermitian].
  apply (Moments_proofs.onsite_covers (hol hop lat fr g mps 1 1) 1 0 G 0 ltac:(lia)); try reflexivity.
  - intros h [<- | [<- | []]]; vm_compute; discriminate.
  - intros h [<- | [<- | []]]; reflexivity.
  - split; [reflexivity|]. split; [lia|]. intros [|t] Hx; [cbn [hol m_pe m_pn nth]; lia|cbn in Hx; lia].
Qed.
Print Assumptions C69_holstein.

(** Sum rules: whatever phonon_extent and phonon_number, the numbers of the code
    have the exact first four moments 1, e, e^2 + g^2, e^3 + 2 e g^2 + Omega g^2. *)
Theorem C69_sum_rules : forall hop lat fr g mps, (forall q, mps = Some q -> 1 <= q) -> lat = 1%R \/ hop = 0%R -> (0 <= hop)%R -> exists B : R,
  forall M N logs m k w eta ord sp, model_add Rnum (from_parameters hop lat 0%R mps 1) (mkAdd "Holstein" fr M N None None (Some g) None None) = Ok (logs, m) -> ~ In LError logs ->
    (0 < eta)%R -> (forall k l, Permutation (ord k l) l) -> spsolve_ok sp ->
    exists x : C, greens (phys_env m k w eta) sp ord m = Ok x /\
      (Cabs (w, eta) ^ 4 * Cabs (Csub x (series (w, eta) (fun q => RtoC (moment_of (- (2 * hop * cos (k * lat))) hop fr g q)) 4)) <= B / eta)%R.
Proof.
  intros hop lat fr g mps Hk Hl Ht. destruct (C69_holstein hop lat fr g mps Hk Hl Ht) as [B HB]. exists (B 1%nat). intros M N logs m k w eta ord sp Em NE He Pm SO.
  destruct (HB k) as [mu [Mu Q]].
  destruct (holstein_call hop lat mps (mkAdd "Holstein" fr M N None None (Some g) None None) g logs m eq_refl eq_refl (or_introl eq_refl) Em NE) as [_ [H1 H2]]. cbn [a_M a_N] in *.
  destruct (Q 1%nat M N logs m w eta ord sp Em NE ltac:(lia) ltac:(lia) He Pm SO) as [x [Ex D]]. exists x. split; [exact Ex|].
  destruct (C69_values hop lat fr g mps 1 1 k mu Hk Mu) as [V _].
  replace (series (w, eta) (fun q => RtoC (moment_of (- (2 * hop * cos (k * lat))) hop fr g q)) 4) with (series (w, eta) (fun q => mu q vacuum 0) (2 * 1 + 2)); [exact D|].
  unfold series. f_equal. apply map_ext_in. intros q Hq. apply in_seq in Hq. rewrite V by lia. reflexivity.
Qed.
Print Assumptions C69_sum_rules.

(** 2 d + 2 is the best: without hopping, frequency and coupling 1, one site and
    one phonon (d = 1), the fifth moment is 4 and that of the code is 2. *)
Definition one_phonon : model R := hol 0 1 1 1 None 1 1.
Lemma one_phonon_add : model_add Rnum (from_parameters 0%R 1%R 0%R None 1) (mkAdd "Holstein" 1%R 1 1 None None (Some 1%R) None None) = Ok ([LDebug], one_phonon).
Proof.
  unfold model_add. cbn [from_parameters m_temp Rnum n_ltb n_0 a_N a_M a_Mtfd a_Ntfd a_cs a_dcs a_override is_none lt1 orb xorb negb].
  destruct (Rlt_dec 0 0) as [H|H]; [lra|]. cbn [andb]. change (1 <? 1) with false. cbn [orb]. rewrite ?andb_false_r. unfold tfd_prefactors. cbn [Rnum n_ltb n_0].
  destruct (Rlt_dec 0 0) as [H'|_]; [lra|]. reflexivity.
Qed.
Lemma inv_local : forall u eta, (0 < eta)%R -> local_greens 0 (u, eta) (Cinv (u, eta)).
Proof.
  intros u eta He. assert (N : (u, eta) <> Cplx.C0) by (intros X; injection X as _ X; lra). split.
  - replace (RtoC (4 * 0 * 0)) with Cplx.C0 by (unfold RtoC; replace (4 * 0 * 0)%R with 0%R by ring; reflexivity).
    replace (Cmul (Cmul (Cinv (u, eta)) (Cinv (u, eta))) (Csub (Cmul (u, eta) (u, eta)) Cplx.C0)) with (Cmul (Cmul (Cinv (u, eta)) (u, eta)) (Cmul (Cinv (u, eta)) (u, eta))) by ring.
    rewrite Cinv_l by exact N. ring.
  - unfold Cinv, Cnorm2, Re, Im. cbn [fst snd]. assert (P : (0 < u * u + eta * eta)%R) by nra. apply (Rmult_lt_reg_r (u * u + eta * eta)); [exact P|]. unfold Rdiv. rewrite Rmult_assoc, Rinv_l by lra. lra.
Qed.
Lemma one_phonon_greens : forall k eta ord sp, (0 < eta)%R -> (forall k l, Permutation (ord k l) l) -> spsolve_ok sp ->
  exists x : C, greens (phys_env one_phonon k 0 eta) sp ord one_phonon = Ok x /\
    Cmul (Csub (Csub (Cmul (0%R, eta) (0%R, eta)) (0%R, eta)) Cplx.C1) x = Csub (0%R, eta) Cplx.C1.
Proof.
  intros k eta ord sp He Pm SO.
  destruct (C54_histories 0 1 None (mkAdd "Holstein" 1%R 1 1 None None (Some 1%R) None None) 1 [LDebug] one_phonon ord sp k 0 eta (fun n => Cinv ((0 - IZR n * 1)%R, eta)) eq_refl eq_refl (or_introl eq_refl)
    one_phonon_add ltac:(intros [H | []]; discriminate) ltac:(discriminate) (or_introl eq_refl) He Pm SO ltac:(intros n; apply inv_local; exact He)) as [x [Ex V]].
  exists x. split; [exact Ex|]. cbn [a_N] in V. change (Z.to_nat 1) with 1%nat in V.
  cbn [ladder] in V. set (p := Cinv ((0 - 1 * 1)%R, eta)) in *.
  assert (N : ((0 - 1 * 1)%R, eta) <> Cplx.C0) by (intros X; injection X as _ X; lra). pose proof (Cinv_l _ N) as Ip. fold p in Ip.
  set (z := (0%R, eta) : C) in *. replace ((0 + 2 * 0 * cos (k * 1))%R, eta) with z in V by (unfold z; f_equal; ring). replace ((0 - 1 * 1)%R, eta) with (Csub z Cplx.C1) in Ip by (unfold z; apply Cplx.Ceq; unfold Csub, Cadd, Copp, Cplx.C1, Re, Im; cbn [fst snd]; ring).
  match type of V with Cmul (Csub z ?e) x = _ => replace e with p in V end.
  - transitivity (Cmul (Csub z Cplx.C1) (Cmul (Csub z p) x)); [|rewrite V; ring]. transitivity (Cmul (Csub (Cmul z (Csub z Cplx.C1)) (Cmul p (Csub z Cplx.C1))) x); [rewrite Ip; ring|ring].
  - clear. change (p = Cmul (Cmul (Cmul (@kz CF 1) (RtoC (1 * 1))) p) (Cinv (Csub Cplx.C1 (Cmul p Cplx.C0)))).
    replace (@kz CF 1) with Cplx.C1 by (symmetry; exact (Energy_proofs.kz_R 1)).
    replace (RtoC (1 * 1)) with Cplx.C1 by (rewrite Rmult_1_r; reflexivity). replace (Csub Cplx.C1 (Cmul p Cplx.C0)) with Cplx.C1 by ring.
    replace (Cinv Cplx.C1) with Cplx.C1; [ring|]. assert (N1 : Cplx.C1 <> Cplx.C0) by (intros X; injection X as X; lra). pose proof (Cinv_l _ N1) as I1. rewrite <- I1 at 1. ring.
Qed.

Theorem C69_sharp : forall k ord sp, (forall k l, Permutation (ord k l) l) -> spsolve_ok sp -> exists mu, moments one_phonon 0 k mu /\ covers one_phonon 0 one_phonon 1 1 /\ mu 4%nat vacuum 0 = RtoC 4 /\
  ~ exists B : R, forall eta, (1 <= eta)%R -> exists x : C, greens (phys_env one_phonon k 0 eta) sp ord one_phonon = Ok x /\
      (eta ^ 6 * Cabs (Csub x (series (0%R, eta) (fun q => mu q vacuum 0%Z) 5)) <= B)%R.
Proof.
  intros k ord sp Pm SO. assert (G : good_model one_phonon 1) by (apply (holstein_good 0 1 None (- (1 * 1))%R 1 1 1); [lia|lia|discriminate]).
  destruct (C69_defined one_phonon 1 0 k G) as [[mu Mu] _]. exists mu. split; [exact Mu|]. split.
  { apply (Moments_proofs.onsite_covers one_phonon 1 0 G 0 ltac:(lia)); try reflexivity.
    - intros h [<- | [<- | []]]; vm_compute; discriminate.
    - intros h [<- | [<- | []]]; reflexivity.
    - split; [reflexivity|]. split; [lia|]. intros [|t] Hx; [cbn; lia|cbn in Hx; lia]. }
  destruct (C69_values 0 1 1 1 None 1 1 k mu ltac:(discriminate) Mu) as [_ V4]. specialize (V4 ltac:(discriminate)).
  assert (E4 : mu 4%nat vacuum 0 = RtoC 4) by (rewrite V4; unfold moment_of; cbn [nth]; f_equal; ring).
  split; [exact E4|]. intros [B HB].
  set (f := fun eta : R => match greens (phys_env one_phonon k 0 eta) sp ord one_phonon with Ok g => (g : C) | _ => Cplx.C0 end).
  set (b := fun q => RtoC (nth q [1; 0; 1; 1; 2]%R 0%R)).
  pose proof (Moments_proofs.series_unique f (fun q => mu q vacuum 0) b 5 B 5) as U.
  assert (X : mu 4%nat vacuum 0 = b 4%nat); [|rewrite E4 in X; unfold b, RtoC in X; cbn [nth] in X; injection X as X; lra].
  apply U; [| |lia].
  - intros eta He. destruct (HB eta He) as [x [Ex D]]. unfold f. rewrite Ex. exact D.
  - intros eta He. destruct (one_phonon_greens k eta ord sp ltac:(lra) Pm SO) as [x [Ex V]]. unfold f. rewrite Ex. clear Ex U HB E4 V4 f.
    set (z := (0%R, eta) : C) in *. assert (Nz : z <> Cplx.C0) by (intros X; injection X as X; lra).
    set (D := Csub (Csub (Cmul z z) z) Cplx.C1) in *.
    assert (Az : Cabs z = eta) by (apply Moments_proofs.Cabs_iy; lra).
    assert (Q : Cmul (Cmul (power z 5) D) (Csub x (series z b 5)) = Cadd (Cmul (RtoC 3) z) (RtoC 2)).
    { assert (S5 : Cmul (power z 5) (series z b 5) = Cadd (Cadd (Cadd (power z 4) (Cmul z z)) z) (RtoC 2)).
      { unfold series. cbn [seq map Csum_list fold_right power]. unfold Csum_list. cbn [fold_right]. unfold Cdiv, b. cbn [nth].
        change (RtoC 1) with Cplx.C1. change (RtoC 0) with Cplx.C0. replace (RtoC 2) with (Cadd Cplx.C1 Cplx.C1) by (apply Cplx.Ceq; unfold Cadd, Cplx.C1, RtoC, Re, Im; cbn [fst snd]; ring). field. exact Nz. }
      transitivity (Csub (Cmul (power z 5) (Cmul D x)) (Cmul D (Cmul (power z 5) (series z b 5)))); [ring|]. rewrite V, S5. unfold D. cbn [power].
      replace (RtoC 2) with (Cadd Cplx.C1 Cplx.C1) by (apply Cplx.Ceq; unfold Cadd, Cplx.C1, RtoC, Re, Im; cbn [fst snd]; ring). replace (RtoC 3) with (Cadd Cplx.C1 (Cadd Cplx.C1 Cplx.C1)) by (apply Cplx.Ceq; unfold Cadd, Cplx.C1, RtoC, Re, Im; cbn [fst snd]; ring). ring. }
    apply (f_equal Cabs) in Q. rewrite !Physics_proofs.Cabs_mul, Moments_proofs.Cabs_power, Az in Q.
    assert (R3 : (Cabs (Cadd (Cmul (RtoC 3) z) (RtoC 2)) <= 5 * eta)%R).
    { eapply Rle_trans; [apply Physics_proofs.Cabs_triangle|]. rewrite Physics_proofs.Cabs_mul, !Physics_proofs.Cabs_R, Az, !Rabs_right by lra. lra. }
    assert (D2 : (eta * eta <= Cabs D)%R).
    { pose proof (proj1 (Physics_proofs.Cabs_re D)) as RD. assert (ED : Re D = (- (eta * eta) - 1)%R) by (unfold D, z, Csub, Cadd, Copp, Cmul, Cplx.C1, Re, Im; cbn [fst snd]; ring). rewrite ED in RD. lra. }
    set (e := Cabs (Csub x (series z b 5))) in *. assert (E0 : (0 <= e)%R) by apply Physics_proofs.Cabs_ge0.
    assert (P5 : (0 < eta ^ 5)%R) by (apply pow_lt; lra).
    assert (K : (eta ^ 5 * (eta * eta) * e <= 5 * eta)%R).
    { eapply Rle_trans; [|exact R3]. rewrite <- Q. apply Rmult_le_compat_r; [exact E0|]. apply Rmult_le_compat_l; [lra|exact D2]. }
    apply (Rmult_le_reg_r eta); [lra|]. replace (eta ^ 6 * e * eta)%R with (eta ^ 5 * (eta * eta) * e)%R by ring. exact K.
Qed.
Print Assumptions C69_sharp.

(** Hopping 1, frequency 2, coupling 3 at k a = 0: moments 1, -2, 13, -26, 349;
    one constant B serves every phonon_extent and phonon_number. *)
Example C69_nonvacuous : (forall mu, moments (hol 1 1 2 3 None 15 40) 0 0 mu ->
    mu 0%nat vacuum 0 = RtoC 1 /\ mu 1%nat vacuum 0 = RtoC (-2) /\ mu 2%nat vacuum 0 = RtoC 13 /\ mu 3%nat vacuum 0 = RtoC (-26) /\ mu 4%nat vacuum 0 = RtoC 349) /\
  exists B : R, forall M N w eta, 1 <= M -> 1 <= N -> (0 < eta)%R ->
    exists x : C, greens (phys_env (wide_many M N) 0 w eta) (gauss_sparse (F := CF) C_eq_dec) id_ord (wide_many M N) = Ok x /\
      (Cabs (w, eta) ^ 4 * Cabs (Csub x (series (w, eta) (fun q => RtoC (nth q [1; -2; 13; -26]%R 0%R)) 4)) <= B / eta)%R.
Proof.
  assert (C : (- (2 * 1 * cos (0 * 1)) = -2)%R) by (rewrite Rmult_0_l, cos_0; lra). split.
  - intros mu Mu. destruct (C69_values 1 1 2 3 None 15 40 0 mu ltac:(discriminate) Mu) as [V V4]. specialize (V4 ltac:(discriminate)).
    rewrite (V 0%nat), (V 1%nat), (V 2%nat), (V 3%nat), V4, C by lia. unfold moment_of. cbn [nth]. repeat split; f_equal; ring.
  - destruct (C69_sum_rules 1 1 2 3 None ltac:(discriminate) (or_introl eq_refl) ltac:(lra)) as [B HB]. exists B. intros M N w eta HM HN He.
    destruct (HB M N [LDebug] (wide_many M N) 0%R w eta id_ord (gauss_sparse (F := CF) C_eq_dec) (wide_many_add M N HM HN) ltac:(intros [H | []]; discriminate) He id_perm (gauss_spsolve_ok (F := CF) C_eq_dec)) as [x [Ex D]].
    exists x. split; [exact Ex|]. rewrite C in D. replace (series (w, eta) (fun q => RtoC (nth q [1; -2; 13; -26]%R 0%R)) 4) with (series (w, eta) (fun q => RtoC (moment_of (-2) 1 2 3 q)) 4); [exact D|].
    unfold series. f_equal. apply map_ext_in. intros q Hq. apply in_seq in Hq. f_equal. f_equal. unfold moment_of. destruct q as [|[|[|[|q]]]]; cbn [nth]; try lia; ring.
Qed.
Print Assumptions C69_nonvacuous.
