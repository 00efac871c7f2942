(** The Green's function as a function of the complex frequency: the first and
    second differences are bounded (C74). *)
From Coq Require Import String ZArith Reals List Bool Lia Lra Permutation Classical Ring.
From Verif Require Import Base NdArray NdArray_proofs Config Spec Spec_ops Config_proofs Modify_proofs Legal_proofs
  Model Space Spec_space Space_proofs Term Equation System Spec_engine
  Equation_proofs Ring Coef Spec_eom Eom_proofs
  HModel Spec_model Cplx Physics Physics_proofs
  Toeplitz_proofs Weight_proofs Spec_spectral Energy_proofs Spectral_proofs Spec_green Green_proofs Cutoff_proofs Tent_proofs Walk_proofs Reach_proofs Extent_proofs Perturb_proofs.
From Verif Require Spec_extent Stable_proofs.
Import ListNotations.
Open Scope list_scope.
Open Scope Z_scope.

Lemma norm_sub : forall nt cand (F F' : placement -> C) V V', norm_le nt cand F V -> norm_le nt cand F' V' -> norm_le nt cand (fun n => Csub (F n) (F' n)) (2 * V + 2 * V').
Proof.
  intros nt cand F F' V V' H H' j L Hj NL HL. eapply Rle_trans; [apply (Rsum_le _ (fun n => 2 * mass nt F j n + 2 * mass nt F' j n)%R)|].
  - intros n _. unfold mass. pose proof (wt_pos nt j n) as W0.
    assert (Cnorm2 (Csub (F n) (F' n)) <= 2 * Cnorm2 (F n) + 2 * Cnorm2 (F' n))%R
      by (unfold Cnorm2, Csub, Re, Im; cbn [fst snd]; pose proof (Rle_0_sqr (fst (F n) + fst (F' n))); pose proof (Rle_0_sqr (snd (F n) + snd (F' n))); unfold Rsqr in *; lra).
    assert (wt nt j n * Cnorm2 (Csub (F n) (F' n)) <= wt nt j n * (2 * Cnorm2 (F n) + 2 * Cnorm2 (F' n)))%R by (apply Rmult_le_compat_l; lra). lra.
  - rewrite Rsum_add, !Rsum_scal. pose proof (H j L Hj NL HL). pose proof (H' j L Hj NL HL). lra.
Qed.
Lemma norm_scal : forall nt cand (F : placement -> C) z V, norm_le nt cand F V -> norm_le nt cand (fun n => Cmul z (F n)) (Cnorm2 z * V).
Proof.
  intros nt cand F z V H j L Hj NL HL. rewrite (Rsum_ext (mass nt (fun n => Cmul z (F n)) j) (fun n => Cnorm2 z * mass nt F j n)%R).
  - rewrite Rsum_scal. apply Rmult_le_compat_l; [|apply H; assumption]. unfold Cnorm2. pose proof (Rle_0_sqr (Re z)). pose proof (Rle_0_sqr (Im z)). unfold Rsqr in *. lra.
  - intros n _. unfold mass. unfold Cnorm2, Cmul, Re, Im. cbn [fst snd]. ring.
Qed.
Lemma norm_mono : forall nt cand (F : placement -> C) V V', (V <= V')%R -> norm_le nt cand F V -> norm_le nt cand F V'.
Proof. intros nt cand F V V' HV H j L Hj NL HL. eapply Rle_trans; [apply H; assumption|exact HV]. Qed.
Lemma norm_pos : forall nt cand (F : placement -> C) V, norm_le nt cand F V -> (0 <= V)%R.
Proof. intros nt cand F V H. apply (H 0 []); [lia|constructor|intros n []]. Qed.
Lemma norm_vacuum : forall nt (cand : placement -> Prop) F V, cand vacuum -> norm_le nt cand F V -> (Cnorm2 (F vacuum) <= V)%R.
Proof.
  intros nt cand F V Cv H. pose proof (H 0 [vacuum] ltac:(lia) ltac:(repeat constructor; intros []) ltac:(intros n [<- | []]; split; [exact Cv|apply inside_vacuum])) as S0.
  unfold mass in S0. cbn [map] in S0. unfold Rsum in S0. cbn [fold_right] in S0. rewrite wt_vacuum, Rmult_1_l, Rplus_0_r in S0. exact S0.
Qed.

(** Linear combinations of rows, and a row at another frequency. *)
Lemma row_scal : forall c hop kk w eta os F n E s z, row_at c hop kk w eta os F n E s -> row_at c hop kk w eta os (fun n => Cmul z (F n)) n E (Cmul z s).
Proof.
  intros c hop kk w eta os F n E s z <-. unfold row_at.
  rewrite (map_ext (term_at c hop kk (fun n => Cmul z (F n)) n) (fun o => Cmul z (term_at c hop kk F n o))); [rewrite Csum_list_scal; ring|].
  intros o. unfold term_at. ring.
Qed.
Lemma row_shift : forall c hop kk w eta w' eta' os F n E s, row_at c hop kk w' eta' os F n E s -> row_at c hop kk w eta os F n E (Cadd s (Cmul (Csub (w, eta) (w', eta')) (F n))).
Proof. intros c hop kk w eta w' eta' os F n E s <-. unfold row_at. set (S := Csum_list _). ring. Qed.

Section Frequency.
Variable m : model R.
Variable ae c : Z.
Variable k : R.
Hypothesis G : good_model m ae.
Hypothesis Hlat : on_lattice m c.
Hypothesis Hherm : forall w eta, hermitian (phys_env m k w eta) m.
Variable N rho : Z.
Hypothesis N_pos : 0 <= N.
Hypothesis HN : Spec_extent.at_most m ae N.
Hypothesis rho_pos : 0 <= rho.
Hypothesis Hrho : Spec_extent.couples_within m c rho.
Let kk := (k * m_lattice m)%R.
Let hop := h_hop (m_ham m).
Let nt := m_ntypes m.
Notation cand := (cand m m ae ae).

(** |(z - H)^-1 s| <= |s| / Im z *)
Lemma resolvent_bound : forall w eta D s V S, (0 < eta)%R -> (forall n, D n <> C0 -> cand n) -> norm_le nt cand D V -> norm_le nt cand s S ->
  (forall n, cand n -> exists E, row_at c hop kk w eta (moves m) D n E (s n)) -> norm_le nt cand D (S / (eta * eta)).
Proof.
  intros w eta D s V S He HD HV HS Rows.
  destruct (moves_conj m m c k w eta Hlat eq_refl (Hherm w eta)) as [l [Pl Fl]]. destruct (moves_short m m eq_refl) as [r [R0 Hr]].
  destruct (cand_windows m m ae ae G G eq_refl) as [A1 [A2 [P1 [P2 HW]]]].
  destruct (norm_lub nt cand D _ HV) as [V0 [HV0 [V0p Least]]]. pose proof (norm_pos _ _ _ _ HS) as S0.
  set (src := fun n => (eta * Cnorm2 (D n) + Rsum (map (fun o => cur c hop kk D o n) (moves m)))%R).
  assert (SA : forall n, cand n -> (Rabs (src n) <= Cabs (D n) * Cabs (s n))%R).
  { intros n Cn. destruct (Rows n Cn) as [E Ro]. unfold src. rewrite (row_balance c hop kk w eta (moves m) D n E (s n) Ro). eapply Rle_trans; [apply Im_abs_le|]. rewrite Cabs_mul, Cabs_conj. lra. }
  set (Q := (eta / 2 * V0 + / (2 * eta) * S)%R). assert (HI : (0 < / (2 * eta))%R) by (apply Rinv_0_lt_compat; lra).
  assert (Q0 : (0 <= Q)%R) by (unfold Q; apply Rplus_le_le_0_compat; apply Rmult_le_pos; lra).
  pose proof (sourced nt c hop kk eta He N rho r rho_pos R0 (moves m) l Pl Fl (moves_fit m ae c G rho Hrho) Hr cand (cand_range m m ae ae eq_refl N N_pos HN HN) A1 A2 HW
    D src HD (fun k n _ _ => eq_refl) V0 Q HV0 Q0) as SO.
  assert (X : norm_le nt cand D (Q / eta)).
  { apply SO. intros W M HWr NM IM. eapply Rle_trans; [apply (Rsum_le _ (fun n => eta / 2 * mass nt D (W + r) n + / (2 * eta) * mass nt s (W + r) n)%R)|].
    - intros n Hn. unfold mass. rewrite <- !Cabs_sq. pose proof (Cabs_ge0 (D n)) as A. pose proof (Cabs_ge0 (s n)) as B. pose proof (wt_pos nt (W + r) n) as W0.
      pose proof (Stable_proofs.amgm (Cabs (D n)) (Cabs (s n)) (wt nt (W + r) n) (wt nt (W + r) n) 1 1 1 eta A B W0 W0 ltac:(lra) ltac:(lra) ltac:(lra) ltac:(lra) He) as Qm.
      pose proof (Rmult_le_compat_l (wt nt (W + r) n) _ _ ltac:(lra) (SA n (proj1 (IM n Hn)))). lra.
    - assert (IX : forall n, In n M -> cand n /\ inside nt (W + r) n) by (intros n Hn; destruct (IM n Hn) as [Cn In_n]; split; [exact Cn|apply (inside_mono nt W); [lia|exact In_n]]).
      rewrite Rsum_add, !Rsum_scal. unfold Q. pose proof (HV0 (W + r) M ltac:(lia) NM IX) as B1. pose proof (HS (W + r) M ltac:(lia) NM IX) as B2.
      apply Rplus_le_compat; apply Rmult_le_compat_l; try assumption; lra. }
  apply Least in X. assert (Y : (eta * V0 <= Q)%R). { apply (Rmult_le_compat_l eta) in X; [|lra]. replace (eta * (Q / eta))%R with Q in X by (field; lra). exact X. }
  unfold Q in Y. apply (norm_mono nt cand D V0); [|exact HV0]. apply (Rmult_le_reg_l (eta * eta)); [apply Rmult_lt_0_compat; lra|].
  replace (eta * eta * (S / (eta * eta)))%R with S by (field; lra).
  apply (Rmult_le_compat_l (2 * eta)) in Y; [|lra]. replace (2 * eta * (eta / 2 * V0 + / (2 * eta) * S))%R with (eta * eta * V0 + S)%R in Y by (field; lra). lra.
Qed.

Variable Psi : R -> R -> placement -> Z -> C.
Variable dom : R -> R -> Prop.
Hypothesis dom_pos : forall w eta, dom w eta -> (0 < eta)%R.
Hypothesis Row : forall w eta, dom w eta -> greens_row m ae c k (w, eta) (Psi w eta).
Notation F := (fun w eta n => Psi w eta n 0).

Lemma F_cand : forall w eta n, dom w eta -> F w eta n <> C0 -> cand n.
Proof. intros w eta n He H. destruct (F_support m ae c k w eta (Psi w eta) (Row w eta He) n H) as [-> | [a [s [Sa ->]]]]; [left; reflexivity|right]. exists a, s. split; [left; exact Sa|reflexivity]. Qed.
Lemma F_norm : forall w eta, dom w eta -> norm_le nt cand (F w eta) (1 / (eta * eta)).
Proof.
  intros w eta He. exact (norm_F m m ae ae c k w eta (dom_pos w eta He) G G Hlat eq_refl (Hherm w eta) N rho N_pos HN HN rho_pos Hrho m ae (Psi w eta) G eq_refl eq_refl (fun a H => or_introl H) (Row w eta He)).
Qed.
Lemma F_row : forall n, cand n -> exists E s, forall w eta, dom w eta -> row_at c hop kk w eta (moves m) (F w eta) n E s.
Proof.
  intros n [-> | [a [s [Sa ->]]]]; [exists 0%R, C1; intros w eta He; exact (row_vac m ae c k w eta (Psi w eta) (Row w eta He))|].
  assert (Sm : space m ae a) by (destruct Sa; assumption). destruct (energy_list m ae G a Sm) as [l El].
  exists (phonon_energy l), C0. intros w eta He. exact (row_cloud m ae c k w eta (Psi w eta) (Row w eta He) a l s Sm El).
Qed.
Notation g := (fun w eta => Psi w eta vacuum 0).
Lemma cand_vacuum : cand vacuum.
Proof. left. reflexivity. Qed.

Lemma diff_cand : forall w eta w' eta' n, dom w eta -> dom w' eta' -> Csub (F w eta n) (F w' eta' n) <> C0 -> cand n.
Proof.
  intros w eta w' eta' n He He' H. destruct (classic (F w eta n = C0)) as [E|E]; [|apply (F_cand w eta n He E)]. apply (F_cand w' eta' n He'). intros E'. apply H. cbv beta in *. rewrite E, E'. ring.
Qed.

(** |G(z') - G(z)| <= |z' - z| / (Im z Im z') *)
Lemma first_norm : forall w eta w' eta', dom w eta -> dom w' eta' -> norm_le nt cand (fun n => Csub (F w' eta' n) (F w eta n)) (Cnorm2 (Csub (w, eta) (w', eta')) * (1 / (eta' * eta')) / (eta * eta)).
Proof.
  intros w eta w' eta' Dm Dm'. pose proof (dom_pos _ _ Dm) as He. pose proof (dom_pos _ _ Dm') as He'.
  apply (resolvent_bound w eta _ (fun n => Cmul (Csub (w, eta) (w', eta')) (F w' eta' n)) (2 * (1 / (eta' * eta')) + 2 * (1 / (eta * eta)))); [exact He| | | |].
  - intros n. apply diff_cand; assumption.
  - apply norm_sub; apply F_norm; assumption.
  - apply norm_scal, F_norm, Dm'.
  - intros n Cn. destruct (F_row n Cn) as [E [s Hs]]. exists E. pose proof (row_sub c hop kk w eta (moves m) _ _ n E _ _ (row_shift c hop kk w eta w' eta' (moves m) _ n E s (Hs w' eta' Dm')) (Hs w eta Dm)) as X.
    cbv beta in X |- *. set (f := Psi w' eta' n 0) in *. replace (Csub (Cadd s (Cmul (Csub (w, eta) (w', eta')) f)) s) with (Cmul (Csub (w, eta) (w', eta')) f) in X by ring. exact X.
Qed.
Lemma first : forall w eta w' eta', dom w eta -> dom w' eta' -> (eta * eta' * Cabs (Csub (g w' eta') (g w eta)) <= Cabs (Csub (w', eta') (w, eta)))%R.
Proof.
  intros w eta w' eta' Dm Dm'. pose proof (dom_pos _ _ Dm) as He. pose proof (dom_pos _ _ Dm') as He'. pose proof (norm_vacuum nt cand _ _ cand_vacuum (first_norm w eta w' eta' Dm Dm')) as B. cbv beta in B. set (d := Csub (Psi w' eta' vacuum 0) (Psi w eta vacuum 0)) in *.
  apply Rsqr_incr_0; [|repeat apply Rmult_le_pos; try lra; apply Cabs_ge0|apply Cabs_ge0]. unfold Rsqr.
  replace (eta * eta' * Cabs d * (eta * eta' * Cabs d))%R with (eta * eta * (eta' * eta') * (Cabs d * Cabs d))%R by ring. rewrite !Cabs_sq.
  apply (Rmult_le_compat_l (eta * eta * (eta' * eta'))) in B; [|left; repeat apply Rmult_lt_0_compat; lra].
  replace (eta * eta * (eta' * eta') * (Cnorm2 (Csub (w, eta) (w', eta')) * (1 / (eta' * eta')) / (eta * eta)))%R with (Cnorm2 (Csub (w', eta') (w, eta))) in B; [exact B|].
  unfold Cnorm2, Csub, Re, Im. cbn [fst snd]. field. lra.
Qed.

(** The sides of a small square: i (G(z + h) - G(z)) - (G(z + i h) - G(z)). *)
Lemma second : forall w eta h, dom w eta -> dom (w + h)%R eta -> dom w (eta + h)%R -> (0 < h)%R ->
  (eta ^ 3 * Cabs (Csub (Cmul Ci (Csub (g (w + h) eta) (g w eta))) (Csub (g w (eta + h)) (g w eta))) <= 2 * h ^ 2)%R.
Proof.
  intros w eta h D0 D1 D2 Hh. pose proof (dom_pos _ _ D0) as He. assert (He' : (0 < eta + h)%R) by lra.
  set (F1 := F (w + h)%R eta). set (F2 := F w (eta + h)%R). set (F0 := F w eta).
  assert (R1 : forall n, cand n -> exists E s, row_at c hop kk w eta (moves m) F0 n E s /\ row_at c hop kk w eta (moves m) F1 n E (Cadd s (Cmul (RtoC (- h)) (F1 n))) /\ row_at c hop kk w eta (moves m) F2 n E (Cadd s (Cmul (Cmul Ci (RtoC (- h))) (F2 n)))).
  { intros n Cn. destruct (F_row n Cn) as [E [s Hs]]. exists E, s. split; [exact (Hs w eta D0)|]. split.
    - pose proof (row_shift c hop kk w eta (w + h) eta (moves m) F1 n E s (Hs _ _ D1)) as X. replace (Csub (w, eta) (w + h, eta)%R) with (RtoC (- h)) in X; [exact X|]. apply Ceq; unfold Csub, RtoC, Re, Im; cbn [fst snd]; ring.
    - pose proof (row_shift c hop kk w eta w (eta + h) (moves m) F2 n E s (Hs _ _ D2)) as X. replace (Csub (w, eta) (w, eta + h)%R) with (Cmul Ci (RtoC (- h))) in X; [exact X|]. apply Ceq; unfold Csub, Cmul, Ci, RtoC, Re, Im; cbn [fst snd]; ring. }
  assert (N1 : norm_le nt cand F1 (1 / (eta * eta))) by (apply F_norm; exact D1). assert (N0 : norm_le nt cand F0 (1 / (eta * eta))) by (apply F_norm; exact D0).
  assert (N2 : norm_le nt cand F2 (1 / (eta * eta))).
  { apply (norm_mono nt cand F2 (1 / ((eta + h) * (eta + h)))); [|apply F_norm; exact D2]. unfold Rdiv. rewrite !Rmult_1_l. apply Rinv_le_contravar; [apply Rmult_lt_0_compat; lra|]. apply Rmult_le_compat; lra. }
  assert (q0 : (0 < 1 / (eta * eta))%R) by (apply Rdiv_lt_0_compat; [lra|apply Rmult_lt_0_compat; lra]). set (q := (1 / (eta * eta))%R) in *.
  (* F2 - F1 *)
  assert (ND : norm_le nt cand (fun n => Csub (F2 n) (F1 n)) (4 * (h * h) * q / (eta * eta))).
  { apply (resolvent_bound w eta _ (fun n => Csub (Cmul (Cmul Ci (RtoC (- h))) (F2 n)) (Cmul (RtoC (- h)) (F1 n))) (2 * q + 2 * q)); [exact He| | | |].
    - intros n. apply diff_cand; assumption.
    - apply norm_sub; assumption.
    - eapply norm_mono; [|apply norm_sub; apply norm_scal; [exact N2|exact N1]]. right. unfold Cnorm2, Cmul, Ci, RtoC, Re, Im. cbn [fst snd]. ring.
    - intros n Cn. destruct (R1 n Cn) as (E & s & _ & A1 & A2). exists E. pose proof (row_sub c hop kk w eta (moves m) F2 F1 n E _ _ A2 A1) as X.
      replace (Csub (Cadd s (Cmul (Cmul Ci (RtoC (- h))) (F2 n))) (Cadd s (Cmul (RtoC (- h)) (F1 n)))) with (Csub (Cmul (Cmul Ci (RtoC (- h))) (F2 n)) (Cmul (RtoC (- h)) (F1 n))) in X by ring. exact X. }
  set (D := fun n => Csub (Cmul Ci (Csub (F1 n) (F0 n))) (Csub (F2 n) (F0 n))).
  assert (NN : norm_le nt cand D (h * h * (4 * (h * h) * q / (eta * eta)) / (eta * eta))).
  { apply (resolvent_bound w eta D (fun n => Cmul (Cmul Ci (RtoC h)) (Csub (F2 n) (F1 n))) (2 * (Cnorm2 Ci * (2 * q + 2 * q)) + 2 * (2 * q + 2 * q))); [exact He| | | |].
    - intros n H. destruct (classic (F0 n = C0)) as [E0|E0]; [|exact (F_cand _ _ n D0 E0)]. destruct (classic (F1 n = C0)) as [E1|E1]; [|exact (F_cand _ _ n D1 E1)].
      apply (F_cand w (eta + h)%R n D2). intros E2. apply H. unfold D. fold (F2 n) in E2. rewrite E0, E1. change (F2 n = C0) in E2. rewrite E2. ring.
    - apply norm_sub; [apply norm_scal|]; apply norm_sub; assumption.
    - eapply norm_mono; [|apply norm_scal; exact ND]. right. unfold Cnorm2, Cmul, Ci, RtoC, Re, Im. cbn [fst snd]. ring.
    - intros n Cn. destruct (R1 n Cn) as (E & s & A0 & A1 & A2). exists E.
      pose proof (row_sub c hop kk w eta (moves m) _ _ n E _ _ (row_scal c hop kk w eta (moves m) _ n E _ Ci (row_sub c hop kk w eta (moves m) F1 F0 n E _ _ A1 A0)) (row_sub c hop kk w eta (moves m) F2 F0 n E _ _ A2 A0)) as X.
      fold D in X. replace (RtoC (- h)) with (Copp (RtoC h)) in X by (apply Ceq; unfold Copp, RtoC, Re, Im; cbn [fst snd]; ring).
      match type of X with row_at _ _ _ _ _ _ _ _ _ ?t => replace (Cmul (Cmul Ci (RtoC h)) (Csub (F2 n) (F1 n))) with t; [exact X|] end. ring. }
  pose proof (norm_vacuum nt cand D _ cand_vacuum NN) as B.
  set (d := D vacuum) in *. change (eta ^ 3 * Cabs d <= 2 * h ^ 2)%R. apply Rsqr_incr_0; [|apply Rmult_le_pos; [left; apply pow_lt; exact He|apply Cabs_ge0]|cbn; nra]. unfold Rsqr.
  replace (eta ^ 3 * Cabs d * (eta ^ 3 * Cabs d))%R with (eta ^ 6 * Cnorm2 d)%R by (rewrite <- Cabs_sq; ring).
  apply (Rmult_le_compat_l (eta ^ 6)) in B; [|left; apply pow_lt; exact He]. eapply Rle_trans; [exact B|]. right. unfold q. field. lra.
Qed.
End Frequency.

(** The same for rows at two and at three frequencies. *)
Lemma Cdec : forall x y : C, {x = y} + {x <> y}.
Proof. intros [a b] [a' b']. destruct (Req_EM_T a a') as [-> |H]; [|right; intros E; injection E; auto]. destruct (Req_EM_T b b') as [-> |H]; [left; reflexivity|right; intros E; injection E; auto]. Qed.
Definition pick (p q : C) (A B D : placement -> Z -> C) (w eta : R) : placement -> Z -> C :=
  if Cdec (w, eta) p then A else if Cdec (w, eta) q then B else D.
Lemma pick1 : forall p q A B D w eta, (w, eta) = p -> pick p q A B D w eta = A.
Proof. intros p q A B D w eta E. unfold pick. destruct (Cdec _ p); [reflexivity|contradiction]. Qed.
Lemma pick2 : forall p q A B D w eta, (w, eta) <> p -> (w, eta) = q -> pick p q A B D w eta = B.
Proof. intros p q A B D w eta N E. unfold pick. destruct (Cdec _ p); [contradiction|]. destruct (Cdec _ q); [reflexivity|contradiction]. Qed.
Lemma pick3 : forall p q A B D w eta, (w, eta) <> p -> (w, eta) <> q -> pick p q A B D w eta = D.
Proof. intros p q A B D w eta N E. unfold pick. destruct (Cdec _ p); [contradiction|]. destruct (Cdec _ q); [contradiction|reflexivity]. Qed.

Section Points.
Variable m : model R.
Variable ae c : Z.
Variable k : R.
Hypothesis G : good_model m ae.
Hypothesis Hlat : on_lattice m c.
Hypothesis Hherm : forall w eta, hermitian (phys_env m k w eta) m.
Hypothesis Hl : exact_lattice m.
Hypothesis Ht : (0 <= h_hop (m_ham m))%R.

Lemma occupied : exists N, 0 <= N /\ Spec_extent.at_most m ae N.
Proof.
  exists (fold_right Z.max 0 (m_pn m)). assert (P : forall l, 0 <= fold_right Z.max 0 l) by (induction l; cbn [fold_right]; lia). split; [apply P|].
  apply numbers_at_most; [|apply P]. intros t _. generalize (m_pn m). intros l. revert t. induction l as [|a l IH]; intros t; destruct t; cbn [nth fold_right]; try (specialize (IH t)); lia.
Qed.

Lemma first_at : forall w eta w' eta' P P', (0 < eta)%R -> (0 < eta')%R -> greens_row m ae c k (w, eta) P -> greens_row m ae c k (w', eta') P' ->
  (eta * eta' * Cabs (Csub (P' vacuum 0%Z) (P vacuum 0%Z)) <= Cabs (Csub (w', eta') (w, eta)))%R.
Proof.
  intros w eta w' eta' P P' He He' Ro Ro'. destruct (Extent_proofs.couples_ex m c) as [rho [R0 CW]]. destruct occupied as [N [N0 HN]].
  destruct (Cdec (w', eta') (w, eta)) as [E|E].
  - injection E as -> ->. rewrite (Green_proofs.row_unique m ae c k w eta G Hl Ht He Hlat (Hherm w eta) P' P Ro' Ro).
    replace (Csub (P vacuum 0) (P vacuum 0)) with C0 by ring. rewrite Cabs_0, Rmult_0_r. apply Cabs_ge0.
  - pose proof (first m ae c k G Hlat Hherm N rho N0 HN R0 CW (pick (w, eta) (w', eta') P P' P) (fun x y => (x, y) = (w, eta) \/ (x, y) = (w', eta'))) as X.
    cbv beta in X. set (Q := pick (w, eta) (w', eta') P P' P) in *.
    assert (Q0 : Q w eta = P) by (apply pick1; reflexivity). assert (Q1 : Q w' eta' = P') by (apply pick2; [assumption|reflexivity]). rewrite <- Q0, <- Q1.
    apply X; [| |left; reflexivity|right; reflexivity].
    + intros x y [A | A]; injection A as -> ->; assumption.
    + intros x y [A | A]; injection A as -> ->; [rewrite Q0; exact Ro|rewrite Q1; exact Ro'].
Qed.

Lemma second_at : forall w eta h P P1 P2, (0 < eta)%R -> (0 < h)%R -> greens_row m ae c k (w, eta) P -> greens_row m ae c k ((w + h)%R, eta) P1 -> greens_row m ae c k (w, (eta + h)%R) P2 ->
  (eta ^ 3 * Cabs (Csub (Cmul Ci (Csub (P1 vacuum 0%Z) (P vacuum 0%Z))) (Csub (P2 vacuum 0%Z) (P vacuum 0%Z))) <= 2 * h ^ 2)%R.
Proof.
  intros w eta h P P1 P2 He Hh Ro Ro1 Ro2. destruct (Extent_proofs.couples_ex m c) as [rho [R0 CW]]. destruct occupied as [N [N0 HN]].
  assert (E1 : ((w + h)%R, eta) <> (w, eta)) by (intros A; injection A; lra).
  assert (E2 : (w, (eta + h)%R) <> (w, eta)) by (intros A; injection A; lra).
  assert (E3 : (w, (eta + h)%R) <> ((w + h)%R, eta)) by (intros A; injection A; lra).
  pose proof (second m ae c k G Hlat Hherm N rho N0 HN R0 CW (pick (w, eta) ((w + h)%R, eta) P P1 P2)
    (fun x y => (x, y) = (w, eta) \/ (x, y) = ((w + h)%R, eta) \/ (x, y) = (w, (eta + h)%R))) as X.
  cbv beta in X. set (Q := pick (w, eta) ((w + h)%R, eta) P P1 P2) in *.
  assert (Q0 : Q w eta = P) by (apply pick1; reflexivity). assert (Q1 : Q (w + h)%R eta = P1) by (apply pick2; [assumption|reflexivity]).
  assert (Q2 : Q w (eta + h)%R = P2) by (apply pick3; assumption). rewrite <- Q0, <- Q1, <- Q2.
  apply X; [| |left; reflexivity|right; left; reflexivity|right; right; reflexivity|exact Hh].
  - intros x y [A | [A | A]]; injection A as -> ->; lra.
  - intros x y [A | [A | A]]; injection A as -> ->; [rewrite Q0; exact Ro|rewrite Q1; exact Ro1|rewrite Q2; exact Ro2].
Qed.
End Points.
