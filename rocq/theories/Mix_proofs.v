(** How the energies and the Green's function depend on the couplings and the
    frequencies (C80). *)
From Coq Require Import String ZArith Reals List Bool Lia Lra Permutation Classical Ring FunctionalExtensionality.
From Verif Require Import Base NdArray NdArray_proofs Config Spec Spec_ops Config_proofs Modify_proofs Legal_proofs
  Model Space Spec_space Space_proofs Term Equation System Spec_engine
  Equation_proofs Ring Coef Spec_eom Eom_proofs
  HModel Spec_model Cplx Physics Physics_proofs
  Toeplitz_proofs Weight_proofs Spec_spectral Energy_proofs Spectral_proofs Spec_green Green_proofs Cutoff_proofs Tent_proofs Walk_proofs Reach_proofs Extent_proofs Perturb_proofs Holo_proofs Spec_band Spec_ritz Ritz_proofs Spec_mix Dual_proofs.
From Verif Require Spec_exact Spec_extent Spec_band Band_proofs Exact_proofs Pick_proofs.
Import ListNotations.
Open Scope list_scope.
Open Scope Z_scope.

Lemma same_space_sym : forall m m', same_space m m' -> same_space m' m.
Proof. intros m m' (A & B & C & D & E). repeat split; symmetry; assumption. Qed.
Lemma same_contained : forall m m' ae a, same_space m m' -> space m ae a -> space m' ae a.
Proof.
  intros m m' ae a (_ & NT & Hm & He & Hn) Sa. destruct (space_unfold m ae a Sa) as [V [NF [_ [_ [_ [[z [Sh Hz]] [_ [L1 [L2 L3]]]]]]]]].
  apply space_intro; [exact V|exact NF| | | |].
  - exists z. rewrite <- NT. split; [exact Sh|lia].
  - intros b Eb. rewrite <- Hm in Eb. exact (L1 b Eb).
  - intros t Tt. rewrite <- NT in Tt. rewrite <- He. exact (L2 t Tt).
  - intros t Tt. rewrite <- NT in Tt. rewrite <- Hn. exact (L3 t Tt).
Qed.
Lemma same_trial : forall m m' ae k r L Psi, same_space m m' -> trial m ae k r L Psi -> trial m' ae k r L Psi /\ trial_norm m' r L Psi = trial_norm m r L Psi.
Proof.
  intros m m' ae k r L Psi S [T1 T2 T3 T4]. pose proof (fun a => same_contained m m' ae a S) as Sub. destruct S as (El & NT & _). split; [split|].
  - exact T1.
  - intros n Hn. destruct (T2 n Hn) as [A B]. rewrite <- NT. split; [|exact B]. destruct A as [A|[a [s [Sa A]]]]; [left; exact A|right; exists a, s; split; [apply Sub, Sa|exact A]].
  - exact T3.
  - rewrite <- El. exact T4.
  - unfold trial_norm. rewrite NT. reflexivity.
Qed.

Lemma same_op : forall c h h' n j, same_operator h h' -> factor c h n j = factor c h' n j /\ after c h n j = after c h' n j /\ target h j = target h' j /\ mode c h j = mode c h' j.
Proof.
  intros c [ty psi phi dg g i f] [ty' psi' phi' dg' g' i' f'] n j (A & B & C & D). cbn [ht_psi ht_phi ht_dag ht_index] in *. subst. repeat split; reflexivity.
Qed.

(** Two Hamiltonians that act alike. *)
Lemma energy_comb : forall m0 m1 m th r n, m_ntypes m0 = m_ntypes m -> m_ntypes m1 = m_ntypes m ->
  (forall t, (t < m_ntypes m)%nat -> nth t (h_freqs (m_ham m)) 0 = (1 - th) * nth t (h_freqs (m_ham m0)) 0 + th * nth t (h_freqs (m_ham m1)) 0)%R ->
  Spec_exact.energy m r n = ((1 - th) * Spec_exact.energy m0 r n + th * Spec_exact.energy m1 r n)%R.
Proof.
  intros m0 m1 m th r n E0 E1 Hf. unfold Spec_exact.energy. rewrite E0, E1. assert (HM : forall p, In p (Spec_exact.near_modes (m_ntypes m) r) -> (fst p < m_ntypes m)%nat) by (intros [t x] Hp; unfold Spec_exact.near_modes in Hp; apply in_prod_iff in Hp; destruct Hp as [Hp _]; apply in_seq in Hp; cbn [fst]; lia).
  induction (Spec_exact.near_modes (m_ntypes m) r) as [|p l IH]; cbn [fold_right]; [ring|]. rewrite IH by (intros q Hq; apply HM; right; exact Hq). rewrite (Hf (fst p)) by (apply HM; left; reflexivity). ring.
Qed.

Section Mixed.
Variable th : R.
Variable m0 m1 m : model R.
Hypothesis Mix : mixed th m0 m1 m.

Lemma mix_H : forall c r Psi n j, on_H m c (Spec_exact.energy m r n) Psi n j =
  Cadd (Cmul (RtoC (1 - th)) (on_H m0 c (Spec_exact.energy m0 r n) Psi n j)) (Cmul (RtoC th) (on_H m1 c (Spec_exact.energy m1 r n) Psi n j)).
Proof.
  intros c r Psi n j. destruct Mix as ((_ & N0 & _) & (_ & N1 & _) & MT & EH & EF). unfold on_H. rewrite EH, (energy_comb m0 m1 m th r n N0 N1 EF).
  set (F := fun h => Cmul (RtoC (ht_coupling h * factor c h n j)) (Psi (after c h n j) (target h j))).
  assert (SM : Csum_list (map F (h_terms (m_ham m))) = Cadd (Cmul (RtoC (1 - th)) (Csum_list (map F (h_terms (m_ham m0))))) (Cmul (RtoC th) (Csum_list (map F (h_terms (m_ham m1)))))).
  { induction MT as [|h0 h1 h l0 l1 l A B E MT IH]; [unfold Csum_list; cbn [map fold_right]; ring|]. cbn [map]. unfold Csum_list in *. cbn [fold_right]. rewrite IH. destruct (same_op c h0 h n j A) as (A1 & A2 & A3 & _). destruct (same_op c h1 h n j B) as (B1 & B2 & B3 & _).
    assert (F0 : F h0 = Cmul (RtoC (ht_coupling h0 * factor c h n j)) (Psi (after c h n j) (target h j))) by (unfold F; rewrite A1, A2, A3; reflexivity). assert (F1 : F h1 = Cmul (RtoC (ht_coupling h1 * factor c h n j)) (Psi (after c h n j) (target h j))) by (unfold F; rewrite B1, B2, B3; reflexivity).
    rewrite F0, F1. unfold F at 1. rewrite E. set (x := Psi _ _). set (q := factor c h n j). set (s0 := fold_right Cadd C0 (map F l0)). set (s1 := fold_right Cadd C0 (map F l1)). clearbody x q s0 s1.
    apply Ceq; unfold Cadd, Cmul, RtoC, Re, Im; cbn [fst snd]; ring. }
  rewrite SM. set (s0 := Csum_list (map F (h_terms (m_ham m0)))). set (s1 := Csum_list (map F (h_terms (m_ham m1)))). set (e0 := Spec_exact.energy m0 r n). set (e1 := Spec_exact.energy m1 r n). generalize (Psi n j) (Psi n (j + 1)) (Psi n (j - 1)). intros x y z. clearbody s0 s1 e0 e1.
  apply Ceq; unfold Cadd, Csub, Cmul, RtoC, Re, Im; cbn [fst snd]; ring.
Qed.

Lemma mix_energy : forall c r L Psi, trial_energy m c r L Psi = ((1 - th) * trial_energy m0 c r L Psi + th * trial_energy m1 c r L Psi)%R.
Proof.
  intros c r L Psi. unfold trial_energy. induction L as [|n l IH]; cbn [fold_right]; [ring|]. rewrite IH, mix_H. destruct Mix as ((_ & N0 & _) & (_ & N1 & _) & _). rewrite N0, N1.
  set (a := on_H m0 _ _ _ _ _). set (b := on_H m1 _ _ _ _ _). set (x := Psi n 0). clearbody a b x. unfold Cadd, Cmul, RtoC, Re, Im, Rdiv. cbn [fst snd]. ring.
Qed.
End Mixed.

(** Higher frequencies. *)
Section Stiffer.
Variable m m' : model R.
Hypothesis St : stiffer m m'.
Variable ae c : Z.
Variable k : R.

Lemma stiff_energy : forall r L Psi, trial m ae k r L Psi -> (trial_energy m c r L Psi <= trial_energy m' c r L Psi)%R.
Proof.
  intros r L Psi Tr. destruct St as ((_ & NT & _) & FA & EH & EF). assert (HL : forall n, In n L -> forall t x, 0 <= n t x).
  { intros n Hn. destruct (tr_space _ _ _ _ _ _ Tr n Hn) as [[A|[a [s [Sa A]]]] _]; intros t x; rewrite A; [lia|]. unfold translated, cloud. destruct (space_unfold m ae a Sa) as [V _]. apply (valid_nonneg a V). }
  unfold trial_energy. clear Tr. induction L as [|n l IH]; cbn [fold_right]; [lra|]. apply Rplus_le_compat; [|apply IH; intros q Hq; apply HL; right; exact Hq]. rewrite <- NT. unfold Rdiv.
  destruct (Exact_proofs.norm2_wt (m_ntypes m) r n) as [-> _]. apply Rmult_le_compat_r; [left; apply wt_pos|].
  assert (EE : (Spec_exact.energy m r n <= Spec_exact.energy m' r n)%R).
  { unfold Spec_exact.energy. rewrite <- NT. assert (HM : forall p, In p (Spec_exact.near_modes (m_ntypes m) r) -> (fst p < m_ntypes m)%nat) by (intros [t x] Hp; unfold Spec_exact.near_modes in Hp; apply in_prod_iff in Hp; destruct Hp as [Hp _]; apply in_seq in Hp; cbn [fst]; lia).
    induction (Spec_exact.near_modes (m_ntypes m) r) as [|p q IHq]; cbn [fold_right]; [lra|]. apply Rplus_le_compat; [|apply IHq; intros q' Hq; apply HM; right; exact Hq].
    apply Rmult_le_compat_r; [apply IZR_le, (HL n (or_introl eq_refl))|apply EF, HM; left; reflexivity]. }
  assert (EO : on_H m' c (Spec_exact.energy m' r n) Psi n 0 = Cadd (on_H m c (Spec_exact.energy m r n) Psi n 0) (Cmul (RtoC (Spec_exact.energy m' r n - Spec_exact.energy m r n)) (Psi n 0))).
  { unfold on_H. rewrite EH. set (F := fun h => Cmul (RtoC (ht_coupling h * factor c h n 0)) (Psi (after c h n 0) (target h 0))).
    assert (SM : Csum_list (map F (h_terms (m_ham m'))) = Csum_list (map F (h_terms (m_ham m)))).
    { clear - FA. induction FA as [|h h' hs hs' [A E] FA IH]; [reflexivity|]. cbn [map]. unfold Csum_list in *. cbn [fold_right]. rewrite IH. f_equal. destruct (same_op c h h' n 0 A) as (A1 & A2 & A3 & _). unfold F. rewrite E, A1, A2, A3. reflexivity. }
    rewrite SM. apply Ceq; unfold Cadd, Csub, Cmul, RtoC, Re, Im; cbn [fst snd]; ring. }
  rewrite EO. set (y := on_H m c _ _ _ _). set (x := Psi n 0). set (dl := (Spec_exact.energy m' r n - Spec_exact.energy m r n)%R). assert (D0 : (0 <= dl)%R) by (unfold dl; lra). clearbody x y dl.
  assert (P0 : (0 <= dl * Cnorm2 x)%R) by (apply Rmult_le_pos; [exact D0|apply Band_proofs.Cnorm2_ge0]). unfold Cnorm2, Cadd, Cmul, RtoC, Re, Im in *. cbn [fst snd] in *. lra.
Qed.
End Stiffer.

(** Weaker couplings: change the sign of the states with an odd number of
    phonons of the chosen types. *)
Section Weaker.
Variable s : nat -> bool.
Variable th : R.
Variable m m' : model R.
Hypothesis Wk : weakened s th m m'.
Variable ae c : Z.
Variable k : R.
Hypothesis G : good_model m ae.
Hypothesis Hherm : forall w eta, hermitian (phys_env m k w eta) m.
Hypothesis Hherm' : forall w eta, hermitian (phys_env m' k w eta) m'.
Let nt := m_ntypes m.
Let kk := (k * m_lattice m)%R.
Let hop := h_hop (m_ham m).

Definition odd_of (t : nat) (v : Z) : R := if s t then IZR v else 0%R.
Lemma odd_0 : forall t, odd_of t 0 = 0%R.
Proof. intros t. unfold odd_of. destruct (s t); reflexivity. Qed.
Definition sign (W : Z) (n : placement) : R := cos (PI * gsum odd_of n (modes nt W)).
Lemma odd_int : forall n l, exists z, gsum odd_of n l = IZR z.
Proof.
  intros n l. unfold gsum. induction l as [|p l [z IH]]; [exists 0; reflexivity|]. rewrite Rsum_cons, IH. unfold odd_of. destruct (s (fst p)); [exists (at_mode n p + z); rewrite plus_IZR; reflexivity|exists z; ring].
Qed.
Lemma cos_int : forall z, (cos (PI * IZR z) * cos (PI * IZR z) = 1)%R.
Proof. intros z. pose proof (sin2_cos2 (PI * IZR z)) as H. assert (Z0 : sin (PI * IZR z) = 0%R) by (apply sin_eq_0_1; exists z; ring). rewrite Z0 in H. unfold Rsqr in H. lra. Qed.
Lemma sign_sq : forall W n, (sign W n * sign W n = 1)%R.
Proof. intros W n. unfold sign. destruct (odd_int n (modes nt W)) as [z ->]. apply cos_int. Qed.
Lemma sign_vacuum : forall W, sign W vacuum = 1%R.
Proof. intros W. unfold sign, gsum. rewrite (Rsum_ext _ (fun _ => 0%R)); [rewrite Rsum_0, Rmult_0_r; apply cos_0|]. intros p _. apply odd_0. Qed.

Definition chosen (o : move) : R := match o with Hop _ => 1%R | Act h => if s (ht_index h) then (-1)%R else 1%R end.
Lemma sign_step : forall rho W o n, rho <= W -> fits nt c rho o -> inside nt W n -> inside nt W (step c o n) -> sign W (step c o n) = (chosen o * sign W n)%R.
Proof.
  intros rho W o n HW F I I'. unfold sign, step. rewrite (gsum_translated nt _ odd_0); [|apply (inside_moved nt c rho); assumption|exact I'].
  destruct o as [b|h]; cbn [moved chosen]; [ring|]. destruct F as [F1 F2]. unfold after. rewrite gsum_changed; [|exact F2|lia]. unfold odd_of at 2 3. destruct (s (ht_index h)).
  - rewrite plus_IZR. set (g := gsum _ _ _). set (q := IZR (n _ _)). destruct (ht_dag h).
    + replace (PI * (g + (q + 1 - q)))%R with (PI * g + PI)%R by ring. rewrite neg_cos. ring.
    + replace (PI * (g + (q + -1 - q)))%R with (PI * g - PI)%R by ring. rewrite cos_minus, sin_PI, cos_PI. ring.
  - rewrite Rminus_0_r, Rplus_0_r. ring.
Qed.

(** One coupling. *)
Definition pr (F : placement -> C) (hp : R) (n : placement) (o : move) : R := Re (Cmul (Cconj (F n)) (term_at c hp kk F n o)).
Lemma pr_tot : forall F hp os n, Re (Cmul (Cconj (F n)) (Pick_proofs.tot c hp kk os F n)) = Rsum (map (pr F hp n) os).
Proof. intros F hp os n. unfold Pick_proofs.tot. rewrite <- Csum_list_scal. rewrite (Pick_proofs.Re_Csum (fun o => Cmul (Cconj (F n)) (term_at c hp kk F n o))). reflexivity. Qed.

Variable r : Z.
Variable L : list placement.
Variable Psi : placement -> Z -> C.
Hypothesis Tr : trial m' ae k r L Psi.
Notation f := (fun n => Psi n 0).

Lemma Tr0 : trial m ae k r L Psi /\ trial_norm m r L Psi = trial_norm m' r L Psi.
Proof. apply (same_trial m' m); [apply same_space_sym, Wk|exact Tr]. Qed.

Lemma turned : exists Phi, trial m ae k r L Phi /\ Phi vacuum 0 = Psi vacuum 0 /\ trial_norm m r L Phi = trial_norm m' r L Psi /\
  trial_energy m' c r L Psi = ((1 + th) / 2 * trial_energy m c r L Psi + (1 - th) / 2 * trial_energy m c r L Phi)%R.
Proof.
  destruct Tr0 as [T0 TN]. destruct (Extent_proofs.couples_ex m c) as [rho [R0 Hrho]]. set (W := Z.max (Z.abs r) rho). set (f' := fun n => Cmul (RtoC (sign W n)) (f n)). set (Phi := Exact_proofs.spread m k f').
  assert (P0 : (fun n => Phi n 0) = f') by apply Exact_proofs.spread_0. assert (P0' : forall n, Phi n 0 = f' n) by (intros n; change (Phi n 0) with ((fun n => Phi n 0) n); rewrite P0; reflexivity).
  assert (IL : forall n, In n L -> inside nt r n /\ inside nt W n).
  { intros n Hn. destruct (trial_cand m ae k r L Psi T0 n Hn) as [_ B]. split; [exact B|]. apply (inside_mono nt r); [unfold W; lia|exact B]. }
  assert (T1 : trial m ae k r L Phi).
  { destruct T0 as [A1 A2 A3 A4]. split; [exact A1|exact A2| |apply (spread_momentum m k Hherm)]. intros n Hn. rewrite P0'. unfold f'. rewrite (A3 n Hn). ring. }
  assert (Sq : forall n, Cnorm2 (f' n) = Cnorm2 (f n)).
  { intros n. pose proof (sign_sq W n) as Q. unfold f'. set (x := sign W n) in *. destruct (Psi n 0) as [a b]. unfold Cnorm2, Cmul, RtoC, Re, Im. cbn [fst snd]. transitivity (x * x * (a * a + b * b))%R; [ring|]. rewrite Q. ring. }
  exists Phi. split; [exact T1|]. split.
  { rewrite P0'. unfold f'. rewrite sign_vacuum. apply Ceq; unfold Cmul, RtoC, Re, Im; cbn [fst snd]; ring. }
  split.
  { rewrite <- TN. unfold trial_norm. clear - Sq P0'. induction L as [|n l IH]; [reflexivity|]. cbn [fold_right]. rewrite IH, P0', Sq. reflexivity. }
  rewrite (trial_energy_is m' ae c k Hherm' r L Psi Tr), (trial_energy_is m ae c k Hherm r L Psi T0), (trial_energy_is m ae c k Hherm r L Phi T1). rewrite P0.
  assert (FN : forall n, In n L -> forall o, In o (moves m) -> pr f' hop n o = (chosen o * pr f hop n o)%R).
  { intros n Hn o Ho. destruct (IL n Hn) as [_ I1]. unfold pr, term_at. destruct (classic (f (step c o n) = C0)) as [E|E].
    - unfold f' at 2. cbv beta in E. rewrite !E. unfold Cmul, Cconj, RtoC, C0, Re, Im. cbn [fst snd]. ring.
    - destruct (IL _ (f_in m ae k r L Psi T0 _ E)) as [_ I2]. pose proof (sign_step rho W o n ltac:(unfold W; lia) (moves_fit m ae c G rho Hrho o Ho) I1 I2) as SS. unfold f'. rewrite SS. pose proof (sign_sq W n) as Q. set (x := sign W n) in *. set (y := chosen o). clearbody y.
      set (a := Psi n 0). set (b := Psi (step c o n) 0). set (u := weight c hop o n). set (p := phase kk (ahead o)). clearbody x a b u p. destruct a as [a1 a2], b as [b1 b2], p as [p1 p2]. unfold Cmul, Cconj, RtoC, Re, Im. cbn [fst snd].
      match goal with |- _ = (y * ?R)%R => transitivity (x * x * (y * R))%R end; [ring|]. rewrite Q. ring. }
  assert (EH : h_hop (m_ham m') = hop) by apply Wk. assert (EL : m_lattice m' = m_lattice m) by (symmetry; apply Wk). assert (NT : m_ntypes m' = nt) by (symmetry; apply Wk). rewrite EH, EL, NT. fold kk hop nt.
  rewrite <- !Rsum_scal, <- Rsum_add. apply Rsum_ext. intros n Hn.
  assert (EE : Spec_exact.energy m' r n = Spec_exact.energy m r n).
  { transitivity ((1 - 0) * Spec_exact.energy m r n + 0 * Spec_exact.energy m r n)%R; [|ring]. apply energy_comb; [rewrite NT; reflexivity|rewrite NT; reflexivity|]. intros t Ht. rewrite NT in Ht. destruct Wk as (_ & _ & _ & EF). rewrite (EF t Ht). ring. }
  rewrite EE. cbv beta. rewrite ?P0', Sq. pose proof (pr_tot f hop (moves m') n) as Q1. pose proof (pr_tot f hop (moves m) n) as Q2. pose proof (pr_tot f' hop (moves m) n) as Q3. cbv beta in Q1, Q2, Q3. rewrite Q1, Q2, Q3.
  assert (QQ : Rsum (map (pr f hop n) (moves m')) = ((1 + th) / 2 * Rsum (map (pr f hop n) (moves m)) + (1 - th) / 2 * Rsum (map (pr f' hop n) (moves m)))%R).
  { rewrite (Rsum_ext (pr f' hop n) (fun o => chosen o * pr f hop n o)%R) by (intros o Ho; apply FN; assumption). unfold moves. rewrite !Rsum_cons. cbn [chosen].
    assert (QA : Rsum (map (pr f hop n) (map Act (h_terms (m_ham m')))) = ((1 + th) / 2 * Rsum (map (pr f hop n) (map Act (h_terms (m_ham m)))) + (1 - th) / 2 * Rsum (map (fun o => chosen o * pr f hop n o) (map Act (h_terms (m_ham m)))))%R); [|].
    { destruct Wk as (_ & FA & _). clear - FA. induction FA as [|h h' hs hs' [A E] FA IH]; [unfold Rsum; cbn [map fold_right]; ring|]. change (map Act (h :: hs)) with (Act h :: map Act hs). change (map Act (h' :: hs')) with (Act h' :: map Act hs'). rewrite !Rsum_cons, IH. cbn [chosen].
      assert (PP : pr f hop n (Act h') = ((if s (ht_index h) then th else 1) * pr f hop n (Act h))%R).
      { unfold pr, term_at, step, moved, weight. cbn [ahead]. destruct (same_op c h h' n 0 A) as (A1 & A2 & A3 & _). rewrite E, <- A1, <- A2, <- A3. set (z := Psi (translated _ _) 0). set (a := Psi n 0). set (p := phase kk _). set (q := factor c h n 0). clearbody z a p q.
        unfold Cmul, Cconj, RtoC, Re, Im. cbn [fst snd]. ring. }
      rewrite PP. destruct (s (ht_index h)); field. }
    rewrite QA. field. }
  rewrite QQ. cbv beta. field.
Qed.
End Weaker.

(** * Consequences for the energies and the Green's function *)

(** Every trial state of [m] comes with trial states of [m0], [m1] that have
    the same norm, the same vacuum amplitude and, on average, at least its
    energy on the side [sg]. *)
Definition covered (sg th : R) (m0 m1 m : model R) (ae c : Z) (k : R) : Prop :=
  forall r L Psi, trial m ae k r L Psi -> exists L0 L1 Psi0 Psi1, trial m0 ae k r L0 Psi0 /\ trial m1 ae k r L1 Psi1 /\
    trial_norm m0 r L0 Psi0 = trial_norm m r L Psi /\ trial_norm m1 r L1 Psi1 = trial_norm m r L Psi /\ Psi0 vacuum 0 = Psi vacuum 0 /\ Psi1 vacuum 0 = Psi vacuum 0 /\
    (sg * trial_energy m c r L Psi <= (1 - th) * (sg * trial_energy m0 c r L0 Psi0) + th * (sg * trial_energy m1 c r L1 Psi1))%R.

Lemma covered_mixed : forall sg th m0 m1 m ae c k, mixed th m0 m1 m -> covered sg th m0 m1 m ae c k.
Proof.
  intros sg th m0 m1 m ae c k Mix r L Psi T. destruct (same_trial m m0 ae k r L Psi) as [T0 N0]; [apply same_space_sym, Mix|exact T|]. destruct (same_trial m m1 ae k r L Psi) as [T1 N1]; [apply same_space_sym, Mix|exact T|].
  exists L, L, Psi, Psi. repeat (split; [first [assumption|reflexivity]|]). rewrite (mix_energy th m0 m1 m Mix). right. ring.
Qed.
Lemma covered_stiffer : forall m m' ae c k, stiffer m m' -> covered (-1) 0 m m m' ae c k /\ covered 1 0 m' m' m ae c k.
Proof.
  intros m m' ae c k St. split; intros r L Psi T.
  - destruct (same_trial m' m ae k r L Psi) as [T0 N0]; [apply same_space_sym, St|exact T|]. exists L, L, Psi, Psi. repeat (split; [first [assumption|reflexivity]|]). pose proof (stiff_energy m m' St ae c k r L Psi T0). lra.
  - destruct (same_trial m m' ae k r L Psi) as [T0 N0]; [apply St|exact T|]. exists L, L, Psi, Psi. repeat (split; [first [assumption|reflexivity]|]). pose proof (stiff_energy m m' St ae c k r L Psi T). lra.
Qed.
Lemma covered_weakened : forall sg s th m m' ae c k, weakened s th m m' -> good_model m ae -> (forall w eta, hermitian (phys_env m k w eta) m) -> (forall w eta, hermitian (phys_env m' k w eta) m') ->
  covered sg ((1 - th) / 2) m m m' ae c k.
Proof.
  intros sg s th m m' ae c k Wk G H H' r L Psi T. destruct (turned s th m m' Wk ae c k G H H' r L Psi T) as (Phi & T1 & V1 & N1 & E1). destruct (same_trial m' m ae k r L Psi) as [T0 N0]; [apply same_space_sym, Wk|exact T|].
  exists L, L, Psi, Phi. repeat (split; [first [assumption|reflexivity]|]). rewrite E1. right. field.
Qed.

Lemma covered_beyond : forall sg th m0 m1 m ae c k e0 e1, covered sg th m0 m1 m ae c k -> (0 <= th <= 1)%R -> beyond_all m0 ae c k sg e0 -> beyond_all m1 ae c k sg e1 -> beyond_all m ae c k sg ((1 - th) * e0 + th * e1).
Proof.
  intros sg th m0 m1 m ae c k e0 e1 Cv Ht [Sg B0] [_ B1]. split; [exact Sg|]. intros r L Psi T. destruct (Cv r L Psi T) as (L0 & L1 & Psi0 & Psi1 & T0 & T1 & N0 & N1 & _ & _ & E).
  pose proof (B0 _ _ _ T0) as X0. pose proof (B1 _ _ _ T1) as X1. rewrite N0 in X0. rewrite N1 in X1. apply (Rmult_le_compat_l (1 - th)) in X0; [|lra]. apply (Rmult_le_compat_l th) in X1; [|lra]. lra.
Qed.

Section Both.
Variable m0 m1 m : model R.
Variable ae c : Z.
Variable k : R.
Hypothesis G0 : good_model m0 ae.
Hypothesis G1 : good_model m1 ae.
Hypothesis G : good_model m ae.
Hypothesis Hlat0 : on_lattice m0 c.
Hypothesis Hlat1 : on_lattice m1 c.
Hypothesis Hlat : on_lattice m c.
Hypothesis Hherm0 : forall w eta, hermitian (phys_env m0 k w eta) m0.
Hypothesis Hherm1 : forall w eta, hermitian (phys_env m1 k w eta) m1.
Hypothesis Hherm : forall w eta, hermitian (phys_env m k w eta) m.
Variable sg th e0 e1 : R.
Hypothesis Cv : covered sg th m0 m1 m ae c k.
Hypothesis Ht : (0 <= th <= 1)%R.
Hypothesis B0 : beyond_all m0 ae c k sg e0.
Hypothesis B1 : beyond_all m1 ae c k sg e1.
Variable N : Z.
Hypothesis N_pos : 0 <= N.
Hypothesis HN0 : Spec_extent.at_most m0 ae N.
Hypothesis HN1 : Spec_extent.at_most m1 ae N.
Hypothesis HN : Spec_extent.at_most m ae N.
Variable w d eta : R.
Hypothesis d_pos : (0 < d)%R.
Hypothesis eta_pos : (0 < eta)%R.
Hypothesis W0 : (d <= sg * (w - e0))%R.
Hypothesis W1 : (d <= sg * (w - e1))%R.
Variable P0 P1 P : placement -> Z -> C.
Hypothesis Row0 : greens_row m0 ae c k (w, eta) P0.
Hypothesis Row1 : greens_row m1 ae c k (w, eta) P1.
Hypothesis Row : greens_row m ae c k (w, eta) P.

Theorem covered_green : (sg * Re (P vacuum 0%Z) <= (1 - th) * (sg * Re (P0 vacuum 0%Z)) + th * (sg * Re (P1 vacuum 0%Z)) + 2 * eta / (d * d))%R.
Proof.
  assert (B : beyond_all m ae c k sg ((1 - th) * e0 + th * e1)) by exact (covered_beyond sg th m0 m1 m ae c k e0 e1 Cv Ht B0 B1).
  assert (Wd : (d <= sg * (w - ((1 - th) * e0 + th * e1)))%R).
  { replace (sg * (w - ((1 - th) * e0 + th * e1)))%R with ((1 - th) * (sg * (w - e0)) + th * (sg * (w - e1)))%R by ring. assert (A : ((1 - th) * d <= (1 - th) * (sg * (w - e0)))%R) by (apply Rmult_le_compat_l; lra). assert (A' : (th * d <= th * (sg * (w - e1)))%R) by (apply Rmult_le_compat_l; lra). lra. }
  destruct (Extent_proofs.couples_ex m0 c) as [rho0 [R0 C0']]. destruct (Extent_proofs.couples_ex m1 c) as [rho1 [R1 C1']]. destruct (Extent_proofs.couples_ex m c) as [rho [R2 C2']].
  apply Rnot_lt_le. intros Lt. set (x := ((1 - th) * (sg * Re (P0 vacuum 0%Z)) + th * (sg * Re (P1 vacuum 0%Z)) + 2 * eta / (d * d))%R) in *. set (eps := ((sg * Re (P vacuum 0%Z) - x) / 2)%R). assert (Ep : (0 < eps)%R) by (unfold eps; lra).
  destruct (attained m ae c k G Hlat Hherm N rho N_pos HN R2 C2' sg _ B w d eta Wd eta_pos d_pos P Row eps Ep) as (r & L & Psi & T & Nm & At).
  destruct (Cv r L Psi T) as (L0 & L1 & Psi0 & Psi1 & T0 & T1 & N0 & N1 & V0 & V1 & E).
  pose proof (upper m0 ae c k G0 Hlat0 Hherm0 N rho0 N_pos HN0 R0 C0' sg e0 B0 w d eta W0 eta_pos d_pos P0 Row0 r L0 Psi0 T0) as U0. pose proof (upper m1 ae c k G1 Hlat1 Hherm1 N rho1 N_pos HN1 R1 C1' sg e1 B1 w d eta W1 eta_pos d_pos P1 Row1 r L1 Psi1 T1) as U1.
  rewrite N0, V0 in U0. rewrite N1, V1 in U1. set (nn := trial_norm m r L Psi) in *. set (v := Re (Psi vacuum 0)) in *. set (E0 := trial_energy m0 c r L0 Psi0) in *. set (E1 := trial_energy m1 c r L1 Psi1) in *. set (En := trial_energy m c r L Psi) in *.
  assert (NE : (eta * (nn + 1 / (d * d)) <= 2 * eta / (d * d))%R) by (replace (2 * eta / (d * d))%R with (eta * (1 / (d * d) + 1 / (d * d)))%R by (field; lra); apply Rmult_le_compat_l; lra).
  apply (Rmult_le_compat_l (1 - th)) in U0; [|lra]. apply (Rmult_le_compat_l th) in U1; [|lra]. unfold eps in At. clear Row Row0 Row1 B B0 B1 Cv. clearbody v E0 E1 En nn. unfold x in *. clearbody eps.
  set (g := (sg * Re (P vacuum 0))%R) in *. set (g0 := (sg * Re (P0 vacuum 0))%R) in *. set (g1 := (sg * Re (P1 vacuum 0))%R) in *. set (b := (2 * eta / (d * d))%R) in *. set (a := (eta * (nn + 1 / (d * d)))%R) in *. clearbody g g0 g1 a b.
  assert (A : (sg * (2 * v - (w * nn - En)) <= (1 - th) * g0 + th * g1 + a)%R) by lra. lra.
Qed.
End Both.
