(** The variational formula for the Green's function outside of the energies
    (C80). *)
From Coq Require Import String ZArith Reals List Bool Lia Lra Permutation Classical Ring FunctionalExtensionality.
From Verif Require Import Base NdArray NdArray_proofs Config Spec Spec_ops Config_proofs Modify_proofs Legal_proofs
  Model Space Spec_space Space_proofs Term Equation System Spec_engine
  Equation_proofs Ring Coef Spec_eom Eom_proofs
  HModel Spec_model Cplx Physics Physics_proofs
  Toeplitz_proofs Weight_proofs Spec_spectral Energy_proofs Spectral_proofs Spec_green Green_proofs Cutoff_proofs Tent_proofs Walk_proofs Reach_proofs Extent_proofs Perturb_proofs Holo_proofs Spec_band Spec_ritz Ritz_proofs.
From Verif Require Spec_exact Spec_extent Spec_band Band_proofs Exact_proofs Pick_proofs.
Import ListNotations.
Open Scope list_scope.
Open Scope Z_scope.

Lemma Rsum_middle {A : Type} : forall (h : A -> R) l1 a l2, Rsum (map h (l1 ++ a :: l2)) = (h a + Rsum (map h (l1 ++ l2)))%R.
Proof. intros h l1 a l2. induction l1 as [|x l1 IH]; cbn [app]; rewrite !Rsum_cons; [reflexivity|]. rewrite IH. ring. Qed.
Lemma Rsum_zero {A : Type} : forall (h : A -> R) l, (forall x, In x l -> h x = 0%R) -> Rsum (map h l) = 0%R.
Proof. intros h l H. rewrite (Rsum_ext h (fun _ => 0%R)) by exact H. apply Rsum_0. Qed.
Lemma Rsum_sub {A : Type} : forall (h : A -> R) L M, NoDup L -> NoDup M -> (forall n, In n L -> In n M) -> (forall n, In n M -> ~ In n L -> h n = 0%R) -> Rsum (map h M) = Rsum (map h L).
Proof.
  intros h L. induction L as [|a L IH]; intros M NL NM Sub Z.
  - rewrite (Rsum_zero h M); [reflexivity|]. intros x Hx. apply Z; [exact Hx|intros []].
  - inversion NL as [|? ? Na NL']; subst. destruct (in_split a M (Sub a (or_introl eq_refl))) as [M1 [M2 ->]]. rewrite Rsum_middle, Rsum_cons. f_equal.
    pose proof (NoDup_remove_1 _ _ _ NM) as N1. pose proof (NoDup_remove_2 _ _ _ NM) as N2. apply IH; [exact NL'|exact N1| |].
    + intros n Hn. assert (E : n <> a) by (intros ->; contradiction). specialize (Sub n (or_intror Hn)). rewrite in_app_iff in *. destruct Sub as [S|[S|S]]; [auto|congruence|auto].
    + intros n Hn H. apply Z; [rewrite in_app_iff in *; destruct Hn; [auto|right; right; assumption]|]. intros [<- |E]; [contradiction|contradiction].
Qed.

Section Dual.
Variable m : model R.
Variable ae c : Z.
Variable k : R.
Hypothesis G : good_model m ae.
Hypothesis Hlat : on_lattice m c.
Hypothesis Hherm : forall w eta, hermitian (phys_env m k w eta) m.
Variable N rho : Z.
Hypothesis N_pos : 0 <= N.
Hypothesis HN : Spec_extent.at_most m ae N.
Hypothesis rho_pos : 0 <= rho.
Hypothesis Hrho : Spec_extent.couples_within m c rho.
Let kk := (k * m_lattice m)%R.
Let hop := h_hop (m_ham m).
Let nt := m_ntypes m.
Notation cand := (cand m m ae ae).
Notation tot := (Pick_proofs.tot c hop kk (moves m)).
Notation drift := (drift hop N (moves m)).
Variable sg e : R.
Hypothesis Bey : beyond_all m ae c k sg e.
Variable w d eta : R.
Hypothesis Hd : (d <= sg * (w - e))%R.
Hypothesis eta_pos : (0 < eta)%R.
Hypothesis d_pos : (0 < d)%R.
Variable P : placement -> Z -> C.
Hypothesis Row : greens_row m ae c k (w, eta) P.
Notation F := (fun n => P n 0).

Lemma F_V : norm_le nt cand F (1 / (d * d)).
Proof. exact (proj2 (proj2 (proj2 (ritz_at m ae c k G Hlat Hherm N rho N_pos HN rho_pos Hrho sg e Bey w d eta Hd eta_pos d_pos P Row)))). Qed.

Section Upper.
Variable r0 : Z.
Variable L : list placement.
Variable Psi : placement -> Z -> C.
Hypothesis Tr : trial m ae k r0 L Psi.
Notation f := (fun n => Psi n 0).

(** The form of w - H on the trial state, per state. *)
Definition part (W : Z) (n : placement) : R := ((w - Spec_exact.energy m W n) * Cnorm2 (f n) + Re (Cmul (Cconj (f n)) (tot f n)))%R.

Lemma part_sum : Rsum (map (fun n => wt nt r0 n * part r0 n)%R L) = (w * trial_norm m r0 L Psi - trial_energy m c r0 L Psi)%R.
Proof.
  rewrite (trial_norm_is m r0 L Psi), (trial_energy_is m ae c k Hherm r0 L Psi Tr). fold kk hop nt. rewrite <- Rsum_scal.
  set (f1 := fun n => (w * mass nt f r0 n)%R). set (f2 := fun n => (wt nt r0 n * (Spec_exact.energy m r0 n * Cnorm2 (f n) - Re (Cmul (Cconj (f n)) (tot f n))))%R).
  transitivity (Rsum (map (fun n => f1 n + -1 * f2 n)%R L)); [apply Rsum_ext; intros n _; unfold f1, f2, mass, part; ring|]. rewrite Rsum_add, Rsum_scal. unfold f1, f2. ring.
Qed.

Theorem upper : (sg * (2 * Re (Psi vacuum 0%Z) - (w * trial_norm m r0 L Psi - trial_energy m c r0 L Psi)) <= sg * Re (P vacuum 0%Z) + eta * (trial_norm m r0 L Psi + 1 / (d * d)))%R.
Proof.
  destruct (moves_short m m eq_refl) as [r [R0 Hr]]. destruct (cand_windows m m ae ae G G eq_refl) as [A1 [A2 [Q1 [Q2 HW]]]]. destruct (moves_conj m m c k 0 1 Hlat eq_refl (Hherm _ _)) as [l [Pl Fl]].
  pose proof F_V as NF. pose proof (trial_norm_le m ae k r0 L Psi Tr) as Nf. set (V := (1 / (d * d))%R) in *. set (U := trial_norm m r0 L Psi) in *. set (En := trial_energy m c r0 L Psi) in *.
  set (D := fun n => Cadd (F n) (Cmul (RtoC (-1)) (f n))).
  assert (FC : forall n, F n <> C0 -> cand n) by exact (F_cand m ae c k w eta P Row).
  assert (fC : forall n, f n <> C0 -> cand n) by (intros n H; apply (trial_cand m ae k r0 L Psi Tr), (f_in m ae k r0 L Psi Tr n H)).
  assert (DC : forall n, D n <> C0 -> cand n).
  { intros n H. destruct (classic (F n = C0)) as [E|E]; [|apply FC, E]. destruct (classic (f n = C0)) as [E'|E']; [|apply fC, E']. exfalso. apply H. unfold D. cbv beta in E, E'. rewrite E, E'. ring. }
  assert (ND : norm_le nt cand D (2 * V + 2 * U)) by (apply (Pick_proofs.norm_comb nt cand F f (RtoC (-1)) V U); [unfold Cnorm2, RtoC, Re, Im; cbn [fst snd]; ring|exact NF|exact Nf]).
  set (j := Z.abs r0). assert (J0 : 0 <= j) by (unfold j; lia). assert (JR : (0 <= IZR j)%R) by (apply IZR_le; exact J0).
  assert (LJ : forall n, In n L -> cand n /\ inside nt j n /\ inside nt r0 n).
  { intros n Hn. destruct (trial_cand m ae k r0 L Psi Tr n Hn) as [A B]. split; [exact A|]. split; [|exact B]. apply (inside_mono nt r0); [unfold j; lia|exact B]. }
  set (B0 := Rsum (map (fun n => wt nt r0 n * Rabs (part r0 n))%R L)). assert (B0p : (0 <= B0)%R) by (apply Rsum_nonneg; intros n _; apply Rmult_le_pos; [left; apply wt_pos|apply Rabs_pos]).
  set (y := (sg * (2 * Re (Psi vacuum 0%Z) - (w * U - En)) - (sg * Re (P vacuum 0%Z) + eta * (U + V)))%R). assert (Y0 : (y <= 0)%R); [|unfold y in Y0; lra].
  set (Bd := (2 * drift * (2 * V + 2 * U) + 6 * drift * (U + V) + IZR j * B0)%R).
  apply (arch (Bd + IZR j * Rabs y)%R). intros K0 HK0. set (K := K0 + j). assert (K1 : 1 <= K) by (unfold K; lia).
  assert (EK : IZR K = (IZR K0 + IZR j)%R) by (unfold K; rewrite plus_IZR; reflexivity).
  cut (IZR K * y <= Bd)%R.
  { intros H. rewrite EK in H. pose proof (Rle_abs (- y)) as Ay. rewrite Rabs_Ropp in Ay. apply (Rmult_le_compat_l (IZR j)) in Ay; [|exact JR]. lra. }
  destruct (HW (K + rho + r) ltac:(lia)) as [M [NM [IM _]]]. set (W := K + rho + r + r).
  set (q := fun n => (chi nt rho r K n * wt nt W n)%R). assert (q0 : forall n, (0 <= q n)%R) by (intros n; unfold q; apply Rmult_le_pos; [apply chi_pos|left; apply wt_pos]).
  assert (qv : q vacuum = IZR K) by (unfold q; rewrite (chi_vacuum nt rho r rho_pos K K1), wt_vacuum; ring).
  assert (Iv : In vacuum M) by (apply IM; split; [left; reflexivity|apply inside_vacuum]).
  assert (CK : forall n, (chi nt rho r K n <= IZR K)%R) by (intros n; unfold chi; apply IZR_le; pose proof (lev_rho nt rho (K + rho + r + r) n); lia).
  assert (KR : (0 <= IZR K)%R) by (apply IZR_le; lia).
  pose proof (form m ae c k G Hlat Hherm N rho N_pos HN rho_pos Hrho sg e Bey w d Hd r R0 Hr K K1 M NM IM D _ DC ND) as FM. fold W in FM. fold kk in FM. fold hop in FM. fold nt in FM.
  pose proof (Pick_proofs.leak_two nt c hop kk N rho r rho_pos R0 (moves m) l Pl Fl (moves_fit m ae c G rho Hrho) Hr cand (cand_range m m ae ae eq_refl N N_pos HN HN) K K1 M NM IM f F U V fC FC Nf NF) as LK. fold W in LK.
  change (fun n => Cmul (RtoC (chi nt rho r K n * wt nt W n)) (Pick_proofs.gap_at c hop kk (moves m) f F n)) with (fun n => Cmul (RtoC (q n)) (Pick_proofs.gap_at c hop kk (moves m) f F n)) in LK.
  set (Sg := Csum_list (map (fun n => Cmul (RtoC (q n)) (Pick_proofs.gap_at c hop kk (moves m) f F n)) M)) in LK.
  assert (LK' : (Cabs Sg <= 6 * drift * (U + V))%R) by exact LK. clear LK.
  set (X := Rsum (map (fun n => q n * ((w - Spec_exact.energy m W n) * Cnorm2 (D n) + Re (Cmul (Cconj (D n)) (tot D n))))%R M)).
  set (Y := Rsum (map (fun n => q n * (2 * eta * Im (Cmul (Cconj (f n)) (F n))))%R M)).
  set (Z := Rsum (map (fun n => q n * part W n)%R M)).
  assert (FM' : (d * Rsum (map (fun n => q n * Cnorm2 (D n)) M) <= sg * X + 2 * drift * (2 * V + 2 * U))%R) by exact FM. clear FM.
  pose proof (row_form m ae c k G Hherm rho rho_pos w d eta P Row r K M K1 NM IM R0) as RF. fold W kk hop nt in RF.
  set (O := fun n => (q n * ((w - Spec_exact.energy m W n) * Cnorm2 (F n) + Re (Cmul (Cconj (F n)) (tot F n))))%R).
  assert (RF' : Rsum (map O M) = (IZR K * Re (P vacuum 0%Z))%R) by exact RF. clear RF.
  assert (EX : (X = IZR K * Re (P vacuum 0%Z) + Z - 2 * (IZR K * Re (Psi vacuum 0%Z)) - Y - Re Sg)%R).
  { set (s1 := fun n => (q n * Re (Cadd (Cmul (Cconj (f n)) (Cadd (Csub (Cmul (w, eta) (F n)) (Cmul (RtoC (Spec_exact.energy m W n)) (F n))) (tot F n))) C0))%R).
    assert (ES : Rsum (map s1 M) = (IZR K * Re (Psi vacuum 0%Z))%R).
    { assert (Zr : forall n, In n M -> exists s, (n = vacuum /\ s = C1 \/ n <> vacuum /\ s = C0) /\ s1 n = (q n * Re (Cmul (Cconj (f n)) s))%R).
      { intros n Hn. destruct (row_of m ae c k G w eta P Row n W (proj1 (proj1 (IM n) Hn)) ltac:(apply (inside_mono nt (K + rho + r)); [unfold W; lia|apply IM, Hn])) as [s [Rs Es]]. exists s. split; [exact Es|].
        unfold s1. unfold row_at in Rs. fold kk hop in Rs. fold (tot F n) in Rs. rewrite Rs. f_equal. unfold Cadd, C0, Re. cbn [fst snd]. ring. }
      rewrite (Rsum_only _ _ vacuum NM Iv).
      - destruct (Zr vacuum Iv) as [s [[[_ ->]|[E _]] ->]]; [|contradiction]. rewrite qv. unfold Cmul, Cconj, C1, Re, Im; cbn [fst snd]; ring.
      - intros n Hn Nv. destruct (Zr n Hn) as [s [[[E _]|[_ ->]] ->]]; [contradiction|]. unfold Cmul, Cconj, C0, Re, Im; cbn [fst snd]; ring. }
    rewrite <- RF', <- ES. unfold X, Y, Z, Sg. rewrite Pick_proofs.Re_Csum.
    set (t2 := fun n => (q n * part W n)%R). set (t3 := fun n => (q n * (2 * eta * Im (Cmul (Cconj (f n)) (F n))))%R). set (t4 := fun n => Re (Cmul (RtoC (q n)) (Pick_proofs.gap_at c hop kk (moves m) f F n))).
    transitivity (Rsum (map (fun n => O n + (t2 n + (-2 * s1 n + (-1 * t3 n + -1 * t4 n))))%R M)).
    - apply Rsum_ext. intros n _. assert (TD : tot D n = Cadd (tot F n) (Cmul (RtoC (-1)) (tot f n))) by apply Pick_proofs.tot_comb. rewrite TD.
      unfold O, t2, s1, t3, t4, part, D, Pick_proofs.gap_at. set (E := Spec_exact.energy m W n). set (x := F n). set (z := f n). set (t := tot F n). set (t0 := tot f n). set (qq := q n). clearbody E x z t t0 qq. destruct x as [x1 x2], z as [z1 z2], t as [a1 a2], t0 as [b1 b2].
      unfold Cnorm2, Cadd, Csub, Cmul, Cconj, RtoC, C0, Re, Im. cbn [fst snd]. ring.
    - rewrite !Rsum_add, !Rsum_scal. ring. }
  assert (HM : forall n, In n M -> cand n /\ inside nt W n) by (intros n Hn; apply IM in Hn; destruct Hn as [A B]; split; [exact A|apply (inside_mono nt (K + rho + r)); [unfold W; lia|exact B]]).
  assert (YB : (sg * - Y <= IZR K * (eta * (U + V)))%R).
  { apply Rle_trans with (Rsum (map (fun n => IZR K * (eta * mass nt f W n) + IZR K * (eta * mass nt F W n)) M)%R).
    - replace (sg * - Y)%R with ((- sg) * Y)%R by ring. unfold Y. rewrite <- Rsum_scal. apply Rsum_le. intros n _. unfold mass. specialize (CK n).
      assert (IB : (- sg * (2 * eta * Im (Cmul (Cconj (f n)) (F n))) <= eta * (Cnorm2 (f n) + Cnorm2 (F n)))%R).
      { replace (- sg * (2 * eta * Im (Cmul (Cconj (f n)) (F n))))%R with (eta * (2 * (- sg * Im (Cmul (Cconj (f n)) (F n)))))%R by ring. apply Rmult_le_compat_l; [lra|].
        destruct (Psi n 0) as [x1 x2], (P n 0) as [y1 y2]. unfold Cnorm2, Cmul, Cconj, Re, Im. cbn [fst snd].
        pose proof (Rle_0_sqr (x1 - y2)). pose proof (Rle_0_sqr (x1 + y2)). pose proof (Rle_0_sqr (x2 - y1)). pose proof (Rle_0_sqr (x2 + y1)). unfold Rsqr in *. destruct (proj1 Bey) as [-> | ->]; lra. }
      replace (- sg * (q n * (2 * eta * Im (Cmul (Cconj (f n)) (F n)))))%R with (q n * (- sg * (2 * eta * Im (Cmul (Cconj (f n)) (F n)))))%R by ring.
      eapply Rle_trans; [apply Rmult_le_compat_l; [apply q0|exact IB]|]. unfold q.
      replace (IZR K * (eta * (wt nt W n * Cnorm2 (f n))) + IZR K * (eta * (wt nt W n * Cnorm2 (F n))))%R with (IZR K * wt nt W n * (eta * (Cnorm2 (f n) + Cnorm2 (F n))))%R by ring.
      apply Rmult_le_compat_r; [apply Rmult_le_pos; [lra|]; pose proof (Band_proofs.Cnorm2_ge0 (f n)); pose proof (Band_proofs.Cnorm2_ge0 (F n)); cbv beta in *; lra|].
      apply Rmult_le_compat_r; [left; apply wt_pos|exact CK].
    - rewrite Rsum_add, !Rsum_scal. pose proof (Nf W M ltac:(unfold W; lia) NM HM) as X0. pose proof (NF W M ltac:(unfold W; lia) NM HM) as X1.
      rewrite <- !Rmult_plus_distr_l. apply Rmult_le_compat_l; [exact KR|]. apply Rmult_le_compat_l; [lra|]. fold nt in X0. lra. }
  assert (LB : (sg * - Re Sg <= 6 * drift * (U + V))%R).
  { pose proof (Band_proofs.Re_abs_le Sg). pose proof (Rle_abs (Re Sg)). pose proof (Rle_abs (- Re Sg)). rewrite Rabs_Ropp in *. destruct (proj1 Bey) as [-> | ->]; lra. }
  assert (ZB : (sg * Z <= IZR K * (sg * (w * U - En)) + IZR j * B0)%R).
  { assert (EZ : Z = Rsum (map (fun n => chi nt rho r K n * (wt nt r0 n * part r0 n))%R L)).
    { unfold Z. rewrite (Rsum_sub _ L M (tr_nodup _ _ _ _ _ _ Tr) NM).
      - apply Rsum_ext. intros n Hn. destruct (LJ n Hn) as [A [I1 I2]]. assert (I3 : inside nt W n) by (apply (inside_mono nt j); [unfold W, K; lia|exact I1]).
        unfold q, part. rewrite (wt_window nt n W r0 I3 I2), (Exact_proofs.energy_window m W r0 n I3 I2). ring.
      - intros n Hn. apply IM. destruct (LJ n Hn) as [A [I1 _]]. split; [exact A|]. apply (inside_mono nt j); [unfold K; lia|exact I1].
      - intros n _ Hn. pose proof (tr_support _ _ _ _ _ _ Tr n Hn) as E. unfold part. rewrite E. unfold Cnorm2, Cmul, Cconj, C0, Re, Im. cbn [fst snd]. ring. }
    rewrite EZ. unfold En, U. rewrite <- part_sum. unfold B0. rewrite <- !Rsum_scal, <- Rsum_add. apply Rsum_le. intros n Hn. destruct (LJ n Hn) as [A [I1 I2]].
    assert (I3 : inside nt W n) by (apply (inside_mono nt j); [unfold W, K; lia|exact I1]). pose proof (chi_in nt rho r rho_pos K n j I3 I1 J0) as C1'. rewrite minus_IZR in C1'. specialize (CK n).
    set (p := part r0 n). set (wn := wt nt r0 n). assert (Wp : (0 < wn)%R) by apply wt_pos. set (x := chi nt rho r K n) in *. clearbody x p wn.
    assert (HP : (sg * (x * p) <= IZR K * (sg * p) + IZR j * Rabs p)%R).
    { pose proof (Rle_abs p) as P1. pose proof (Rle_abs (- p)) as P2. rewrite Rabs_Ropp in P2.
      assert (Q3 : ((IZR K - x) * (- (sg * p)) <= (IZR K - x) * Rabs p)%R) by (apply Rmult_le_compat_l; [lra|destruct (proj1 Bey) as [-> | ->]; lra]).
      assert (Q4 : ((IZR K - x) * Rabs p <= IZR j * Rabs p)%R) by (apply Rmult_le_compat_r; [apply Rabs_pos|lra]). lra. }
    apply (Rmult_le_compat_l wn) in HP; [|lra]. lra. }
  assert (DB : (0 <= d * Rsum (map (fun n => q n * Cnorm2 (D n)) M))%R).
  { apply Rmult_le_pos; [lra|]. apply Rsum_nonneg. intros n _. apply Rmult_le_pos; [apply q0|apply Band_proofs.Cnorm2_ge0]. }
  rewrite EX in FM'. unfold y, Bd. set (SD := (d * Rsum (map (fun n => q n * Cnorm2 (D n)) M))%R) in *. clearbody SD Y Sg Z. clear EX.
  set (a1 := Re (P vacuum 0)) in *. set (a2 := Re (Psi vacuum 0)) in *. set (a3 := Re Sg) in *. set (a4 := drift) in *. clearbody a1 a2 a3 a4 B0. 
  replace (sg * (IZR K * a1 + Z - 2 * (IZR K * a2) - Y - a3))%R with (IZR K * (sg * a1) + sg * Z - 2 * (IZR K * (sg * a2)) + sg * - Y + sg * - a3)%R in FM' by ring.
  replace (IZR K * (sg * (2 * a2 - (w * U - En)) - (sg * a1 + eta * (U + V))))%R with (2 * (IZR K * (sg * a2)) - IZR K * (sg * (w * U - En)) - IZR K * (sg * a1) - IZR K * (eta * (U + V)))%R by ring. lra.
Qed.
End Upper.

(** Multiples of a trial state. *)
Lemma trial_scale : forall r0 L Psi a, trial m ae k r0 L Psi ->
  trial m ae k r0 L (fun n j => Cmul (RtoC a) (Psi n j)) /\
  trial_norm m r0 L (fun n j => Cmul (RtoC a) (Psi n j)) = (a * a * trial_norm m r0 L Psi)%R /\
  trial_energy m c r0 L (fun n j => Cmul (RtoC a) (Psi n j)) = (a * a * trial_energy m c r0 L Psi)%R.
Proof.
  intros r0 L Psi a [T1 T2 T3 T4]. split; [split|split].
  - exact T1.
  - exact T2.
  - intros n Hn. rewrite (T3 n Hn). ring.
  - intros n s j. rewrite T4. ring.
  - unfold trial_norm. clear. induction L as [|n l IH]; cbn [fold_right]; [ring|]. rewrite IH. set (x := Psi n 0). unfold Cnorm2, Cmul, RtoC, Re, Im. cbn [fst snd]. unfold Rdiv. ring.
  - assert (OH : forall E n j, on_H m c E (fun n j => Cmul (RtoC a) (Psi n j)) n j = Cmul (RtoC a) (on_H m c E Psi n j)).
    { intros E n j. unfold on_H. set (S' := Csum_list _). set (S := Csum_list _).
      assert (ES : S' = Cmul (RtoC a) S) by (unfold S', S; rewrite <- Csum_list_scal; f_equal; apply map_ext; intros h; ring). rewrite ES. ring. }
    unfold trial_energy. clear - OH. induction L as [|n l IH]; cbn [fold_right]; [ring|]. rewrite IH, OH. set (x := Psi n 0). set (y := on_H _ _ _ Psi _ _). unfold Cmul, RtoC, Re, Im. cbn [fst snd]. unfold Rdiv. ring.
Qed.

Theorem attained : forall eps, (0 < eps)%R -> exists r0 L Psi, trial m ae k r0 L Psi /\ (trial_norm m r0 L Psi <= 1 / (d * d))%R /\
  (sg * Re (P vacuum 0%Z) - eps <= sg * (2 * Re (Psi vacuum 0%Z) - (w * trial_norm m r0 L Psi - trial_energy m c r0 L Psi)))%R.
Proof.
  intros eps He. destruct (moves_short m m eq_refl) as [r [R0 Hr]]. destruct (cand_windows m m ae ae G G eq_refl) as [A1 [A2 [Q1 [Q2 HW]]]].
  pose proof F_V as NF. set (V := (1 / (d * d))%R) in *. assert (FC : forall n, F n <> C0 -> cand n) by exact (F_cand m ae c k w eta P Row).
  set (B := (2 * drift * V)%R). destruct (archimed (Rabs B / eps)) as [Ar _]. set (K := Z.max 1 (up (Rabs B / eps))). assert (K1 : 1 <= K) by (unfold K; lia).
  assert (KR : (1 <= IZR K)%R) by (apply IZR_le; exact K1). assert (KB : (B <= IZR K * eps)%R).
  { apply Rle_trans with (Rabs B); [apply Rle_abs|]. apply (Rmult_le_reg_r (/ eps)); [apply Rinv_0_lt_compat, He|]. replace (IZR K * eps * / eps)%R with (IZR K) by (field; lra).
    apply Rle_trans with (IZR (up (Rabs B / eps))); [unfold Rdiv in *; lra|]. apply IZR_le. unfold K. lia. }
  destruct (HW (K + rho + r) ltac:(lia)) as [M [NM [IM _]]]. set (W := K + rho + r + r).
  pose proof (cut_trial m ae k Hherm rho r R0 K M NM IM F V FC) as CT. fold W in CT. set (Phi := Exact_proofs.spread m k (cut m rho r K F)) in *.
  pose proof (cut_norm m ae k rho r K M IM F) as CN. fold W Phi in CN. pose proof (cut_energy m ae c k Hherm rho r K M IM F) as CE. fold W Phi kk hop nt in CE.
  pose proof (cut_gap m ae c k G Hlat Hherm N rho N_pos HN rho_pos Hrho d r R0 Hr K K1 M NM IM F V FC NF) as CG. fold W kk hop nt in CG. fold B in CG.
  pose proof (row_form m ae c k G Hherm rho rho_pos w d eta P Row r K M K1 NM IM R0) as RF. fold W kk hop nt in RF.
  set (q := fun n => (chi nt rho r K n * wt nt W n)%R).
  set (S := Rsum (map (fun n => q n * Cnorm2 (F n))%R M)). assert (CN' : trial_norm m W M Phi = S) by exact CN. clear CN.
  set (U := Rsum (map (fun n => q n * (Spec_exact.energy m W n * Cnorm2 (F n)))%R M)). set (T := Rsum (map (fun n => wt nt W n * Re (Cmul (Cconj (cut m rho r K F n)) (tot (cut m rho r K F) n)))%R M)) in *.
  assert (CE' : trial_energy m c W M Phi = (U - T)%R) by exact CE. clear CE. set (T' := Rsum (map (fun n => q n * Re (Cmul (Cconj (F n)) (tot F n)))%R M)).
  assert (CG' : (Rabs (T - T') <= B)%R) by exact CG. clear CG.
  assert (RF' : (w * S - U + T' = IZR K * Re (P vacuum 0%Z))%R).
  { rewrite <- RF. unfold S, U, T'. rewrite <- Rsum_scal. transitivity (Rsum (map (fun n => w * (q n * Cnorm2 (F n)) + (-1 * (q n * (Spec_exact.energy m W n * Cnorm2 (F n))) + q n * Re (Cmul (Cconj (F n)) (tot F n))))%R M)).
    - rewrite !Rsum_add. rewrite (Rsum_scal (fun n => q n * (Spec_exact.energy m W n * Cnorm2 (F n)))%R (-1)%R). ring.
    - apply Rsum_ext. intros n _. unfold q. ring. }
  assert (SV : (S <= IZR K * V)%R).
  { apply Rle_trans with (Rsum (map (fun n => IZR K * mass nt F W n)%R M)).
    - unfold S. apply Rsum_le. intros n _. unfold q, mass. rewrite Rmult_assoc. apply Rmult_le_compat_r; [apply Rmult_le_pos; [left; apply wt_pos|apply Band_proofs.Cnorm2_ge0]|].
      unfold chi. apply IZR_le. pose proof (lev_rho nt rho (K + rho + r + r) n). lia.
    - rewrite Rsum_scal. apply Rmult_le_compat_l; [lra|]. apply NF; [unfold W; lia|exact NM|]. intros n Hn. apply IM in Hn. destruct Hn as [A A']. split; [exact A|apply (inside_mono nt (K + rho + r)); [unfold W; lia|exact A']]. }
  assert (Sk : (sqrt (IZR K) * sqrt (IZR K) = IZR K)%R) by (apply sqrt_sqrt; lra). assert (Sp : (0 < sqrt (IZR K))%R) by (apply sqrt_lt_R0; lra).
  set (a := (/ sqrt (IZR K))%R). assert (Ea : (a * a = / IZR K)%R) by (unfold a; rewrite <- Rinv_mult, Sk; reflexivity).
  destruct (trial_scale W M Phi a CT) as [T1 [T2 T3]]. exists W, M, (fun n j => Cmul (RtoC a) (Phi n j)). split; [exact T1|]. rewrite T2, T3, CN', CE', Ea.
  assert (PV : Cmul (RtoC a) (Phi vacuum 0) = P vacuum 0).
  { unfold Phi. change (Exact_proofs.spread m k (cut m rho r K F) vacuum 0) with ((fun n => Exact_proofs.spread m k (cut m rho r K F) n 0) vacuum). rewrite Exact_proofs.spread_0.
    rewrite (cut_in m ae rho r K M IM F vacuum) by (apply IM; split; [left; reflexivity|apply inside_vacuum]). rewrite (chi_vacuum (m_ntypes m) rho r rho_pos K K1).
    set (g := P vacuum 0). assert (a * sqrt (IZR K) = 1)%R by (unfold a; field; lra). apply Ceq; unfold Cmul, RtoC, Re, Im; cbn [fst snd].
    - transitivity (a * sqrt (IZR K) * fst g)%R; [ring|]. rewrite H. ring.
    - transitivity (a * sqrt (IZR K) * snd g)%R; [ring|]. rewrite H. ring. }
  rewrite PV. assert (Kp : (0 < / IZR K)%R) by (apply Rinv_0_lt_compat; lra). assert (Ki : (/ IZR K * IZR K = 1)%R) by (field; lra). split.
  - apply (Rmult_le_compat_l (/ IZR K)) in SV; [|lra]. rewrite <- Rmult_assoc, Ki, Rmult_1_l in SV. exact SV.
  - set (g := Re (P vacuum 0)) in *. replace (w * (/ IZR K * S) - / IZR K * (U - T))%R with (/ IZR K * (IZR K * g + (T - T')))%R by (rewrite <- RF'; ring).
    replace (/ IZR K * (IZR K * g + (T - T')))%R with (/ IZR K * IZR K * g + / IZR K * (T - T'))%R by ring. rewrite Ki.
    assert (KT : (Rabs (/ IZR K * (T - T')) <= eps)%R).
    { rewrite Rabs_mult, (Rabs_right (/ IZR K)) by lra. apply Rle_trans with (/ IZR K * (IZR K * eps))%R; [apply Rmult_le_compat_l; lra|]. rewrite <- Rmult_assoc, Ki. lra. }
    pose proof (Rle_abs (/ IZR K * (T - T'))) as P1. pose proof (Rle_abs (- (/ IZR K * (T - T')))) as P2. rewrite Rabs_Ropp in P2. destruct (proj1 Bey) as [-> | ->]; lra.
Qed.
End Dual.
