(** Energies of trial states and the Green's function (C78). *)
From Coq Require Import String ZArith Reals List Bool Lia Lra Permutation Classical Ring.
From Verif Require Import Base NdArray NdArray_proofs Config Spec Spec_ops Config_proofs Modify_proofs Legal_proofs
  Model Space Spec_space Space_proofs Term Equation System Spec_engine
  Equation_proofs Ring Coef Spec_eom Eom_proofs
  HModel Spec_model Cplx Physics Physics_proofs
  Toeplitz_proofs Weight_proofs Spec_spectral Energy_proofs Spectral_proofs Spec_green Green_proofs Cutoff_proofs Tent_proofs Walk_proofs Reach_proofs Extent_proofs Perturb_proofs Holo_proofs Spec_band Spec_ritz.
From Verif Require Spec_exact Spec_extent Spec_band Band_proofs Exact_proofs Pick_proofs.
From Verif Require Import Spec_cutoff.
Import ListNotations.
Open Scope list_scope.
Open Scope Z_scope.

(** Whether all phonons are near is decided by looking at all modes. *)
Definition look (nt : nat) (k : Z) (n : placement) (i : nat) : bool :=
  forallb (fun t => forallb (fun x => (n t x =? 0) || (Nat.ltb t nt && (Z.abs x <=? k))) (ints (- Z.of_nat i) (2 * i + 1))) (seq 0 (S i)).
Lemma look_all : forall nt k n, (forall i, look nt k n i = true) <-> inside nt k n.
Proof.
  intros nt k n. split.
  - intros H t x N. specialize (H (t + Z.to_nat (Z.abs x))%nat). unfold look in H. rewrite forallb_forall in H. specialize (H t ltac:(apply in_seq; lia)). rewrite forallb_forall in H.
    specialize (H x ltac:(apply in_ints; lia)). apply orb_true_iff in H. destruct H as [H|H]; [apply Z.eqb_eq in H; contradiction|]. apply andb_true_iff in H. destruct H as [H1 H2]. apply Nat.ltb_lt in H1. apply Z.leb_le in H2. split; assumption.
  - intros H i. unfold look. apply forallb_forall. intros t _. apply forallb_forall. intros x _. apply orb_true_iff. destruct (Z.eqb_spec (n t x) 0) as [E|E]; [left; reflexivity|right].
    destruct (H t x E) as [H1 H2]. apply andb_true_iff. split; [apply Nat.ltb_lt; exact H1|apply Z.leb_le; exact H2].
Qed.
Definition inside_dec (nt : nat) (k : Z) (n : placement) : {inside nt k n} + {~ inside nt k n}.
Proof.
  destruct (ClassicalDedekindReals.sig_forall_dec (fun i => look nt k n i = true)) as [[i Hi]|H].
  - intros i. destruct (look nt k n i); [left; reflexivity|right; discriminate].
  - right. intros I. apply Hi. apply look_all. exact I.
  - left. apply look_all. exact H.
Defined.

Lemma root_gap : forall a b, (0 <= a -> 0 <= b -> Rabs (sqrt a * (sqrt b - sqrt a)) <= Rabs (b - a))%R.
Proof.
  intros a b Ha Hb. pose proof (sqrt_pos a) as A. pose proof (sqrt_pos b) as B.
  replace (b - a)%R with ((sqrt b + sqrt a) * (sqrt b - sqrt a))%R.
  - rewrite !Rabs_mult. apply Rmult_le_compat_r; [apply Rabs_pos|]. rewrite !Rabs_right by lra. lra.
  - transitivity (sqrt b * sqrt b - sqrt a * sqrt a)%R; [ring|]. rewrite !sqrt_sqrt by assumption. reflexivity.
Qed.

Lemma Rsum_abs_le : forall {A} (f g h : A -> R) l, (forall x, In x l -> Rabs (f x - g x) <= h x)%R -> (Rabs (Rsum (map f l) - Rsum (map g l)) <= Rsum (map h l))%R.
Proof.
  intros A f g h l. induction l as [|x l IH]; intros H; [unfold Rsum; cbn [map fold_right]; rewrite Rminus_0_r, Rabs_R0; lra|]. rewrite !Rsum_cons.
  pose proof (H x (or_introl eq_refl)) as H1. pose proof (IH (fun y Hy => H y (or_intror Hy))) as H2.
  replace (f x + Rsum (map f l) - (g x + Rsum (map g l)))%R with ((f x - g x) + (Rsum (map f l) - Rsum (map g l)))%R by ring. eapply Rle_trans; [apply Rabs_triang|]. lra.
Qed.

Lemma arch : forall B y, (forall K, 1 <= K -> (IZR K * y <= B)%R) -> (y <= 0)%R.
Proof.
  intros B y H. destruct (Rle_lt_dec y 0) as [L0|L0]; [exact L0|exfalso]. destruct (archimed (B / y)) as [U _]. specialize (H (Z.max 1 (up (B / y))) ltac:(lia)).
  assert (UK : (IZR (up (B / y)) <= IZR (Z.max 1 (up (B / y))))%R) by (apply IZR_le; lia).
  assert (E : (B / y * y = B)%R) by (field; lra). assert (IZR (Z.max 1 (up (B / y))) * y > B / y * y)%R by (apply Rmult_gt_compat_r; lra). lra.
Qed.

(** The phonon energy of a cloud, wherever it is. *)
Lemma cloud_energy : forall m ae a l s W, good_model m ae -> space m ae a -> energy_of (h_freqs (m_ham m)) a l -> inside (m_ntypes m) W (translated (cloud a) s) ->
  Spec_exact.energy m W (translated (cloud a) s) = phonon_energy l.
Proof.
  intros m ae a l s W G Sa El I. destruct (space_unfold m ae a Sa) as [V [NF [P [Nt [N1 [[z [Sh Hz]] _]]]]]].
  rewrite (Exact_proofs.energy_sum m a l (gm_freqs _ _ G) Nt El), Exact_proofs.energy_gsum.
  apply (Exact_proofs.cloud_sum (fun t => nth t (h_freqs (m_ham m)) 0%R) (m_ntypes m) z a s W (valid_wf a V) Sh I).
Qed.

Section Ritz.
Variable m : model R.
Variable ae c : Z.
Variable k : R.
Hypothesis G : good_model m ae.
Hypothesis Hlat : on_lattice m c.
Hypothesis Hherm : forall w eta, hermitian (phys_env m k w eta) m.
Variable N rho : Z.
Hypothesis N_pos : 0 <= N.
Hypothesis HN : Spec_extent.at_most m ae N.
Hypothesis rho_pos : 0 <= rho.
Hypothesis Hrho : Spec_extent.couples_within m c rho.
Let kk := (k * m_lattice m)%R.
Let hop := h_hop (m_ham m).
Let nt := m_ntypes m.
Notation cand := (cand m m ae ae).
Notation tot := (Pick_proofs.tot c hop kk (moves m)).
Notation drift := (drift hop N (moves m)).
Notation spread := (Exact_proofs.spread m k).

Lemma cand_allowed : forall n, cand n -> allowed m ae n.
Proof. intros n [-> | [a [s [Sa ->]]]]; [left; reflexivity|right; exists a, s; split; [destruct Sa; assumption|reflexivity]]. Qed.

Lemma spread_momentum : forall f n s j, spread f (translated n s) (j + s) = Cmul (Cexpi (- (k * m_lattice m * IZR s))) (spread f n j).
Proof.
  intros f n s j. unfold Exact_proofs.spread. fold kk. change (Cexpi (- (kk * IZR s))) with (phase kk s).
  replace (translated (translated n s) (- (j + s))) with (translated n (- j)) by (apply placement_eq; intros t x; unfold translated; f_equal; lia). rewrite phase_add. ring.
Qed.
Lemma spread_H : forall f E n, on_H m c E (spread f) n 0 = Csub (Cmul (RtoC E) (f n)) (tot f n).
Proof.
  intros f E n. pose proof (frame_H m c k 0 0 (spread f) (spread_momentum f) n 0 E) as H. change (- 0) with 0 in H.
  assert (T0 : translated n 0 = n) by (apply placement_eq; intros t x; unfold translated; f_equal; lia). rewrite T0 in H. fold kk in H. rewrite phase_0 in H. fold hop in H.
  rewrite (Exact_proofs.spread_0 m k f) in H. unfold Pick_proofs.tot. change (Exact_proofs.spread m k f n 0) with ((fun n => Exact_proofs.spread m k f n 0) n) in H. rewrite (Exact_proofs.spread_0 m k f) in H.
  set (X := on_H m c E (Exact_proofs.spread m k f) n 0) in *. set (S := Csum_list _) in *. set (y := f n) in *. clearbody X S y.
  assert (Z0 : ((0, 0)%R : C) = C0) by reflexivity. rewrite Z0 in H.
  transitivity (Csub (Cmul C0 y) (Csub (Cmul C0 y) X)); [ring|]. rewrite H. ring.
Qed.

(** [sg = 1]: [e] lies above all energies; [sg = -1]: below. *)
Definition beyond_all (sg e : R) : Prop :=
  (sg = 1 \/ sg = -1)%R /\ forall r l Psi, trial m ae k r l Psi -> (sg * trial_energy m c r l Psi <= sg * (e * trial_norm m r l Psi))%R.
Variable sg e : R.
Hypothesis Bey : beyond_all sg e.
Variable w d : R.
Hypothesis Hd : (d <= sg * (w - e))%R.

Section Window.
Variable r : Z.
Hypothesis r_pos : 0 <= r.
Hypothesis short : forall o, In o (moves m) -> Z.abs (ahead o) <= r.
Variable K : Z.
Hypothesis K_pos : 1 <= K.
Variable M : list placement.
Hypothesis NM : NoDup M.
Hypothesis IM : forall n, In n M <-> cand n /\ inside nt (K + rho + r) n.
Let W := K + rho + r + r.
Let ch := chi nt rho r K.
Let q (n : placement) : R := (ch n * wt nt W n)%R.

Variable D : placement -> C.
Variable V : R.
Hypothesis D_cand : forall n, D n <> C0 -> cand n.
Hypothesis HV : norm_le nt cand D V.

Definition cut (n : placement) : C := if inside_dec nt (K + rho + r) n then Cmul (RtoC (sqrt (ch n))) (D n) else C0.

Lemma cut_in : forall n, In n M -> cut n = Cmul (RtoC (sqrt (ch n))) (D n).
Proof. intros n Hn. unfold cut. destruct (inside_dec nt (K + rho + r) n) as [_|H]; [reflexivity|]. exfalso. apply H. apply IM, Hn. Qed.
Lemma cut_out : forall n, ~ In n M -> cut n = C0.
Proof.
  intros n Hn. unfold cut. destruct (inside_dec nt (K + rho + r) n) as [I|_]; [|reflexivity]. destruct (classic (D n = C0)) as [-> |E]; [ring|]. exfalso. apply Hn, IM. split; [apply D_cand, E|exact I].
Qed.
Lemma cut_trial : trial m ae k W M (spread cut).
Proof.
  split; [exact NM| | |apply spread_momentum].
  - intros n Hn. apply IM in Hn. destruct Hn as [Cn In_n]. split; [apply cand_allowed, Cn|]. apply (inside_mono nt (K + rho + r)); [unfold W; lia|exact In_n].
  - intros n Hn. change (spread cut n 0) with ((fun n => spread cut n 0) n). rewrite Exact_proofs.spread_0. apply cut_out, Hn.
Qed.

Lemma in_W : forall n, In n M -> inside nt W n.
Proof. intros n Hn. apply (inside_mono nt (K + rho + r)); [unfold W; lia|apply IM, Hn]. Qed.

(** One coupling of the trial state. *)
Lemma cut_move : forall n o, In n M -> In o (moves m) ->
  (Cabs (Csub (Cmul (Cconj (cut n)) (term_at c hop kk cut n o)) (Cmul (RtoC (ch n)) (Cmul (Cconj (D n)) (term_at c hop kk D n o))))
    <= IZR (Z.abs (ahead o)) * (Cabs (D n) * (Rabs (weight c hop o n) * Cabs (D (step c o n)))))%R.
Proof.
  intros n o Hn Ho. destruct (moves_conj m m c k 0 1 Hlat eq_refl (Hherm _ _)) as [l [Pl Fl]]. pose proof (moves_fit m ae c G rho Hrho) as Fit.
  assert (A0 : (0 <= IZR (Z.abs (ahead o)))%R) by (apply IZR_le; lia).
  assert (RHS : (0 <= IZR (Z.abs (ahead o)) * (Cabs (D n) * (Rabs (weight c hop o n) * Cabs (D (step c o n)))))%R).
  { apply Rmult_le_pos; [exact A0|]. apply Rmult_le_pos; [apply Cabs_ge0|]. apply Rmult_le_pos; [apply Rabs_pos|apply Cabs_ge0]. }
  set (s := step c o n) in *. assert (Ch : (0 <= ch n)%R) by apply chi_pos. pose proof (sqrt_sqrt _ Ch) as SS.
  assert (Y : forall fs b, cut s = Cmul (RtoC b) fs -> D s = fs -> (Rabs (sqrt (ch n) * (b - sqrt (ch n))) <= IZR (Z.abs (ahead o)))%R ->
    (Cabs (Csub (Cmul (Cconj (cut n)) (term_at c hop kk cut n o)) (Cmul (RtoC (ch n)) (Cmul (Cconj (D n)) (term_at c hop kk D n o)))) <= IZR (Z.abs (ahead o)) * (Cabs (D n) * (Rabs (weight c hop o n) * Cabs (D s))))%R).
  { intros fs b Ef Ed Hb. unfold term_at. fold s. rewrite Ef, Ed, (cut_in n Hn). rewrite <- SS at 2.
    set (u := sqrt (ch n)) in *. set (p := phase kk (ahead o)). set (wg := weight c hop o n). set (x := D n).
    replace (Csub (Cmul (Cconj (Cmul (RtoC u) x)) (Cmul (RtoC wg) (Cmul p (Cmul (RtoC b) fs)))) (Cmul (RtoC (u * u)) (Cmul (Cconj x) (Cmul (RtoC wg) (Cmul p fs)))))
      with (Cmul (RtoC (u * (b - u))) (Cmul (Cconj x) (Cmul (RtoC wg) (Cmul p fs)))).
    2:{ apply Ceq; unfold Csub, Cmul, Cconj, RtoC, Re, Im; cbn [fst snd]; ring. }
    assert (CR : forall y, Cabs (RtoC y) = Rabs y) by (intros y; unfold Cabs, Cnorm2, RtoC, Re, Im; cbn [fst snd]; rewrite Rmult_0_l, Rplus_0_r; apply sqrt_Rsqr_abs).
    rewrite !Cabs_mul, Cabs_conj, !CR. unfold p. rewrite phase_abs, Rmult_1_l. apply Rmult_le_compat_r; [|exact Hb].
    apply Rmult_le_pos; [apply Cabs_ge0|]. apply Rmult_le_pos; [apply Rabs_pos|apply Cabs_ge0]. }
  destruct (classic (D s = C0)) as [E|E].
  - apply (Y C0 (sqrt (ch n))); [|exact E|rewrite Rminus_eq_0, Rmult_0_r, Rabs_R0; exact A0].
    destruct (classic (In s M)) as [I|I]; [rewrite (cut_in s I), E|rewrite (cut_out s I)]; ring.
  - destruct (inside_dec nt (K + rho + r) s) as [I|I].
    + assert (Hs : In s M) by (apply IM; split; [apply D_cand, E|exact I]). apply (Y (D s) (sqrt (ch s))); [apply cut_in, Hs|reflexivity|].
      eapply Rle_trans; [apply root_gap; [exact Ch|apply chi_pos]|]. rewrite <- Rabs_Ropp, Ropp_minus_distr.
      apply (chi_step nt c rho r rho_pos (moves m) l Pl Fl Fit short K o n Ho); [apply in_W, Hn|apply in_W, Hs].
    + assert (Cn : ch n = 0%R).
      { apply (chi_out nt rho r rho_pos K K_pos); [apply in_W, Hn|]. intros J. apply I. pose proof (short o Ho). apply (inside_mono nt (K + rho - 1 + Z.abs (ahead o))); [lia|]. apply (inside_step nt c rho); [lia|apply Fit, Ho|exact J]. }
      apply (Y (D s) 0%R); [|reflexivity|rewrite Cn, sqrt_0, Rmult_0_l, Rabs_R0; exact A0]. rewrite cut_out by (intros J; apply I, IM, J). apply Ceq; unfold Cmul, RtoC, C0, Re, Im; cbn [fst snd]; ring.
Qed.

Lemma cut_tot : forall n, In n M ->
  (Rabs (Re (Cmul (Cconj (cut n)) (tot cut n)) - ch n * Re (Cmul (Cconj (D n)) (tot D n)))
    <= Rsum (map (fun o => IZR (Z.abs (ahead o)) * (Cabs (D n) * (Rabs (weight c hop o n) * Cabs (D (step c o n))))) (moves m)))%R.
Proof.
  intros n Hn. unfold Pick_proofs.tot. rewrite <- !Csum_list_scal, !Pick_proofs.Re_Csum, <- Rsum_scal. apply Rsum_abs_le. intros o Ho.
  eapply Rle_trans; [|apply (cut_move n o Hn Ho)]. eapply Rle_trans; [|apply Band_proofs.Re_abs_le]. right. f_equal. unfold Csub, Cmul, RtoC, Re, Im. cbn [fst snd]. ring.
Qed.

Lemma cut_gap : (Rabs (Rsum (map (fun n => wt nt W n * Re (Cmul (Cconj (cut n)) (tot cut n))) M) - Rsum (map (fun n => q n * Re (Cmul (Cconj (D n)) (tot D n))) M)) <= 2 * drift * V)%R.
Proof.
  eapply Rle_trans; [apply (Rsum_abs_le _ _ (fun n => wt nt W n * Rsum (map (fun o => IZR (Z.abs (ahead o)) * (Cabs (D n) * (Rabs (weight c hop o n) * Cabs (D (step c o n))))) (moves m)))%R)|].
  - intros n Hn. unfold q. replace (wt nt W n * Re (Cmul (Cconj (cut n)) (tot cut n)) - ch n * wt nt W n * Re (Cmul (Cconj (D n)) (tot D n)))%R
      with (wt nt W n * (Re (Cmul (Cconj (cut n)) (tot cut n)) - ch n * Re (Cmul (Cconj (D n)) (tot D n))))%R by ring.
    rewrite Rabs_mult, (Rabs_right (wt nt W n)) by (left; apply wt_pos). apply Rmult_le_compat_l; [left; apply wt_pos|]. apply cut_tot, Hn.
  - set (u := fun (o : move) (n : placement) => (IZR (Z.abs (ahead o)) * (wt nt W n * (Cabs (D n) * (Rabs (weight c hop o n) * Cabs (D (step c o n))))))%R).
    assert (P : forall o, In o (moves m) -> (Rsum (map (u o) M) <= (IZR (Z.abs (ahead o)) * strength_of hop N o) * V)%R).
    { intros o Ho. unfold u. rewrite Rsum_scal, Rmult_assoc. apply Rmult_le_compat_l; [apply IZR_le; lia|].
      apply (Band_proofs.coupling_move m ae c k G Hlat Hherm N rho N_pos HN rho_pos Hrho 0%R 1%R D D_cand V r (K + rho + r) M o HV r_pos short ltac:(lia) NM); [|exact Ho]. intros n Hn. apply IM, Hn. }
    pose proof (sum_swap u (fun o => IZR (Z.abs (ahead o)) * strength_of hop N o)%R V (moves m) M P) as Q.
    unfold Reach_proofs.drift. replace (2 * (Rsum (map (fun o => IZR (Z.abs (ahead o)) * strength_of hop N o) (moves m)) / 2))%R with (Rsum (map (fun o => IZR (Z.abs (ahead o)) * strength_of hop N o) (moves m)))%R by field.
    eapply Rle_trans; [|exact Q]. right. apply Rsum_ext. intros n _. rewrite <- Rsum_scal. apply Rsum_ext. intros o _. unfold u. ring.
Qed.

Lemma cut_norm : trial_norm m W M (spread cut) = Rsum (map (fun n => q n * Cnorm2 (D n))%R M).
Proof.
  unfold trial_norm. pose proof (Exact_proofs.norm_sum (m_ntypes m) W (fun n => spread cut n 0) M) as X. cbv beta in X. rewrite X, Exact_proofs.spread_0. apply Rsum_ext. intros n Hn. unfold mass, q. rewrite (cut_in n Hn).
    assert (Ch : (0 <= ch n)%R) by apply chi_pos. pose proof (sqrt_sqrt _ Ch) as SS. fold nt. transitivity (sqrt (ch n) * sqrt (ch n) * wt nt W n * Cnorm2 (D n))%R; [|rewrite SS; ring].
    set (u := sqrt (ch n)). set (y := D n). unfold Cnorm2, Cmul, RtoC, Re, Im. cbn [fst snd]. ring.
Qed.
Lemma cut_energy : trial_energy m c W M (spread cut) = (Rsum (map (fun n => q n * (Spec_exact.energy m W n * Cnorm2 (D n))) M) - Rsum (map (fun n => wt nt W n * Re (Cmul (Cconj (cut n)) (tot cut n))) M))%R.
Proof.
  assert (X : forall l, (forall n, In n l -> In n M) -> trial_energy m c W l (spread cut) = (Rsum (map (fun n => q n * (Spec_exact.energy m W n * Cnorm2 (D n))) l) - Rsum (map (fun n => wt nt W n * Re (Cmul (Cconj (cut n)) (tot cut n))) l))%R); [|apply X; auto].
    induction l as [|n l IH]; intros Hl; [unfold trial_energy, Rsum; cbn [map fold_right]; ring|]. rewrite !Rsum_cons. unfold trial_energy in *. cbn [fold_right]. rewrite IH by (intros x Hx; apply Hl; right; exact Hx).
    rewrite spread_H. change (spread cut n 0) with ((fun n => spread cut n 0) n). rewrite Exact_proofs.spread_0.
    unfold Rdiv at 1. destruct (Exact_proofs.norm2_wt (m_ntypes m) W n) as [-> _]. fold nt. pose proof (cut_in n (Hl n (or_introl eq_refl))) as Cn.
    assert (Ch : (0 <= ch n)%R) by apply chi_pos. pose proof (sqrt_sqrt _ Ch) as SS.
    assert (NC : (Cnorm2 (cut n) = ch n * Cnorm2 (D n))%R).
    { rewrite Cn. rewrite <- SS at 2. set (u := sqrt (ch n)). set (y := D n). unfold Cnorm2, Cmul, RtoC, Re, Im. cbn [fst snd]. ring. }
    transitivity (wt nt W n * (Spec_exact.energy m W n * Cnorm2 (cut n)) - wt nt W n * Re (Cmul (Cconj (cut n)) (tot cut n)) + (Rsum (map (fun n => q n * (Spec_exact.energy m W n * Cnorm2 (D n))) l) - Rsum (map (fun n => wt nt W n * Re (Cmul (Cconj (cut n)) (tot cut n))) l)))%R.
    - f_equal. set (E := Spec_exact.energy m W n). set (x := cut n). set (t := tot cut n). unfold Cnorm2, Csub, Cmul, Cconj, RtoC, Re, Im. cbn [fst snd]. ring.
    - rewrite NC. unfold q. ring.
Qed.

(** The form of w - H on a window. *)
Lemma form : (d * Rsum (map (fun n => q n * Cnorm2 (D n)) M)
  <= sg * Rsum (map (fun n => q n * ((w - Spec_exact.energy m W n) * Cnorm2 (D n) + Re (Cmul (Cconj (D n)) (tot D n)))) M) + 2 * drift * V)%R.
Proof.
  destruct Bey as [Sg B]. specialize (B W M (spread cut) cut_trial).
  rewrite cut_norm, cut_energy in B. pose proof cut_gap as CG. set (S := Rsum (map (fun n => q n * Cnorm2 (D n)) M)%R) in *.
  set (T := Rsum (map (fun n => wt nt W n * Re (Cmul (Cconj (cut n)) (tot cut n))) M)%R) in *. set (T' := Rsum (map (fun n => q n * Re (Cmul (Cconj (D n)) (tot D n))) M)%R) in *.
  set (U := Rsum (map (fun n => q n * (Spec_exact.energy m W n * Cnorm2 (D n))) M)%R) in *.
  assert (E3 : Rsum (map (fun n => q n * ((w - Spec_exact.energy m W n) * Cnorm2 (D n) + Re (Cmul (Cconj (D n)) (tot D n)))) M)%R = (w * S - U + T')%R).
  { unfold S, U, T'. rewrite <- Rsum_scal. transitivity (Rsum (map (fun n => w * (q n * Cnorm2 (D n)) + (-1 * (q n * (Spec_exact.energy m W n * Cnorm2 (D n))) + q n * Re (Cmul (Cconj (D n)) (tot D n)))) M)%R).
    - apply Rsum_ext. intros n _. ring.
    - rewrite !Rsum_add. rewrite (Rsum_scal (fun n => q n * (Spec_exact.energy m W n * Cnorm2 (D n)))%R (-1)%R). ring. }
  rewrite E3. assert (S0 : (0 <= S)%R) by (apply Rsum_nonneg; intros n _; apply Rmult_le_pos; [apply Rmult_le_pos; [apply chi_pos|left; apply wt_pos]|apply Band_proofs.Cnorm2_ge0]).
  pose proof (Rmult_le_compat_r S _ _ S0 Hd) as DS. pose proof (Rle_abs (T - T')) as A1. pose proof (Rle_abs (- (T - T'))) as A2. rewrite Rabs_Ropp in A2.
  destruct Sg as [-> | ->]; lra.
Qed.
End Window.

Lemma q_lower : forall r K M D j L, 0 <= r -> 1 <= K -> NoDup M -> (forall n, In n M <-> cand n /\ inside nt (K + rho + r) n) -> 0 <= j -> j <= K -> NoDup L -> (forall n, In n L -> cand n /\ inside nt j n) ->
  (IZR (K - j) * Rsum (map (mass nt D j) L) <= Rsum (map (fun n => chi nt rho r K n * wt nt (K + rho + r + r) n * Cnorm2 (D n)) M))%R.
Proof.
  intros r K M D j L R0 K1 NM IM J0 JK NL HL. rewrite <- (mass_window nt D j (K + rho + r + r) L); [|intros n Hn; apply HL, Hn|lia]. rewrite <- Rsum_scal.
  assert (Z0 : (0 <= IZR (K - j))%R) by (apply IZR_le; lia).
  apply Rle_trans with (Rsum (map (fun n => chi nt rho r K n * wt nt (K + rho + r + r) n * Cnorm2 (D n)) L)%R).
  - apply Rsum_le. intros n Hn. unfold mass. rewrite Rmult_assoc. apply Rmult_le_compat_r; [apply Rmult_le_pos; [left; apply wt_pos|apply Band_proofs.Cnorm2_ge0]|].
    apply (chi_in nt rho r rho_pos K); [|apply HL, Hn|exact J0]. apply (inside_mono nt j); [lia|apply HL, Hn].
  - apply Rsum_incl; [exact NL| |].
    + intros n Hn. apply IM. destruct (HL n Hn) as [A B]. split; [exact A|]. apply (inside_mono nt j); [lia|exact B].
    + intros n _. apply Rmult_le_pos; [apply Rmult_le_pos; [apply chi_pos|left; apply wt_pos]|apply Band_proofs.Cnorm2_ge0].
Qed.

Variable eta : R.
Hypothesis eta_pos : (0 < eta)%R.
Hypothesis d_pos : (0 < d)%R.
Variable P : placement -> Z -> C.
Hypothesis Row : greens_row m ae c k (w, eta) P.
Notation F := (fun n => P n 0).

Lemma F_cand : forall n, F n <> C0 -> cand n.
Proof. intros n H. destruct (F_support m ae c k w eta P Row n H) as [-> | [a [s [Sa ->]]]]; [left; reflexivity|right]. exists a, s. split; [left; exact Sa|reflexivity]. Qed.
Lemma F_norm : norm_le nt cand F (1 / (eta * eta)).
Proof. exact (norm_F m m ae ae c k w eta eta_pos G G Hlat eq_refl (Hherm w eta) N rho N_pos HN HN rho_pos Hrho m ae P G eq_refl eq_refl (fun a H => or_introl H) Row). Qed.

(** Every candidate has a row. *)
Lemma row_of : forall n W, cand n -> inside nt W n -> exists s, row_at c hop kk w eta (moves m) F n (Spec_exact.energy m W n) s /\ (n = vacuum /\ s = C1 \/ n <> vacuum /\ s = C0).
Proof.
  intros n W Cn In_n. destruct (classic (n = vacuum)) as [-> | Nv].
  - exists C1. rewrite Exact_proofs.energy_vacuum. split; [exact (row_vac m ae c k w eta P Row)|left; split; reflexivity].
  - exists C0. split; [|right; split; [exact Nv|reflexivity]]. destruct Cn as [-> | [a [s [Sa ->]]]]; [contradiction|]. assert (Sm : space m ae a) by (destruct Sa; assumption). destruct (energy_list m ae G a Sm) as [l El].
    rewrite (cloud_energy m ae a l s W G Sm El In_n). exact (row_cloud m ae c k w eta P Row a l s Sm El).
Qed.

(** The form of w - H on the row. *)
Lemma row_form : forall r K M, 1 <= K -> NoDup M -> (forall n, In n M <-> cand n /\ inside nt (K + rho + r) n) -> 0 <= r ->
  Rsum (map (fun n => chi nt rho r K n * wt nt (K + rho + r + r) n * ((w - Spec_exact.energy m (K + rho + r + r) n) * Cnorm2 (F n) + Re (Cmul (Cconj (F n)) (tot F n)))) M)%R = (IZR K * Re (P vacuum 0%Z))%R.
Proof.
  intros r K M K1 NM IM R0. transitivity (Rsum (map (fun n => Re (Cmul (RtoC (chi nt rho r K n * wt nt (K + rho + r + r) n)) (Csub (Cmul (Cconj (F n)) (Cadd (Csub (Cmul (w, eta) (F n)) (Cmul (RtoC (Spec_exact.energy m (K + rho + r + r) n)) (F n))) (tot F n))) C0))) M)).
    { apply Rsum_ext. intros n _. set (x := F n). set (t := tot F n). set (E := Spec_exact.energy _ _ _). set (q := (chi nt rho r K n * _)%R). unfold Cnorm2, Cadd, Csub, Cmul, Cconj, RtoC, C0, Re, Im. cbn [fst snd]. ring. }
    rewrite <- Pick_proofs.Re_Csum.
    rewrite (Pick_proofs.vac_once m ae rho r K M NM IM _ (Cmul (RtoC (IZR K)) (Cconj (P vacuum 0)))); [unfold Cmul, Cconj, RtoC, Re, Im; cbn [fst snd]; ring| |].
    - intros n Hn Nv. destruct (row_of n (K + rho + r + r) (proj1 (proj1 (IM n) Hn)) ltac:(apply (inside_mono nt (K + rho + r)); [lia|apply IM, Hn])) as [s [Rs [[E _]|[_ ->]]]]; [contradiction|]. unfold row_at in Rs. unfold Pick_proofs.tot. rewrite Rs. ring.
    - destruct (row_of vacuum (K + rho + r + r) (or_introl eq_refl) (inside_vacuum nt _)) as [s [Rs [[_ ->]|[E _]]]]; [|contradiction]. unfold row_at in Rs. unfold Pick_proofs.tot. rewrite Rs.
      rewrite (chi_vacuum nt rho r rho_pos K K1), wt_vacuum, Rmult_1_r. ring.
Qed.

(** d |row|^2 <= sg Re G *)
Theorem ritz_norm : norm_le nt cand F (sg * Re (P vacuum 0%Z) / d).
Proof.
  intros j L Hj NL HL. apply (Rmult_le_reg_l d); [exact d_pos|]. replace (d * (sg * Re (P vacuum 0%Z) / d))%R with (sg * Re (P vacuum 0%Z))%R by (field; lra).
  destruct (moves_short m m eq_refl) as [r [R0 Hr]]. destruct (cand_windows m m ae ae G G eq_refl) as [A1 [A2 [P1 [P2 HW]]]]. set (S := Rsum (map (mass nt F j) L)).
  assert (S0 : (0 <= S)%R) by (apply Rsum_nonneg; intros; apply mass_pos).
  apply Rminus_le. apply (arch (d * (IZR j * S) + 2 * drift * (1 / (eta * eta)) + IZR j * (Rabs (Re (P vacuum 0%Z)) + d * S))%R). intros K0 HK0. set (K := K0 + j). assert (K1 : 1 <= K) by (unfold K; lia).
  destruct (HW (K + rho + r) ltac:(lia)) as [M [NM [IM _]]].
  pose proof (q_lower r K M F j L R0 K1 NM IM Hj ltac:(unfold K; lia) NL HL) as QL. replace (K - j) with K0 in QL by (unfold K; lia). fold S in QL.
  pose proof (form r R0 Hr K K1 M NM IM F _ F_cand F_norm) as FM. cbv zeta in FM.
  set (X := Rsum (map (fun n => chi nt rho r K n * wt nt (K + rho + r + r) n * ((w - Spec_exact.energy m (K + rho + r + r) n) * Cnorm2 (F n) + Re (Cmul (Cconj (F n)) (tot F n)))) M)%R) in FM.
  assert (EX : X = (IZR K * Re (P vacuum 0%Z))%R) by exact (row_form r K M K1 NM IM R0).
  rewrite EX in FM. apply (Rmult_le_compat_l d) in QL; [|lra].
  assert (EK : IZR K = (IZR K0 + IZR j)%R) by (unfold K; rewrite plus_IZR; reflexivity). rewrite EK in FM.
  assert (J0 : (0 <= IZR j)%R) by (apply IZR_le; exact Hj). set (g := Re (P vacuum 0%Z)) in *.
  assert (SG : (sg * g <= Rabs g)%R) by (pose proof (Rle_abs g); pose proof (Rle_abs (- g)); rewrite Rabs_Ropp in *; destruct (proj1 Bey) as [-> | ->]; lra).
  apply (Rmult_le_compat_l (IZR j)) in SG; [|exact J0]. assert (0 <= IZR j * (d * S))%R by (apply Rmult_le_pos; [exact J0|apply Rmult_le_pos; lra]). cbv beta in *. lra.
Qed.
End Ritz.

Lemma Rsum_only {A : Type} : forall (f : A -> R) (l : list A) (v : A), NoDup l -> In v l -> (forall x, In x l -> x <> v -> f x = 0%R) -> Rsum (map f l) = f v.
Proof.
  intros f l v. induction l as [|x l IH]; intros ND Hv Hz; [destruct Hv|]. inversion ND as [|? ? Nx ND']; subst. rewrite Rsum_cons. destruct Hv as [-> | Hv].
  - rewrite (Rsum_ext f (fun _ => 0%R)), Rsum_0; [ring|]. intros y Hy. apply Hz; [right; exact Hy|]. intros ->. contradiction.
  - rewrite IH; [|exact ND'|exact Hv|intros y Hy; apply Hz; right; exact Hy]. rewrite Hz; [ring|left; reflexivity|]. intros ->. contradiction.
Qed.

(** * A space within a larger one *)
Section Nested.
Variable m0 m : model R.
Variable ae0 ae c : Z.
Variable k : R.
Hypothesis G0 : good_model m0 ae0.
Hypothesis G : good_model m ae.
Hypothesis Same : same_physics m0 m.
Hypothesis Sub : contained m0 ae0 m ae.
Hypothesis Hlat : on_lattice m c.
Hypothesis Hherm : forall w eta, hermitian (phys_env m k w eta) m.
Variable N rho : Z.
Hypothesis N_pos : 0 <= N.
Hypothesis HN : Spec_extent.at_most m ae N.
Hypothesis rho_pos : 0 <= rho.
Hypothesis Hrho : Spec_extent.couples_within m c rho.
Let kk := (k * m_lattice m)%R.
Let hop := h_hop (m_ham m).
Let nt := m_ntypes m.
Notation cand := (cand m m ae ae).
Notation tot := (Pick_proofs.tot c hop kk (moves m)).
Notation drift := (drift hop N (moves m)).

Lemma trial_sub : forall r l Psi, trial m0 ae0 k r l Psi ->
  trial m ae k r l Psi /\ trial_norm m0 r l Psi = trial_norm m r l Psi /\ trial_energy m0 c r l Psi = trial_energy m c r l Psi.
Proof.
  intros r l Psi [T1 T2 T3 T4]. destruct Same as [E1 [E2 E3]]. split; [split|split].
  - exact T1.
  - intros n Hn. destruct (T2 n Hn) as [A B]. rewrite <- E3. split; [|exact B]. destruct A as [A|[a [s [Sa A]]]]; [left; exact A|right; exists a, s; split; [apply Sub, Sa|exact A]].
  - exact T3.
  - rewrite <- E2. exact T4.
  - unfold trial_norm. rewrite E3. reflexivity.
  - unfold trial_energy, on_H, Spec_exact.energy. rewrite E1, E3. reflexivity.
Qed.
Lemma beyond_sub : forall sg e, beyond_all m ae c k sg e -> beyond_all m0 ae0 c k sg e.
Proof.
  intros sg e [Sg B]. split; [exact Sg|]. intros r l Psi T. destruct (trial_sub r l Psi T) as [T' [-> ->]]. apply B, T'.
Qed.

Variable sg e : R.
Hypothesis Bey : beyond_all m ae c k sg e.
Variable w d eta : R.
Hypothesis Hd : (d <= sg * (w - e))%R.
Hypothesis eta_pos : (0 < eta)%R.
Hypothesis d_pos : (0 < d)%R.
Variable P0 P : placement -> Z -> C.
Hypothesis Row0 : greens_row m0 ae0 c k (w, eta) P0.
Hypothesis Row : greens_row m ae c k (w, eta) P.
Notation F := (fun n => P n 0).
Notation F0 := (fun n => P0 n 0).

Lemma ritz_at : (d * Cnorm2 (P vacuum 0%Z) <= sg * Re (P vacuum 0%Z))%R /\ (Cabs (P vacuum 0%Z) <= 1 / d)%R /\ (- Im (P vacuum 0%Z) <= eta / (d * d))%R /\ norm_le nt cand F (1 / (d * d)).
Proof.
  apply (Band_proofs.outside_from m ae c k G Hlat Hherm N N_pos HN w eta sg d P (sg * Re (P vacuum 0%Z) / d) (proj1 Bey) eta_pos d_pos Row).
  - exact (ritz_norm m ae c k G Hlat Hherm N rho N_pos HN rho_pos Hrho sg e Bey w d Hd eta eta_pos d_pos P Row).
  - right. field. lra.
Qed.

Lemma moves_same : moves m0 = moves m.
Proof. unfold moves. destruct Same as [-> _]. reflexivity. Qed.
Lemma F0_small : forall n, F0 n <> C0 -> Extent_proofs.cand m0 m0 ae0 ae0 n.
Proof. intros n H. destruct (F_support m0 ae0 c k w eta P0 Row0 n H) as [-> | [a [s [Sa ->]]]]; [left; reflexivity|right]. exists a, s. split; [left; exact Sa|reflexivity]. Qed.
Lemma small_cand : forall n, Extent_proofs.cand m0 m0 ae0 ae0 n -> cand n.
Proof. intros n [-> | [a [s [Sa ->]]]]; [left; reflexivity|right]. exists a, s. split; [left; apply Sub; destruct Sa; assumption|reflexivity]. Qed.
Lemma F0_norm : norm_le nt cand F0 (1 / (d * d)).
Proof.
  assert (H0 : forall w eta, hermitian (phys_env m0 k w eta) m0) by (intros; rewrite (phys_same m m0) by (symmetry; apply Same); unfold hermitian; rewrite (proj1 Same); apply Hherm).
  assert (L0 : on_lattice m0 c) by (unfold on_lattice; rewrite (proj1 Same); exact Hlat).
  assert (A0 : Spec_extent.at_most m0 ae0 N) by (intros a t x Sa; apply HN, Sub, Sa).
  assert (C0' : Spec_extent.couples_within m0 c rho) by (unfold Spec_extent.couples_within; rewrite (proj1 Same); exact Hrho).
  pose proof (beyond_sub sg e Bey) as B0.
  destruct (Band_proofs.outside_from m0 ae0 c k G0 L0 H0 N N_pos A0 w eta sg d P0 (sg * Re (P0 vacuum 0%Z) / d) (proj1 Bey) eta_pos d_pos Row0) as (_ & _ & _ & V).
  - exact (ritz_norm m0 ae0 c k G0 L0 H0 N rho N_pos A0 rho_pos C0' sg e B0 w d Hd eta eta_pos d_pos P0 Row0).
  - right. field. lra.
  - intros j L Hj NL HL. assert (NT : nt = m_ntypes m0) by (unfold nt; symmetry; apply Same).
    destruct (sub_list (fun n => F0 n <> C0) L NL) as [L1 [N1 [I1 Q1]]]. rewrite Q1.
    + rewrite NT. apply V; [exact Hj|exact N1|]. intros n Hn. apply I1 in Hn. destruct Hn as [Hn NZ]. split; [apply F0_small, NZ|]. rewrite <- NT. apply HL, Hn.
    + intros n _ H. unfold mass. destruct (classic (F0 n = C0)) as [E|E]; [cbv beta in E; rewrite E|contradiction]. unfold Cnorm2, C0, Re, Im. cbn [fst snd]. ring.
Qed.

(** The rows of the two functions at a candidate. *)
Lemma two_rows : forall n W, cand n -> inside nt W n ->
  (exists s, row_at c hop kk w eta (moves m) F n (Spec_exact.energy m W n) s /\ row_at c hop kk w eta (moves m) F0 n (Spec_exact.energy m W n) s /\ (n = vacuum /\ s = C1 \/ n <> vacuum /\ s = C0)) \/
  (n <> vacuum /\ F0 n = C0 /\ row_at c hop kk w eta (moves m) F n (Spec_exact.energy m W n) C0).
Proof.
  intros n W Cn In_n. destruct (row_of m ae c k G w eta P Row n W Cn In_n) as [s [Rs Es]]. destruct Same as [E1 [E2 E3]].
  destruct (classic (Extent_proofs.cand m0 m0 ae0 ae0 n)) as [S|S].
  - left. exists s. split; [exact Rs|]. split; [|exact Es].
    assert (In0 : inside (m_ntypes m0) W n) by (rewrite E3; exact In_n). destruct (row_of m0 ae0 c k G0 w eta P0 Row0 n W S In0) as [s0 [Rs0 Es0]].
    assert (EE : s0 = s) by (destruct Es as [[A ->]|[A ->]], Es0 as [[B ->]|[B ->]]; try reflexivity; contradiction). rewrite <- EE.
    unfold hop, kk. rewrite <- moves_same, <- E1, <- E2. replace (Spec_exact.energy m W n) with (Spec_exact.energy m0 W n); [exact Rs0|]. unfold Spec_exact.energy. rewrite E1, E3. reflexivity.
  - right. assert (Nv : n <> vacuum) by (intros ->; apply S; left; reflexivity). split; [exact Nv|]. split.
    + destruct (classic (F0 n = C0)) as [E|E]; [exact E|]. exfalso. apply S, F0_small, E.
    + destruct Es as [[A _]|[_ ->]]; [contradiction|exact Rs].
Qed.

Theorem ritz_nested : (d * Cnorm2 (Csub (P vacuum 0%Z) (P0 vacuum 0%Z)) <= sg * (Re (P vacuum 0%Z) - Re (P0 vacuum 0%Z)) + 2 * eta / (d * d))%R.
Proof.
  destruct (moves_short m m eq_refl) as [r [R0 Hr]]. destruct (cand_windows m m ae ae G G eq_refl) as [A1 [A2 [Q1 [Q2 HW]]]]. destruct (moves_conj m m c k 0 1 Hlat eq_refl (Hherm _ _)) as [l [Pl Fl]].
  destruct ritz_at as (_ & _ & _ & NF). pose proof F0_norm as NF0. set (V := (1 / (d * d))%R) in *. set (D := fun n => Cadd (F n) (Cmul (RtoC (-1)) (F0 n))).
  assert (FC : forall n, F n <> C0 -> cand n) by exact (F_cand m ae c k w eta P Row). assert (FC0 : forall n, F0 n <> C0 -> cand n) by (intros n H; apply small_cand, F0_small, H).
  assert (DC : forall n, D n <> C0 -> cand n).
  { intros n H. destruct (classic (F n = C0)) as [E|E]; [|apply FC, E]. destruct (classic (F0 n = C0)) as [E'|E']; [|apply FC0, E']. exfalso. apply H. unfold D. cbv beta in E, E'. rewrite E, E'. ring. }
  assert (ND : norm_le nt cand D (2 * V + 2 * V)) by (apply (Pick_proofs.norm_comb nt cand F F0 (RtoC (-1)) V V); [unfold Cnorm2, RtoC, Re, Im; cbn [fst snd]; ring|exact NF|exact NF0]).
  set (g := P vacuum 0) in *. set (g0 := P0 vacuum 0) in *.
  apply Rminus_le. apply (arch (2 * drift * (2 * V + 2 * V) + 6 * drift * (V + V))%R). intros K HK. destruct (HW (K + rho + r) ltac:(lia)) as [M [NM [IM _]]]. set (W := K + rho + r + r).
  set (q := fun n => (chi nt rho r K n * wt nt W n)%R). assert (q0 : forall n, (0 <= q n)%R) by (intros n; unfold q; apply Rmult_le_pos; [apply chi_pos|left; apply wt_pos]).
  assert (qv : q vacuum = IZR K) by (unfold q; rewrite (chi_vacuum nt rho r rho_pos K HK), wt_vacuum; ring).
  assert (Iv : In vacuum M) by (apply IM; split; [left; reflexivity|apply inside_vacuum]).
  pose proof (form m ae c k G Hlat Hherm N rho N_pos HN rho_pos Hrho sg e Bey w d Hd r R0 Hr K HK M NM IM D _ DC ND) as FM. fold W in FM. fold kk in FM. fold hop in FM. fold nt in FM.
  pose proof (Pick_proofs.leak_two nt c hop kk N rho r rho_pos R0 (moves m) l Pl Fl (moves_fit m ae c G rho Hrho) Hr cand (cand_range m m ae ae eq_refl N N_pos HN HN) K HK M NM IM F0 F V V FC0 FC NF0 NF) as LK. fold W in LK.
  change (fun n => Cmul (RtoC (chi nt rho r K n * wt nt W n)) (Pick_proofs.gap_at c hop kk (moves m) F0 F n)) with (fun n => Cmul (RtoC (q n)) (Pick_proofs.gap_at c hop kk (moves m) F0 F n)) in LK.
  set (Sg := Csum_list (map (fun n => Cmul (RtoC (q n)) (Pick_proofs.gap_at c hop kk (moves m) F0 F n)) M)) in LK.
  assert (LK' : (Cabs Sg <= 6 * drift * (V + V))%R) by exact LK. clear LK.
  change (fun n => chi nt rho r K n * wt nt W n * Cnorm2 (D n))%R with (fun n => q n * Cnorm2 (D n))%R in FM.
  set (X := Rsum (map _ M)) in FM at 2.
  set (Y := Rsum (map (fun n => q n * (2 * eta * Im (Cmul (F0 n) (Cconj (F n)))))%R M)).
  assert (EX : (X = IZR K * (Re g - Re g0) + Y - Re Sg)%R).
  { unfold X, Y, Sg. rewrite Pick_proofs.Re_Csum.
    set (dl := fun n => Re (Cmul (RtoC (q n)) (Cadd (Cadd (RtoC ((w - Spec_exact.energy m W n) * Cnorm2 (D n) + Re (Cmul (Cconj (D n)) (tot D n)))) (Pick_proofs.gap_at c hop kk (moves m) F0 F n)) (RtoC (- (2 * eta * Im (Cmul (F0 n) (Cconj (F n)))))))) ).
    assert (ED : Rsum (map dl M) = (IZR K * (Re g - Re g0))%R).
    { unfold dl. rewrite <- Pick_proofs.Re_Csum.
      assert (Z : forall n, In n M -> exists s, (n = vacuum /\ s = C1 \/ n <> vacuum /\ s = C0) /\
        Re (Cmul (RtoC (q n)) (Cadd (Cadd (RtoC ((w - Spec_exact.energy m W n) * Cnorm2 (D n) + Re (Cmul (Cconj (D n)) (tot D n)))) (Pick_proofs.gap_at c hop kk (moves m) F0 F n)) (RtoC (- (2 * eta * Im (Cmul (F0 n) (Cconj (F n)))))))) =
        (q n * Re (Cmul s (Csub (Cconj (F n)) (F0 n))))%R).
      { intros n Hn. assert (In_n : inside nt W n) by (apply (inside_mono nt (K + rho + r)); [unfold W; lia|apply IM, Hn]).
        assert (TD : tot D n = Cadd (tot F n) (Cmul (RtoC (-1)) (tot F0 n))) by apply Pick_proofs.tot_comb. rewrite TD. unfold D, Pick_proofs.gap_at.
        destruct (two_rows n W (proj1 (proj1 (IM n) Hn)) In_n) as [[s [Rs [Rs0 Es]]]|[Nv [Z0 Rs]]].
        - exists s. split; [exact Es|]. unfold row_at in Rs, Rs0. fold (tot F n) in Rs. fold (tot F0 n) in Rs0. set (E := Spec_exact.energy m W n) in *. set (x := F n) in *. set (x0 := F0 n) in *. set (t := tot F n) in *. set (t0 := tot F0 n) in *.
          assert (Et : t = Csub s (Csub (Cmul (w, eta) x) (Cmul (RtoC E) x))) by (rewrite <- Rs; apply Ceq; unfold Cadd, Csub, Re, Im; cbn [fst snd]; ring).
          assert (Et0 : t0 = Csub s (Csub (Cmul (w, eta) x0) (Cmul (RtoC E) x0))) by (rewrite <- Rs0; apply Ceq; unfold Cadd, Csub, Re, Im; cbn [fst snd]; ring).
          rewrite Et, Et0. assert (Is : Im s = 0%R) by (destruct Es as [[_ ->]|[_ ->]]; reflexivity). destruct s as [s1 s2]. cbn [Im snd] in Is. subst s2. clear. destruct x as [x1 x2], x0 as [y1 y2].
          unfold Cnorm2, Cadd, Csub, Cmul, Cconj, RtoC, Re, Im. cbn [fst snd]. ring.
        - exists C0. split; [right; split; [exact Nv|reflexivity]|]. unfold row_at in Rs. fold (tot F n) in Rs. set (E := Spec_exact.energy m W n) in *. cbv beta in Z0. rewrite Z0. set (x := F n) in *. set (t := tot F n) in *. set (t0 := tot F0 n) in *.
          assert (Et : t = Csub C0 (Csub (Cmul (w, eta) x) (Cmul (RtoC E) x))) by (rewrite <- Rs; apply Ceq; unfold Cadd, Csub, Re, Im; cbn [fst snd]; ring).
          rewrite Et. clear. destruct x as [x1 x2], t0 as [y1 y2]. unfold Cnorm2, Cadd, Csub, Cmul, Cconj, RtoC, C0, Re, Im. cbn [fst snd]. ring. }
      rewrite Pick_proofs.Re_Csum. rewrite (Rsum_only _ _ vacuum NM Iv).
      - destruct (Z vacuum Iv) as [s [[[_ ->]|[E _]] ->]]; [|contradiction]. rewrite qv. fold g g0. unfold Cmul, Csub, Cconj, C1, Re, Im; cbn [fst snd]; ring.
      - intros n Hn Nv. destruct (Z n Hn) as [s [[[E _]|[_ ->]] ->]]; [contradiction|]. unfold Cmul, Csub, Cconj, C0, Re, Im; cbn [fst snd]; ring. }
    rewrite <- ED. unfold dl. set (f1 := fun n => (q n * (2 * eta * Im (Cmul (F0 n) (Cconj (F n)))))%R). set (f2 := fun x => Re (Cmul (RtoC (q x)) (Pick_proofs.gap_at c hop kk (moves m) F0 F x))).
    transitivity (Rsum (map (fun n => dl n + (f1 n + -1 * f2 n)) M)%R).
    - apply Rsum_ext. intros n _. unfold dl, f1, f2, q. set (a := ((w - _) * _ + _)%R). set (b := Pick_proofs.gap_at _ _ _ _ _ _ _). set (i := Im _). set (qq := (chi nt rho r K n * wt nt W n)%R). unfold Cadd, Cmul, RtoC, Re, Im. cbn [fst snd]. ring.
    - rewrite !Rsum_add, Rsum_scal. unfold dl. ring. }
  assert (YB : (sg * Y <= IZR K * (2 * eta / (d * d)))%R).
  { assert (K0 : (0 <= IZR K)%R) by (apply IZR_le; lia).
    apply Rle_trans with (Rsum (map (fun n => IZR K * (eta * mass nt F0 W n) + IZR K * (eta * mass nt F W n)) M)%R).
    - unfold Y. rewrite <- Rsum_scal. apply Rsum_le. intros n _. unfold mass.
      assert (CK : (chi nt rho r K n <= IZR K)%R) by (unfold chi; apply IZR_le; pose proof (lev_rho nt rho (K + rho + r + r) n); lia).
      assert (IB : (sg * (2 * eta * Im (Cmul (F0 n) (Cconj (F n)))) <= eta * (Cnorm2 (F0 n) + Cnorm2 (F n)))%R).
      { replace (sg * (2 * eta * Im (Cmul (F0 n) (Cconj (F n)))))%R with (eta * (2 * (sg * Im (Cmul (F0 n) (Cconj (F n))))))%R by ring. apply Rmult_le_compat_l; [lra|].
        destruct (F0 n) as [x1 x2], (F n) as [y1 y2]. unfold Cnorm2, Cmul, Cconj, Re, Im. cbn [fst snd].
        pose proof (Rle_0_sqr (x1 - y2)). pose proof (Rle_0_sqr (x1 + y2)). pose proof (Rle_0_sqr (x2 - y1)). pose proof (Rle_0_sqr (x2 + y1)). unfold Rsqr in *. destruct (proj1 Bey) as [-> | ->]; lra. }
      replace (sg * (q n * (2 * eta * Im (Cmul (F0 n) (Cconj (F n))))))%R with (q n * (sg * (2 * eta * Im (Cmul (F0 n) (Cconj (F n))))))%R by ring.
      eapply Rle_trans; [apply Rmult_le_compat_l; [apply q0|exact IB]|]. unfold q.
      replace (IZR K * (eta * (wt nt W n * Cnorm2 (F0 n))) + IZR K * (eta * (wt nt W n * Cnorm2 (F n))))%R with (IZR K * wt nt W n * (eta * (Cnorm2 (F0 n) + Cnorm2 (F n))))%R by ring.
      apply Rmult_le_compat_r; [apply Rmult_le_pos; [lra|]; pose proof (Band_proofs.Cnorm2_ge0 (F0 n)); pose proof (Band_proofs.Cnorm2_ge0 (F n)); cbv beta in *; lra|].
      apply Rmult_le_compat_r; [left; apply wt_pos|exact CK].
    - rewrite Rsum_add, !Rsum_scal.
      assert (HM : forall n, In n M -> cand n /\ inside nt W n) by (intros n Hn; apply IM in Hn; destruct Hn as [A B]; split; [exact A|apply (inside_mono nt (K + rho + r)); [unfold W; lia|exact B]]).
      pose proof (NF0 W M ltac:(unfold W; lia) NM HM) as B0. pose proof (NF W M ltac:(unfold W; lia) NM HM) as B1. unfold V in B0, B1.
      rewrite <- !Rmult_plus_distr_l. apply Rmult_le_compat_l; [exact K0|]. replace (2 * eta / (d * d))%R with (eta * (1 / (d * d) + 1 / (d * d)))%R by (field; lra). apply Rmult_le_compat_l; [lra|]. lra. }
  assert (LB : (sg * - Re Sg <= 6 * drift * (V + V))%R).
  { pose proof (Band_proofs.Re_abs_le Sg). pose proof (Rle_abs (Re Sg)). pose proof (Rle_abs (- Re Sg)). rewrite Rabs_Ropp in *. destruct (proj1 Bey) as [-> | ->]; lra. }
  assert (DB : (IZR K * Cnorm2 (Csub g g0) <= Rsum (map (fun n => q n * Cnorm2 (D n)) M))%R).
  { apply Rle_trans with (Rsum (map (fun n => q n * Cnorm2 (D n))%R [vacuum])).
    - unfold Rsum. cbn [map fold_right]. rewrite qv. unfold D. fold g g0. right. rewrite Rplus_0_r. f_equal. unfold Cnorm2, Cadd, Csub, Cmul, RtoC, Re, Im. cbn [fst snd]. ring.
    - apply Rsum_incl; [repeat constructor; intros []|intros n [<- | []]; exact Iv|]. intros n _. apply Rmult_le_pos; [apply q0|apply Band_proofs.Cnorm2_ge0]. }
  assert (FM' : (d * Rsum (map (fun n => q n * Cnorm2 (D n)) M) <= sg * X + 2 * drift * (2 * V + 2 * V))%R) by exact FM. clear FM.
  rewrite EX in FM'. apply (Rmult_le_compat_l d) in DB; [|lra]. set (SD := Rsum (map (fun n => q n * Cnorm2 (D n)) M)%R) in *. set (u := (2 * eta / (d * d))%R) in *. clearbody u SD Y Sg. lra.
Qed.
End Nested.

(** * The limits on the clouds *)
Lemma wider_contained : forall m ae m' ae', same_physics m m' -> wider m ae m' ae' -> contained m ae m' ae'.
Proof.
  intros m ae m' ae' [_ [_ NT]] [Ha [Hm Ht]] a Sa. destruct (space_unfold m ae a Sa) as [V [NF [_ [_ [_ [[z [Sh Hz]] [_ [L1 [L2 L3]]]]]]]]].
  apply space_intro; [exact V|exact NF| | | |].
  - exists z. rewrite <- NT. split; [exact Sh|lia].
  - intros b Eb t x. destruct (m_mps m) as [b0|] eqn:E; rewrite Eb in Hm; cbn [at_least] in Hm; [|destruct Hm]. pose proof (L1 b0 eq_refl t x). lia.
  - intros t Tt. rewrite <- NT in Tt. specialize (L2 t Tt). destruct (Ht t Tt) as [A _]. destruct L2 as [L0 L2]. split; [lia|]. intros x y Hx Hy. specialize (L2 x y Hx Hy). lia.
  - intros t Tt. rewrite <- NT in Tt. specialize (L3 t Tt). destruct (Ht t Tt) as [_ A]. lia.
Qed.

(** * The energies of trial states lie in the band *)
Section Edges.
Variable m : model R.
Variable ae c : Z.
Variable k : R.
Hypothesis G : good_model m ae.
Hypothesis Hlat : on_lattice m c.
Hypothesis Hherm : forall w eta, hermitian (phys_env m k w eta) m.
Variable N rho : Z.
Hypothesis N_pos : 0 <= N.
Hypothesis HN : Spec_extent.at_most m ae N.
Hypothesis rho_pos : 0 <= rho.
Hypothesis Hrho : Spec_extent.couples_within m c rho.
Let kk := (k * m_lattice m)%R.
Let hop := h_hop (m_ham m).
Let nt := m_ntypes m.
Notation cand := (cand m m ae ae).
Notation tot := (Pick_proofs.tot c hop kk (moves m)).

Variable r : Z.
Variable L : list placement.
Variable Psi : placement -> Z -> C.
Hypothesis Tr : trial m ae k r L Psi.
Notation f := (fun n => Psi n 0).

Lemma trial_H : forall E n, on_H m c E Psi n 0 = Csub (Cmul (RtoC E) (f n)) (tot f n).
Proof.
  intros E n. pose proof (frame_H m c k 0 0 Psi (tr_momentum _ _ _ _ _ _ Tr) n 0 E) as H. change (- 0) with 0 in H.
  assert (T0 : translated n 0 = n) by (apply placement_eq; intros t x; unfold translated; f_equal; lia). rewrite T0 in H. fold kk in H. rewrite phase_0 in H. fold hop in H. unfold Pick_proofs.tot.
  set (X := on_H m c E Psi n 0) in *. set (S := Csum_list _) in *. set (y := Psi n 0) in *. clearbody X S y.
  assert (Z0 : ((0, 0)%R : C) = C0) by reflexivity. rewrite Z0 in H.
  transitivity (Csub (Cmul C0 y) (Csub (Cmul C0 y) X)); [ring|]. rewrite H. ring.
Qed.
Lemma trial_cand : forall n, In n L -> cand n /\ inside nt r n.
Proof.
  intros n Hn. destruct (tr_space _ _ _ _ _ _ Tr n Hn) as [A B]. split; [|exact B]. destruct A as [A|[a [s [Sa A]]]]; [left; apply placement_eq; exact A|right; exists a, s; split; [left; exact Sa|apply placement_eq; exact A]].
Qed.
Lemma f_in : forall n, f n <> C0 -> In n L.
Proof. intros n H. destruct (classic (In n L)) as [I|I]; [exact I|]. exfalso. apply H. exact (tr_support _ _ _ _ _ _ Tr n I). Qed.
Lemma trial_norm_is : trial_norm m r L Psi = Rsum (map (mass nt f r) L).
Proof. exact (Exact_proofs.norm_sum (m_ntypes m) r f L). Qed.
Lemma trial_energy_is : trial_energy m c r L Psi = Rsum (map (fun n => wt nt r n * (Spec_exact.energy m r n * Cnorm2 (f n) - Re (Cmul (Cconj (f n)) (tot f n))))%R L).
Proof.
  unfold trial_energy. generalize L. intros L0. induction L0 as [|n l IH]; [reflexivity|]. rewrite Rsum_cons, <- IH. cbn [fold_right]. f_equal. rewrite trial_H. unfold Rdiv. destruct (Exact_proofs.norm2_wt (m_ntypes m) r n) as [-> _]. fold nt.
  set (E := Spec_exact.energy m r n). set (x := Psi n 0). set (t := tot f n). unfold Cnorm2, Csub, Cmul, Cconj, RtoC, Re, Im. cbn [fst snd]. ring.
Qed.
Lemma trial_norm_le : norm_le nt cand f (trial_norm m r L Psi).
Proof.
  intros j M Hj NM HM. destruct (sub_list (fun n => f n <> C0) M NM) as [M1 [N1 [I1 Q1]]]. rewrite Q1.
  - rewrite trial_norm_is. rewrite (Rsum_ext (mass nt f j) (mass nt f r)).
    + apply Rsum_incl; [exact N1|intros n Hn; apply f_in; apply I1, Hn|intros; apply mass_pos].
    + intros n Hn. apply I1 in Hn. destruct Hn as [Hn NZ]. unfold mass. rewrite (wt_window nt n j r); [reflexivity|apply HM, Hn|apply trial_cand, f_in, NZ].
  - intros n _ H. unfold mass. destruct (classic (f n = C0)) as [E|E]; [cbv beta in E; rewrite E|contradiction]. unfold Cnorm2, C0, Re, Im. cbn [fst snd]. ring.
Qed.
Lemma trial_phonons : forall n, In n L -> (phonon_floor m <= Spec_exact.energy m r n <= phonon_ceiling m)%R.
Proof.
  intros n Hn. destruct (trial_cand n Hn) as [[-> | [a [s [Sa ->]]]] I].
  - rewrite Exact_proofs.energy_vacuum. apply Band_proofs.phonon_zero.
  - assert (Sm : space m ae a) by (destruct Sa; assumption). destruct (energy_list m ae G a Sm) as [l El]. rewrite (cloud_energy m ae a l s r G Sm El I). apply (Band_proofs.phonon_range m ae G a l Sm El).
Qed.
Lemma trial_couplings : (Rsum (map (fun n => wt nt r n * Rabs (Re (Cmul (Cconj (f n)) (tot f n)))) L) <= half_width m N * trial_norm m r L Psi)%R.
Proof.
  destruct (moves_short m m eq_refl) as [b [B0 Hb]]. set (W := Z.max (Z.abs r) rho).
  pose proof (Band_proofs.couplings m ae c k G Hlat Hherm N rho N_pos HN rho_pos Hrho 0%R 1%R f (fun n H => proj1 (trial_cand n (f_in n H))) _ b W L trial_norm_le B0 Hb ltac:(unfold W; lia) (tr_nodup _ _ _ _ _ _ Tr)) as X.
  eapply Rle_trans; [apply (Rsum_le _ (fun n => wt nt (W + b) n * (Cabs (f n) * Cabs (tot f n)))%R)|apply X].
  - intros n Hn. destruct (trial_cand n Hn) as [_ I]. cbv beta. rewrite (wt_window nt n (W + b) r); [|apply (inside_mono nt r); [unfold W; lia|exact I]|exact I].
    apply Rmult_le_compat_l; [left; apply wt_pos|]. eapply Rle_trans; [apply Band_proofs.Re_abs_le|]. rewrite Cabs_mul, Cabs_conj. right. reflexivity.
  - intros n Hn. destruct (trial_cand n Hn) as [A I]. split; [exact A|apply (inside_mono nt r); [unfold W; lia|exact I]].
Qed.
Lemma trial_band : (band_floor m N * trial_norm m r L Psi <= trial_energy m c r L Psi <= band_ceiling m N * trial_norm m r L Psi)%R.
Proof.
  pose proof trial_couplings as TC. set (V := trial_norm m r L Psi) in *. assert (EV : V = Rsum (map (mass nt f r) L)) by apply trial_norm_is. rewrite trial_energy_is.
  unfold band_floor, band_ceiling. rewrite Rmult_minus_distr_r, Rmult_plus_distr_r. set (S := Rsum (map (fun n => wt nt r n * Rabs (Re (Cmul (Cconj (f n)) (tot f n))))%R L)) in *.
  assert (Q : forall e, (e * V = Rsum (map (fun n => e * mass nt f r n) L))%R) by (intros e; rewrite EV, Rsum_scal; reflexivity). split.
  - apply Rle_trans with (phonon_floor m * V - S)%R; [lra|]. rewrite Q. unfold S. unfold Rminus. replace (- Rsum (map (fun n => wt nt r n * Rabs (Re (Cmul (Cconj (f n)) (tot f n)))) L))%R with (-1 * Rsum (map (fun n => wt nt r n * Rabs (Re (Cmul (Cconj (f n)) (tot f n)))) L))%R by ring.
    rewrite <- Rsum_scal, <- Rsum_add. apply Rsum_le. intros n Hn. destruct (trial_phonons n Hn) as [A _]. unfold mass. pose proof (wt_pos nt r n) as Wp. pose proof (Rle_abs (Re (Cmul (Cconj (f n)) (tot f n)))) as B.
    replace (phonon_floor m * (wt nt r n * Cnorm2 (f n)) + -1 * (wt nt r n * Rabs (Re (Cmul (Cconj (f n)) (tot f n)))))%R with (wt nt r n * (phonon_floor m * Cnorm2 (f n) - Rabs (Re (Cmul (Cconj (f n)) (tot f n)))))%R by ring.
    apply Rmult_le_compat_l; [lra|]. apply (Rmult_le_compat_r (Cnorm2 (f n))) in A; [|apply Band_proofs.Cnorm2_ge0]. cbv beta in *. lra.
  - apply Rle_trans with (phonon_ceiling m * V + S)%R; [|lra]. rewrite Q. unfold S.
    rewrite <- Rsum_add. apply Rsum_le. intros n Hn. destruct (trial_phonons n Hn) as [_ A]. unfold mass. pose proof (wt_pos nt r n) as Wp. pose proof (Rle_abs (- Re (Cmul (Cconj (f n)) (tot f n)))) as B. rewrite Rabs_Ropp in B.
    replace (phonon_ceiling m * (wt nt r n * Cnorm2 (f n)) + wt nt r n * Rabs (Re (Cmul (Cconj (f n)) (tot f n))))%R with (wt nt r n * (phonon_ceiling m * Cnorm2 (f n) + Rabs (Re (Cmul (Cconj (f n)) (tot f n)))))%R by ring.
    apply Rmult_le_compat_l; [lra|]. apply (Rmult_le_compat_r (Cnorm2 (f n))) in A; [|apply Band_proofs.Cnorm2_ge0]. cbv beta in *. lra.
Qed.
End Edges.

(** * The particle without phonons *)
Section Plane.
Variable m : model R.
Variable ae c : Z.
Variable k : R.
Hypothesis Hherm : forall w eta, hermitian (phys_env m k w eta) m.
Let kk := (k * m_lattice m)%R.
Let hop := h_hop (m_ham m).
Definition plane0 (n : placement) : C := if inside_dec (m_ntypes m) (-1) n then C1 else C0.
Definition plane : placement -> Z -> C := Exact_proofs.spread m k plane0.

Lemma plane_in : forall n, inside (m_ntypes m) (-1) n <-> n = vacuum.
Proof.
  intros n. split; [|intros ->; apply inside_vacuum]. intros I. apply placement_eq. intros t x. destruct (Z.eq_dec (n t x) 0) as [E|E]; [exact E|]. destruct (I t x E) as [_ B]. lia.
Qed.
Lemma plane0_v : plane0 vacuum = C1.
Proof. unfold plane0. destruct (inside_dec (m_ntypes m) (-1) vacuum) as [_|H]; [reflexivity|]. exfalso. apply H, plane_in. reflexivity. Qed.
Lemma plane0_o : forall n, n <> vacuum -> plane0 n = C0.
Proof. intros n H. unfold plane0. destruct (inside_dec (m_ntypes m) (-1) n) as [I|_]; [|reflexivity]. exfalso. apply H, plane_in, I. Qed.

Lemma plane_trial : trial m ae k 0 [vacuum] plane.
Proof.
  split.
  - repeat constructor. intros [].
  - intros n [<- | []]. split; [left; reflexivity|apply inside_vacuum].
  - intros n Hn. unfold plane. change (Exact_proofs.spread m k plane0 n 0) with ((fun n => Exact_proofs.spread m k plane0 n 0) n). rewrite Exact_proofs.spread_0. apply plane0_o. intros ->. apply Hn. left. reflexivity.
  - intros n s j. apply (spread_momentum m k Hherm).
Qed.
Lemma act_zero : forall h : hterm R, term_at c hop kk plane0 vacuum (Act h) = C0.
Proof.
  intros h. unfold term_at. cbn [weight]. unfold factor. destruct (ht_dag h) eqn:Dg.
  - rewrite plane0_o; [ring|]. intros E. apply (f_equal (fun n => n (ht_index h) (mode c h 0 - ahead (Act h)))) in E. unfold step, translated, moved, after, changed, vacuum in E. rewrite Dg, Nat.eqb_refl in E.
    replace (mode c h 0 - ahead (Act h) - - ahead (Act h)) with (mode c h 0) in E by lia. rewrite Z.eqb_refl in E. cbn in E. lia.
  - change (vacuum (ht_index h) (mode c h 0)) with 0. rewrite Rmult_0_r. apply Ceq; unfold Cmul, RtoC, C0, Re, Im; cbn [fst snd]; ring.
Qed.
Lemma plane_energy : trial_energy m c 0 [vacuum] plane = (- (2 * h_hop (m_ham m) * cos (k * m_lattice m)))%R /\ trial_norm m 0 [vacuum] plane = 1%R.
Proof.
  split.
  - rewrite (trial_energy_is m ae c k Hherm 0 [vacuum] plane plane_trial). unfold Rsum. cbn [map fold_right]. rewrite wt_vacuum, Exact_proofs.energy_vacuum. unfold plane. rewrite Exact_proofs.spread_0.
    change (Exact_proofs.spread m k plane0 vacuum 0) with ((fun n => Exact_proofs.spread m k plane0 n 0) vacuum). rewrite Exact_proofs.spread_0, plane0_v.
    unfold Pick_proofs.tot, moves. rewrite map_cons, map_cons, map_map. fold kk hop.
    assert (Z : Csum_list (map (fun h => term_at c hop kk plane0 vacuum (Act h)) (h_terms (m_ham m))) = C0).
    { induction (h_terms (m_ham m)) as [|h l IH]; [reflexivity|]. cbn [map]. unfold Csum_list in *. cbn [fold_right]. rewrite IH, act_zero. ring. }
    unfold Csum_list in *. cbn [fold_right]. rewrite Z. unfold term_at, step, moved. cbn [ahead weight].
    assert (Tv : forall s, translated vacuum s = vacuum) by (intros; apply placement_eq; reflexivity). rewrite !Tv, plane0_v. unfold phase, Cexpi. rewrite Rmult_1_r. replace (- (kk * -1))%R with kk by ring. rewrite cos_neg.
    unfold Cnorm2, Cadd, Cmul, Cconj, RtoC, C0, C1, Re, Im. cbn [fst snd]. ring.
  - rewrite trial_norm_is. unfold Rsum, mass, plane. cbn [map fold_right]. rewrite wt_vacuum. change (Exact_proofs.spread m k plane0 vacuum 0) with ((fun n => Exact_proofs.spread m k plane0 n 0) vacuum). rewrite Exact_proofs.spread_0, plane0_v.
    unfold Cnorm2, C1, Re, Im. cbn [fst snd]. ring.
Qed.
End Plane.

(** * Numbers that converge as the broadening goes to zero *)
Section Limit.
Variable g : R -> C.
Variable d : R.
Hypothesis d_pos : (0 < d)%R.
Hypothesis Lip : forall eta eta', (0 < eta -> 0 < eta' -> Cabs (Csub (g eta) (g eta')) <= Rabs (eta - eta') / (d * d))%R.
Hypothesis Imag : forall eta, (0 < eta -> 0 < - Im (g eta) <= eta / (d * d))%R.

Lemma limit : exists x : R, forall eta, (0 < eta)%R -> (Cabs (Csub (g eta) (RtoC x)) <= eta / (d * d))%R.
Proof.
  assert (D2 : (0 < d * d)%R) by (apply Rmult_lt_0_compat; exact d_pos). set (e := fun n => (/ (INR n + 1))%R). assert (e0 : forall n, (0 < e n)%R) by (intros n; apply Rinv_0_lt_compat; pose proof (pos_INR n); lra).
  assert (ev : forall q, (0 < q)%R -> exists n0, forall n, (n0 <= n)%nat -> (e n < q)%R).
  { intros q Hq. destruct (archimed_cor1 q Hq) as [n0 [A B]]. exists n0. intros n Hn. apply Rle_lt_trans with (/ INR n0)%R; [|exact A]. unfold e. apply Rinv_le_contravar; [apply lt_0_INR; exact B|]. apply le_INR in Hn. lra. }
  assert (ReB : forall z y, (Rabs (Re z - Re y) <= Cabs (Csub z y))%R) by (intros z y; exact (Band_proofs.Re_abs_le (Csub z y))).
  assert (Dv : forall a b, (a < b * (d * d) -> a / (d * d) < b)%R) by (intros a b H; apply (Rmult_lt_reg_r (d * d)); [exact D2|]; replace (a / (d * d) * (d * d))%R with a by (field; lra); exact H).
  set (x_ := fun n => Re (g (e n))). assert (CC : Cauchy_crit x_).
  { intros q Hq. destruct (ev (q * (d * d))%R ltac:(apply Rmult_lt_0_compat; lra)) as [n0 Hn]. exists n0. intros i j Hi Hj. unfold R_dist, x_. eapply Rle_lt_trans; [apply ReB|]. eapply Rle_lt_trans; [apply Lip; apply e0|]. apply Dv.
    pose proof (Hn i Hi). pose proof (Hn j Hj). pose proof (e0 i). pose proof (e0 j). apply Rabs_def1; lra. }
  destruct (R_complete x_ CC) as [x Hx]. exists x. intros eta He. apply le_epsilon. intros q Hq. destruct (Hx (q / 4)%R ltac:(lra)) as [n1 H1]. destruct (ev (q / 4 * (d * d))%R ltac:(apply Rmult_lt_0_compat; lra)) as [n2 H2].
  set (n := Nat.max n1 n2). specialize (H1 n ltac:(unfold n; lia)). specialize (H2 n ltac:(unfold n; lia)). unfold R_dist in H1. pose proof (e0 n) as En. set (gn := g (e n)) in *.
  replace (Csub (g eta) (RtoC x)) with (Cadd (Csub (g eta) gn) (Csub gn (RtoC x))) by ring. eapply Rle_trans; [apply Cabs_triangle|]. pose proof (Lip eta (e n) He En) as L1. fold gn in L1.
  assert (L2 : (Cabs (Csub gn (RtoC x)) <= Rabs (x_ n - x) + - Im gn)%R).
  { destruct (Imag (e n) En) as [I0 _]. fold gn in I0. replace (Csub gn (RtoC x)) with (Cadd (RtoC (x_ n - x)) (Cmul (0, 1)%R (RtoC (Im gn)))) by (apply Ceq; unfold x_, gn, Cadd, Csub, Cmul, RtoC, Re, Im; cbn [fst snd]; ring).
    assert (CR : forall y, Cabs (RtoC y) = Rabs y) by (intros y; unfold Cabs, Cnorm2, RtoC, Re, Im; cbn [fst snd]; rewrite Rmult_0_l, Rplus_0_r; apply sqrt_Rsqr_abs).
    eapply Rle_trans; [apply Cabs_triangle|]. rewrite Cabs_mul, !CR. replace (Cabs (0, 1)%R) with 1%R by (unfold Cabs, Cnorm2, Re, Im; cbn [fst snd]; replace (0 * 0 + 1 * 1)%R with 1%R by ring; symmetry; apply sqrt_1). rewrite (Rabs_left (Im gn)) by lra. lra. }
  destruct (Imag (e n) En) as [_ I1]. fold gn in I1. pose proof (Dv _ _ H2) as S1.
  assert (S2 : (Rabs (eta - e n) / (d * d) <= eta / (d * d) + e n / (d * d))%R).
  { replace (eta / (d * d) + e n / (d * d))%R with ((eta + e n) / (d * d))%R by (field; lra). apply Rmult_le_compat_r; [left; apply Rinv_0_lt_compat; exact D2|]. apply Rabs_le. lra. }
  lra.
Qed.
End Limit.

Lemma small : forall a b : R, (forall t, 0 < t -> a <= b * t)%R -> (a <= 0)%R.
Proof.
  intros a b H. apply le_epsilon. intros q Hq. rewrite Rplus_0_l. pose proof (Rabs_pos b) as B0. assert (T : (0 < q / (Rabs b + 1))%R) by (apply Rdiv_lt_0_compat; lra). specialize (H _ T).
  apply Rle_trans with ((Rabs b + 1) * (q / (Rabs b + 1)))%R; [|right; field; lra]. eapply Rle_trans; [exact H|]. apply Rmult_le_compat_r; [lra|]. pose proof (Rle_abs b). lra.
Qed.
(** d y^2 + s y <= 2 t / d^2 for Y near y *)
Lemma limit_form : forall d s y (Y : R -> R), (0 < d)%R -> (s = 1 \/ s = -1)%R -> (forall t, 0 < t -> Rabs (Y t - y) <= 2 * t / (d * d))%R ->
  (forall t, 0 < t -> d * (Y t * Y t) <= s * Y t + 2 * t / (d * d))%R -> (d * (y * y) <= s * y)%R.
Proof.
  intros d s y Y Hd Hs H1 H2. assert (D2 : (0 < d * d)%R) by (apply Rmult_lt_0_compat; exact Hd). apply Rminus_le. apply (small _ (4 / (d * d) + 2 * d * Rabs y * (2 / (d * d)))%R). intros t Ht. specialize (H1 t Ht). specialize (H2 t Ht).
  set (z := (Y t - y)%R) in *. assert (EY : Y t = (y + z)%R) by (unfold z; ring). rewrite EY in H2. clearbody z.
  assert (A : (- (y * z) <= Rabs y * (2 * t / (d * d)))%R) by (eapply Rle_trans; [apply Rle_abs|]; rewrite Rabs_Ropp, Rabs_mult; apply Rmult_le_compat_l; [apply Rabs_pos|exact H1]).
  apply (Rmult_le_compat_l (2 * d)) in A; [|lra].
  assert (B : (s * z <= 2 * t / (d * d))%R) by (pose proof (Rle_abs z); pose proof (Rle_abs (- z)); rewrite Rabs_Ropp in *; destruct Hs as [-> | ->]; lra).
  assert (Z : (0 <= d * (z * z))%R) by (apply Rmult_le_pos; [lra|apply Rle_0_sqr]).
  replace ((4 / (d * d) + 2 * d * Rabs y * (2 / (d * d))) * t)%R with (2 * t / (d * d) + 2 * t / (d * d) + 2 * d * (Rabs y * (2 * t / (d * d))))%R by (field; lra).
  replace (d * ((y + z) * (y + z)))%R with (d * (y * y) + 2 * d * (y * z) + d * (z * z))%R in H2 by ring. rewrite Rmult_plus_distr_l in H2. lra.
Qed.
