(** The Green's function outside the band (C75). *)
From Coq Require Import String ZArith Reals List Bool Lia Lra Permutation Classical Ring.
From Verif Require Import Base NdArray NdArray_proofs Config Spec Spec_ops Config_proofs Modify_proofs Legal_proofs
  Model Space Spec_space Space_proofs Term Equation System Spec_engine
  Equation_proofs Ring Coef Spec_eom Eom_proofs
  HModel Spec_model Cplx Physics Physics_proofs
  Toeplitz_proofs Weight_proofs Spec_spectral Energy_proofs Spectral_proofs Spec_green Green_proofs Cutoff_proofs Tent_proofs Walk_proofs Reach_proofs Extent_proofs Perturb_proofs Holo_proofs Spec_band.
From Verif Require Spec_extent Stable_proofs Exact_proofs.
Import ListNotations.
Open Scope list_scope.
Open Scope Z_scope.

Lemma Cnorm2_ge0 : forall z, (0 <= Cnorm2 z)%R.
Proof. intros z. unfold Cnorm2. pose proof (Rle_0_sqr (Re z)). pose proof (Rle_0_sqr (Im z)). unfold Rsqr in *. lra. Qed.
Lemma Re_abs_le : forall z, (Rabs (Re z) <= Cabs z)%R.
Proof.
  intros z. unfold Cabs, Cnorm2. rewrite <- (sqrt_Rsqr_abs (Re z)). apply sqrt_le_1.
  - apply Rle_0_sqr.
  - pose proof (Rle_0_sqr (Re z)). pose proof (Rle_0_sqr (Im z)). unfold Rsqr in *. lra.
  - pose proof (Rle_0_sqr (Im z)). unfold Rsqr in *. lra.
Qed.
Lemma Csum_list_abs : forall l, (Cabs (Csum_list l) <= Rsum (map Cabs l))%R.
Proof.
  induction l as [|z l IH]; [unfold Csum_list, Rsum; cbn [map fold_right]; rewrite Cabs_0; lra|].
  unfold Csum_list, Rsum in *. cbn [map fold_right]. eapply Rle_trans; [apply Cabs_triangle|]. lra.
Qed.
(** A sum with one exceptional element. *)
Lemma Rsum_one : forall {A} (f a : A -> R) v g M, NoDup M -> In v M -> (forall n, In n M -> n <> v -> (f n <= a n)%R) -> (f v <= a v + g)%R ->
  (Rsum (map f M) <= Rsum (map a M) + g)%R.
Proof.
  intros A f a v g M NM Hv H Hg. apply in_split in Hv. destruct Hv as (l1 & l2 & ->). rewrite !Rsum_app, !Rsum_cons.
  assert (NV : forall n, In n (l1 ++ l2) -> n <> v) by (intros n Hn ->; apply (NoDup_remove_2 _ _ _ NM), Hn).
  assert (B1 : (Rsum (map f l1) <= Rsum (map a l1))%R) by (apply Rsum_le; intros n Hn; apply H; [apply in_or_app; left; exact Hn|apply NV, in_or_app; left; exact Hn]).
  assert (B2 : (Rsum (map f l2) <= Rsum (map a l2))%R) by (apply Rsum_le; intros n Hn; apply H; [apply in_or_app; right; right; exact Hn|apply NV, in_or_app; right; exact Hn]).
  lra.
Qed.

Lemma phonon_range : forall m ae, good_model m ae -> forall a l, space m ae a -> energy_of (h_freqs (m_ham m)) a l -> (phonon_floor m <= phonon_energy l <= phonon_ceiling m)%R.
Proof.
  intros m ae G a l Sa El. destruct (space_unfold m ae a Sa) as (V & _ & _ & Nt & _ & _ & _ & _ & _ & L3).
  rewrite (Exact_proofs.energy_sum m a l (gm_freqs _ _ G) Nt El). unfold phonon_floor, phonon_ceiling.
  assert (H : forall t, In t (seq 0 (m_ntypes m)) -> (0 <= IZR (total_type a t) <= IZR (nth t (m_pn m) 0%Z))%R).
  { intros t Ht. apply in_seq in Ht. specialize (L3 t ltac:(lia)). split; [|apply IZR_le; exact L3]. apply IZR_le. pose proof (occ_type a t [0] V ltac:(lia)). pose proof (valid_nonneg a V (Z.of_nat t :: [0])). unfold occ in *. lia. }
  clear - H. induction (seq 0 (m_ntypes m)) as [|t q IH]; [unfold Rsum; cbn [map fold_right]; lra|].
  rewrite !Rsum_cons. cbn [fold_right]. specialize (IH (fun t' Hi => H t' (or_intror Hi))). specialize (H t (or_introl eq_refl)).
  set (A := Rsum _) in *. set (f := nth t (h_freqs (m_ham m)) 0%R). set (x := IZR (total_type a t)) in *. set (p := IZR (nth t (m_pn m) 0%Z)) in *.
  assert (B : (Rmin 0 (f * p) <= f * x <= Rmax 0 (f * p))%R).
  { destruct (Rle_lt_dec 0 f) as [F|F].
    - assert (0 <= f * p)%R by (apply Rmult_le_pos; lra). rewrite Rmin_left, Rmax_right by lra. split; [apply Rmult_le_pos; lra|apply Rmult_le_compat_l; lra].
    - assert (f * p <= 0)%R by nra. rewrite Rmin_right, Rmax_left by lra. split; nra. }
  lra.
Qed.
Lemma phonon_zero : forall m, (phonon_floor m <= 0 <= phonon_ceiling m)%R.
Proof.
  intros m. unfold phonon_floor, phonon_ceiling. induction (seq 0 (m_ntypes m)) as [|t q IH]; cbn [fold_right]; [lra|].
  set (x := (nth t (h_freqs (m_ham m)) 0 * _)%R). pose proof (Rmin_l 0 x). pose proof (Rmax_l 0 x). lra.
Qed.
Lemma half_width_is : forall m N, half_width m N = Rsum (map (strength_of (h_hop (m_ham m)) N) (moves m)).
Proof.
  intros m N. unfold half_width, moves. rewrite !Rsum_cons. cbn [strength_of].
  replace (Rsum (map (strength_of (h_hop (m_ham m)) N) (map Act (h_terms (m_ham m))))) with (sqrt (IZR N) * fold_right (fun h s => Rabs (ht_coupling h) + s) 0 (h_terms (m_ham m)))%R; [ring|].
  induction (h_terms (m_ham m)) as [|h l IH]; [unfold Rsum; cbn [map fold_right]; ring|]. change (map Act (h :: l)) with (Act h :: map Act l). rewrite Rsum_cons, <- IH. cbn [strength_of fold_right]. ring.
Qed.
Lemma half_width_pos : forall m N, (0 <= half_width m N)%R.
Proof.
  intros m N. unfold half_width. pose proof (Rabs_pos (h_hop (m_ham m))). pose proof (sqrt_pos (IZR N)).
  assert (P : forall l : list (hterm R), (0 <= fold_right (fun h s => Rabs (ht_coupling h) + s) 0 l)%R) by (induction l as [|h l IH]; cbn [fold_right]; [lra|pose proof (Rabs_pos (ht_coupling h)); lra]).
  pose proof (Rmult_le_pos _ _ H0 (P (h_terms (m_ham m)))). lra.
Qed.

(** The row with the phases and the width reversed is that of the conjugate. *)
Lemma cur_conj : forall c hop kk D o n, cur c hop (- kk) (fun n => Cconj (D n)) o n = (- cur c hop kk D o n)%R.
Proof.
  intros c hop kk D o n. unfold cur. replace (phase (- kk) (ahead o)) with (Cconj (phase kk (ahead o))).
  - set (p := phase kk (ahead o)). set (d := D n). set (e := D (step c o n)). set (v := weight c hop o n). unfold Cmul, Cconj, RtoC, Re, Im. cbn [fst snd]. ring.
  - unfold phase, Cexpi, Cconj, Re, Im. cbn [fst snd]. rewrite <- sin_neg. f_equal; [rewrite <- cos_neg|]; f_equal; ring.
Qed.

Section Outside.
Variable m : model R.
Variable ae c : Z.
Variable k : R.
Hypothesis G : good_model m ae.
Hypothesis Hlat : on_lattice m c.
Hypothesis Hherm : forall w eta, hermitian (phys_env m k w eta) m.
Variable N rho : Z.
Hypothesis N_pos : 0 <= N.
Hypothesis HN : Spec_extent.at_most m ae N.
Hypothesis rho_pos : 0 <= rho.
Hypothesis Hrho : Spec_extent.couples_within m c rho.
Let kk := (k * m_lattice m)%R.
Let hop := h_hop (m_ham m).
Let nt := m_ntypes m.
Notation cand := (cand m m ae ae).
Variable w eta : R.
Variable D : placement -> C.
Hypothesis D_cand : forall n, D n <> C0 -> cand n.
Notation T := (fun n => Csum_list (map (term_at c hop kk D n) (moves m))).

Lemma image_mass : forall V o o' W r M, norm_le nt cand D V -> conj_move c o o' -> fits nt c rho o -> Z.abs (ahead o) <= r -> 0 <= r -> rho <= W -> NoDup M -> (forall n, In n M -> cand n /\ inside nt W n) ->
  (Rsum (map (fun n => mass nt D (W + r) (step c o n)) M) <= V)%R.
Proof.
  intros V o o' W r M HV K Fi Sh R0 HW NM IM.
  destruct (sub_list (fun n => D (step c o n) <> C0) M NM) as [M1 [N1 [I1 Q1]]]. rewrite Q1.
  2:{ intros n _ H. unfold mass. destruct (classic (D (step c o n) = C0)) as [-> |E]; [|contradiction]. unfold Cnorm2, C0, Re, Im. cbn [fst snd]. ring. }
  rewrite <- (map_map (step c o) (mass nt D (W + r))). apply HV; [lia| |].
  - apply NoDup_map_on; [|exact N1]. intros x y _ _ E. rewrite <- (step_conj c o o' x K), <- (step_conj c o o' y K), E. reflexivity.
  - intros n Hn. apply in_map_iff in Hn. destruct Hn as [q [<- Hq]]. apply I1 in Hq. destruct Hq as [Hq NZ]. split; [apply D_cand, NZ|].
    apply (inside_mono nt (W + Z.abs (ahead o))); [lia|]. apply (inside_step nt c rho); [exact HW|exact Fi|apply IM, Hq].
Qed.

(** One coupling on a window. *)
Lemma coupling_move : forall V r W M o, norm_le nt cand D V -> 0 <= r -> (forall o, In o (moves m) -> Z.abs (ahead o) <= r) -> rho <= W -> NoDup M -> (forall n, In n M -> cand n /\ inside nt W n) -> In o (moves m) ->
  (Rsum (map (fun n => wt nt (W + r) n * (Cabs (D n) * (Rabs (weight c hop o n) * Cabs (D (step c o n))))) M) <= strength_of hop N o * V)%R.
Proof.
  intros V r W M o HV R0 Sh HW NM IM Ho. set (X := W + r).
  assert (IX : forall n, In n M -> inside nt X n) by (intros n Hn; apply (inside_mono nt W); [unfold X; lia|apply IM, Hn]).
  assert (SV : (Rsum (map (mass nt D X) M) <= V)%R) by (apply HV; [unfold X; lia|exact NM|intros n Hn; split; [apply IM, Hn|apply IX, Hn]]).
  destruct (moves_conj m m c k w eta Hlat eq_refl (Hherm w eta)) as [l [_ Fl]]. destruct (Forall2_in_l _ _ _ _ Fl Ho) as [o' [_ K]].
    pose proof (moves_fit m ae c G rho Hrho o Ho) as Fi. pose proof (strength_pos hop N o) as U0.
    eapply Rle_trans; [apply (Rsum_le _ (fun n => strength_of hop N o * (/ 2 * mass nt D X n + / 2 * mass nt D X (step c o n)))%R)|].
    - intros n Hn. unfold mass. rewrite <- !Cabs_sq. pose proof (Cabs_ge0 (D n)) as A. pose proof (Cabs_ge0 (D (step c o n))) as B. pose proof (wt_pos nt X n) as W0. pose proof (wt_pos nt X (step c o n)) as W1.
      destruct (classic (D (step c o n) = C0)) as [E|E].
      + rewrite E, Cabs_0, !Rmult_0_r, Rplus_0_r. apply Rmult_le_pos; [exact U0|]. apply Rmult_le_pos; [lra|]. apply Rmult_le_pos; [lra|]. apply Rmult_le_pos; exact A.
      + pose proof (D_cand _ E) as Cs. assert (Is : inside nt X (step c o n)).
        { apply (inside_mono nt (W + Z.abs (ahead o))); [specialize (Sh o Ho); unfold X; lia|]. apply (inside_step nt c rho); [exact HW|exact Fi|apply IM, Hn]. }
        destruct (unit_pair nt c rho X N o o' n ltac:(unfold X; lia) Fi K (IX n Hn) Is) as (U1 & U2 & U3); [intros t x; apply (cand_range m m ae ae eq_refl N N_pos HN HN n), IM, Hn|intros t x; apply (cand_range m m ae ae eq_refl N N_pos HN HN _ Cs)|].
        pose proof (Stable_proofs.amgm (Cabs (D n)) (Cabs (D (step c o n))) (wt nt X n) (wt nt X (step c o n)) _ _ (unit_size N o) 1 A B W0 W1 U1 U2 U3 (unit_size_ge0 N o) ltac:(lra)) as Q.
        set (g := match o with Hop _ => Rabs hop | Act h => Rabs (ht_coupling h) end).
        assert (G0 : (0 <= g)%R) by (unfold g; destruct o; apply Rabs_pos).
        assert (E1 : Rabs (weight c hop o n) = (g * unit_weight c o n)%R).
        { unfold g. destruct o as [b|h]; cbn [weight unit_weight]; [ring|]. rewrite Rabs_mult. f_equal. apply Rabs_right. cbn [unit_weight] in U1. lra. }
        assert (E2 : strength_of hop N o = (g * unit_size N o)%R) by (unfold g; destruct o; cbn [strength_of unit_size]; ring).
        rewrite E1, E2. apply (Rmult_le_compat_l g) in Q; [|exact G0]. lra.
    - rewrite Rsum_scal. apply Rmult_le_compat_l; [exact U0|]. rewrite Rsum_add, !Rsum_scal.
      pose proof (image_mass V o o' W r M HV K Fi (Sh o Ho) R0 HW NM IM) as IMG. fold X in IMG. lra.
Qed.

(** |<D, K D>| <= half_width |D|^2 on a window *)
Lemma couplings : forall V r W M, norm_le nt cand D V -> 0 <= r -> (forall o, In o (moves m) -> Z.abs (ahead o) <= r) -> rho <= W -> NoDup M -> (forall n, In n M -> cand n /\ inside nt W n) ->
  (Rsum (map (fun n => wt nt (W + r) n * (Cabs (D n) * Cabs (T n))) M) <= half_width m N * V)%R.
Proof.
  intros V r W M HV R0 Sh HW NM IM. set (X := W + r).
  set (u := fun (o : move) (n : placement) => (wt nt X n * (Cabs (D n) * (Rabs (weight c hop o n) * Cabs (D (step c o n)))))%R).
  assert (P : forall o, In o (moves m) -> (Rsum (map (u o) M) <= strength_of hop N o * V)%R) by (intros o Ho; exact (coupling_move V r W M o HV R0 Sh HW NM IM Ho)).
  rewrite half_width_is. fold hop. eapply Rle_trans; [|apply (sum_swap u (strength_of hop N) V (moves m) M P)].
  apply Rsum_le. intros n _. unfold u. rewrite Rsum_scal. apply Rmult_le_compat_l; [left; apply wt_pos|].
  rewrite Rsum_scal. apply Rmult_le_compat_l; [apply Cabs_ge0|]. eapply Rle_trans; [apply Csum_list_abs|]. rewrite map_map. apply Rsum_le. intros o _. right. unfold term_at. rewrite !Cabs_mul, phase_abs.
  replace (Cabs (RtoC (weight c hop o n))) with (Rabs (weight c hop o n)); [ring|]. unfold Cabs, Cnorm2, RtoC, Re, Im. cbn [fst snd]. rewrite Rmult_0_l, Rplus_0_r. symmetry. apply sqrt_Rsqr_abs.
Qed.

(** The real part of a row. *)
Lemma row_real : forall n E s, row_at c hop kk w eta (moves m) D n E s -> ((w - E) * Cnorm2 (D n) = Re (Cmul (Cconj (D n)) s) - Re (Cmul (Cconj (D n)) (T n)))%R.
Proof. intros n E s <-. cbv beta. set (S := Csum_list _). set (d := D n). unfold Cnorm2, Cmul, Cconj, Cadd, Csub, RtoC, Re, Im. cbn [fst snd]. ring. Qed.

(** [sg = 1] above the band, [sg = -1] below. *)
Definition beyond (sg d : R) : Prop := (sg = 1 \/ sg = -1)%R /\ forall E, (phonon_floor m <= E <= phonon_ceiling m)%R -> (d + half_width m N <= sg * (w - E))%R.
Variable sg d : R.
Hypothesis Hd : (0 < d)%R.
Hypothesis Out : beyond sg d.

Lemma row_out : forall X n E s, (phonon_floor m <= E <= phonon_ceiling m)%R -> row_at c hop kk w eta (moves m) D n E s ->
  ((d + half_width m N) * mass nt D X n <= wt nt X n * (sg * Re (Cmul (Cconj (D n)) s)) + wt nt X n * (Cabs (D n) * Cabs (T n)))%R.
Proof.
  intros X n E s HE Ro. destruct Out as [Sg O]. specialize (O E HE). pose proof (row_real n E s Ro) as Q. cbv beta in Q.
  assert (B : (- (sg * Re (Cmul (Cconj (D n)) (T n))) <= Cabs (D n) * Cabs (T n))%R).
  { pose proof (Re_abs_le (Cmul (Cconj (D n)) (T n))) as A. rewrite Cabs_mul, Cabs_conj in A. pose proof (Rle_abs (Re (Cmul (Cconj (D n)) (T n)))). pose proof (Rle_abs (- Re (Cmul (Cconj (D n)) (T n)))). rewrite Rabs_Ropp in *. cbv beta in *. destruct Sg as [-> | ->]; lra. }
  cbv beta in B. assert (N0 : (0 <= Cnorm2 (D n))%R) by (unfold Cnorm2; pose proof (Rle_0_sqr (Re (D n))); pose proof (Rle_0_sqr (Im (D n))); unfold Rsqr in *; lra).
  apply (Rmult_le_compat_r _ _ _ N0) in O. rewrite Rmult_assoc, Q in O. unfold mass. pose proof (wt_pos nt X n) as W0.
  replace ((d + half_width m N) * (wt nt X n * Cnorm2 (D n)))%R with (wt nt X n * ((d + half_width m N) * Cnorm2 (D n)))%R by ring.
  rewrite <- Rmult_plus_distr_l. apply Rmult_le_compat_l; [lra|]. lra.
Qed.

(** A source of norm [S]. *)
Lemma outside_source : forall s V S, norm_le nt cand D V -> norm_le nt cand s S ->
  (forall n, cand n -> exists E, (phonon_floor m <= E <= phonon_ceiling m)%R /\ row_at c hop kk w eta (moves m) D n E (s n)) -> norm_le nt cand D (S / (d * d)).
Proof.
  intros s V S HV HS Rows. destruct (moves_short m m eq_refl) as [r [R0 Hr]]. destruct (norm_lub nt cand D _ HV) as [V0 [HV0 [V0p Least]]]. pose proof (half_width_pos m N) as HW0.
  set (Q := (half_width m N * V0 + (d / 2 * V0 + / (2 * d) * S))%R).
  assert (HI : (0 < / (2 * d))%R) by (apply Rinv_0_lt_compat; lra).
  assert (X : norm_le nt cand D (Q / (d + half_width m N))).
  { intros j L Hj NL HL. set (W := j + rho). set (X := W + r).
    assert (IW : forall n, In n L -> cand n /\ inside nt W n) by (intros n Hn; destruct (HL n Hn) as [A B]; split; [exact A|apply (inside_mono nt j); [unfold W; lia|exact B]]).
    assert (IX : forall n, In n L -> cand n /\ inside nt X n) by (intros n Hn; destruct (HL n Hn) as [A B]; split; [exact A|apply (inside_mono nt j); [unfold X, W; lia|exact B]]).
    rewrite <- (mass_window nt D j X L); [|intros n Hn; apply HL, Hn|unfold X, W; lia].
    apply (Rmult_le_reg_l (d + half_width m N)); [lra|]. replace ((d + half_width m N) * (Q / (d + half_width m N)))%R with Q by (field; lra). rewrite <- Rsum_scal.
    eapply Rle_trans; [apply (Rsum_le _ (fun n => wt nt X n * (Cabs (D n) * Cabs (T n)) + (d / 2 * mass nt D X n + / (2 * d) * mass nt s X n))%R)|].
    - intros n Hn. destruct (Rows n (proj1 (HL n Hn))) as [E [HE Ro]]. pose proof (row_out X n E (s n) HE Ro) as B. cbv beta in B |- *.
      assert (B1 : (sg * Re (Cmul (Cconj (D n)) (s n)) <= Cabs (s n) * Cabs (D n))%R).
      { pose proof (Re_abs_le (Cmul (Cconj (D n)) (s n))) as A. rewrite Cabs_mul, Cabs_conj in A. pose proof (Rle_abs (Re (Cmul (Cconj (D n)) (s n)))). pose proof (Rle_abs (- Re (Cmul (Cconj (D n)) (s n)))). rewrite Rabs_Ropp in *. destruct (proj1 Out) as [-> | ->]; lra. }
      pose proof (wt_pos nt X n) as W0. apply (Rmult_le_compat_l (wt nt X n)) in B1; [|lra].
      pose proof (Stable_proofs.amgm (Cabs (D n)) (Cabs (s n)) (wt nt X n) (wt nt X n) 1 1 1 d (Cabs_ge0 _) (Cabs_ge0 _) W0 W0 ltac:(lra) ltac:(lra) ltac:(lra) ltac:(lra) Hd) as Qm.
      unfold mass in *. rewrite <- !Cabs_sq in *. lra.
    - rewrite !Rsum_add, !Rsum_scal. unfold Q. apply Rplus_le_compat; [apply (couplings V0 r W L HV0 R0 Hr); [unfold W; lia|exact NL|exact IW]|].
      pose proof (HV0 X L ltac:(unfold X, W; lia) NL IX) as B1. pose proof (HS X L ltac:(unfold X, W; lia) NL IX) as B2.
      apply Rplus_le_compat; apply Rmult_le_compat_l; try assumption; lra. }
  apply Least in X. apply (Rmult_le_compat_l (d + half_width m N)) in X; [|lra]. replace ((d + half_width m N) * (Q / (d + half_width m N)))%R with Q in X by (field; lra). unfold Q in X.
  apply (norm_mono nt cand D V0); [|exact HV0]. apply (Rmult_le_reg_l (d * d)); [apply Rmult_lt_0_compat; lra|]. replace (d * d * (S / (d * d)))%R with S by (field; lra).
  assert (Y : (d * V0 <= d / 2 * V0 + / (2 * d) * S)%R) by lra. apply (Rmult_le_compat_l (2 * d)) in Y; [|lra].
  replace (2 * d * (d / 2 * V0 + / (2 * d) * S))%R with (d * d * V0 + S)%R in Y by (field; lra). lra.
Qed.

(** A source of one at the vacuum. *)
Hypothesis Row_v : row_at c hop kk w eta (moves m) D vacuum 0 C1.
Hypothesis Row_o : forall n, cand n -> n <> vacuum -> exists E, (phonon_floor m <= E <= phonon_ceiling m)%R /\ row_at c hop kk w eta (moves m) D n E C0.

Lemma outside_vacuum : forall V, norm_le nt cand D V -> exists V0, norm_le nt cand D V0 /\ (d * V0 <= sg * Re (D vacuum))%R.
Proof.
  intros V HV. destruct (moves_short m m eq_refl) as [r [R0 Hr]]. destruct (norm_lub nt cand D _ HV) as [V0 [HV0 [V0p Least]]]. pose proof (half_width_pos m N) as HW0.
  destruct (cand_windows m m ae ae G G eq_refl) as [A1 [A2 [P1 [P2 HW]]]].
  exists V0. split; [exact HV0|]. set (Q := (half_width m N * V0 + sg * Re (D vacuum))%R).
  assert (X : norm_le nt cand D (Q / (d + half_width m N))).
  { intros j L Hj NL HL. set (W := j + rho). set (X := W + r). destruct (HW W ltac:(unfold W; lia)) as [M [NM [IM _]]].
    assert (IX : forall n, In n M -> cand n /\ inside nt X n) by (intros n Hn; apply IM in Hn; destruct Hn as [A B]; split; [exact A|apply (inside_mono nt W); [unfold X; lia|exact B]]).
    rewrite <- (mass_window nt D j X L); [|intros n Hn; apply HL, Hn|unfold X, W; lia].
    apply Rle_trans with (Rsum (map (mass nt D X) M)).
    { apply Rsum_incl; [exact NL| |intros; apply mass_pos]. intros n Hn. apply IM. destruct (HL n Hn) as [A B]. split; [exact A|]. apply (inside_mono nt j); [unfold W; lia|exact B]. }
    apply (Rmult_le_reg_l (d + half_width m N)); [lra|]. replace ((d + half_width m N) * (Q / (d + half_width m N)))%R with Q by (field; lra). rewrite <- Rsum_scal.
    apply Rle_trans with (Rsum (map (fun n => wt nt X n * (Cabs (D n) * Cabs (T n)))%R M) + sg * Re (D vacuum))%R.
    - apply (Rsum_one _ _ vacuum); [exact NM|apply IM; split; [left; reflexivity|apply inside_vacuum]| |].
      + intros n Hn Nv. destruct (Row_o n (proj1 (IX n Hn)) Nv) as [E [HE Ro]]. pose proof (row_out X n E C0 HE Ro) as B. cbv beta in B |- *.
        assert (Z0 : Re (Cmul (Cconj (D n)) C0) = 0%R) by (unfold Cmul, Cconj, C0, Re, Im; cbn [fst snd]; ring). rewrite Z0 in B. lra.
      + pose proof (row_out X vacuum 0 C1 (phonon_zero m) Row_v) as B. cbv beta in B |- *.
        assert (Z0 : Re (Cmul (Cconj (D vacuum)) C1) = Re (D vacuum)) by (unfold Cmul, Cconj, C1, Re, Im; cbn [fst snd]; ring). rewrite Z0, wt_vacuum in B. rewrite wt_vacuum. lra.
    - unfold Q. apply Rplus_le_compat_r. apply (couplings V0 r W M HV0 R0 Hr); [unfold W; lia|exact NM|intros n Hn; apply IM, Hn]. }
  apply Least in X. apply (Rmult_le_compat_l (d + half_width m N)) in X; [|lra]. replace ((d + half_width m N) * (Q / (d + half_width m N)))%R with Q in X by (field; lra). unfold Q in X. lra.
Qed.
End Outside.

(** The imaginary part of the Green's function is at most [eta] times the norm of
    the row: nothing leaks out of a large window. *)
Section Optical.
Variable m : model R.
Variable ae c : Z.
Variable k w eta : R.
Hypothesis eta_pos : (0 < eta)%R.
Hypothesis G : good_model m ae.
Hypothesis Hlat : on_lattice m c.
Hypothesis Hherm : hermitian (phys_env m k w eta) m.
Variable N rho : Z.
Hypothesis N_pos : 0 <= N.
Hypothesis HN : Spec_extent.at_most m ae N.
Hypothesis rho_pos : 0 <= rho.
Hypothesis Hrho : Spec_extent.couples_within m c rho.
Variable Psi : placement -> Z -> C.
Hypothesis Row : greens_row m ae c k (w, eta) Psi.
Let kk := (k * m_lattice m)%R.
Let hop := h_hop (m_ham m).
Let nt := m_ntypes m.
Notation cand := (cand m m ae ae).
Notation F := (fun n => Psi n 0).
Let src := source m c k eta Psi.

Lemma optical : forall V, norm_le nt cand F V -> (- Im (Psi vacuum 0%Z) <= eta * V)%R.
Proof.
  intros V HV. set (y := (- Im (Psi vacuum 0%Z))%R).
  destruct (moves_conj m m c k w eta Hlat eq_refl Hherm) as [l [Pl Fl]]. destruct (moves_short m m eq_refl) as [r [R0 Hr]].
  destruct (cand_windows m m ae ae G G eq_refl) as [A1 [A2 [P1 [P2 HW]]]].
  pose proof (moves_fit m ae c G rho Hrho) as Fit. set (os := moves m) in *.
  pose proof (drift_pos nt c hop N rho r os Fit Hr cand A1 A2 HW) as DP. set (dr := drift hop N os) in *.
  assert (SC : forall n, Psi n 0 <> C0 -> cand n) by (intros n H; destruct (F_support m ae c k w eta Psi Row n H) as [-> | [a [s [Sa ->]]]]; [left; reflexivity|right]; exists a, s; split; [left; exact Sa|reflexivity]).
  assert (SO : forall n, n <> vacuum -> src n = 0%R) by (intros n Nn; apply (source_out m ae c k w eta G Psi Row n Nn)).
  assert (SV : src vacuum = y) by exact (source_vac m ae c k w eta Psi Row).
  set (D := fun n => Cconj (F n)).
  assert (MD : forall W n, mass nt D W n = mass nt F W n) by (intros W n; unfold mass, D, Cnorm2, Cconj, Re, Im; cbn [fst snd]; ring).
  assert (T : forall K, 1 <= K -> (IZR K * y <= eta * IZR K * V + dr * V)%R).
  { intros K HK. set (W := K + rho + r + r). set (W1 := K + rho + r). destruct (HW W1 ltac:(unfold W1; lia)) as [M [NM [IM _]]].
    assert (In_W : forall n, In n M -> inside nt W n) by (intros n Hn; apply IM in Hn; apply (inside_mono nt W1); [unfold W, W1; lia|apply Hn]).
    assert (CL : forall n, (chi nt rho r K n <= IZR K)%R) by (intros n; unfold chi; apply IZR_le; pose proof (lev_rho nt rho (K + rho + r + r) n); lia).
    assert (B : (- eta * Rsum (map (fun s => chi nt rho r K s * mass nt D W s) M) <= Rsum (map (fun s => chi nt rho r K s * (wt nt W s * - src s)) M)
      + Rsum (map (fun o => IZR (Z.abs (ahead o)) * strength_of hop N o) os) / 2 * Rsum (map (mass nt D W) M))%R).
    { apply (balance_in nt c hop (- kk) (- eta) N rho os l Pl Fl Fit D (fun n => - src n)%R (chi nt rho r K) (fun o => IZR (Z.abs (ahead o))) W M); [unfold W; lia|exact NM|exact In_W| |intros o; apply IZR_le; lia| | |].
      - intros n Hn. apply (cand_range m m ae ae eq_refl N N_pos HN HN n). apply IM, Hn.
      - intros o s Ho Hs Ns. destruct (classic (F (step c o s) = C0)) as [Z0|NZ]; [left; unfold D; cbv beta in Z0; rewrite Z0; unfold Cconj, C0, Re, Im; cbn [fst snd]; rewrite Ropp_0; reflexivity|right].
        assert (Cs : cand (step c o s)) by (apply SC, NZ). assert (NI : ~ inside nt W1 (step c o s)) by (intros I; apply Ns, IM; split; assumption).
        pose proof (Hr o Ho) as SH. assert (I' : inside nt W (step c o s)).
        { apply (inside_mono nt (W1 + Z.abs (ahead o))); [unfold W, W1; lia|]. apply (inside_step nt c rho); [unfold W1; lia|apply Fit, Ho|]. apply IM, Hs. }
        split; apply (chi_out nt rho r rho_pos K HK); [apply In_W, Hs| |exact I'|].
        + intros I. apply NI. apply (inside_mono nt (K + rho - 1 + Z.abs (ahead o))); [unfold W1; lia|]. apply (inside_step nt c rho); [lia|apply Fit, Ho|exact I].
        + intros I. apply NI. apply (inside_mono nt (K + rho - 1)); [unfold W1; lia|exact I].
      - intros s Hs. right. unfold src, source. fold os hop kk.
        rewrite (Rsum_ext (fun o => cur c hop (- kk) D o s) (fun o => -1 * cur c hop kk F o s)%R) by (intros o _; unfold D; rewrite cur_conj; ring).
        rewrite Rsum_scal. replace (Cnorm2 (D s)) with (Cnorm2 (Psi s 0)) by (unfold D, Cnorm2, Cconj, Re, Im; cbn [fst snd]; ring). ring.
      - intros o s Ho Hs Hs'. apply (chi_step nt c rho r rho_pos os l Pl Fl Fit Hr); [exact Ho|apply In_W, Hs|apply In_W, Hs']. }
    fold (drift hop N os) in B. fold dr in B.
    assert (K0 : (0 <= IZR K)%R) by (apply IZR_le; lia).
    rewrite (Rsum_ext (mass nt D W) (mass nt F W)) in B by (intros; apply MD).
    assert (B2 : (Rsum (map (mass nt F W) M) <= V)%R).
    { rewrite (mass_window nt F W1); [|intros n Hn; apply IM, Hn|unfold W, W1; lia]. apply HV; [unfold W1; lia|exact NM|]. intros n Hn. apply IM, Hn. }
    assert (B1 : (Rsum (map (fun s => chi nt rho r K s * (wt nt W s * - src s)) M) <= - (IZR K * y))%R).
    { eapply Rle_trans; [apply (Rsum_one _ (fun _ => 0%R) vacuum (- (IZR K * y))%R); [exact NM|apply IM; split; [left; reflexivity|apply inside_vacuum]| |]|].
      - intros n _ Nv. rewrite (SO n Nv). lra.
      - rewrite SV, wt_vacuum. right. pose proof (CL vacuum) as U. pose proof (chi_in nt rho r rho_pos K vacuum 0 (inside_vacuum nt _) (inside_vacuum nt _) ltac:(lia)) as I.
        rewrite Z.sub_0_r in I. rewrite (Rle_antisym _ _ U I). ring.
      - apply Rle_trans with (0 + - (IZR K * y))%R; [apply Rplus_le_compat_r; right; apply Rsum_0|lra]. }
    assert (B3 : (Rsum (map (fun s => chi nt rho r K s * mass nt D W s) M) <= IZR K * V)%R).
    { apply Rle_trans with (Rsum (map (fun s => IZR K * mass nt F W s)%R M)).
      - apply Rsum_le. intros n _. rewrite MD. apply Rmult_le_compat_r; [apply mass_pos|]. apply CL.
      - rewrite Rsum_scal. apply Rmult_le_compat_l; assumption. }
    assert (dr * Rsum (map (mass nt F W) M) <= dr * V)%R by (apply Rmult_le_compat_l; assumption).
    assert (eta * Rsum (map (fun s => chi nt rho r K s * mass nt D W s) M) <= eta * (IZR K * V))%R by (apply Rmult_le_compat_l; lra). lra. }
  destruct (Rle_lt_dec y (eta * V)) as [H|H]; [exact H|exfalso]. set (e := (y - eta * V)%R). assert (He : (0 < e)%R) by (unfold e; lra).
  set (X := (dr * V / e)%R). destruct (archimed X) as [U _]. set (K := Z.max 1 (up X)). specialize (T K ltac:(unfold K; lia)).
  assert (UK : (IZR (up X) <= IZR K)%R) by (apply IZR_le; unfold K; lia).
  assert (Q1 : (IZR K * e <= dr * V)%R) by (unfold e; lra).
  assert (Q2 : (X * e = dr * V)%R) by (unfold X; field; lra).
  assert (IZR K * e > X * e)%R by (apply Rmult_gt_compat_r; lra). lra.
Qed.
(** The norm of the row is at most - Im G / eta. *)
Lemma row_exact : (0 <= - Im (Psi vacuum 0%Z))%R -> norm_le nt cand F (- Im (Psi vacuum 0%Z) / eta).
Proof.
  set (y := (- Im (Psi vacuum 0%Z))%R). intros Y0.
  destruct (moves_conj m m c k w eta Hlat eq_refl Hherm) as [l [Pl Fl]]. destruct (moves_short m m eq_refl) as [r [R0 Hr]].
  destruct (cand_windows m m ae ae G G eq_refl) as [A1 [A2 [P1 [P2 HW]]]].
  assert (SC : forall n, Psi n 0 <> C0 -> cand n) by (intros n H; destruct (F_support m ae c k w eta Psi Row n H) as [-> | [a [s [Sa ->]]]]; [left; reflexivity|right]; exists a, s; split; [left; exact Sa|reflexivity]).
  assert (SO : forall n, n <> vacuum -> src n = 0%R) by (intros n Nn; apply (source_out m ae c k w eta G Psi Row n Nn)).
  assert (SV : src vacuum = y) by exact (source_vac m ae c k w eta Psi Row).
  pose proof (norm_F m m ae ae c k w eta eta_pos G G Hlat eq_refl Hherm N rho N_pos HN HN rho_pos Hrho m ae Psi G eq_refl eq_refl (fun a H => or_introl H) Row) as NF.
  apply (sourced nt c hop kk eta eta_pos N rho r rho_pos R0 (moves m) l Pl Fl (moves_fit m ae c G rho Hrho) Hr cand (cand_range m m ae ae eq_refl N N_pos HN HN) A1 A2 HW
    F src SC (fun k n _ _ => eq_refl) (1 / (eta * eta)) y NF Y0).
  intros W M HWr NM IM. destruct (classic (In vacuum M)) as [Iv|Nv].
  - eapply Rle_trans; [apply (Rsum_one _ (fun _ => 0%R) vacuum y); [exact NM|exact Iv| |]|].
    + intros n _ Nn. rewrite (SO n Nn), Rabs_R0. lra.
    + rewrite SV, wt_vacuum, Rabs_right by lra. lra.
    + apply Rle_trans with (0 + y)%R; [apply Rplus_le_compat_r; right; apply Rsum_0|lra].
  - apply Rle_trans with 0%R; [|exact Y0]. right. transitivity (Rsum (map (fun _ : placement => 0%R) M)); [|apply Rsum_0]. apply Rsum_ext. intros n Hn.
    rewrite (SO n) by (intros ->; contradiction). rewrite Rabs_R0. ring.
Qed.

(** The row of the vacuum bounds the norm from below. *)
Lemma vacuum_row : forall V, norm_le nt cand F V -> (1 <= (Cabs (w, eta) + half_width m N) * sqrt V)%R.
Proof.
  intros V HV. pose proof (row_vac m ae c k w eta Psi Row) as Ro. unfold row_at in Ro. fold hop kk in Ro.
  destruct (moves_conj m m c k w eta Hlat eq_refl Hherm) as [l [_ Fl]].
  assert (V0 : (0 <= V)%R) by exact (norm_pos nt cand F V HV).
  assert (SC : forall n, Psi n 0 <> C0 -> cand n) by (intros n H; destruct (F_support m ae c k w eta Psi Row n H) as [-> | [a [s [Sa ->]]]]; [left; reflexivity|right]; exists a, s; split; [left; exact Sa|reflexivity]).
  assert (One : forall n W, 0 <= W -> cand n -> inside nt W n -> (mass nt F W n <= V)%R).
  { intros n W HW0 Cn In_n. pose proof (HV W [n] HW0 ltac:(repeat constructor; intros []) ltac:(intros q [<- | []]; split; assumption)) as S0. unfold Rsum in S0. cbn [map fold_right] in S0. lra. }
  assert (F0 : (Cabs (Psi vacuum 0%Z) <= sqrt V)%R).
  { unfold Cabs. apply sqrt_le_1; [apply Cnorm2_ge0|exact V0|]. pose proof (One vacuum 0 ltac:(lia) (or_introl eq_refl) (inside_vacuum nt 0)) as S0. unfold mass in S0. rewrite wt_vacuum in S0. lra. }
  assert (T : forall o, In o (moves m) -> (Cabs (term_at c hop kk F vacuum o) <= strength_of hop N o * sqrt V)%R).
  { intros o Ho. destruct (Forall2_in_l _ _ _ _ Fl Ho) as [o' [_ K]]. pose proof (moves_fit m ae c G rho Hrho o Ho) as Fi. pose proof (strength_pos hop N o) as U0.
    unfold term_at. rewrite !Cabs_mul, phase_abs, Rmult_1_l. replace (Cabs (RtoC (weight c hop o vacuum))) with (Rabs (weight c hop o vacuum)).
    2:{ unfold Cabs, Cnorm2, RtoC, Re, Im. cbn [fst snd]. rewrite Rmult_0_l, Rplus_0_r. symmetry. apply sqrt_Rsqr_abs. }
    destruct (classic (Psi (step c o vacuum) 0 = C0)) as [E|E].
    - rewrite E, Cabs_0, Rmult_0_r. apply Rmult_le_pos; [exact U0|apply sqrt_pos].
    - pose proof (SC _ E) as Cs. set (W := rho + Z.abs (ahead o)). assert (Is : inside nt W (step c o vacuum)) by (apply (inside_step nt c rho); [lia|exact Fi|apply inside_vacuum]).
      destruct (unit_pair nt c rho W N o o' vacuum ltac:(unfold W; lia) Fi K (inside_vacuum nt W) Is) as (U1 & U2 & U3); [intros t x; apply (cand_range m m ae ae eq_refl N N_pos HN HN vacuum); left; reflexivity|intros t x; apply (cand_range m m ae ae eq_refl N N_pos HN HN _ Cs)|].
      rewrite wt_vacuum, Rmult_1_l in U2. pose proof (One _ W ltac:(unfold W; lia) Cs Is) as S0. unfold mass in S0.
      set (g := match o with Hop _ => Rabs hop | Act h => Rabs (ht_coupling h) end). assert (G0 : (0 <= g)%R) by (unfold g; destruct o; apply Rabs_pos).
      assert (E1 : Rabs (weight c hop o vacuum) = (g * unit_weight c o vacuum)%R).
      { unfold g. destruct o as [b|h]; cbn [weight unit_weight]; [ring|]. rewrite Rabs_mult. f_equal. apply Rabs_right. cbn [unit_weight] in U1. lra. }
      assert (E2 : strength_of hop N o = (g * unit_size N o)%R) by (unfold g; destruct o; cbn [strength_of unit_size]; ring).
      rewrite E1, E2, !Rmult_assoc. apply Rmult_le_compat_l; [exact G0|].
      set (f := Psi (step c o vacuum) 0) in *. set (u := unit_weight c o vacuum) in *. set (u' := unit_weight c o' (step c o vacuum)) in *. pose proof (unit_size_ge0 N o) as Z0. pose proof (Cabs_ge0 f) as F1. pose proof (sqrt_pos V) as Z1.
      apply Rsqr_incr_0; [|apply Rmult_le_pos; assumption|apply Rmult_le_pos; assumption]. unfold Rsqr.
      replace (u * Cabs f * (u * Cabs f))%R with (u * u * (Cabs f * Cabs f))%R by ring. rewrite Cabs_sq.
      replace (unit_size N o * sqrt V * (unit_size N o * sqrt V))%R with (unit_size N o * unit_size N o * (sqrt V * sqrt V))%R by ring. rewrite sqrt_sqrt by exact V0.
      apply Rle_trans with (u * u' * (wt nt W (step c o vacuum) * Cnorm2 f))%R; [right; rewrite U2 at 2; ring|].
      assert (UU : (0 <= u * u')%R).
      { pose proof (wt_pos nt W (step c o vacuum)) as WP. assert (0 <= u')%R; [|apply Rmult_le_pos; assumption]. apply (Rmult_le_reg_l (wt nt W (step c o vacuum))); [exact WP|]. rewrite Rmult_0_r, <- U2. exact U1. }
      apply Rmult_le_compat; [exact UU|apply Rmult_le_pos; [left; apply wt_pos|apply Cnorm2_ge0]|exact U3|exact S0]. }
  assert (B : (Rsum (map (fun o => Cabs (term_at c hop kk F vacuum o)) (moves m)) <= half_width m N * sqrt V)%R).
  { rewrite half_width_is. fold hop. rewrite Rmult_comm, <- Rsum_scal. apply Rsum_le. intros o Ho. rewrite Rmult_comm. apply T, Ho. }
  pose proof (Csum_list_abs (map (term_at c hop kk F vacuum) (moves m))) as A. rewrite map_map in A.
  apply (f_equal Cabs) in Ro. assert (O : Cabs C1 = 1%R) by (unfold Cabs, Cnorm2, C1, Re, Im; cbn [fst snd]; replace (1 * 1 + 0 * 0)%R with 1%R by ring; apply sqrt_1). rewrite O in Ro.
  set (S := Csum_list _) in *. set (z := (w, eta)) in *. replace (Cadd (Csub (Cmul z (Psi vacuum 0)) (Cmul (RtoC 0) (Psi vacuum 0))) S) with (Cadd (Cmul z (Psi vacuum 0)) S) in Ro.
  2:{ apply Ceq; unfold Cadd, Csub, Cmul, RtoC, Re, Im; cbn [fst snd]; ring. }
  pose proof (Cabs_triangle (Cmul z (Psi vacuum 0)) S) as X. rewrite Ro, Cabs_mul in X. pose proof (Rmult_le_compat_l _ _ _ (Cabs_ge0 z) F0). lra.
Qed.
End Optical.

Lemma beyond_above : forall m N w d, above_band m N w d -> beyond m N w 1 d.
Proof. intros m N w d H. split; [left; reflexivity|]. intros E HE. unfold above_band, band_ceiling in H. lra. Qed.
Lemma beyond_below : forall m N w d, below_band m N w d -> beyond m N w (-1) d.
Proof. intros m N w d H. split; [right; reflexivity|]. intros E HE. unfold below_band, band_floor in H. lra. Qed.
Lemma beyond_off : forall m N w d, off_band m N w d -> exists sg, beyond m N w sg d.
Proof. intros m N w d [H|H]; [exists (-1)%R; apply beyond_below, H|exists 1%R; apply beyond_above, H]. Qed.

Section At.
Variable m : model R.
Variable ae c : Z.
Variable k : R.
Hypothesis G : good_model m ae.
Hypothesis Hlat : on_lattice m c.
Hypothesis Hherm : forall w eta, hermitian (phys_env m k w eta) m.
Variable N : Z.
Hypothesis N_pos : 0 <= N.
Hypothesis HN : Spec_extent.at_most m ae N.
Let nt := m_ntypes m.
Notation cand := (cand m m ae ae).

Lemma row_norm : forall w eta sg d P, (0 < eta)%R -> (0 < d)%R -> beyond m N w sg d -> greens_row m ae c k (w, eta) P ->
  exists V, norm_le nt cand (fun n => P n 0) V /\ (d * V <= sg * Re (P vacuum 0%Z))%R.
Proof.
  intros w eta sg d P He Hd B Ro. destruct (Extent_proofs.couples_ex m c) as [rho [R0 CW]].
  apply (outside_vacuum m ae c k G Hlat Hherm N rho N_pos HN R0 CW w eta (fun n => P n 0)) with (V := (1 / (eta * eta))%R); [|exact Hd|exact B|exact (row_vac m ae c k w eta P Ro)| |].
  - intros n H. destruct (F_support m ae c k w eta P Ro n H) as [-> | [a [s [Sa ->]]]]; [left; reflexivity|right]. exists a, s. split; [left; exact Sa|reflexivity].
  - intros n [-> | [a [s [Sa ->]]]] Nv; [contradiction|]. assert (Sm : space m ae a) by (destruct Sa; assumption). destruct (energy_list m ae G a Sm) as [l El].
    exists (phonon_energy l). split; [exact (phonon_range m ae G a l Sm El)|]. exact (row_cloud m ae c k w eta P Ro a l s Sm El).
  - exact (norm_F m m ae ae c k w eta He G G Hlat eq_refl (Hherm w eta) N rho N_pos HN HN R0 CW m ae P G eq_refl eq_refl (fun a H => or_introl H) Ro).
Qed.

(** d |G|^2 <= sg Re G, |G| <= 1 / d, - Im G <= eta / d^2, |row|^2 <= 1 / d^2 *)
Lemma outside_from : forall w eta sg d P V, (sg = 1 \/ sg = -1)%R -> (0 < eta)%R -> (0 < d)%R -> greens_row m ae c k (w, eta) P -> norm_le nt cand (fun n => P n 0) V -> (d * V <= sg * Re (P vacuum 0%Z))%R ->
  (d * Cnorm2 (P vacuum 0%Z) <= sg * Re (P vacuum 0%Z))%R /\ (Cabs (P vacuum 0%Z) <= 1 / d)%R /\ (- Im (P vacuum 0%Z) <= eta / (d * d))%R /\
  norm_le nt cand (fun n => P n 0) (1 / (d * d)).
Proof.
  intros w eta sg d P V Sg He Hd Ro HV BV. pose proof (norm_vacuum nt cand _ V (or_introl eq_refl) HV) as NV. cbv beta in NV.
  set (g := P vacuum 0) in *. assert (RG : (sg * Re g <= Cabs g)%R) by (pose proof (Re_abs_le g); pose proof (Rle_abs (Re g)); pose proof (Rle_abs (- Re g)); rewrite Rabs_Ropp in *; destruct Sg as [-> | ->]; lra).
  pose proof (Cabs_ge0 g) as G0. pose proof (Cabs_sq g) as SQ.
  assert (A0 : (d * Cabs g <= 1)%R).
  { destruct (Req_dec (Cabs g) 0) as [E|E]; [rewrite E; lra|]. apply (Rmult_le_reg_r (Cabs g)); [lra|]. rewrite Rmult_1_l, Rmult_assoc, SQ.
    apply (Rmult_le_compat_l d) in NV; [|lra]. lra. }
  assert (VB : (V <= 1 / (d * d))%R).
  { apply (Rmult_le_reg_l (d * d)); [apply Rmult_lt_0_compat; lra|]. replace (d * d * (1 / (d * d)))%R with 1%R by (field; lra).
    assert (BB : (d * (d * V) <= d * Cabs g)%R) by (apply Rmult_le_compat_l; lra). lra. }
  split; [|split; [|split]].
  - apply (Rmult_le_compat_l d) in NV; [|lra]. lra.
  - apply (Rmult_le_reg_l d); [exact Hd|]. replace (d * (1 / d))%R with 1%R by (field; lra). exact A0.
  - destruct (Extent_proofs.couples_ex m c) as [rho [R0 CW]].
    replace (eta / (d * d))%R with (eta * (1 / (d * d)))%R by (field; lra).
    exact (optical m ae c k w eta He G Hlat (Hherm w eta) N rho N_pos HN R0 CW P Ro _ (norm_mono _ _ _ _ _ VB HV)).
  - exact (norm_mono _ _ _ _ _ VB HV).
Qed.
Lemma outside_at : forall w eta sg d P, (0 < eta)%R -> (0 < d)%R -> beyond m N w sg d -> greens_row m ae c k (w, eta) P ->
  (d * Cnorm2 (P vacuum 0%Z) <= sg * Re (P vacuum 0%Z))%R /\ (Cabs (P vacuum 0%Z) <= 1 / d)%R /\ (- Im (P vacuum 0%Z) <= eta / (d * d))%R /\
  norm_le nt cand (fun n => P n 0) (1 / (d * d)).
Proof.
  intros w eta sg d P He Hd B Ro. destruct (row_norm w eta sg d P He Hd B Ro) as [V [HV BV]]. exact (outside_from w eta sg d P V (proj1 B) He Hd Ro HV BV).
Qed.

(** Two points outside of the band. *)
Lemma outside_two : forall w eta sg d P w' eta' sg' d' P', (0 < eta)%R -> (0 < d)%R -> beyond m N w sg d -> greens_row m ae c k (w, eta) P ->
  (0 < eta')%R -> (0 < d')%R -> beyond m N w' sg' d' -> greens_row m ae c k (w', eta') P' ->
  (d * d' * Cabs (Csub (P' vacuum 0%Z) (P vacuum 0%Z)) <= Cabs (Csub (w', eta') (w, eta)))%R.
Proof.
  intros w eta sg d P w' eta' sg' d' P' He Hd B Ro He' Hd' B' Ro'. destruct (Extent_proofs.couples_ex m c) as [rho [R0 CW]].
  destruct (outside_at w eta sg d P He Hd B Ro) as (_ & _ & _ & NP). destruct (outside_at w' eta' sg' d' P' He' Hd' B' Ro') as (_ & _ & _ & NP').
  assert (SC : forall w eta P, greens_row m ae c k (w, eta) P -> forall n, P n 0 <> C0 -> cand n).
  { intros w0 eta0 P0 Ro0 n H. destruct (F_support m ae c k w0 eta0 P0 Ro0 n H) as [-> | [a [s [Sa ->]]]]; [left; reflexivity|right]. exists a, s. split; [left; exact Sa|reflexivity]. }
  assert (ND : norm_le nt cand (fun n => Csub (P' n 0) (P n 0)) (Cnorm2 (Csub (w, eta) (w', eta')) * (1 / (d' * d')) / (d * d))).
  { apply (outside_source m ae c k G Hlat Hherm N rho N_pos HN R0 CW w eta (fun n => Csub (P' n 0) (P n 0))) with (sg := sg) (s := fun n => Cmul (Csub (w, eta) (w', eta')) (P' n 0)) (V := (2 * (1 / (d' * d')) + 2 * (1 / (d * d)))%R); [|exact Hd|exact B| | |].
    - intros n H. destruct (classic (P n 0 = C0)) as [E|E]; [|exact (SC _ _ _ Ro n E)]. apply (SC _ _ _ Ro'). intros E'. apply H. rewrite E, E'. ring.
    - exact (norm_sub nt cand _ _ _ _ NP' NP).
    - apply (norm_scal nt cand (fun n => P' n 0)). exact NP'.
    - intros n Cn. assert (X : exists E s, (phonon_floor m <= E <= phonon_ceiling m)%R /\ row_at c (h_hop (m_ham m)) (k * m_lattice m) w eta (moves m) (fun n => P n 0) n E s /\ row_at c (h_hop (m_ham m)) (k * m_lattice m) w' eta' (moves m) (fun n => P' n 0) n E s).
      { destruct Cn as [-> | [a [s [Sa ->]]]].
        - exists 0%R, C1. split; [apply phonon_zero|]. split; [exact (row_vac m ae c k w eta P Ro)|exact (row_vac m ae c k w' eta' P' Ro')].
        - assert (Sm : space m ae a) by (destruct Sa; assumption). destruct (energy_list m ae G a Sm) as [l El]. exists (phonon_energy l), C0. split; [exact (phonon_range m ae G a l Sm El)|].
          split; [exact (row_cloud m ae c k w eta P Ro a l s Sm El)|exact (row_cloud m ae c k w' eta' P' Ro' a l s Sm El)]. }
      destruct X as (E & s & HE & R1 & R2). exists E. split; [exact HE|].
      pose proof (row_sub c (h_hop (m_ham m)) (k * m_lattice m) w eta (moves m) _ _ n E _ _ (row_shift c _ _ w eta w' eta' (moves m) _ n E s R2) R1) as X.
      cbv beta in X |- *. set (f := P' n 0) in *. replace (Csub (Cadd s (Cmul (Csub (w, eta) (w', eta')) f)) s) with (Cmul (Csub (w, eta) (w', eta')) f) in X by ring. exact X. }
  pose proof (norm_vacuum nt cand _ _ (or_introl eq_refl) ND) as Q. cbv beta in Q. set (x := Csub (P' vacuum 0) (P vacuum 0)) in *.
  apply Rsqr_incr_0; [|apply Rmult_le_pos; [apply Rmult_le_pos; lra|apply Cabs_ge0]|apply Cabs_ge0]. unfold Rsqr.
  replace (d * d' * Cabs x * (d * d' * Cabs x))%R with (d * d * (d' * d') * (Cabs x * Cabs x))%R by ring. rewrite !Cabs_sq.
  assert (PP : (0 < d * d * (d' * d'))%R) by (apply Rmult_lt_0_compat; apply Rmult_lt_0_compat; lra).
  apply (Rmult_le_compat_l (d * d * (d' * d'))) in Q; [|lra].
  replace (d * d * (d' * d') * (Cnorm2 (Csub (w, eta) (w', eta')) * (1 / (d' * d')) / (d * d)))%R with (Cnorm2 (Csub (w', eta') (w, eta))) in Q; [exact Q|].
  unfold Cnorm2, Csub, Re, Im. cbn [fst snd]. field. lra.
Qed.

(** Lower bounds. *)
Lemma lower_at : forall w eta P V, (0 < eta)%R -> greens_row m ae c k (w, eta) P -> norm_le nt cand (fun n => P n 0) V -> (1 <= (Cabs (w, eta) + half_width m N) ^ 2 * V)%R.
Proof.
  intros w eta P V He Ro HV. destruct (Extent_proofs.couples_ex m c) as [rho [R0 CW]]. pose proof (vacuum_row m ae c k w eta G Hlat (Hherm w eta) N rho N_pos HN R0 CW P Ro V HV) as B.
  pose proof (norm_pos _ _ _ _ HV) as V0. set (a := (Cabs (w, eta) + half_width m N)%R) in *. rewrite <- (sqrt_sqrt V V0). replace (a ^ 2 * (sqrt V * sqrt V))%R with ((a * sqrt V) * (a * sqrt V))%R by ring.
  assert (1 * 1 <= (a * sqrt V) * (a * sqrt V))%R by (apply Rmult_le_compat; lra). lra.
Qed.
Lemma imag_lower : forall w eta P, (0 < eta)%R -> greens_row m ae c k (w, eta) P -> (Im (P vacuum 0%Z) <= 0)%R -> (eta <= (Cabs (w, eta) + half_width m N) ^ 2 * - Im (P vacuum 0%Z))%R.
Proof.
  intros w eta P He Ro I0. destruct (Extent_proofs.couples_ex m c) as [rho [R0 CW]].
  pose proof (lower_at w eta P _ He Ro (row_exact m ae c k w eta He G Hlat (Hherm w eta) N rho N_pos HN R0 CW P Ro ltac:(lra))) as B. set (a := ((Cabs (w, eta) + half_width m N) ^ 2)%R) in *.
  apply (Rmult_le_compat_l eta) in B; [|lra]. replace (eta * (a * (- Im (P vacuum 0%Z) / eta)))%R with (a * - Im (P vacuum 0%Z))%R in B by (field; lra). lra.
Qed.
Lemma real_lower : forall w eta sg d P, (0 < eta)%R -> (0 < d)%R -> beyond m N w sg d -> greens_row m ae c k (w, eta) P -> (d <= (Cabs (w, eta) + half_width m N) ^ 2 * (sg * Re (P vacuum 0%Z)))%R.
Proof.
  intros w eta sg d P He Hd B Ro. destruct (row_norm w eta sg d P He Hd B Ro) as [V [HV BV]]. pose proof (lower_at w eta P V He Ro HV) as L. set (a := ((Cabs (w, eta) + half_width m N) ^ 2)%R) in *.
  assert (A0 : (0 <= a)%R) by apply pow2_ge_0. apply (Rmult_le_compat_l d) in L; [|lra]. apply (Rmult_le_compat_l a) in BV; [|exact A0]. lra.
Qed.
End At.
