(** Proofs for C67: the atomic limit of the Holstein model. *)
From Coq Require Import String ZArith Reals List Bool Lia Lra Permutation Classical FunctionalExtensionality.
From Verif Require Import Base NdArray NdArray_proofs Model HModel Ring Coef Cplx Physics Physics_proofs Toeplitz_proofs Weight_proofs Spec_eom
  Spec_space Spec_engine Spec_model Spec_spectral Energy_proofs Spec_green Cutoff_proofs Tent_proofs Walk_proofs Reach_proofs Full_proofs Spec_exact Extent_proofs Exact_proofs.
Import ListNotations.
Open Scope list_scope.
Open Scope R_scope.

(** * The displaced oscillator *)
Section Series.
Variable a : R.

(** j! times the coefficient of x^j in exp(- a x) (a + x)^n. *)
Fixpoint dd (j n : nat) : R :=
  match j with
  | O => a ^ n
  | S i => match n with O => 0 | S l => INR n * dd i l end - a * dd i n
  end.
Definition pp (n : nat) : R := a ^ n / INR (fact n).

Lemma dd_S : forall j n, dd (S j) (S n) = INR (S n) * dd j n - a * dd j (S n).
Proof. reflexivity. Qed.
Lemma dd_0 : forall j, dd (S j) 0 = - (a * dd j 0).
Proof. intros j. cbn [dd]. ring. Qed.
Lemma pp_S : forall n, INR (S n) * pp (S n) = a * pp n.
Proof.
  intros n. unfold pp. rewrite fact_simpl, mult_INR. cbn [pow]. field. split; [apply INR_fact_neq_0|apply not_0_INR; lia].
Qed.

(** Eigenvectors. *)
Lemma dd_eigen : forall j n, a * dd (S j) n + INR j * dd j n + a * (INR j * match j with O => 0 | S i => dd i n end) = (INR n - a * a) * dd j n.
Proof.
  induction j as [|j IH]; intros n.
  - destruct n as [|n]; [cbn; ring|]. rewrite dd_S. cbn [dd INR pow]. ring.
  - destruct n as [|n].
    + specialize (IH 0%nat). rewrite (dd_0 (S j)), (dd_0 j) in *. destruct j as [|i]; [cbn [INR dd pow] in *; lra|]. rewrite (dd_0 i) in *. rewrite !S_INR in *.
      cbn [INR]. ring.
    + pose proof (IH n) as I1. pose proof (IH (S n)) as I2. rewrite (dd_S (S j) n). rewrite (S_INR j).
      assert (E : dd (S j) (S n) = INR (S n) * dd j n - a * dd j (S n)) by apply dd_S.
      assert (E2 : match j with O => 0 | S i => dd i (S n) end * INR j = INR j * match j with O => 0 | S i => dd i (S n) end) by ring.
      set (x := dd (S j) n) in *. set (y := dd (S j) (S n)) in *. set (u := dd j n) in *. set (v := dd j (S n)) in *.
      assert (Q : INR j * y = INR (S n) * (INR j * u) - a * (INR j * v)) by (rewrite E; ring).
      assert (I1' : a * x = (INR n - a * a) * u - INR j * u - a * (INR j * match j with O => 0 | S i => dd i n end)) by lra.
      assert (I2' : a * y = (INR (S n) - a * a) * v - INR j * v - a * (INR j * match j with O => 0 | S i => dd i (S n) end)) by lra.
      assert (W : INR j * match j with O => 0 | S i => dd i (S n) end * a = INR (S n) * (INR j * match j with O => 0 | S i => dd i n end) - INR j * v).
      { destruct j as [|i]; [cbn [INR]; unfold v; cbn; ring|]. unfold v. rewrite (dd_S i n). ring. }
      set (P := INR j * match j with O => 0 | S i => dd i n end) in *. set (Qq := INR j * match j with O => 0 | S i => dd i (S n) end) in *.
      replace (a * (INR (S n) * x - a * y)) with (INR (S n) * (a * x) - a * (a * y)) by ring. rewrite I1', I2', E.
      replace (a * ((INR (S n) - a * a) * v - INR j * v - a * Qq)) with (a * ((INR (S n) - a * a) * v - INR j * v - Qq * a)) by ring. rewrite W, !(S_INR n). ring.
Qed.

(** * Sums over n *)
Definition late (f : nat -> R) (n : nat) : R := match n with O => 0 | S l => f l end.
Lemma sum_late : forall f N, sum_f_R0 (late f) (S N) = sum_f_R0 f N.
Proof. intros f. induction N as [|N IH]; [cbn; ring|]. change (sum_f_R0 (late f) (S N) + f (S N) = sum_f_R0 f N + f (S N)). rewrite IH. reflexivity. Qed.
Definition uu (j n : nat) : R := pp n * dd j n.
Lemma uu_S : forall j n, uu (S j) n = a * late (uu j) n - a * uu j n.
Proof.
  intros j [|n]; unfold uu, late; [rewrite dd_0; ring|]. rewrite dd_S. replace (pp (S n) * (INR (S n) * dd j n - a * dd j (S n))) with (INR (S n) * pp (S n) * dd j n - a * (pp (S n) * dd j (S n))) by ring.
  rewrite pp_S. ring.
Qed.

Lemma uu_sum : forall j N, sum_f_R0 (fun n => Rabs (uu j n)) N <= (2 * Rabs a) ^ j * exp (a * a).
Proof.
  induction j as [|j IH]; intros N.
  - cbn [pow]. rewrite Rmult_1_l. rewrite (sum_eq _ (fun n => / INR (fact n) * (a * a) ^ n)).
    + apply sum_incr; [|intros n; apply Rmult_le_pos; [left; apply Rinv_0_lt_compat, INR_fact_lt_0|apply pow_le; nra]].
      unfold exp. destruct (exist_exp (a * a)) as [l Hl]. exact Hl.
    + intros n _. unfold uu, pp. cbn [dd]. replace (a ^ n / INR (fact n) * a ^ n) with (/ INR (fact n) * (a * a) ^ n) by (rewrite Rpow_mult_distr; field; apply INR_fact_neq_0).
      apply Rabs_right. apply Rle_ge. apply Rmult_le_pos; [left; apply Rinv_0_lt_compat, INR_fact_lt_0|apply pow_le; nra].
  - assert (A0 : 0 <= Rabs a) by apply Rabs_pos.
    assert (B : forall f, (forall n, 0 <= f n) -> forall N, sum_f_R0 (late f) N <= sum_f_R0 f N).
    { intros f Hf [|n]; [cbn; apply Hf|]. rewrite sum_late. cbn [sum_f_R0]. specialize (Hf (S n)). lra. }
    apply Rle_trans with (sum_f_R0 (fun n => Rabs a * late (fun l => Rabs (uu j l)) n + Rabs a * Rabs (uu j n)) N).
    + apply sum_Rle. intros n _. rewrite uu_S. eapply Rle_trans; [apply Rabs_triang|]. rewrite Rabs_Ropp, !Rabs_mult. apply Rplus_le_compat_r. apply Rmult_le_compat_l; [exact A0|].
      destruct n as [|n]; cbn [late]; [rewrite Rabs_R0; lra|lra].
    + assert (SS : forall f, sum_f_R0 (fun n => Rabs a * f n) N = Rabs a * sum_f_R0 f N) by (intros f; rewrite scal_sum; apply sum_eq; intros; ring).
      rewrite sum_plus, !SS. specialize (IH N). pose proof (B (fun l => Rabs (uu j l)) ltac:(intros; apply Rabs_pos) N) as B1.
      set (S1 := sum_f_R0 (late _) N) in *. set (S2 := sum_f_R0 _ N) in *. set (X := (2 * Rabs a) ^ j * exp (a * a)) in *.
      replace ((2 * Rabs a) ^ S j * exp (a * a)) with (Rabs a * X + Rabs a * X) by (unfold X; cbn [pow]; ring).
      apply Rplus_le_compat; apply Rmult_le_compat_l; lra.
Qed.
End Series.

Lemma series_cv : forall f X, (forall N, sum_f_R0 (fun n => Rabs (f n)) N <= X) -> exists l, Un_cv (sum_f_R0 f) l.
Proof.
  intros f X H. assert (G : Un_growing (sum_f_R0 (fun n => Rabs (f n)))) by (intros n; cbn [sum_f_R0]; pose proof (Rabs_pos (f (S n))); lra).
  assert (B : has_ub (sum_f_R0 (fun n => Rabs (f n)))) by (exists X; intros x [n ->]; apply H).
  destruct (growing_cv _ G B) as [l Hl]. assert (Cs : Cauchy_crit_series f) by (apply cauchy_abs, cv_cauchy_1; exists l; exact Hl).
  destruct (cv_cauchy_2 _ Cs) as [l' Hl']. exists l'. exact Hl'.
Qed.

Fixpoint csum (f : nat -> C) (N : nat) : C := match N with O => f O | S l => Cadd (csum f l) (f N) end.
Lemma csum_ext : forall f g N, (forall n, f n = g n) -> csum f N = csum g N.
Proof. intros f g N H. induction N as [|N IH]; cbn [csum]; [apply H|]. rewrite IH, H. reflexivity. Qed.
Lemma csum_add : forall f g N, csum (fun n => Cadd (f n) (g n)) N = Cadd (csum f N) (csum g N).
Proof. intros f g. induction N as [|N IH]; cbn [csum]; [reflexivity|]. rewrite IH. ring. Qed.
Lemma csum_scal : forall z f N, csum (fun n => Cmul z (f n)) N = Cmul z (csum f N).
Proof. intros z f. induction N as [|N IH]; cbn [csum]; [reflexivity|]. rewrite IH. ring. Qed.
Lemma csum_real : forall f N, csum (fun n => RtoC (f n)) N = RtoC (sum_f_R0 f N).
Proof. intros f. induction N as [|N IH]; cbn [csum sum_f_R0]; [reflexivity|]. rewrite IH. apply Ceq; unfold Cadd, RtoC, Re, Im; cbn [fst snd]; ring. Qed.
Lemma csum_re : forall f N, Re (csum f N) = sum_f_R0 (fun n => Re (f n)) N.
Proof. intros f. induction N as [|N IH]; cbn [csum sum_f_R0]; [reflexivity|]. rewrite <- IH. reflexivity. Qed.
Lemma csum_im : forall f N, Im (csum f N) = sum_f_R0 (fun n => Im (f n)) N.
Proof. intros f. induction N as [|N IH]; cbn [csum sum_f_R0]; [reflexivity|]. rewrite <- IH. reflexivity. Qed.

Lemma uu_cv_0 : forall a, Un_cv (sum_f_R0 (uu a 0)) (exp (a * a)).
Proof.
  intros a. assert (E : forall N, sum_f_R0 (uu a 0) N = sum_f_R0 (fun i => / INR (fact i) * (a * a) ^ i) N).
  { intros N. apply sum_eq. intros n _. unfold uu, pp. cbn [dd]. rewrite Rpow_mult_distr. field. apply INR_fact_neq_0. }
  unfold exp. destruct (exist_exp (a * a)) as [l Hl]. cbn [proj1_sig]. intros eps He. destruct (Hl eps He) as [N HN]. exists N. intros n Hn. rewrite E. apply HN. exact Hn.
Qed.
Lemma cv_late : forall f l, Un_cv (sum_f_R0 f) l -> Un_cv (sum_f_R0 (late f)) l.
Proof. intros f l H eps He. destruct (H eps He) as [N HN]. exists (S N). intros [|n] Hn; [lia|]. rewrite sum_late. apply HN. lia. Qed.
Lemma uu_cv_S : forall a j, Un_cv (sum_f_R0 (uu a (S j))) 0.
Proof.
  intros a j. destruct (series_cv _ _ (uu_sum a j)) as [l Hl]. pose proof (cv_late _ _ Hl) as H2.
  pose proof (CV_minus _ _ _ _ (CV_mult _ _ _ _ (cv_const a) H2) (CV_mult _ _ _ _ (cv_const a) Hl)) as H3. replace (a * l - a * l) with 0 in H3 by ring.
  intros eps He. destruct (H3 eps He) as [N HN]. exists N. intros n Hn. rewrite (sum_eq (uu a (S j)) (fun n => a * late (uu a j) n - a * uu a j n)) by (intros; apply uu_S).
  specialize (HN n Hn). rewrite minus_sum.
  assert (SS : forall f, sum_f_R0 (fun n => a * f n) n = a * sum_f_R0 f n) by (intros f; rewrite scal_sum; apply sum_eq; intros; ring). rewrite !SS. exact HN.
Qed.

(** * The Green's function of one site *)
Section Site.
Variable Om g w eta : R.
Hypothesis Om_nz : Om <> 0.
Hypothesis eta_pos : 0 < eta.
Let a := g / Om.
Definition level (n : nat) : C := (w + g * g / Om - INR n * Om, eta)%R.
Definition res (n : nat) : C := Cinv (level n).

Lemma level_nz : forall n, level n <> C0.
Proof. intros n E. apply (f_equal Im) in E. cbn in E. lra. Qed.
Lemma res_level : forall n, Cmul (res n) (level n) = C1.
Proof. intros n. apply Cinv_l, level_nz. Qed.
Lemma res_bound : forall n, Rabs (Re (res n)) <= 1 / eta /\ Rabs (Im (res n)) <= 1 / eta.
Proof.
  intros n. unfold res, Cinv, level, Cnorm2, Re, Im. cbn [fst snd]. set (x := w + g * g / Om - INR n * Om).
  assert (P : 0 < x * x + eta * eta) by nra. split.
  - unfold Rdiv. rewrite Rabs_mult, (Rabs_right (/ _)) by (left; apply Rinv_0_lt_compat; exact P). apply (Rmult_le_reg_r (x * x + eta * eta)); [exact P|].
    rewrite Rmult_assoc, Rinv_l, Rmult_1_r by lra. apply (Rmult_le_reg_r eta); [exact eta_pos|]. replace (1 * / eta * (x * x + eta * eta) * eta) with (x * x + eta * eta) by (field; lra).
    destruct (Rcase_abs x) as [N|N]; [rewrite (Rabs_left x N)|rewrite (Rabs_right x N)]; nra.
  - unfold Rdiv. rewrite Rabs_mult, (Rabs_right (/ _)) by (left; apply Rinv_0_lt_compat; exact P). rewrite Rabs_Ropp, (Rabs_right eta) by lra. apply (Rmult_le_reg_r (x * x + eta * eta)); [exact P|].
    rewrite Rmult_assoc, Rinv_l, Rmult_1_r by lra. apply (Rmult_le_reg_r eta); [exact eta_pos|]. replace (1 * / eta * (x * x + eta * eta) * eta) with (x * x + eta * eta) by (field; lra). nra.
Qed.

Definition part (j n : nat) : C := Cmul (RtoC (uu a j n)) (res n).
Lemma part_row : forall j n, Csub (Csub (Cmul (w, eta) (part j n)) (Cmul (RtoC (INR j * Om)) (part j n)))
  (Cadd (Cmul (RtoC g) (part (S j) n)) (Cmul (RtoC (g * INR j)) (part (pred j) n))) = RtoC (uu a j n).
Proof.
  intros j n. transitivity (Cmul (RtoC (uu a j n)) (Cmul (res n) (level n))); [|rewrite res_level; ring].
  assert (E : Om * (INR n - a * a) * uu a j n = g * uu a (S j) n + INR j * Om * uu a j n + g * INR j * uu a (pred j) n).
  { unfold uu. pose proof (dd_eigen a j n) as D. transitivity (Om * pp a n * ((INR n - a * a) * dd a j n)); [ring|]. rewrite <- D.
    assert (G : g = a * Om) by (unfold a; field; exact Om_nz). destruct j as [|i]; cbn [pred]; [cbn [INR]|]; rewrite G; unfold a; ring. }
  unfold part. destruct (res n) as [x y]. unfold level.
  assert (Q : w + g * g / Om - INR n * Om = w - Om * (INR n - a * a)) by (unfold a; field; exact Om_nz). rewrite Q. clear Q.
  apply Ceq; unfold Csub, Cadd, Copp, Cmul, RtoC, Re, Im; cbn [fst snd].
  - replace (uu a j n * (x * (w - Om * (INR n - a * a)) - y * eta) - 0 * (x * eta + y * (w - Om * (INR n - a * a)))) with (uu a j n * (x * w - y * eta) - x * (Om * (INR n - a * a) * uu a j n)) by ring. rewrite E. ring.
  - replace (uu a j n * (x * eta + y * (w - Om * (INR n - a * a))) + 0 * (x * (w - Om * (INR n - a * a)) - y * eta)) with (uu a j n * (x * eta + y * w) - y * (Om * (INR n - a * a) * uu a j n)) by ring. rewrite E. ring.
Qed.

Lemma part_cv : forall j, exists z, Ccv (csum (part j)) z.
Proof.
  intros j. assert (B0 : 0 < 1 / eta) by (apply Rdiv_lt_0_compat; lra).
  assert (H : forall f : nat -> R, (forall n, Rabs (f n) <= 1 / eta) -> exists l, Un_cv (sum_f_R0 (fun n => uu a j n * f n)) l).
  { intros f Hf. apply (series_cv _ ((2 * Rabs a) ^ j * exp (a * a) * (1 / eta))). intros N.
    apply Rle_trans with (sum_f_R0 (fun n => Rabs (uu a j n) * (1 / eta)) N).
    - apply sum_Rle. intros n _. rewrite Rabs_mult. apply Rmult_le_compat_l; [apply Rabs_pos|apply Hf].
    - rewrite <- scal_sum. rewrite (Rmult_comm (1 / eta)). apply Rmult_le_compat_r; [lra|apply uu_sum]. }
  destruct (H (fun n => Re (res n)) (fun n => proj1 (res_bound n))) as [x Hx]. destruct (H (fun n => Im (res n)) (fun n => proj2 (res_bound n))) as [y Hy].
  exists (x, y). split; cbn [Re Im fst snd]; intros eps He; [destruct (Hx eps He) as [N HN]|destruct (Hy eps He) as [N HN]]; exists N; intros n Hn; specialize (HN n Hn).
  - rewrite csum_re. rewrite (sum_eq _ (fun n => uu a j n * Re (res n))); [exact HN|]. intros i _. unfold part, Cmul, RtoC, Re, Im. cbn [fst snd]. ring.
  - rewrite csum_im. rewrite (sum_eq _ (fun n => uu a j n * Im (res n))); [exact HN|]. intros i _. unfold part, Cmul, RtoC, Re, Im. cbn [fst snd]. ring.
Qed.

Definition amp (f : nat -> C) : Prop := forall j, Ccv (fun N => Cmul (RtoC (exp (- (a * a)))) (csum (part j) N)) (f j).
Lemma amp_ex : exists f, amp f.
Proof.
  destruct (complex_choice (fun j z => Ccv (csum (part j)) z) part_cv (fun j x y => Ccv_unique _ x y)) as [f Hf].
  exists (fun j => Cmul (RtoC (exp (- (a * a)))) (f j)). intros j. apply (Ccv_mul (fun _ => RtoC (exp (- (a * a)))) (csum (part j))); [apply Ccv_const|apply Hf].
Qed.

Lemma amp_row : forall f, amp f -> forall j, Csub (Csub (Cmul (w, eta) (f j)) (Cmul (RtoC (INR j * Om)) (f j)))
  (Cadd (Cmul (RtoC g) (f (S j))) (Cmul (RtoC (g * INR j)) (f (pred j)))) = if Nat.eqb j 0 then C1 else C0.
Proof.
  intros f Hf j. set (e := RtoC (exp (- (a * a)))).
  assert (L : Ccv (fun N => Cmul e (RtoC (sum_f_R0 (uu a j) N))) (if Nat.eqb j 0 then C1 else C0)).
  { destruct j as [|j]; cbn [Nat.eqb].
    - replace C1 with (Cmul e (RtoC (exp (a * a)))).
      + apply (Ccv_mul (fun _ => e)); [apply Ccv_const|]. split; [exact (uu_cv_0 a)|exact (cv_const 0)].
      + unfold e. apply Ceq; unfold Cmul, RtoC, C1, Re, Im; cbn [fst snd]; [|ring]. rewrite <- exp_plus. replace (- (a * a) + a * a) with 0 by ring. rewrite exp_0. ring.
    - replace C0 with (Cmul e (RtoC 0)).
      + apply (Ccv_mul (fun _ => e)); [apply Ccv_const|]. split; [exact (uu_cv_S a j)|exact (cv_const 0)].
      + apply Ceq; unfold Cmul, RtoC, C0, Re, Im; cbn [fst snd]; ring. }
  refine (Ccv_unique _ _ _ _ L). clear L.
  set (U := fun j N => Cmul e (csum (part j) N)).
  assert (E : (fun N => Cmul e (RtoC (sum_f_R0 (uu a j) N))) = (fun N => Csub (Csub (Cmul (w, eta) (U j N)) (Cmul (RtoC (INR j * Om)) (U j N))) (Cadd (Cmul (RtoC g) (U (S j) N)) (Cmul (RtoC (g * INR j)) (U (pred j) N))))).
  { apply functional_extensionality. intros N. rewrite <- csum_real, <- (csum_ext _ _ N (part_row j)). unfold U.
    rewrite (csum_ext _ (fun n => Cadd (Cadd (Cmul (w, eta) (part j n)) (Cmul (Copp (RtoC (INR j * Om))) (part j n))) (Cadd (Cmul (Copp (RtoC g)) (part (S j) n)) (Cmul (Copp (RtoC (g * INR j))) (part (pred j) n))))) by (intros n; ring).
    rewrite !csum_add, !csum_scal. ring. }
  rewrite E. pose proof (Hf j) as H1. pose proof (Hf (S j)) as H2. pose proof (Hf (pred j)) as H3.
  apply (Ccv_sub (fun N => Csub (Cmul (w, eta) (U j N)) (Cmul (RtoC (INR j * Om)) (U j N))) (fun N => Cadd (Cmul (RtoC g) (U (S j) N)) (Cmul (RtoC (g * INR j)) (U (pred j) N)))).
  - apply (Ccv_sub (fun N => Cmul (w, eta) (U j N)) (fun N => Cmul (RtoC (INR j * Om)) (U j N))).
    + apply (Ccv_mul (fun _ => (w, eta)) (U j)); [apply Ccv_const|exact H1].
    + apply (Ccv_mul (fun _ => RtoC (INR j * Om)) (U j)); [apply Ccv_const|exact H1].
  - apply (Ccv_add (fun N => Cmul (RtoC g) (U (S j) N)) (fun N => Cmul (RtoC (g * INR j)) (U (pred j) N))).
    + apply (Ccv_mul (fun _ => RtoC g) (U (S j))); [apply Ccv_const|exact H2].
    + apply (Ccv_mul (fun _ => RtoC (g * INR j)) (U (pred j))); [apply Ccv_const|exact H3].
Qed.

Lemma amp_bound : forall f, amp f -> forall j, Cnorm2 (f j) <= 2 / (eta * eta) * (4 * (a * a)) ^ j.
Proof.
  intros f Hf j. pose proof (Ccv_norm2 _ _ (Hf j)) as Hn. apply (@Rle_cv_lim (fun N => Cnorm2 (Cmul (RtoC (exp (- (a * a)))) (csum (part j) N))) (fun _ => 2 / (eta * eta) * (4 * (a * a)) ^ j) _ _); [|exact Hn|apply cv_const].
  intros N. assert (B0 : 0 < 1 / eta) by (apply Rdiv_lt_0_compat; lra). set (X := (2 * Rabs a) ^ j). pose proof (exp_pos (a * a)) as EP.
  assert (X0 : 0 <= X) by (apply pow_le; pose proof (Rabs_pos a); lra).
  assert (H : forall h : nat -> R, (forall n, Rabs (h n) <= 1 / eta) -> Rabs (sum_f_R0 (fun n => uu a j n * h n) N) <= X * exp (a * a) * (1 / eta)).
  { intros h Hh. eapply Rle_trans; [apply PartSum.Rsum_abs|]. apply Rle_trans with (sum_f_R0 (fun n => Rabs (uu a j n) * (1 / eta)) N).
    - apply sum_Rle. intros n _. rewrite Rabs_mult. apply Rmult_le_compat_l; [apply Rabs_pos|apply Hh].
    - rewrite <- scal_sum. rewrite (Rmult_comm (1 / eta)). apply Rmult_le_compat_r; [lra|apply uu_sum]. }
  assert (EE : exp (- (a * a)) * exp (a * a) = 1) by (rewrite <- exp_plus; replace (- (a * a) + a * a) with 0 by ring; apply exp_0).
  assert (S2 : forall x, Rabs x <= X * exp (a * a) * (1 / eta) -> (exp (- (a * a)) * x) * (exp (- (a * a)) * x) <= 1 / (eta * eta) * (4 * (a * a)) ^ j).
  { intros x Hx. set (y := exp (- (a * a)) * x). pose proof (exp_pos (- (a * a))) as EN.
    assert (Hy : Rabs y <= X * (1 / eta)).
    { unfold y. rewrite Rabs_mult, (Rabs_right (exp _)) by lra. replace (X * (1 / eta)) with (exp (- (a * a)) * (X * exp (a * a) * (1 / eta))).
      - apply Rmult_le_compat_l; lra.
      - replace (exp (- (a * a)) * (X * exp (a * a) * (1 / eta))) with (exp (- (a * a)) * exp (a * a) * (X * (1 / eta))) by ring. rewrite EE. ring. }
    replace (y * y) with (Rabs y * Rabs y) by (rewrite <- Rabs_mult; apply Rabs_right; nra).
    replace (1 / (eta * eta) * (4 * (a * a)) ^ j) with (X * (1 / eta) * (X * (1 / eta))).
    - apply Rmult_le_compat; try exact Hy; apply Rabs_pos.
    - unfold X. replace (4 * (a * a)) with ((2 * Rabs a) * (2 * Rabs a)); [generalize (2 * Rabs a); intros v; rewrite Rpow_mult_distr; field; lra|]. replace (2 * Rabs a * (2 * Rabs a)) with (4 * (Rabs a * Rabs a)) by ring. rewrite <- Rabs_mult, (Rabs_right (a * a)) by nra. reflexivity. }
  pose proof (H (fun n => Re (res n)) (fun n => proj1 (res_bound n))) as HR. pose proof (H (fun n => Im (res n)) (fun n => proj2 (res_bound n))) as HI.
  rewrite (sum_eq _ (fun n => Re (part j n))) in HR by (intros i _; unfold part, Cmul, RtoC, Re, Im; cbn [fst snd]; ring). rewrite <- csum_re in HR.
  rewrite (sum_eq _ (fun n => Im (part j n))) in HI by (intros i _; unfold part, Cmul, RtoC, Re, Im; cbn [fst snd]; ring). rewrite <- csum_im in HI.
  apply S2 in HR. apply S2 in HI. set (z := csum (part j) N) in *. replace (Cnorm2 (Cmul (RtoC (exp (- (a * a)))) z)) with (exp (- (a * a)) * Re z * (exp (- (a * a)) * Re z) + exp (- (a * a)) * Im z * (exp (- (a * a)) * Im z)).
  - replace (2 / (eta * eta)) with (1 / (eta * eta) + 1 / (eta * eta)) by (field; lra). lra.
  - unfold Cnorm2, Cmul, RtoC, Re, Im. cbn [fst snd]. ring.
Qed.
End Site.

(** * The functional on all states *)
Definition onsite (lat Om g : R) (M N : Z) : model R :=
  mkModel lat 0%R (mkHam [mkHterm "Holstein" (ivec [0%Z]) (ivec [0%Z]) Plus (- (g * 1))%R 0 Om; mkHterm "Holstein" (ivec [0%Z]) (ivec [0%Z]) Minus (- (g * 1))%R 0 Om] [Om] 1 0%R) None [M] [N] None 1.
Definition pile (j : nat) : placement := fun t x => if Nat.eqb t 0 && (x =? 0)%Z then Z.of_nat j else 0%Z.
Lemma pile_at : forall j, pile j 0%nat 0%Z = Z.of_nat j.
Proof. reflexivity. Qed.
Lemma pile_0 : pile 0 = vacuum.
Proof. apply functional_extensionality. intros t. apply functional_extensionality. intros x. unfold pile, vacuum. destruct (_ && _); reflexivity. Qed.
Lemma pile_inj : forall i j, pile i = pile j -> i = j.
Proof. intros i j E. apply (f_equal (fun p : placement => p 0%nat 0%Z)) in E. rewrite !pile_at in E. lia. Qed.
Lemma pile_inside : forall W j, (0 <= W)%Z -> inside 1 W (pile j).
Proof. intros W j HW t x H. unfold pile in H. destruct (Nat.eqb_spec t 0) as [E1|E1], (Z.eqb_spec x 0) as [E2|E2]; cbn [andb] in H; try (exfalso; apply H; reflexivity). split; lia. Qed.
Lemma pile_changed : forall j (e : Z) i, Z.of_nat i = (Z.of_nat j + e)%Z -> changed (pile j) 0 0 e = pile i.
Proof.
  intros j e i H. apply functional_extensionality. intros t. apply functional_extensionality. intros x. unfold changed, pile.
  destruct (Nat.eqb t 0), (Z.eqb_spec x 0); cbn [andb]; try reflexivity; try lia.
Qed.
Lemma pile_back : forall n (e : Z) j, (0 <= n 0%nat 0%Z)%Z -> changed n 0 0 e = pile j -> exists i, n = pile i.
Proof.
  intros n e j H E. exists (Z.to_nat (n 0%nat 0%Z)). apply functional_extensionality. intros t. apply functional_extensionality. intros x.
  apply (f_equal (fun p : placement => p t x)) in E. unfold changed, pile in *. destruct (Nat.eqb_spec t 0) as [-> | ]; cbn [andb] in *; [|lia].
  destruct (Z.eqb_spec x 0) as [E2|E2]; cbn [andb] in *; [rewrite E2|]; lia.
Qed.
Lemma pile_sum : forall phi : nat -> Z -> R, (forall t, phi t 0%Z = 0) -> forall W j, (0 <= W)%Z -> gsum phi (pile j) (modes 1 W) = phi 0%nat (Z.of_nat j).
Proof.
  intros phi P0 W j HW. replace (pile j) with (changed (pile 0) 0 0 (Z.of_nat j)) by (apply pile_changed; lia).
  rewrite (gsum_changed 1 phi) by lia. rewrite (pile_at 0), pile_0. replace (gsum phi vacuum (modes 1 W)) with 0; [rewrite Z.add_0_l, P0; ring|].
  unfold gsum. symmetry. rewrite (Rsum_ext _ (fun _ => 0)); [apply Rsum_0|]. intros p _. apply P0.
Qed.

Definition at_pile (f : nat -> C) (F : placement -> C) : Prop := (forall j, F (pile j) = f j) /\ forall n, F n <> C0 -> exists j, n = pile j.
Lemma at_pile_ex : forall f, exists F, at_pile f F.
Proof.
  intros f. destruct (complex_choice (fun n z => (exists j, n = pile j /\ z = f j) \/ ((forall j, n <> pile j) /\ z = C0))) as [F HF].
  - intros n. destruct (classic (exists j, n = pile j)) as [[j H] | H]; [exists (f j); left; exists j; split; [exact H|reflexivity]|exists C0; right]. split; [|reflexivity]. intros j E. apply H. exists j. exact E.
  - intros n x y [[i [E1 ->]] | [H1 ->]] [[j [E2 ->]] | [H2 ->]]; [|exfalso; exact (H2 i E1)|exfalso; exact (H1 j E2)|reflexivity]. rewrite E1 in E2. apply pile_inj in E2. subst. reflexivity.
  - exists F. split.
    + intros j. destruct (HF (pile j)) as [[i [E ->]] | [H _]]; [apply pile_inj in E; subst; reflexivity|exfalso; exact (H j eq_refl)].
    + intros n H. destruct (HF n) as [[i [E _]] | [_ E]]; [exists i; exact E|contradiction].
Qed.

Section Onsite.
Variable lat Om g w eta k : R.
Variable M N : Z.
Hypothesis Om_nz : Om <> 0.
Hypothesis eta_pos : 0 < eta.
Variable f : nat -> C.
Hypothesis Hf : amp Om g w eta f.
Variable F : placement -> C.
Hypothesis HF : at_pile f F.
Let m := onsite lat Om g M N.

Lemma onsite_support : forall n, F n <> C0 -> full m n.
Proof.
  intros n H. destruct (proj2 HF n H) as [j ->]. split; [|split].
  - intros t x. unfold pile. destruct (_ && _); lia.
  - exists 0%Z. apply near_inside. apply pile_inside. lia.
  - intros q E. discriminate E.
Qed.

Lemma onsite_rows : forall K p, has_rows m 0 k w eta F K p.
Proof.
  intros K p n s D I _ V1 V2. unfold row_at. change (moves m) with [Hop true; Hop false; Act (mkHterm "Holstein" (ivec [0%Z]) (ivec [0%Z]) Plus (- (g * 1)) 0 Om); Act (mkHterm "Holstein" (ivec [0%Z]) (ivec [0%Z]) Minus (- (g * 1)) 0 Om)].
  set (hp := mkHterm "Holstein" (ivec [0%Z]) (ivec [0%Z]) Plus (- (g * 1)) 0 Om). set (hm := mkHterm "Holstein" (ivec [0%Z]) (ivec [0%Z]) Minus (- (g * 1)) 0 Om).
  assert (Sp : step 0 (Act hp) n = changed n 0 0 1) by exact (translated_0 m _).
  assert (Sm : step 0 (Act hm) n = changed n 0 0 (-1)) by exact (translated_0 m _).
  assert (T : Csum_list (map (term_at 0 (h_hop (m_ham m)) (k * m_lattice m) F n) [Hop true; Hop false; Act hp; Act hm])
    = Cadd (Cmul (RtoC (- g)) (F (changed n 0 0 1))) (Cmul (RtoC (- g * IZR (n 0%nat 0%Z))) (F (changed n 0 0 (-1))))).
  { unfold Csum_list. cbn [map fold_right]. unfold term_at. rewrite Sp, Sm.
    change (ahead (Act hp)) with 0%Z. change (ahead (Act hm)) with 0%Z. rewrite phase_0.
    change (weight 0 (h_hop (m_ham m)) (Hop true) n) with 0. change (weight 0 (h_hop (m_ham m)) (Hop false) n) with 0.
    change (weight 0 (h_hop (m_ham m)) (Act hp) n) with (- (g * 1) * 1). change (weight 0 (h_hop (m_ham m)) (Act hm) n) with (- (g * 1) * IZR (n 0%nat 0%Z)).
    replace (- (g * 1) * 1) with (- g) by ring. replace (- (g * 1) * IZR (n 0%nat 0%Z)) with (- g * IZR (n 0%nat 0%Z)) by ring. change (RtoC 0) with C0. ring. }
  etransitivity; [apply f_equal; exact T|]. clear T Sp Sm. destruct (classic (exists j, n = pile j)) as [[j ->] | NP].
  - assert (K0 : (0 <= K)%Z \/ pile j = vacuum).
    { destruct (Z.le_gt_cases 0 K) as [X | X]; [left; exact X|right]. apply functional_extensionality. intros t. apply functional_extensionality. intros x. destruct (Z.eq_dec (pile j t x) 0) as [Z|Z]; [exact Z|destruct (I t x Z); lia]. }
    assert (EN : energy m K (pile j) = INR j * Om).
    { destruct K0 as [K0 | V].
      - rewrite energy_gsum. change (m_ntypes m) with 1%nat. rewrite pile_sum; [|intros; apply ph_0|exact K0]. unfold ph. cbn [m onsite m_ham h_freqs nth]. rewrite <- INR_IZR_INZ. ring.
      - assert (J : j = 0%nat) by (apply pile_inj; rewrite V, pile_0; reflexivity). subst j. rewrite V, energy_vacuum. cbn [INR]. ring. }
    rewrite EN. clear EN K0. rewrite pile_at, <- INR_IZR_INZ. rewrite (pile_changed j 1 (S j)) by lia. pose proof (amp_row Om g w eta Om_nz eta_pos f Hf j) as A. rewrite !(proj1 HF).
    assert (S0 : s = if Nat.eqb j 0 then C1 else C0).
    { destruct (Nat.eqb_spec j 0) as [-> | NJ]; [apply V1, pile_0|apply V2]. rewrite <- pile_0. intros E. apply NJ. exact (pile_inj _ _ E). }
    rewrite S0, <- A. destruct j as [|i].
    + cbn [INR pred]. apply Ceq; unfold Csub, Cadd, Copp, Cmul, RtoC, Re, Im; cbn [fst snd]; ring.
    + rewrite (pile_changed (S i) (-1) i) by lia. rewrite (proj1 HF). cbn [pred]. apply Ceq; unfold Csub, Cadd, Copp, Cmul, RtoC, Re, Im; cbn [fst snd]; ring.
  - assert (Z : forall n', (forall j, n' <> pile j) -> F n' = C0).
    { intros n' H. apply NNPP. intros X. destruct (proj2 HF n' X) as [j E]. exact (H j E). }
    rewrite (Z n), (Z (changed n 0 0 1)), (Z (changed n 0 0 (-1))).
    + rewrite V2; [ring|]. intros ->. apply NP. exists 0%nat. symmetry. exact pile_0.
    + intros j E. apply NP. exact (pile_back n _ j (proj1 D 0%nat 0%Z) E).
    + intros j E. apply NP. exact (pile_back n _ j (proj1 D 0%nat 0%Z) E).
    + intros j E. apply NP. exists j. exact E.
Qed.

Lemma exp_part : forall x J, 0 <= x -> sum_f_R0 (fun j => x ^ j / INR (fact j)) J <= exp x.
Proof.
  intros x J Hx. rewrite (sum_eq _ (fun j => / INR (fact j) * x ^ j)) by (intros; field; apply INR_fact_neq_0).
  apply sum_incr; [|intros n; apply Rmult_le_pos; [left; apply Rinv_0_lt_compat, INR_fact_lt_0|apply pow_le; exact Hx]]. unfold exp. destruct (exist_exp x) as [l Hl]. exact Hl.
Qed.
Lemma sum_list : forall h J, Rsum (map h (seq 0 (S J))) = sum_f_R0 h J.
Proof. intros h. induction J as [|J IH]; [cbn; ring|]. rewrite seq_S, Rsum_app, IH. cbn. ring. Qed.

Lemma onsite_norm : norm_le 1 (full m) F (2 / (eta * eta) * exp (4 * (g / Om * (g / Om)))).
Proof.
  intros r L Hr ND HL. set (a := g / Om). destruct (sub_list (fun n => exists j, n = pile j) L ND) as [L2 [ND2 [EL Q]]].
  rewrite (Q (mass 1 F r)).
  2:{ intros n _ H. unfold mass. replace (F n) with C0; [unfold Cnorm2, C0; cbn [Re Im fst snd]; ring|]. symmetry. apply NNPP. intros X. apply H. exact (proj2 HF n X). }
  assert (BJ : exists J, forall n, In n L2 -> exists j, (j <= J)%nat /\ n = pile j).
  { assert (A : forall n, In n L2 -> exists j, n = pile j) by (intros n Hn; apply EL in Hn; tauto). clear - A. induction L2 as [|n l IH]; [exists 0%nat; intros n []|].
    destruct IH as [J HJ]; [intros x Hx; apply A; right; exact Hx|]. destruct (A n (or_introl eq_refl)) as [j Ej]. exists (Nat.max j J). intros x [<- | Hx]; [exists j; split; [lia|exact Ej]|].
    destruct (HJ x Hx) as [i [Hi Ei]]. exists i. split; [lia|exact Ei]. }
  destruct BJ as [J HJ]. apply Rle_trans with (Rsum (map (mass 1 F r) (map pile (seq 0 (S J))))).
  - apply Rsum_incl; [exact ND2| |intros; apply mass_pos]. intros n Hn. destruct (HJ n Hn) as [j [Hj ->]]. apply in_map, in_seq. lia.
  - rewrite map_map, sum_list. apply Rle_trans with (sum_f_R0 (fun j => (4 * (a * a)) ^ j / INR (fact j) * (2 / (eta * eta))) J).
    + apply sum_Rle. intros j _. unfold mass. rewrite (proj1 HF). unfold wt, lsum. rewrite (pile_sum (fun _ => lf)) by (try (intros; apply lf_0); exact Hr). unfold lf. rewrite Nat2Z.id, exp_Ropp, exp_ln by apply INR_fact_lt_0.
      pose proof (amp_bound Om g w eta eta_pos f Hf j) as B. fold a in B. pose proof (INR_fact_lt_0 j) as FP. apply (Rmult_le_compat_l (/ INR (fact j))) in B; [|left; apply Rinv_0_lt_compat; exact FP].
      eapply Rle_trans; [exact B|]. right. unfold Rdiv. ring.
    + rewrite <- scal_sum. apply Rmult_le_compat_l; [apply Rmult_le_pos; [lra|left; apply Rinv_0_lt_compat; nra]|]. apply exp_part. nra.
Qed.
End Onsite.
