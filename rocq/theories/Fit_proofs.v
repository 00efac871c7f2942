(** Proofs for C77: the peak finders on values which obey the bounds of
    Nevan_proofs.v. *)
From Coq Require Import Reals List Lra Psatz.
From Verif Require Import Base Cplx Physics.
Open Scope R_scope.

Section Fit.
Variables (w A A' e e' : R).
Hypothesis A0 : 0 < A.
Hypothesis A0' : 0 < A'.
Hypothesis e0 : 0 < e.
Hypothesis e0' : 0 < e'.
Let d1 := A' * e - A * e'.
Let d2 := A * e - A' * e'.
Hypothesis Rad : 0 < d1 * d2.
Let s := e * e' * d2 / d1.

Lemma d1_not : d1 <> 0. Proof. intros E. rewrite E in Rad. lra. Qed.
Lemma s_pos : 0 < s.
Proof. unfold s. pose proof d1_not as Z. replace (e * e' * d2 / d1) with (e * e' * (d1 * d2) / (d1 * d1)) by (field; exact Z). pose proof (Rlt_0_sqr _ Z) as Q. unfold Rsqr in Q. apply Rdiv_lt_0_compat; [|exact Q]. apply Rmult_lt_0_compat; [|exact Rad]. apply Rmult_lt_0_compat; assumption. Qed.

Lemma fit_loc : fst (peak_location_and_weight w A A' e e') = w - sqrt s.
Proof.
  unfold peak_location_and_weight. cbv zeta. cbn [fst]. fold d1 d2. f_equal. pose proof d1_not as Z.
  assert (Sq : 0 < sqrt (d1 * d2)) by (apply sqrt_lt_R0; exact Rad).
  apply Rsqr_inj; [apply Rabs_pos|apply sqrt_pos|]. rewrite <- Rsqr_abs. rewrite (Rsqr_sqrt s) by (left; exact s_pos).
  unfold Rsqr. replace (sqrt (e * e') * d2 / sqrt (d1 * d2) * (sqrt (e * e') * d2 / sqrt (d1 * d2))) with ((sqrt (e * e') * sqrt (e * e')) * (d2 * d2) / (sqrt (d1 * d2) * sqrt (d1 * d2))) by (field; lra).
  rewrite (sqrt_sqrt (d1 * d2)) by lra. rewrite (sqrt_sqrt (e * e')) by (left; apply Rmult_lt_0_compat; assumption). unfold s. field.
  split; [exact Z|]. intros E. rewrite E in Rad. lra.
Qed.
Lemma fit_dist : let l := fst (peak_location_and_weight w A A' e e') in (w - l) * (w - l) = s.
Proof. cbv zeta. rewrite fit_loc. replace (w - (w - sqrt s)) with (sqrt s) by ring. apply sqrt_sqrt. left. exact s_pos. Qed.
Lemma fit_below : fst (peak_location_and_weight w A A' e e') < w.
Proof. rewrite fit_loc. pose proof (sqrt_lt_R0 s s_pos). lra. Qed.
Lemma fit_area : snd (peak_location_and_weight w A A' e e') = PI * A * (s + e * e) / e.
Proof. rewrite <- fit_dist. reflexivity. Qed.
Lemma fit_area_is : snd (peak_location_and_weight w A A' e e') = PI * A * A' * (e * e - e' * e') / d1.
Proof. rewrite fit_area. unfold s. pose proof d1_not as Z. unfold d1, d2 in *. field. lra. Qed.
Lemma fit_area_pos : 0 < snd (peak_location_and_weight w A A' e e').
Proof. rewrite fit_area. pose proof s_pos. pose proof PI_RGT_0. apply Rdiv_lt_0_compat; [|exact e0]. apply Rmult_lt_0_compat; [apply Rmult_lt_0_compat; lra|]. nra. Qed.
Lemma fit_one : let r := peak_location_and_weight w A A' e e' in lorentzian w (fst r) (snd r) e = A.
Proof.
  cbv zeta. unfold lorentzian. pose proof fit_dist as D. cbv zeta in D. rewrite D, fit_area. pose proof PI_RGT_0. pose proof s_pos. assert (0 < s + e * e) by nra. field. repeat split; lra.
Qed.
Lemma fit_two : let r := peak_location_and_weight w A A' e e' in lorentzian w (fst r) (snd r) e' = A'.
Proof.
  cbv zeta. unfold lorentzian. pose proof fit_dist as D. cbv zeta in D. rewrite D, fit_area_is. pose proof PI_RGT_0 as HP. pose proof s_pos as Sp. pose proof d1_not as Z.
  assert (S' : s + e' * e' = e' * A * (e * e - e' * e') / d1) by (unfold s; unfold d1, d2 in *; field; lra).
  assert (P : 0 < s + e' * e') by nra. assert (Y : e * e - e' * e' <> 0) by (intros E; rewrite S', E in P; unfold Rdiv in P; lra).
  rewrite S'. field. repeat split; try lra.
Qed.
End Fit.

Lemma radicand_swap : forall A A' e e', (A * e' - A' * e) * (A' * e' - A * e) = (A' * e - A * e') * (A * e - A' * e'). Proof. intros. ring. Qed.

(** With the facts of Nevan_proofs.Widths about q = pi A. *)
Lemma fit_small : forall w q q' e e', 0 < q -> 0 < q' -> 0 < e -> e < e' -> q * e < q' * e' -> q' * e < q * e' -> e / q + (e' * e' - e * e) <= e' / q' ->
  let A := q / PI in let A' := q' / PI in
  0 < (A' * e - A * e') * (A * e - A' * e') /\ snd (peak_location_and_weight w A A' e e') <= 1 /\ snd (peak_location_and_weight w A' A e' e) <= 1.
Proof.
  intros w q q' e e' Q Q' E L U D W A A'. pose proof PI_RGT_0 as HP.
  assert (A0 : 0 < A) by (apply Rdiv_lt_0_compat; assumption). assert (A0' : 0 < A') by (apply Rdiv_lt_0_compat; assumption).
  assert (X : (A' * e - A * e') * (A * e - A' * e') = (q * e' - q' * e) * (q' * e' - q * e) / (PI * PI)) by (unfold A, A'; field; lra).
  assert (R : 0 < (A' * e - A * e') * (A * e - A' * e')).
  { rewrite X. apply Rdiv_lt_0_compat; [apply Rmult_lt_0_compat; lra|apply Rmult_lt_0_compat; exact HP]. }
  split; [exact R|].
  assert (B : q * q' * (e' * e' - e * e) / (q * e' - q' * e) <= 1).
  { apply (Rmult_le_reg_r (q * e' - q' * e)); [lra|]. replace (q * q' * (e' * e' - e * e) / (q * e' - q' * e) * (q * e' - q' * e)) with (q * q' * (e' * e' - e * e)) by (field; lra).
    apply (Rmult_le_compat_r (q * q')) in W; [|left; apply Rmult_lt_0_compat; assumption]. replace ((e / q + (e' * e' - e * e)) * (q * q')) with (e * q' + q * q' * (e' * e' - e * e)) in W by (field; lra). replace (e' / q' * (q * q')) with (q * e') in W by (field; lra). lra. }
  split.
  - rewrite (fit_area_is w A A' e e' E ltac:(lra) R). eapply Rle_trans; [|exact B]. right. unfold A, A'. field. split; lra.
  - rewrite (fit_area_is w A' A e' e ltac:(lra) E ltac:(rewrite radicand_swap; exact R)). eapply Rle_trans; [|exact B]. right. unfold A, A'. field. split; lra.
Qed.

Section Step.
Variables (w w' A A' e : R).
Hypothesis A0 : 0 < A.
Hypothesis A0' : 0 < A'.
Hypothesis e0 : 0 < e.
Hypothesis NE : A <> A'.
Let M := (w * A - w' * A') / (A - A').
Let F := A * A' * ((w - w') * (w - w')) / ((A - A') * (A - A')) - e * e.
Hypothesis F0 : 0 <= F.
Let area (l : R) : R := PI * A * ((w - l) * (w - l) + e * e) / e.

Lemma curve : forall x l, 0 < (x - l) * (x - l) + e * e.
Proof. intros x l. pose proof (Rle_0_sqr (x - l)) as S. unfold Rsqr in S. nra. Qed.
Lemma step_root : forall l, (l - M) * (l - M) = F -> A * ((w - l) * (w - l) + e * e) = A' * ((w' - l) * (w' - l) + e * e).
Proof.
  intros l H. assert (D : A - A' <> 0) by lra.
  assert (X : ((l - M) * (l - M) - F) * (A - A') = A * ((w - l) * (w - l) + e * e) - A' * ((w' - l) * (w' - l) + e * e)) by (unfold M, F; field; exact D).
  rewrite H in X. replace ((F - F) * (A - A')) with 0 in X by ring. lra.
Qed.
Lemma step_point : forall l, (l - M) * (l - M) = F -> 0 < area l /\ lorentzian w l (area l) e = A /\ lorentzian w' l (area l) e = A'.
Proof.
  intros l H. apply step_root in H. pose proof (curve w l). pose proof (curve w' l). pose proof PI_RGT_0. split; [|split].
  - unfold area. apply Rdiv_lt_0_compat; [|exact e0]. apply Rmult_lt_0_compat; [apply Rmult_lt_0_compat; lra|assumption].
  - unfold area, lorentzian. field. repeat split; lra.
  - unfold area, lorentzian. replace (PI * A * ((w - l) * (w - l) + e * e) / e) with (PI * (A * ((w - l) * (w - l) + e * e)) / e) by (field; lra). rewrite H. field. repeat split; lra.
Qed.
Lemma step_ok : let r := peak_location_and_weight_wstep w w' A A' e in 0 < snd r /\ lorentzian w (fst r) (snd r) e = A /\ lorentzian w' (fst r) (snd r) e = A'.
Proof.
  cbv zeta. unfold peak_location_and_weight_wstep. cbv zeta. fold M F. fold (area (M + sqrt F)) (area (M - sqrt F)). pose proof (sqrt_sqrt F F0) as S.
  destruct (Rlt_dec 1 (area (M + sqrt F))); cbn [fst snd]; apply step_point.
  - replace (M - sqrt F - M) with (- sqrt F) by ring. lra.
  - replace (M + sqrt F - M) with (sqrt F) by ring. exact S.
Qed.
End Step.

(** The bound of Schwarz and Pick at one broadening, solved for the ratio. *)
Lemma ratio : forall q q' t, 0 < q -> 0 < q' -> 0 <= t -> (q - q') * (q - q') <= t * t * (q * q') -> let r := (t + sqrt (t * t + 4)) / 2 in q <= r * r * q'.
Proof.
  intros q q' t Q Q' T H r. assert (S0 : 0 <= t * t + 4) by nra. pose proof (sqrt_sqrt _ S0) as SS. pose proof (sqrt_pos (t * t + 4)) as SP. set (z := sqrt (t * t + 4)) in *.
  assert (Zt : 0 < z) by (destruct (Rle_lt_or_eq_dec 0 z SP) as [X|X]; [exact X|rewrite <- X in SS; nra]).
  assert (R1 : r * r = t * r + 1) by (unfold r; nra). assert (R0 : 0 < r) by (unfold r; lra).
  destruct (Rle_lt_dec q (r * r * q')) as [L|L]; [exact L|exfalso].
  assert (Zr : t < z) by nra.
  (* q^2 - (2 + t^2) q q' + q'^2 = (q - r^2 q') (q - q' / r^2) *)
  set (u := (z - t) / 2). assert (U1 : r * u = 1) by (unfold r, u; nra). assert (U0 : 0 < u) by (unfold u; lra).
  assert (Sum : r * r + u * u = t * t + 2) by (unfold r, u; nra).
  assert (X : (q - r * r * q') * (q - u * u * q') <= 0).
  { replace ((q - r * r * q') * (q - u * u * q')) with (q * q - (r * r + u * u) * (q * q') + (r * u) * (r * u) * (q' * q')) by ring. rewrite Sum, U1. lra. }
  assert (u <= r) by (unfold r, u; lra). assert (u * u <= r * r) by nra. assert (q - u * u * q' > 0) by nra.
  pose proof (Rmult_lt_0_compat (q - r * r * q') (q - u * u * q') ltac:(lra) ltac:(lra)). lra.
Qed.

Lemma ratio_half : forall q q' t, 0 < q -> 0 < q' -> 0 <= t <= 1 / 2 -> (q - q') * (q - q') <= t * t * (q * q') -> 3 / 5 * q <= q'.
Proof.
  intros q q' t Q Q' T H. destruct (Rle_lt_dec (3 / 5 * q) q') as [L|L]; [exact L|exfalso].
  assert (t * t <= 1 / 4) by nra. assert (B : (q - q') * (q - q') <= 1 / 4 * (q * q')) by (eapply Rle_trans; [exact H|]; apply Rmult_le_compat_r; [left; apply Rmult_lt_0_compat; assumption|assumption]).
  nra.
Qed.
