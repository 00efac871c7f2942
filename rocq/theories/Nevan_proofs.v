(** Consequences of the positivity of Pick matrices for two points (C76, C77). *)
From Coq Require Import ZArith Reals List Lra Lia Psatz.
From Verif Require Import Base Cplx Physics Spec_green Spec_pick.
From Verif Require Physics_proofs Band_proofs Contour_proofs.
Import ListNotations.
Open Scope R_scope.

(** * 2 x 2 matrices *)
Lemma psd_det : forall (A D : R) (B : C), (forall a b : C, 0 <= Cnorm2 a * A + Cnorm2 b * D + 2 * Re (Cmul (Cmul a (conjugate b)) B)) ->
  0 <= A /\ 0 <= D /\ Cnorm2 B <= A * D.
Proof.
  intros A D B H.
  assert (HA : 0 <= A). { pose proof (H C1 C0) as X. unfold Cnorm2, Cmul, conjugate, C1, C0, Re, Im in X. cbn [fst snd] in X. lra. }
  assert (HD : 0 <= D). { pose proof (H C0 C1) as X. unfold Cnorm2, Cmul, conjugate, C1, C0, Re, Im in X. cbn [fst snd] in X. lra. }
  split; [exact HA|]. split; [exact HD|]. pose proof (Band_proofs.Cnorm2_ge0 B) as B0.
  destruct (Rle_lt_or_eq_dec _ _ HD) as [D0|D0].
  - pose proof (H (RtoC D) (Copp B)) as X.
    replace (Cnorm2 (RtoC D) * A + Cnorm2 (Copp B) * D + 2 * Re (Cmul (Cmul (RtoC D) (conjugate (Copp B))) B)) with (D * (A * D - Cnorm2 B)) in X by (unfold Cnorm2, Cmul, conjugate, Copp, RtoC, Re, Im; cbn [fst snd]; ring).
    destruct (Rle_lt_dec (Cnorm2 B) (A * D)) as [L|L]; [exact L|exfalso]. pose proof (Rmult_lt_0_compat D (Cnorm2 B - A * D) D0 ltac:(lra)). lra.
  - rewrite <- D0, Rmult_0_r. destruct (Rle_lt_dec (Cnorm2 B) 0) as [L|L]; [exact L|exfalso].
    set (s := (A + 1) / Cnorm2 B). pose proof (H C1 (Cmul (RtoC (- s)) B)) as X. rewrite <- D0 in X.
    replace (Cnorm2 C1 * A + Cnorm2 (Cmul (RtoC (- s)) B) * 0 + 2 * Re (Cmul (Cmul C1 (conjugate (Cmul (RtoC (- s)) B))) B)) with (A - 2 * (s * Cnorm2 B)) in X by (unfold Cnorm2, Cmul, conjugate, C1, RtoC, Re, Im; cbn [fst snd]; ring).
    assert (E : s * Cnorm2 B = A + 1) by (unfold s; field; lra). lra.
Qed.

(** The matrix of two points. *)
Section Two.
Variables (w eta w' eta' : R) (g g' : C).
Hypothesis He : 0 < eta.
Hypothesis He' : 0 < eta'.
Let P (a : C) : sample := mkSample a (w, eta) g.
Let Q (b : C) : sample := mkSample b (w', eta') g'.
Hypothesis Pick : forall a b, Cnorm2 (value_form [P a; Q b]) <= Re (pick_form [P a; Q b]).
Let n := Cnorm2 g.
Let n' := Cnorm2 g'.
Let dz := Csub (w, eta) (conjugate (w', eta')).

Lemma dz_norm : Cnorm2 dz = (w - w') * (w - w') + (eta + eta') * (eta + eta').
Proof. unfold dz, Cnorm2, Csub, conjugate, Re, Im. cbn [fst snd]. ring. Qed.
Lemma dz_pos : 0 < Cnorm2 dz.
Proof. rewrite dz_norm. assert (0 < (eta + eta') * (eta + eta')) by (apply Rmult_lt_0_compat; lra). pose proof (Rle_0_sqr (w - w')). unfold Rsqr in *. lra. Qed.

Definition kappa : C := Cdiv (Csub (conjugate g') g) dz.
Lemma kappa_is : Cmul kappa dz = Csub (conjugate g') g.
Proof.
  unfold kappa, Cdiv. assert (Dz : dz <> C0) by (intros E; pose proof dz_pos as X; rewrite E in X; unfold Cnorm2, C0, Re, Im in X; cbn [fst snd] in X; lra).
  pose proof (Cplx.Cinv_l dz Dz) as I. set (u := Csub _ g). replace (Cmul (Cmul u (Cinv dz)) dz) with (Cmul u (Cmul (Cinv dz) dz)) by ring. rewrite I. ring.
Qed.

Lemma diag : forall x y (u : C), 0 < y -> Cdiv (Csub (conjugate u) u) (Csub (x, y) (conjugate (x, y))) = RtoC (- Im u / y).
Proof.
  intros x y u Hy. unfold Cdiv, Csub, conjugate, Cinv, Cmul, RtoC, Cnorm2, Re, Im. cbn [fst snd]. f_equal; field; nra.
Qed.
Lemma cross : pick (Q C1) (P C1) = conjugate kappa.
Proof.
  unfold pick, kappa, P, Q. cbn [sa_at sa_value]. unfold dz, Cdiv, Csub, conjugate, Cinv, Cmul, Cnorm2, Re, Im. cbn [fst snd].
  pose proof dz_pos as X. rewrite dz_norm in X. f_equal; field; nra.
Qed.

Lemma form_two : forall a b, Re (pick_form [P a; Q b]) = Cnorm2 a * (- Im g / eta) + Cnorm2 b * (- Im g' / eta') + 2 * Re (Cmul (Cmul a (conjugate b)) kappa).
Proof.
  intros a b. unfold pick_form, Csum_list. cbn [map fold_right].
  change (pick (P a) (P a)) with (Cdiv (Csub (conjugate g) g) (Csub (w, eta) (conjugate (w, eta)))).
  change (pick (Q b) (Q b)) with (Cdiv (Csub (conjugate g') g') (Csub (w', eta') (conjugate (w', eta')))). rewrite !diag by assumption.
  change (pick (P a) (Q b)) with kappa. change (pick (Q b) (P a)) with (pick (Q C1) (P C1)). rewrite cross. set (kp := kappa).
  set (x := - Im g / eta). set (y := - Im g' / eta'). cbn [sa_coef P Q]. unfold Cadd, Cmul, conjugate, RtoC, C0, Cnorm2, Re, Im. cbn [fst snd]. ring.
Qed.

Lemma two_points : 0 <= - Im g / eta - n /\ 0 <= - Im g' / eta' - n' /\
  Cnorm2 (Csub kappa (Cmul g (conjugate g'))) <= (- Im g / eta - n) * (- Im g' / eta' - n').
Proof.
  apply psd_det. intros a b. pose proof (Pick a b) as H. rewrite form_two in H.
  assert (V : Cnorm2 (value_form [P a; Q b]) = Cnorm2 a * n + Cnorm2 b * n' + 2 * Re (Cmul (Cmul a (conjugate b)) (Cmul g (conjugate g')))).
  { unfold value_form, Csum_list. cbn [map fold_right P Q sa_coef sa_value]. unfold n, n', Cnorm2, Cadd, Cmul, conjugate, C0, Re, Im. cbn [fst snd]. ring. }
  rewrite V in H. set (kp := kappa) in *. set (x := - Im g / eta) in *. set (y := - Im g' / eta') in *.
  replace (Re (Cmul (Cmul a (conjugate b)) (Csub kp (Cmul g (conjugate g'))))) with (Re (Cmul (Cmul a (conjugate b)) kp) - Re (Cmul (Cmul a (conjugate b)) (Cmul g (conjugate g')))) by (unfold Csub, Cmul, conjugate, Re, Im; cbn [fst snd]; ring).
  lra.
Qed.

Lemma two_plain : Cnorm2 kappa <= (- Im g / eta) * (- Im g' / eta').
Proof.
  apply psd_det. intros a b. pose proof (Pick a b) as H. rewrite form_two in H. pose proof (Band_proofs.Cnorm2_ge0 (value_form [P a; Q b])). lra.
Qed.

Lemma Cnorm2_mul : forall u v, Cnorm2 (Cmul u v) = Cnorm2 u * Cnorm2 v.
Proof. intros u v. unfold Cnorm2, Cmul, Re, Im. cbn [fst snd]. ring. Qed.

(** Schwarz and Pick: the distance of the values. *)
Theorem schwarz_pick : Cnorm2 (Csub g g') * (eta * eta') <= Cnorm2 (Csub (w, eta) (w', eta')) * (Im g * Im g').
Proof.
  pose proof two_plain as H. pose proof kappa_is as E. apply (f_equal Cnorm2) in E. rewrite Cnorm2_mul in E. pose proof dz_pos as Dp.
  apply (Rmult_le_compat_r (Cnorm2 dz * (eta * eta'))) in H; [|left; apply Rmult_lt_0_compat; [exact Dp|apply Rmult_lt_0_compat; assumption]].
  rewrite <- (Rmult_assoc (Cnorm2 kappa)), E in H.
  replace (- Im g / eta * (- Im g' / eta') * (Cnorm2 dz * (eta * eta'))) with (Cnorm2 dz * (Im g * Im g')) in H by (field; lra).
  rewrite dz_norm in H. unfold Cnorm2, Csub, conjugate, Re, Im in *. cbn [fst snd] in *. set (a := fst g) in *. set (b := snd g) in *. set (a' := fst g') in *. set (b' := snd g') in *. lra.
Qed.
End Two.

(** * Two broadenings at one frequency *)

(** In terms of 1 / g = (y, h). *)
Lemma inverse_parts : forall x q, 0 < q -> exists y h, 0 < h /\ x = y / (y * y + h * h) /\ q = h / (y * y + h * h) /\ x * x + q * q = / (y * y + h * h) /\ (y = 0 <-> x = 0).
Proof.
  intros x q Hq. set (n := x * x + q * q). assert (N0 : 0 < n) by (unfold n; pose proof (Rle_0_sqr x); unfold Rsqr in *; nra).
  exists (x / n), (q / n). split; [apply Rdiv_lt_0_compat; assumption|].
  assert (E : x / n * (x / n) + q / n * (q / n) = / n) by (transitivity ((x * x + q * q) / n / n); [field; lra|fold n; field; lra]). rewrite E.
  split; [field; lra|]. split; [field; lra|]. split; [rewrite Rinv_inv; reflexivity|].
  split; intros H.
  - replace x with (x / n * n) by (field; lra). rewrite H. ring.
  - rewrite H. unfold Rdiv. ring.
Qed.

Lemma self_pick : forall eta eta' y h y' h', 0 < eta -> 0 < eta' -> 0 < h -> 0 < h' ->
  let g : C := (y / (y * y + h * h), - (h / (y * y + h * h))) in let g' : C := (y' / (y' * y' + h' * h'), - (h' / (y' * y' + h' * h'))) in
  forall w, (forall a b, Cnorm2 (value_form [mkSample a (w, eta) g; mkSample b (w, eta') g']) <= Re (pick_form [mkSample a (w, eta) g; mkSample b (w, eta') g'])) ->
  eta <= h /\ eta' <= h' /\ (y - y') * (y - y') <= (h / eta - h' / eta') * (eta' * (h' - eta') - eta * (h - eta)).
Proof.
  intros eta eta' y h y' h' He He' Hh Hh' g g' w Pk.
  assert (R0 : 0 < y * y + h * h) by (pose proof (Rle_0_sqr y); unfold Rsqr in *; nra). assert (R1 : 0 < y' * y' + h' * h') by (pose proof (Rle_0_sqr y'); unfold Rsqr in *; nra).
  destruct (two_points w eta w eta' g g' He He' Pk) as (A & B & D).
  pose proof (kappa_is w eta w eta' g g' He He') as Kp. pose proof (dz_norm w eta w eta') as Dz. pose proof (dz_pos w eta w eta' He He') as Dp.
  set (dz := Csub (w, eta) (conjugate (w, eta'))) in *. set (kp := kappa w eta w eta' g g') in *.
  assert (Edz : dz = (0, eta + eta')) by (unfold dz, Csub, conjugate, Re, Im; cbn [fst snd]; f_equal; ring).
  assert (N : Cnorm2 g = / (y * y + h * h)) by (unfold g, Cnorm2, Re, Im; cbn [fst snd]; field; lra).
  assert (N' : Cnorm2 g' = / (y' * y' + h' * h')) by (unfold g', Cnorm2, Re, Im; cbn [fst snd]; field; lra).
  assert (I : - Im g = h / (y * y + h * h)) by (unfold g, Im; cbn [snd]; ring). assert (I' : - Im g' = h' / (y' * y' + h' * h')) by (unfold g', Im; cbn [snd]; ring).
  rewrite N, I in A. rewrite N', I' in B. rewrite N, N', I, I' in D.
  assert (X : forall u v r, 0 < u -> 0 < r -> 0 <= v / r / u - / r -> u <= v).
  { intros u v r Hu Hr H. apply (Rmult_le_compat_l (r * u)) in H; [|left; apply Rmult_lt_0_compat; assumption]. replace (r * u * (v / r / u - / r)) with (v - u) in H by (field; lra). lra. }
  split; [exact (X _ _ _ He R0 A)|]. split; [exact (X _ _ _ He' R1 B)|].
  apply (Rmult_le_compat_r ((eta + eta') * (eta + eta'))) in D; [|left; apply Rmult_lt_0_compat; lra].
  replace ((eta + eta') * (eta + eta')) with (Cnorm2 dz) in D at 1 by (rewrite Dz; ring). rewrite <- Cnorm2_mul in D.
  replace (Cmul (Csub kp (Cmul g (conjugate g'))) dz) with (Csub (Cmul kp dz) (Cmul (Cmul g (conjugate g')) dz)) in D by ring. rewrite Kp, Edz in D.
  assert (L : Cnorm2 (Csub (Csub (conjugate g') g) (Cmul (Cmul g (conjugate g')) (0, eta + eta'))) =
    / (y * y + h * h) * / (y' * y' + h' * h') * ((y - y') * (y - y') + (h + h' - (eta + eta')) * (h + h' - (eta + eta')))).
  { unfold g, g', Cnorm2, Csub, Cmul, conjugate, Re, Im. cbn [fst snd]. field. split; lra. }
  rewrite L in D.
  replace ((h / (y * y + h * h) / eta - / (y * y + h * h)) * (h' / (y' * y' + h' * h') / eta' - / (y' * y' + h' * h')) * ((eta + eta') * (eta + eta')))
    with (/ (y * y + h * h) * / (y' * y' + h' * h') * ((eta + eta') * (eta + eta') * ((h / eta - 1) * (h' / eta' - 1)))) in D by (field; repeat split; lra).
  apply Rmult_le_reg_l in D; [|apply Rmult_lt_0_compat; apply Rinv_0_lt_compat; assumption].
  replace ((h / eta - h' / eta') * (eta' * (h' - eta') - eta * (h - eta))) with ((eta + eta') * (eta + eta') * ((h / eta - 1) * (h' / eta' - 1)) - (h + h' - (eta + eta')) * (h + h' - (eta + eta'))); [lra|field; split; lra].
Qed.

(** eta / (- Im g) - eta^2 grows with eta. *)
Lemma weight_grows : forall eta eta' y h y' h', 0 < eta -> eta < eta' -> eta <= h -> eta' <= h' ->
  (y - y') * (y - y') <= (h / eta - h' / eta') * (eta' * (h' - eta') - eta * (h - eta)) ->
  eta * (y * y + h * h) / h + (eta' * eta' - eta * eta) <= eta' * (y' * y' + h' * h') / h'.
Proof.
  intros eta eta' y h y' h' He Hl Hh Hh' H.
  set (t := h / eta - 1). set (t' := h' / eta' - 1).
  assert (Et : h = eta * (1 + t)) by (unfold t; field; lra). assert (Et' : h' = eta' * (1 + t')) by (unfold t'; field; lra).
  assert (T0 : 0 <= t). { apply (Rmult_le_reg_l eta); [exact He|]. lra. } assert (T0' : 0 <= t'). { apply (Rmult_le_reg_l eta'); [lra|]. lra. }
  clearbody t t'. subst h h'.
  replace (eta * (1 + t) / eta - eta' * (1 + t') / eta') with (t - t') in H by (field; lra).
  replace (eta' * (eta' * (1 + t') - eta') - eta * (eta * (1 + t) - eta)) with (eta' * eta' * t' - eta * eta * t) in H by ring.
  replace (eta * (y * y + eta * (1 + t) * (eta * (1 + t))) / (eta * (1 + t))) with (y * y / (1 + t) + eta * eta * (1 + t)) by (field; lra).
  replace (eta' * (y' * y' + eta' * (1 + t') * (eta' * (1 + t'))) / (eta' * (1 + t'))) with (y' * y' / (1 + t') + eta' * eta' * (1 + t')) by (field; lra).
  set (Pp := eta' * eta' * t' - eta * eta * t) in *. set (Qq := t - t') in *.
  pose proof (Rle_0_sqr (y - y')) as SQ. unfold Rsqr in SQ.
  assert (E2 : eta * eta < eta' * eta') by nra.
  assert (Q0 : 0 <= Qq).
  { destruct (Rle_lt_dec 0 Qq) as [L|L]; [exact L|exfalso]. assert (Pp <= 0). { destruct (Rle_lt_dec Pp 0) as [U|U]; [exact U|exfalso]. pose proof (Rmult_lt_0_compat (- Qq) Pp ltac:(lra) U). lra. }
    unfold Pp, Qq in *. assert (eta * eta * t < eta * eta * t') by (apply Rmult_lt_compat_l; nra). assert (eta * eta * t' <= eta' * eta' * t') by (apply Rmult_le_compat_r; lra). lra. }
  assert (M : y * y / (1 + t) <= y' * y' / (1 + t') + Pp).
  { destruct (Rle_lt_or_eq_dec _ _ Q0) as [Qp|Qz].
    - assert (P0 : 0 <= Pp). { destruct (Rle_lt_dec 0 Pp) as [U|U]; [exact U|exfalso]. pose proof (Rmult_lt_0_compat Qq (- Pp) Qp ltac:(lra)). lra. }
      apply (Rmult_le_reg_r ((1 + t) * (1 + t'))); [apply Rmult_lt_0_compat; lra|].
      replace (y * y / (1 + t) * ((1 + t) * (1 + t'))) with (y * y * (1 + t')) by (field; lra).
      replace ((y' * y' / (1 + t') + Pp) * ((1 + t) * (1 + t'))) with (y' * y' * (1 + t) + Pp * ((1 + t) * (1 + t'))) by (field; lra).
      apply (Rmult_le_reg_l Qq); [exact Qp|].
      set (d := y - y') in *. replace y with (y' + d) by (unfold d; ring). replace (1 + t) with (1 + t' + Qq) by (unfold Qq; ring). set (s := 1 + t') in *. assert (S0 : 0 < s) by (unfold s; lra).
      assert (K1 : d * d * (s * (s + Qq)) <= Qq * Pp * (s * (s + Qq))) by (apply Rmult_le_compat_r; [nra|exact H]).
      pose proof (Rle_0_sqr (Qq * y' - s * d)) as S2. unfold Rsqr in S2.
      replace (Qq * (y' * y' * (s + Qq) + Pp * ((s + Qq) * s))) with (Qq * Pp * (s * (s + Qq)) + Qq * (y' * y' * (s + Qq))) by ring.
      assert (Qq * ((y' + d) * (y' + d) * s) <= d * d * (s * (s + Qq)) + Qq * (y' * y' * (s + Qq))); [|lra]. lra.
    - assert (Ed : y - y' = 0). { rewrite <- Qz, Rmult_0_l in H. destruct (Req_dec (y - y') 0) as [Z|Z]; [exact Z|exfalso]. pose proof (Rlt_0_sqr _ Z). unfold Rsqr in *. lra. }
      replace y with y' by lra. assert (t = t') by (unfold Qq in Qz; lra). subst t'. unfold Pp. assert (eta * eta * t <= eta' * eta' * t) by (apply Rmult_le_compat_r; lra). lra. }
  unfold Pp in M. lra.
Qed.

Section Widths.
Variables (w eta eta' : R) (g g' : C).
Hypothesis He : 0 < eta.
Hypothesis Hl : eta < eta'.
Hypothesis Gn : Im g < 0.
Hypothesis Gn' : Im g' < 0.
Hypothesis Pick : forall a b, Cnorm2 (value_form [mkSample a (w, eta) g; mkSample b (w, eta') g']) <= Re (pick_form [mkSample a (w, eta) g; mkSample b (w, eta') g']).
Let q := - Im g.
Let q' := - Im g'.

Lemma widths_schwarz : Cnorm2 (Csub g g') * (eta * eta') <= (eta' - eta) * (eta' - eta) * (q * q').
Proof.
  pose proof (schwarz_pick w eta w eta' g g' He ltac:(lra) Pick) as H.
  replace (Cnorm2 (Csub (w, eta) (w, eta')) * (Im g * Im g')) with ((eta' - eta) * (eta' - eta) * (q * q')) in H by (unfold q, q', Cnorm2, Csub, Re, Im; cbn [fst snd]; ring). exact H.
Qed.

Lemma widths_up : q * eta <= q' * eta'.
Proof.
  pose proof widths_schwarz as H. assert (Q0 : 0 < q) by (unfold q; lra). assert (Q1 : 0 < q') by (unfold q'; lra).
  assert (X : (q - q') * (q - q') * (eta * eta') <= (eta' - eta) * (eta' - eta) * (q * q')).
  { eapply Rle_trans; [|exact H]. apply Rmult_le_compat_r; [nra|]. unfold q, q', Cnorm2, Csub, Re, Im. cbn [fst snd]. pose proof (Rle_0_sqr (fst g - fst g')). unfold Rsqr in *. lra. }
  destruct (Rle_lt_dec (q * eta) (q' * eta')) as [L|L]; [exact L|exfalso].
  (* (q eta - q' eta') (q eta' - q' eta) <= 0 *)
  assert (F : (q * eta - q' * eta') * (q * eta' - q' * eta) <= 0) by lra.
  assert (q * eta' - q' * eta > 0) by nra. pose proof (Rmult_lt_0_compat (q * eta - q' * eta') (q * eta' - q' * eta) ltac:(lra) ltac:(lra)). lra.
Qed.

Lemma widths_weight : eta / q + (eta' * eta' - eta * eta) <= eta' / q'.
Proof.
  destruct (inverse_parts (Re g) q ltac:(unfold q; lra)) as (y & h & Hh & Ex & Eq & En & _). destruct (inverse_parts (Re g') q' ltac:(unfold q'; lra)) as (y' & h' & Hh' & Ex' & Eq' & En' & _).
  assert (Eg : g = (y / (y * y + h * h), - (h / (y * y + h * h)))) by (rewrite <- Ex, <- Eq; unfold q; apply Ceq; unfold Re, Im; cbn [fst snd]; ring).
  assert (Eg' : g' = (y' / (y' * y' + h' * h'), - (h' / (y' * y' + h' * h')))) by (rewrite <- Ex', <- Eq'; unfold q'; apply Ceq; unfold Re, Im; cbn [fst snd]; ring).
  pose proof Pick as Pk. rewrite Eg, Eg' in Pk. destruct (self_pick eta eta' y h y' h' He ltac:(lra) Hh Hh' w Pk) as (A & B & D).
  pose proof (weight_grows eta eta' y h y' h' He Hl A B D) as W. rewrite Eq, Eq'.
  assert (0 < y * y + h * h) by (pose proof (Rle_0_sqr y); unfold Rsqr in *; nra). assert (0 < y' * y' + h' * h') by (pose proof (Rle_0_sqr y'); unfold Rsqr in *; nra).
  replace (eta / (h / (y * y + h * h))) with (eta * (y * y + h * h) / h) by (field; lra). replace (eta' / (h' / (y' * y' + h' * h'))) with (eta' * (y' * y' + h' * h') / h') by (field; lra). exact W.
Qed.

Lemma widths_down : q' * eta < q * eta'.
Proof.
  pose proof widths_weight as W. assert (Q0 : 0 < q) by (unfold q; lra). assert (Q1 : 0 < q') by (unfold q'; lra). assert (eta * eta < eta' * eta') by nra.
  assert (X : eta / q < eta' / q') by lra. apply (Rmult_lt_compat_r (q * q')) in X; [|apply Rmult_lt_0_compat; assumption].
  replace (eta / q * (q * q')) with (q' * eta) in X by (field; lra). replace (eta' / q' * (q * q')) with (q * eta') in X by (field; lra). exact X.
Qed.

(** q eta = q' eta' only at the centre of the line. *)
Lemma widths_centre : q * eta = q' * eta' -> Re g = 0 /\ Re g' = 0.
Proof.
  intros E. pose proof widths_schwarz as H. assert (Q0 : 0 < q) by (unfold q; lra). assert (Q1 : 0 < q') by (unfold q'; lra).
  set (p := / eta). set (p' := / eta'). set (k := q * eta). assert (Eq : q = k * p) by (unfold k, p; field; lra). assert (Eq' : q' = k * p') by (unfold k, p'; rewrite E; field; lra).
  assert (K0 : 0 < k) by (unfold k; nra).
  assert (P0 : 0 < p) by (apply Rinv_0_lt_compat; lra). assert (P1 : 0 < p') by (apply Rinv_0_lt_compat; lra).
  assert (Pd : p <> p') by (intros X; assert (/ p = / p') by (rewrite X; reflexivity); unfold p, p' in *; rewrite !Rinv_inv in *; lra).
  set (x := Re g) in *. set (x' := Re g') in *.
  assert (Xx : x = x').
  { assert (N : Cnorm2 (Csub g g') = (x - x') * (x - x') + (q - q') * (q - q')) by (unfold x, x', q, q', Cnorm2, Csub, Re, Im; cbn [fst snd]; ring). rewrite N in H.
    assert (S : (q - q') * (q - q') * (eta * eta') = (eta' - eta) * (eta' - eta) * (q * q')).
    { rewrite Eq, Eq'. unfold p, p'. field. lra. }
    assert (T : (x - x') * (x - x') * (eta * eta') <= 0) by lra. destruct (Req_dec (x - x') 0) as [Z|Z]; [lra|exfalso].
    pose proof (Rlt_0_sqr _ Z) as S2. unfold Rsqr in S2. pose proof (Rmult_lt_0_compat _ _ S2 (Rmult_lt_0_compat eta eta' He ltac:(lra))). lra. }
  enough (X0 : x = 0) by (split; [exact X0|rewrite <- Xx; exact X0]).
  destruct (two_points w eta w eta' g g' He ltac:(lra) Pick) as (_ & _ & D). pose proof (kappa_is w eta w eta' g g' He ltac:(lra)) as Kp.
  set (kp := kappa w eta w eta' g g') in *. clearbody kp.
  assert (Ek : kp = (k * (p * p'), 0)).
  { assert (Z1 : Re kp * (eta + eta') = q + q').
    { apply (f_equal Im) in Kp. unfold q, q'. unfold Cmul, Csub, conjugate, Re, Im in *. cbn [fst snd] in *. lra. }
    assert (Z2 : Im kp * (eta + eta') = 0).
    { apply (f_equal Re) in Kp. unfold x, x' in Xx. unfold Cmul, Csub, conjugate, Re, Im in *. cbn [fst snd] in *. lra. }
    apply Ceq; unfold Re, Im; cbn [fst snd].
    - apply (Rmult_eq_reg_r (eta + eta')); [|lra]. unfold Re in Z1. rewrite Z1, Eq, Eq'. unfold p, p'. field. lra.
    - apply (Rmult_eq_reg_r (eta + eta')); [|lra]. unfold Im in Z2. rewrite Z2. ring. }
  assert (N : Cnorm2 g = x * x + q * q) by (unfold x, q, Cnorm2, Re, Im; ring). assert (N' : Cnorm2 g' = x * x + q' * q') by (rewrite Xx; unfold x', q', Cnorm2, Re, Im; ring).
  rewrite Ek, N, N' in D. change (- Im g) with q in D. change (- Im g') with q' in D. unfold Rdiv in D. fold p p' in D.
  assert (M : Cnorm2 (Csub (k * (p * p'), 0) (Cmul g (conjugate g'))) = (k * (p * p') - (x * x + q * q')) * (k * (p * p') - (x * x + q * q')) + x * x * ((q - q') * (q - q'))).
  { assert (Eg : g = (x, - q)) by (unfold x, q; apply Ceq; unfold Re, Im; cbn [fst snd]; ring). assert (Eg' : g' = (x, - q')) by (rewrite Xx; unfold x', q'; apply Ceq; unfold Re, Im; cbn [fst snd]; ring).
    rewrite Eg, Eg'. unfold Cnorm2, Csub, Cmul, conjugate, Re, Im. cbn [fst snd]. ring. }
  rewrite M in D. clear M N N' Ek Kp H. rewrite Eq, Eq' in D.
  assert (T : k * ((p - p') * (p - p')) * (x * x) <= 0) by (ring_simplify in D; ring_simplify; lra).
  destruct (Req_dec x 0) as [Z|Z]; [exact Z|exfalso]. pose proof (Rlt_0_sqr _ Z) as S2. assert (S3 : 0 < (p - p') * (p - p')) by (assert (Zp : p - p' <> 0) by lra; pose proof (Rlt_0_sqr _ Zp) as S3; unfold Rsqr in S3; exact S3). unfold Rsqr in S2.
  pose proof (Rmult_lt_0_compat _ _ (Rmult_lt_0_compat _ _ K0 S3) S2). lra.
Qed.
End Widths.
