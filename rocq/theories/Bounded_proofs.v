(** Bounded solutions of the lattice resolvent equation without source vanish;
    a functional relation with bounded complex values is a function (C56). *)
From Coq Require Import Reals ZArith List Lra Lia Psatz.
From Coq Require Import ClassicalDedekindReals.
From Verif Require Import Ring Cplx Physics Physics_proofs Toeplitz_proofs.
Import ListNotations.
Open Scope list_scope.
Open Scope R_scope.

Lemma W_left : forall f lo n, W f lo (S n) = f lo + W f (lo + 1)%Z n.
Proof.
  intros f lo n. induction n as [|n IH]; [cbn [W]; replace (lo + Z.of_nat 0)%Z with lo by lia; lra|].
  change (W f lo (S n) + f (lo + Z.of_nat (S n))%Z = f lo + (W f (lo + 1)%Z n + f (lo + 1 + Z.of_nat n)%Z)). rewrite IH.
  replace (lo + Z.of_nat (S n))%Z with (lo + 1 + Z.of_nat n)%Z by lia. lra.
Qed.

Lemma norm2_pos : forall z, 0 <= Cnorm2 z.
Proof. intros z. unfold Cnorm2. pose proof (Rle_0_sqr (Re z)). pose proof (Rle_0_sqr (Im z)). unfold Rsqr in *. lra. Qed.

Lemma edge_norms : forall (u : Z -> C) n, Rabs (edge u n) <= (Cnorm2 (u (n + 1)%Z) + Cnorm2 (u n)) / 2.
Proof.
  intros u n. unfold edge. destruct (u n) as [a b], (u (n + 1)%Z) as [c d]. unfold Cconj, Cmul, Cnorm2, Re, Im. cbn.
  pose proof (Rle_0_sqr (c - b)). pose proof (Rle_0_sqr (c + b)). pose proof (Rle_0_sqr (d - a)). pose proof (Rle_0_sqr (d + a)). unfold Rsqr in *.
  apply Rabs_le. nra.
Qed.

Lemma above : forall r, exists k, r < INR k.
Proof.
  intros r. exists (Z.to_nat (Z.max 0 (up r))). rewrite INR_IZR_INZ, Z2Nat.id by lia. destruct (archimed r) as [A _].
  apply Rlt_le_trans with (IZR (up r)); [lra|]. apply IZR_le. lia.
Qed.

Section Homogeneous.
Variables w eta t B : R.
Variable f : Z -> C.
Hypothesis Heta : 0 < eta.
Hypothesis Hf : forall n : Z, Cadd (Cmul (w, eta) (f n)) (Cmul (RtoC t) (Cadd (f (n + 1)%Z) (f (n - 1)%Z))) = C0.
Hypothesis HB : forall n, Cabs (f n) <= B.

Let N (n : Z) : R := Cnorm2 (f n).
Let S (M : nat) : R := W N (- Z.of_nat M) (2 * M + 1).
Let D (M : nat) : R := N (Z.of_nat M) + N (- Z.of_nat M)%Z.

Lemma S_step : forall M, S (Datatypes.S M) = S M + D (Datatypes.S M).
Proof.
  intros M. unfold S, D. replace (2 * Datatypes.S M + 1)%nat with (Datatypes.S (Datatypes.S (2 * M + 1))) by lia.
  rewrite W_left. cbn [W]. replace (- Z.of_nat (Datatypes.S M) + 1)%Z with (- Z.of_nat M)%Z by lia.
  replace (- Z.of_nat M + Z.of_nat (2 * M + 1))%Z with (Z.of_nat (Datatypes.S M)) by lia. lra.
Qed.

Lemma D_pos : forall M, 0 <= D M.
Proof. intros M. unfold D, N. pose proof (norm2_pos (f (Z.of_nat M))). pose proof (norm2_pos (f (- Z.of_nat M)%Z)). lra. Qed.

Lemma S_mono : forall M k, S M <= S (M + k).
Proof.
  intros M k. induction k as [|k IH]; [replace (M + 0)%nat with M by lia; lra|]. replace (M + Datatypes.S k)%nat with (Datatypes.S (M + k)) by lia.
  rewrite S_step. pose proof (D_pos (Datatypes.S (M + k))). lra.
Qed.

Lemma flux : forall n, eta * N n = t * (edge f n - edge f (n - 1)).
Proof.
  intros n. pose proof (Hf n) as H. unfold N, edge. replace (n - 1 + 1)%Z with n by ring.
  assert (E : Im (Cmul (Cconj (Cadd (Cmul (w, eta) (f n)) (Cmul (RtoC t) (Cadd (f (n + 1)%Z) (f (n - 1)%Z))))) (f n)) = 0).
  { rewrite H. destruct (f n) as [a b]. unfold Cconj, Cmul, C0, Re, Im. cbn. ring. }
  revert E. destruct (f n) as [a b], (f (n + 1)%Z) as [c d], (f (n - 1)%Z) as [e g]. unfold Cconj, Cmul, Cadd, RtoC, Cnorm2, Re, Im. cbn. intros E. lra.
Qed.

Lemma S_flux : forall M, eta * S M = t * (edge f (Z.of_nat M) - edge f (- Z.of_nat M - 1)).
Proof.
  intros M. unfold S. rewrite <- W_scal. rewrite (W_ext _ _ _ _ flux), W_scal, W_telescope.
  replace (- Z.of_nat M + Z.of_nat (2 * M + 1) - 1)%Z with (Z.of_nat M) by lia. reflexivity.
Qed.

Lemma S_le : forall M, eta * S M <= Rabs t * ((D M + D (Datatypes.S M)) / 2).
Proof.
  intros M. rewrite S_flux. set (p := edge f (Z.of_nat M)). set (q := edge f (- Z.of_nat M - 1)).
  assert (P : Rabs p <= (N (Z.of_nat M + 1) + N (Z.of_nat M)) / 2) by apply edge_norms.
  assert (Q : Rabs q <= (N (- Z.of_nat M) + N (- Z.of_nat M - 1)) / 2).
  { unfold q. pose proof (edge_norms f (- Z.of_nat M - 1)) as E. replace (- Z.of_nat M - 1 + 1)%Z with (- Z.of_nat M)%Z in E by ring. exact E. }
  assert (X : Rabs (p - q) <= (D M + D (Datatypes.S M)) / 2).
  { unfold D. replace (Z.of_nat (Datatypes.S M)) with (Z.of_nat M + 1)%Z by lia. replace (- (Z.of_nat M + 1))%Z with (- Z.of_nat M - 1)%Z by lia.
    pose proof (Rabs_triang p (- q)) as TT. rewrite Rabs_Ropp in TT. unfold Rminus. lra. }
  eapply Rle_trans; [apply Rle_abs|]. rewrite Rabs_mult. apply Rmult_le_compat_l; [apply Rabs_pos|exact X].
Qed.

Lemma N_le : forall n, N n <= B * B.
Proof. intros n. unfold N. rewrite <- Cabs_sq. pose proof (HB n). pose proof (Cabs_ge0 (f n)). nra. Qed.

Lemma D_le : forall M, D M <= 2 * (B * B).
Proof. intros M. unfold D. pose proof (N_le (Z.of_nat M)). pose proof (N_le (- Z.of_nat M)). lra. Qed.

Lemma S_zero : forall M, S M <= 0.
Proof.
  intros M. destruct (Rle_lt_dec (S M) 0) as [L|L]; [exact L|exfalso].
  set (sg := S M) in *. set (tt := Rabs t). assert (T0 : 0 <= tt) by apply Rabs_pos.
  assert (K : forall k, INR k * (eta * sg) <= tt * (S (M + 2 * k))).
  { induction k as [|k IH].
    - cbn [INR]. replace (M + 2 * 0)%nat with M by lia. fold sg. nra.
    - rewrite S_INR. replace (M + 2 * Datatypes.S k)%nat with (Datatypes.S (Datatypes.S (M + 2 * k))) by lia. rewrite !S_step.
      pose proof (S_le (Datatypes.S (M + 2 * k))) as E. fold tt in E.
      pose proof (S_mono M (Datatypes.S (2 * k))) as Mo. fold sg in Mo. replace (M + Datatypes.S (2 * k))%nat with (Datatypes.S (M + 2 * k)) in Mo by lia.
      pose proof (D_pos (Datatypes.S (M + 2 * k))) as D1. pose proof (D_pos (Datatypes.S (Datatypes.S (M + 2 * k)))) as D2.
      set (d1 := D (Datatypes.S (M + 2 * k))) in *. set (d2 := D (Datatypes.S (Datatypes.S (M + 2 * k)))) in *. set (s1 := S (Datatypes.S (M + 2 * k))) in *.
      assert (eta * sg <= eta * s1) by nra. assert (tt * ((d1 + d2) / 2) <= tt * (d1 + d2)) by nra. nra. }
  assert (U : forall k, eta * S k <= tt * (2 * (B * B))).
  { intros k. eapply Rle_trans; [apply S_le|]. fold tt. pose proof (D_le k). pose proof (D_le (Datatypes.S k)). apply Rmult_le_compat_l; [exact T0|lra]. }
  set (b := tt * (tt * (2 * (B * B)))). assert (Es : 0 < eta * (eta * sg)) by (apply Rmult_lt_0_compat; [|apply Rmult_lt_0_compat]; assumption).
  destruct (above (b / (eta * (eta * sg)))) as [k Hk].
  assert (X : INR k * (eta * (eta * sg)) <= b).
  { unfold b. specialize (K k). specialize (U (M + 2 * k)%nat). assert (tt * (eta * S (M + 2 * k)) <= tt * (tt * (2 * (B * B)))) by (apply Rmult_le_compat_l; assumption). nra. }
  apply (Rmult_lt_compat_r (eta * (eta * sg))) in Hk; [|exact Es]. unfold Rdiv in Hk. rewrite Rmult_assoc, Rinv_l, Rmult_1_r in Hk by lra. lra.
Qed.

Lemma homogeneous_zero : forall n, f n = C0.
Proof.
  intros n. set (M := Z.abs_nat n). pose proof (S_zero M) as Z0. assert (L : N n <= S M).
  { unfold S. apply W_le; [intros x; apply norm2_pos|]. unfold M. lia. }
  pose proof (norm2_pos (f n)) as P. unfold N in L. assert (E : Cnorm2 (f n) = 0) by lra. revert E. destruct (f n) as [a b]. unfold Cnorm2, C0, Re, Im. cbn. intros E.
  assert (a = 0) by nra. assert (b = 0) by nra. subst. reflexivity.
Qed.
End Homogeneous.

(** * Functional relations *)
Lemma pickR : forall {X} (P : X -> R -> Prop) B, (forall x v v', P x v -> P x v' -> v = v') -> (forall x v, P x v -> - B <= v <= B) ->
  exists f : X -> R, (forall x v, P x v -> f x = v) /\ forall x, ~ (exists v, P x v) -> f x = 0.
Proof.
  intros X P B F HB. set (E := fun (x : X) (r : R) => r <= Rabs B /\ forall v, P x v -> r <= v).
  assert (Eb : forall x, bound (E x)) by (intros x; exists (Rabs B); intros r [H _]; exact H).
  assert (Ee : forall x, exists r, E x r).
  { intros x. exists (- Rabs B). split; [pose proof (Rabs_pos B); lra|]. intros v Hv. destruct (HB x v Hv). pose proof (Rle_abs B). lra. }
  exists (fun x => if sig_not_dec (exists v, P x v) then proj1_sig (completeness (E x) (Eb x) (Ee x)) else 0). split.
  - intros x v Hv. destruct (sig_not_dec (exists v, P x v)) as [_|N]; [|exfalso; apply N; exists v; exact Hv].
    destruct (completeness (E x) (Eb x) (Ee x)) as [r [U L]]. cbn [proj1_sig]. apply RIneq.Rle_antisym.
    + apply L. intros y [_ Hy]. exact (Hy v Hv).
    + apply U. split; [destruct (HB x v Hv); pose proof (Rle_abs B); lra|]. intros v' Hv'. rewrite (F x v v' Hv Hv'). lra.
  - intros x N. destruct (sig_not_dec (exists v, P x v)) as [NN|_]; [contradiction|reflexivity].
Qed.

Lemma pickC : forall {X} (P : X -> C -> Prop) B, (forall x v v', P x v -> P x v' -> v = v') -> (forall x v, P x v -> Cabs v <= B) ->
  exists f : X -> C, (forall x v, P x v -> f x = v) /\ forall x, ~ (exists v, P x v) -> f x = C0.
Proof.
  intros X P B F HB.
  assert (I : forall v : C, - Cabs v <= Im v <= Cabs v).
  { intros v. pose proof (Cabs_sq v) as S. pose proof (Cabs_ge0 v) as G. pose proof (Rle_0_sqr (Re v)) as Q. unfold Cnorm2, Rsqr in *.
    assert (A : Rabs (Im v) <= Cabs v).
    { destruct (Rle_lt_dec (Rabs (Im v)) (Cabs v)) as [L|L]; [exact L|exfalso]. unfold Rabs in L; destruct (Rcase_abs (Im v)); nra. }
    unfold Rabs in A. destruct (Rcase_abs (Im v)); lra. }
  destruct (pickR (fun x r => exists v, P x v /\ r = Re v) B) as [fr [R1 R2]].
  { intros x v v' [z [Hz ->]] [z' [Hz' ->]]. rewrite (F x z z' Hz Hz'). reflexivity. }
  { intros x v [z [Hz ->]]. pose proof (HB x z Hz). pose proof (Cabs_re z). lra. }
  destruct (pickR (fun x r => exists v, P x v /\ r = Im v) B) as [fi [I1 I2]].
  { intros x v v' [z [Hz ->]] [z' [Hz' ->]]. rewrite (F x z z' Hz Hz'). reflexivity. }
  { intros x v [z [Hz ->]]. pose proof (HB x z Hz). pose proof (I z). lra. }
  exists (fun x => (fr x, fi x)). split.
  - intros x v Hv. rewrite (R1 x (Re v)), (I1 x (Im v)) by (exists v; auto). destruct v; reflexivity.
  - intros x N. rewrite R2, I2; [reflexivity| |]; intros [r [v [Hv _]]]; apply N; exists v; exact Hv.
Qed.

(** Equalities of complex numbers may be proved by cases on any proposition. *)
Lemma cases_C : forall (P : Prop) (u v : C), (P -> u = v) -> (~ P -> u = v) -> u = v.
Proof.
  intros P u v H1 H2. destruct u as [a b], v as [c d].
  assert (S : forall x y : R, ~ ~ x = y -> x = y) by (intros x y N; destruct (Req_EM_T x y) as [E|E]; [exact E|contradiction]).
  f_equal; apply S; intros N; assert (NP : ~ P) by (intros p; apply N; specialize (H1 p); congruence); apply N; specialize (H2 NP); congruence.
Qed.

Lemma cases_le : forall (P : Prop) (x y : R), (P -> x <= y) -> (~ P -> x <= y) -> x <= y.
Proof. intros P x y H1 H2. destruct (Rle_lt_dec x y) as [L|L]; [exact L|]. apply H2. intros p. apply H1 in p. lra. Qed.
