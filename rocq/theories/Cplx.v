(** Complex numbers as pairs of standard-library reals: numpy's complex128
    with exact arithmetic. *)
From Coq Require Import Reals Ring Field Lra.
From Verif Require Import Ring.
Open Scope R_scope.

Definition C := (R * R)%type.
Definition Re (z : C) : R := fst z.
Definition Im (z : C) : R := snd z.
Definition RtoC (x : R) : C := (x, 0).
Definition C0 : C := (0, 0).
Definition C1 : C := (1, 0).
Definition Ci : C := (0, 1).
Definition Cadd (z w : C) : C := (Re z + Re w, Im z + Im w).
Definition Copp (z : C) : C := (- Re z, - Im z).
Definition Csub (z w : C) : C := (Re z - Re w, Im z - Im w).
Definition Cmul (z w : C) : C := (Re z * Re w - Im z * Im w, Re z * Im w + Im z * Re w).
Definition Cnorm2 (z : C) : R := Re z * Re z + Im z * Im z.
Definition Cabs (z : C) : R := sqrt (Cnorm2 z).
Definition Cinv (z : C) : C := (Re z / Cnorm2 z, - Im z / Cnorm2 z).
Definition Cdiv (z w : C) : C := Cmul z (Cinv w).

(** The principal square root (numpy.sqrt on complex numbers), branch cut on
    the negative axis, continuous from above; the sign of zero is not
    represented. *)
Definition Csqrt (z : C) : C :=
  (sqrt ((Cabs z + Re z) / 2), (if Rle_dec 0 (Im z) then 1 else -1) * sqrt ((Cabs z - Re z) / 2)).

(** The principal argument, in (-pi, pi]. *)
Definition Carg (z : C) : R :=
  if Rle_dec 0 (Im z) then acos (Re z / Cabs z) else - acos (Re z / Cabs z).

(** [z ** p] for real [p] and nonzero [z]. *)
Definition Cpow (z : C) (p : R) : C :=
  (Rpower (Cabs z) p * cos (p * Carg z), Rpower (Cabs z) p * sin (p * Carg z)).

(** cmath.exp(i x) *)
Definition Cexpi (x : R) : C := (cos x, sin x).

Lemma Ceq : forall z w : C, Re z = Re w -> Im z = Im w -> z = w.
Proof. intros [a b] [c d]. cbn. intros -> ->. reflexivity. Qed.

Lemma Cring_theory : ring_theory C0 C1 Cadd Cmul Csub Copp (@eq C).
Proof. constructor; intros; apply Ceq; unfold C0, C1, Cadd, Cmul, Csub, Copp, Re, Im; cbn; ring. Qed.

Lemma Cnorm2_0 : forall z, Cnorm2 z = 0 -> z = C0.
Proof.
  intros [a b]. unfold Cnorm2, Re, Im. cbn. intros H. assert (a = 0) by nra. assert (b = 0) by nra. subst. reflexivity.
Qed.

Lemma Cinv_l : forall z, z <> C0 -> Cmul (Cinv z) z = C1.
Proof.
  intros z H. assert (Cnorm2 z <> 0) by (intros E; apply H; apply Cnorm2_0; exact E).
  apply Ceq; unfold Cinv, Cmul, C1, Cnorm2, Re, Im in *; cbn in *; field; assumption.
Qed.

Lemma C1_neq_C0 : C1 <> C0.
Proof. intros H. assert (1 = 0) by (change (Re C1 = Re C0); rewrite H; reflexivity). lra. Qed.

Lemma Cfield_theory : field_theory C0 C1 Cadd Cmul Csub Copp Cdiv Cinv (@eq C).
Proof.
  constructor; [exact Cring_theory|exact C1_neq_C0|reflexivity|exact Cinv_l].
Qed.
Add Field CField : Cfield_theory.

(** As a field of Ring.v. *)
Definition CR : cring := mkRing C C0 C1 Cadd Cmul Csub Copp Cring_theory.
Definition CF : cfield := mkField CR Cinv Cinv_l C1_neq_C0.
