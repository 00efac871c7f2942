(** Specification of the spectral function as the user forms it (C74):
    [A = -G.imag / np.pi] (docs/source/tutorials/introduction.rst:112,
    benchmark.rst:156) of the array that greens_function returns. *)
From Coq Require Import String Reals List.
From Verif Require Import Base NdArray Model Cplx System Solvers Spec_solve Physics Coef Ring Spec_eom Spec_sym.
Import ListNotations.
Open Scope list_scope.

(** [A w] is minus the imaginary part of G(k, w + i eta), divided by pi. *)
Definition spectral_function (m : model R) (sp : coo CR -> coo CR -> nat -> CR) (ord : string -> list vec -> list vec) (k eta : R) (A : R -> R) : Prop :=
  forall w, exists g : C, greens (phys_env m k w eta) sp ord m = Ok g /\ A w = (- Im g / PI)%R.

(** Sum of the array of A at the n frequencies a, a + h, a + 2 h, ... *)
Definition array_sum (A : R -> R) (a h : R) (n : nat) : R :=
  fold_right Rplus 0%R (map (fun j => A (a + INR j * h)%R) (seq 0 n)).
