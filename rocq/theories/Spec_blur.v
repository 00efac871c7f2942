(** Specification of a Lorentzian of width [d], of the Green's function as a
    function of the complex frequency, and of divided differences (C86). *)
From Coq Require Import String Reals List.
From Verif Require Import Base NdArray Model Cplx System Solvers Spec_solve Physics Coef Ring Spec_eom Spec_sym.
Import ListNotations.
Open Scope R_scope.

Definition lorentzian (d t : R) : R := d / (PI * (t ^ 2 + d ^ 2)).

(** [g z] is the value returned at frequency Re z and broadening Im z > 0. *)
Definition green_at (m : model R) (sp : coo CR -> coo CR -> nat -> CR) (ord : string -> list vec -> list vec) (k : R) (g : C -> C) : Prop :=
  forall z : C, 0 < Im z -> greens (phys_env m k (Re z) (Im z)) sp ord m = Ok (g z).

(** [divided g l a] is the divided difference of g at a and the points of l. *)
Fixpoint divided (g : C -> C) (l : list C) (a : C) : C :=
  match l with
  | [] => g a
  | b :: l => Cmul (Cinv (Csub a b)) (Csub (divided g l a) (divided g l b))
  end.
