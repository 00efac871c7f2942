(** Specification of interpolation (C87). *)
From Coq Require Import Reals List.
From Verif Require Import Base Cplx Spec_blur.
Import ListNotations.
Open Scope R_scope.

(** The product of the differences to the points of [l]. *)
Fixpoint nodes (l : list C) (z : C) : C :=
  match l with
  | [] => C1
  | b :: l => Cmul (Csub z b) (nodes l z)
  end.

(** Newton's polynomial through the values of g at the points of [l]. *)
Fixpoint newton (g : C -> C) (l : list C) (z : C) : C :=
  match l with
  | [] => C0
  | b :: l => Cadd (newton g l z) (Cmul (divided g l b) (nodes l z))
  end.

(** The straight line through (x, a) and (x', a'). *)
Definition straight (x a x' a' t : R) : R := ((x' - t) * a + (t - x) * a') / (x' - x).
