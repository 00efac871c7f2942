(** Specification of Pick matrices (C76): a function of the upper half-plane is
    the resolvent <v| (z - H)^-1 |v> of a self-adjoint operator only if the matrix
    (g_q* - g_p) / (z_p - z_q* ) of its values at any points is positive. *)
From Coq Require Import Reals List.
From Verif Require Import Base Cplx Spec_eom Spec_green.
Import ListNotations.
Open Scope list_scope.

Definition conjugate (z : C) : C := (Re z, - Im z)%R.

(** A coefficient, a point of the plane, and the value there. *)
Record sample := mkSample { sa_coef : C; sa_at : C; sa_value : C }.

Definition pick (p q : sample) : C :=
  Cdiv (Csub (conjugate (sa_value q)) (sa_value p)) (Csub (sa_at p) (conjugate (sa_at q))).

(** sum over p and q of a_p a_q* pick p q *)
Definition pick_form (l : list sample) : C :=
  Csum_list (map (fun p => Csum_list (map (fun q => Cmul (Cmul (sa_coef p) (conjugate (sa_coef q))) (pick p q)) l)) l).

(** sum over p of a_p g_p *)
Definition value_form (l : list sample) : C := Csum_list (map (fun p => Cmul (sa_coef p) (sa_value p)) l).
