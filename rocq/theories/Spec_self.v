(** Specification of the self-energy of the computed Green's function (C59). *)
From Coq Require Import Reals List.
From Verif Require Import Base Model Cplx.
Import ListNotations.
Open Scope R_scope.

(** The sum of the sizes of the couplings with which a phonon can be created. *)
Definition strength (m : model R) : R :=
  fold_right Rplus 0 (map (fun h => match ht_dag h with Plus => Rabs (ht_coupling h) | Minus => 0 end) (h_terms (m_ham m))).

(** The energy of the free particle of momentum [k]. *)
Definition band (m : model R) (k : R) : R := - (2 * h_hop (m_ham m) * cos (k * m_lattice m)).
(** [g] is the Green's function at z = w + i eta with the self-energy [s]:
    g = 1 / (z - band - s). *)
Definition dyson (m : model R) (k w eta : R) (s g : C) : Prop := Cmul g (Csub (w - band m k, eta) s) = C1.
