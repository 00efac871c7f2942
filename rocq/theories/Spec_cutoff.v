(** Specification of the dependence on the phonon-number limits (C61). *)
From Coq Require Import ZArith Reals List Bool.
From Verif Require Import Base NdArray Model HModel Spec_engine Cplx.
Import ListNotations.
Open Scope list_scope.
Open Scope Z_scope.

(** Two models of the same particle: same Hamiltonian and lattice, possibly
    different variational spaces. *)
Definition same_physics {T} (m m' : model T) : Prop :=
  m_ham m = m_ham m' /\ m_lattice m = m_lattice m' /\ m_ntypes m = m_ntypes m'.

(** The variational spaces have the same clouds with at most [n] phonons. *)
Definition same_clouds {T} (m : model T) (ae : Z) (m' : model T) (ae' : Z) (n : Z) : Prop :=
  forall a, total a <= n -> (space m ae a <-> space m' ae' a).

(** Same extents; the limits on numbers of phonons (per type, and per site) are
    the same or both leave room for [n] phonons. *)
Definition same_extents {T} (m m' : model T) : Prop := m_pe m = m_pe m' /\ m_aext m = m_aext m'.
Definition leaves (n : Z) (limit : option Z) : Prop := match limit with Some k => n <= k | None => True end.
Definition numbers_agree {T} (m m' : model T) (n : Z) : Prop :=
  (forall t, (t < m_ntypes m)%nat -> nth t (m_pn m) 0 = nth t (m_pn m') 0 \/ n <= nth t (m_pn m) 0 /\ n <= nth t (m_pn m') 0) /\
  (m_mps m = m_mps m' \/ leaves n (m_mps m) /\ leaves n (m_mps m')).

(** [m] with the limits per type replaced. *)
Definition with_numbers {T} (m : model T) (pn : list Z) : model T :=
  mkModel (m_lattice m) (m_temp m) (m_ham m) (m_mps m) (m_pe m) pn (m_aext m) (m_ntypes m).

(** Squared distance of two complex numbers. *)
Definition dist2 (x y : C) : R := Cnorm2 (Csub x y).
