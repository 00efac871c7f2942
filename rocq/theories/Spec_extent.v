(** Specification of the dependence on the extents of the clouds (C65, C66). *)
From Coq Require Import ZArith Reals List Bool.
From Verif Require Import Base NdArray Spec Model HModel Spec_engine Cplx Spec_eom Spec_green.
Import ListNotations.
Open Scope list_scope.
Open Scope Z_scope.

(** Number of sites between the first and the last phonon of a cloud. *)
Definition width (a : nd) : Z := Z.of_nat (nth 1 (shp a) 0%nat).

(** The variational spaces have the same clouds of up to [M] sites. *)
Definition same_narrow {T} (m : model T) (ae : Z) (m' : model T) (ae' : Z) (M : Z) : Prop :=
  forall a, width a <= M -> (space m ae a <-> space m' ae' a).

(** No mode holds more than [N] phonons. *)
Definition at_most {T} (m : model T) (ae N : Z) : Prop := forall a t x, space m ae a -> occ a t [x] <= N.

(** Every operator changes a mode within [rho] sites of the particle. *)
Definition couples_within {T} (m : model T) (c rho : Z) : Prop := forall h, In h (h_terms (m_ham m)) -> Z.abs (mode c h 0) <= rho.

(** What moves the particle with a phonon: the sum of |coupling| times the
    distance that the particle jumps, over the operators of the interaction. *)
Definition carried (m : model R) : R :=
  fold_right (fun h s => IZR (Z.abs (psi1 h)) / 2 * Rabs (ht_coupling h) + s)%R 0%R (h_terms (m_ham m)).

(** Same limits on numbers; the extents (per type, and absolute) are the same or
    both leave room for clouds of [M] sites. *)
Definition same_numbers {T} (m m' : model T) : Prop := m_pn m = m_pn m' /\ m_mps m = m_mps m'.
Definition extents_agree {T} (m m' : model T) (ae ae' M : Z) : Prop :=
  (forall t, (t < m_ntypes m)%nat -> nth t (m_pe m) 0 = nth t (m_pe m') 0 \/ M <= nth t (m_pe m) 0 /\ M <= nth t (m_pe m') 0) /\
  (ae = ae' \/ M <= ae /\ M <= ae').

(** [m] with the extents replaced. *)
Definition with_extents {T} (m : model T) (pe : list Z) : model T :=
  mkModel (m_lattice m) (m_temp m) (m_ham m) (m_mps m) pe (m_pn m) None (m_ntypes m).
