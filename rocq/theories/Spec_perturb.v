(** Specification of the dependence on the parameters of the model (C73). *)
From Coq Require Import ZArith Reals List.
From Verif Require Import Base Model HModel.
Import ListNotations.
Open Scope R_scope.

(** Two models with the same phonon types, the same variational space and the
    same operators; hopping, frequencies and couplings may differ. *)
Definition same_place {T} (h h' : hterm T) : Prop :=
  ht_psi h' = ht_psi h /\ ht_phi h' = ht_phi h /\ ht_dag h' = ht_dag h /\ ht_index h' = ht_index h.
Definition alike {T} (m m' : model T) : Prop :=
  m_lattice m' = m_lattice m /\ m_ntypes m' = m_ntypes m /\ m_pe m' = m_pe m /\ m_pn m' = m_pn m /\ m_mps m' = m_mps m /\ m_aext m' = m_aext m /\
  Forall2 same_place (h_terms (m_ham m)) (h_terms (m_ham m')).

(** By how much the couplings, and the phonon energies of clouds, differ. *)
Definition coupling_change (m m' : model R) : R :=
  fold_right (fun p s => Rabs (ht_coupling (fst p) - ht_coupling (snd p)) + s) 0 (combine (h_terms (m_ham m)) (h_terms (m_ham m'))).
Definition energy_change (m m' : model R) : R :=
  fold_right (fun t s => Rabs (nth t (h_freqs (m_ham m)) 0 - nth t (h_freqs (m_ham m')) 0) * IZR (nth t (m_pn m) 0%Z) + s) 0 (seq 0 (m_ntypes m)).

(** A bound on the difference of the Hamiltonians when no mode holds more than
    [N] phonons. *)
Definition change (m m' : model R) (N : Z) : R :=
  2 * Rabs (h_hop (m_ham m) - h_hop (m_ham m')) + energy_change m m' + sqrt (IZR N) * coupling_change m m'.
