(** Specification of models that differ in their couplings and frequencies (C80). *)
From Coq Require Import ZArith Reals List.
From Verif Require Import Base Model.
Import ListNotations.
Open Scope R_scope.

(** The same operator, with another coupling. *)
Definition same_operator (h h' : hterm R) : Prop :=
  ht_psi h = ht_psi h' /\ ht_phi h = ht_phi h' /\ ht_dag h = ht_dag h' /\ ht_index h = ht_index h'.
(** The same lattice, types of phonons and limits on the clouds. *)
Definition same_space (m m' : model R) : Prop :=
  m_lattice m = m_lattice m' /\ m_ntypes m = m_ntypes m' /\ m_mps m = m_mps m' /\ m_pe m = m_pe m' /\ m_pn m = m_pn m'.

(** The Hamiltonian of [m] is (1 - th) that of [m0] plus th that of [m1]. *)
Inductive mixed_terms (th : R) : list (hterm R) -> list (hterm R) -> list (hterm R) -> Prop :=
| mixed_nil : mixed_terms th [] [] []
| mixed_cons : forall h0 h1 h l0 l1 l, same_operator h0 h -> same_operator h1 h ->
    ht_coupling h = (1 - th) * ht_coupling h0 + th * ht_coupling h1 ->
    mixed_terms th l0 l1 l -> mixed_terms th (h0 :: l0) (h1 :: l1) (h :: l).
Definition mixed (th : R) (m0 m1 m : model R) : Prop :=
  same_space m0 m /\ same_space m1 m /\ mixed_terms th (h_terms (m_ham m0)) (h_terms (m_ham m1)) (h_terms (m_ham m)) /\
  h_hop (m_ham m) = (1 - th) * h_hop (m_ham m0) + th * h_hop (m_ham m1) /\
  forall t, (t < m_ntypes m)%nat -> nth t (h_freqs (m_ham m)) 0 = (1 - th) * nth t (h_freqs (m_ham m0)) 0 + th * nth t (h_freqs (m_ham m1)) 0.

(** In [m'] the couplings to the phonons of the types [s] are [th] times those
    of [m]. *)
Definition weaker_term (s : nat -> bool) (th : R) (h h' : hterm R) : Prop :=
  same_operator h h' /\ ht_coupling h' = (if s (ht_index h) then th else 1) * ht_coupling h.
Definition weakened (s : nat -> bool) (th : R) (m m' : model R) : Prop :=
  same_space m m' /\ Forall2 (weaker_term s th) (h_terms (m_ham m)) (h_terms (m_ham m')) /\
  h_hop (m_ham m') = h_hop (m_ham m) /\
  forall t, (t < m_ntypes m)%nat -> nth t (h_freqs (m_ham m')) 0 = nth t (h_freqs (m_ham m)) 0.

(** [m'] differs from [m] only in that its phonons have higher frequencies. *)
Definition stiffer (m m' : model R) : Prop :=
  same_space m m' /\ Forall2 (fun h h' => same_operator h h' /\ ht_coupling h' = ht_coupling h) (h_terms (m_ham m)) (h_terms (m_ham m')) /\
  h_hop (m_ham m') = h_hop (m_ham m) /\
  forall t, (t < m_ntypes m)%nat -> nth t (h_freqs (m_ham m)) 0 <= nth t (h_freqs (m_ham m')) 0.
