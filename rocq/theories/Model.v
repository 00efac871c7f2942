(** The data held by ggce/model.py objects (model.py:52-203 [SingleTerm],
    206-244 and 433-441 [Hamiltonian], 547-803 [Model]).  Numbers (couplings,
    frequencies, hopping, temperature, lattice constant) are of an arbitrary
    type [T]; what is computed with them is in HModel.v. *)
From Coq Require Import ZArith List Bool String.
From Verif Require Import Base.
Import ListNotations.
Open Scope Z_scope.

(** Numpy vectors of (half-)integers.  [v2] holds twice the value, so 0.5 is
    [1]; [isf] says whether the dtype is float.  Every half-integer offset in
    the code is exactly representable in binary floating point, so no rounding
    is lost; the signed zero -0.0 is not represented. *)
Record vec := mkVec { isf : bool; v2 : list Z }.

(** An integer vector as a numpy int array. *)
Definition ivec (l : list Z) : vec := mkVec false (map (Z.mul 2) l).

Inductive dagger := Plus | Minus.

(** model.py:52-203 [SingleTerm] *)
Record hterm (T : Type) := mkHterm {
  ht_type : string; ht_psi : vec; ht_phi : vec; ht_dag : dagger;
  ht_coupling : T; ht_index : nat; ht_freq : T }.
Arguments mkHterm {T}. Arguments ht_type {T}. Arguments ht_psi {T}. Arguments ht_phi {T}.
Arguments ht_dag {T}. Arguments ht_coupling {T}. Arguments ht_index {T}. Arguments ht_freq {T}.

(** model.py:433-441 [Hamiltonian.__init__] *)
Record hamiltonian (T : Type) := mkHam {
  h_terms : list (hterm T); h_freqs : list T; h_dim : nat; h_hop : T }.
Arguments mkHam {T}. Arguments h_terms {T}. Arguments h_freqs {T}.
Arguments h_dim {T}. Arguments h_hop {T}.

(** model.py:785-803 [Model.__init__] *)
Record model (T : Type) := mkModel {
  m_lattice : T; m_temp : T; m_ham : hamiltonian T; m_mps : option Z;
  m_pe : list Z; m_pn : list Z; m_aext : option Z; m_ntypes : nat }.
Arguments mkModel {T}. Arguments m_lattice {T}. Arguments m_temp {T}. Arguments m_ham {T}.
Arguments m_mps {T}. Arguments m_pe {T}. Arguments m_pn {T}.
Arguments m_aext {T}. Arguments m_ntypes {T}.

(** [np.max] of a list; [None] when empty *)
Definition lmaxZ (l : list Z) : option Z :=
  match l with [] => None | x :: r => Some (fold_left Z.max r x) end.

(** model.py:614-630 [phonon_absolute_extent] (getter) *)
Definition absolute_extent {T} (m : model T) : option Z :=
  match m_aext m with
  | Some e => Some e
  | None => lmaxZ (m_pe m)
  end.
