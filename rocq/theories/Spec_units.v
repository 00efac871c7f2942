(** Specification for the units of energy (C85). *)
From Coq Require Import String ZArith List Bool.
From Verif Require Import Base Model HModel Ring Coef.
Import ListNotations.

(** All energies of a model (couplings, frequencies, hopping, temperature) are
    changed by [f]. *)
Definition op_in {T} (f : T -> T) (h : hterm T) : hterm T :=
  mkHterm (ht_type h) (ht_psi h) (ht_phi h) (ht_dag h) (f (ht_coupling h)) (ht_index h) (f (ht_freq h)).
Definition in_units {T} (f : T -> T) (m : model T) : model T :=
  mkModel (m_lattice m) (f (m_temp m)) (mkHam (map (op_in f) (h_terms (m_ham m))) (map f (h_freqs (m_ham m))) (h_dim (m_ham m)) (f (h_hop (m_ham m))))
    (m_mps m) (m_pe m) (m_pn m) (m_aext m) (m_ntypes m).

(** The energies of a call; the dimensionless coupling strength stays. *)
Definition call_in {T} (f : T -> T) (a : add_args T) : add_args T :=
  mkAdd (a_type a) (f (a_freq a)) (a_M a) (a_N a) (a_Mtfd a) (a_Ntfd a) (option_map f (a_cs a)) (a_dcs a) (a_override a).

(** Numbers at a point in two units: energies are multiplied by [c], Green's
    functions divided by it. *)
Record units_changed {T} {K : cring} (f : T -> T) (c : K) (e e' : env T K) : Prop := {
  uc_ev : forall x, ev e' (f x) = kmul c (ev e x);
  uc_ph : forall v, ph e' v = ph e v;
  uc_g0 : forall v l, kmul c (g0 e' v (map (fun p => (f (fst p), snd p)) l)) = g0 e v l;
  uc_G0 : kmul c (G0 e') = G0 e }.

(** The same model with another lattice constant. *)
Definition with_lattice {T} (a : T) (m : model T) : model T :=
  mkModel a (m_temp m) (m_ham m) (m_mps m) (m_pe m) (m_pn m) (m_aext m) (m_ntypes m).
