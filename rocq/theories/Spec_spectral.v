(** Specification of the spectral properties of the computed Green's function
    (C50-C53). *)
From Coq Require Import String ZArith Reals List Bool Permutation.
From Verif Require Import Base Model HModel Ring Coef Cplx Spec_eom Spec_model.
Import ListNotations.
Open Scope list_scope.
Open Scope Z_scope.

(** [h'] is the Hermitian conjugate of c+_i c_{i+psi} b^d_{i+phi}, re-centred on
    i + psi, with the same real coupling. *)
Definition adjoint_op {T} (e : env T CR) (h h' : hterm T) : Prop :=
  psi1 h' = - psi1 h /\ phi1 h' = phi1 h - psi1 h /\ ht_dag h' = flip (ht_dag h) /\ ht_index h' = ht_index h /\
  ev e (ht_coupling h') = ev e (ht_coupling h) /\ Im (ev e (ht_coupling h)) = 0%R.

(** The interaction is Hermitian: conjugation only reorders the operators. *)
Definition hermitian {T} (e : env T CR) (m : model T) : Prop :=
  exists l, Permutation (h_terms (m_ham m)) l /\ Forall2 (adjoint_op e) (h_terms (m_ham m)) l.

(** Particles hop between sites; all phonons live on the sites ([c] = 0) or all
    on the bonds ([c] = 1).  Positions are doubled. *)
Definition on_lattice {T} (m : model T) (c : Z) : Prop :=
  forall h, In h (h_terms (m_ham m)) -> Z.Even (psi1 h) /\ Z.Even (phi1 h - c).

(** The environment of the momentum k + 2 pi / a: phases over an odd number of
    half lattice constants change sign. *)
Record staggered {T} {K : cring} (e e' : env T K) : Prop := {
  sg_ev : forall x, ev e' x = ev e x;
  sg_ph : forall d, ph e' [d] = if Z.even d then ph e [d] else kopp (ph e [d]);
  sg_g0 : forall d l, g0 e' [d] l = g0 e [d] l;
  sg_G0 : G0 e' = G0 e }.

(** The environments differ at most in the propagators over an odd number of
    half lattice constants. *)
Record same_on_sites {T} {K : cring} (e e' : env T K) : Prop := {
  ss_ev : forall x, ev e' x = ev e x;
  ss_ph : forall d, ph e' [d] = ph e [d];
  ss_g0 : forall d l, g0 e' [2 * d] l = g0 e [2 * d] l;
  ss_G0 : G0 e' = G0 e }.

(** The propagators are those of the lattice: unit lattice constant, or no
    hopping at all. *)
Definition exact_lattice (m : model R) : Prop := m_lattice m = 1%R \/ h_hop (m_ham m) = 0%R.
