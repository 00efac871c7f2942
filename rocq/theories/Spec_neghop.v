(** Specification for the sign of the hopping (C84): moving the momentum by
    pi / a changes the sign of every hopping over one site. *)
From Coq Require Import ZArith List Bool.
From Verif Require Import Base Model Ring Coef Spec_eom Spec_model Spec_sym.
Import ListNotations.
Open Scope Z_scope.

(** The same model with another hopping. *)
Definition with_hop {T} (x : T) (m : model T) : model T :=
  mkModel (m_lattice m) (m_temp m) (mkHam (h_terms (m_ham m)) (h_freqs (m_ham m)) (h_dim (m_ham m)) x)
    (m_mps m) (m_pe m) (m_pn m) (m_aext m) (m_ntypes m).

(** Two environments which differ only in the Green's function of the free particle. *)
Record redressed {T} {K : cring} (e e' : env T K) : Prop := {
  rd_ev : forall x, ev e' x = ev e x;
  rd_ph : forall v, ph e' v = ph e v;
  rd_g0 : forall v l, g0 e' v l = g0 e v l }.

(** A sign for every site: positions are doubled, so neighbouring sites are 2 apart. *)
Record site_sign {K : cring} (x : Z -> K) : Prop := {
  ss_0 : x 0 = k1;
  ss_add : forall a b, x (a + b) = kmul (x a) (x b);
  ss_2 : x 2 = kopp k1 }.

(** The environments differ by such a sign in the phases and propagators. *)
Record sign_changed {T} {K : cring} (x : Z -> K) (e e' : env T K) : Prop := {
  sn_ev : forall c, ev e' c = ev e c;
  sn_ph : forall d, ph e' [d] = kmul (x d) (ph e [d]);
  sn_g0 : forall d l, g0 e' [2 * d] l = kmul (x (2 * d)) (g0 e [2 * d] l);
  sn_G0 : G0 e' = G0 e }.

(** For the types [t] with [f t = true] the particle moves by an odd number of
    sites whenever a phonon is created or removed, for the others by an even one. *)
Definition moves {T} (f : nat -> bool) (m : model T) : Prop :=
  forall h, In h (h_terms (m_ham m)) -> exists y, psi1 h = 2 * y /\ f (ht_index h) = Z.odd y.
