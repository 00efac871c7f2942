(** Specification of the Green's function of the Hamiltonian restricted to the
    variational space (C56).  Sites are integers; |j, n> is the state with the
    particle on site [j] and the phonons [n]: the product of the creation
    operators of the phonons applied to the vacuum, not normalised. *)
From Coq Require Import String ZArith Reals List Bool.
From Verif Require Import Base NdArray Config Spec Model Space Spec_space Spec_engine Cplx Spec_eom.
Import ListNotations.
Open Scope list_scope.
Open Scope Z_scope.

(** Number of phonons of each type in each mode. *)
Definition placement := nat -> Z -> Z.
Definition translated (n : placement) (s : Z) : placement := fun t x => n t (x - s).

(** The variational space: no phonon, or a cloud of the model placed anywhere. *)
Definition allowed {T} (m : model T) (ae : Z) (n : placement) : Prop :=
  (forall t x, n t x = 0) \/
  exists a s, space m ae a /\ forall t x, n t x = translated (cloud a) s t x.

(** The operator c+_i c_{i+psi} b^d_{i+phi} takes the particle from site j =
    i + psi to site i and changes the phonons of mode i + phi.  [psi1], [phi1]
    are doubled.  Modes live on the sites (c = 0) or on the bonds (c = 1): mode
    x is at position x + c/2. *)
Definition target {T} (h : hterm T) (j : Z) : Z := j - psi1 h / 2.
Definition mode {T} (c : Z) (h : hterm T) (j : Z) : Z := j + (phi1 h - psi1 h - c) / 2.
Definition after {T} (c : Z) (h : hterm T) (n : placement) (j : Z) : placement :=
  changed n (ht_index h) (mode c h j) (match ht_dag h with Plus => 1 | Minus => -1 end).
(** b+ (b+)^n |0> = (b+)^(n+1) |0> and b (b+)^n |0> = n (b+)^(n-1) |0> *)
Definition factor {T} (c : Z) (h : hterm T) (n : placement) (j : Z) : R :=
  match ht_dag h with Plus => 1%R | Minus => IZR (n (ht_index h) (mode c h j)) end.

(** The linear functional with values [Psi n j] on |j, n>, applied to H |j, n>:
    H = phonon energy [E] - t sum (c+_i c_{i+1} + h.c.)
        - sum_h g_h c+_i c_{i+psi} b^d_{i+phi}. *)
Definition Csum_list (l : list C) : C := fold_right Cadd C0 l.
Definition on_H (m : model R) (c : Z) (E : R) (Psi : placement -> Z -> C) (n : placement) (j : Z) : C :=
  Csub (Csub (Cmul (RtoC E) (Psi n j)) (Cmul (RtoC (h_hop (m_ham m))) (Cadd (Psi n (j + 1)) (Psi n (j - 1)))))
    (Csum_list (map (fun h => Cmul (RtoC (ht_coupling h * factor c h n j)) (Psi (after c h n j) (target h j))) (h_terms (m_ham m)))).

Definition phonon_energy (l : list (R * Z)) : R := fold_right (fun p s => fst p * IZR (snd p) + s)%R 0%R l.

(** [Psi] is the functional <k| (z - H)^-1 on the variational space, where <k|
    is the phonon-free state of momentum [k]: it is supported on the space,
    bounded, has momentum [k], and Psi ((z - H) |j, n>) = <k|j, n>. *)
Record greens_row (m : model R) (ae c : Z) (k : R) (z : C) (Psi : placement -> Z -> C) : Prop := {
  gr_ext : forall n n' j, (forall t x, n t x = n' t x) -> Psi n j = Psi n' j;
  gr_support : forall n j, ~ allowed m ae n -> Psi n j = C0;
  gr_bounded : exists B, forall n j, (Cabs (Psi n j) <= B)%R;
  gr_momentum : forall n s j, Psi (translated n s) (j + s) = Cmul (Cexpi (- (k * m_lattice m * IZR s))) (Psi n j);
  gr_cloud : forall a l j, space m ae a -> energy_of (h_freqs (m_ham m)) a l ->
    Csub (Cmul z (Psi (cloud a) j)) (on_H m c (phonon_energy l) Psi (cloud a) j) = C0;
  gr_vacuum : forall j, Csub (Cmul z (Psi vacuum j)) (on_H m c 0%R Psi vacuum j) = Cexpi (- (k * m_lattice m * IZR j)) }.
