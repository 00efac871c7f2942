(** Specification of the Green's function at a temperature (C72): the particle
    is added to phonons in thermal equilibrium.

    With H the Hamiltonian of the model at temperature 0 (no thermofield) and
    E_n the energy of the phonons [n] alone, the q-th moment of the spectral
    function is sum_n e^{-E_n / T} / Z <k, n| (H - E_n)^q |k, n>. *)
From Coq Require Import ZArith Reals List Bool Permutation.
From Verif Require Import Base Model HModel Cplx Spec_eom Spec_green Spec_exact.
Import ListNotations.
Open Scope list_scope.
Open Scope Z_scope.

(** [mu q] is the functional <k, n0| (H - E_n0)^q on all states; <k, n0| takes
    the coefficient of the phonons [n0]. *)
Record thermal_row (m : model R) (c : Z) (k : R) (n0 : placement) (mu : nat -> placement -> Z -> C) : Prop := {
  tr_support : forall q n j, ~ full m n -> mu q n j = C0;
  tr_start : forall j, mu 0%nat n0 j = Cexpi (- (k * m_lattice m * IZR j));
  tr_other : forall n j, full m n -> (exists t x, n t x <> n0 t x) -> mu 0%nat n j = C0;
  tr_next : forall q n r j, full m n -> near (m_ntypes m) r n -> near (m_ntypes m) r n0 ->
    mu (S q) n j = on_H m c (energy m r n - energy m r n0) (mu q) n j }.

(** The Boltzmann weight of [i] phonons of frequency [om] at temperature [T]. *)
Definition boltzmann (T om : R) (i : nat) : R := ((1 - exp (- (om / T))) * exp (- (INR i * om / T)))%R.

(** The average of [f] over the numbers of phonons in the given modes, the
    other modes being as in [n], is [s]. *)
Definition with_phonons (n : placement) (t : nat) (x : Z) (i : nat) : placement :=
  fun t' x' => if Nat.eqb t' t && (x' =? x) then Z.of_nat i else n t' x'.
Definition sums_to (f : nat -> C) (s : C) : Prop := infinite_sum (fun i => Re (f i)) (Re s) /\ infinite_sum (fun i => Im (f i)) (Im s).
Fixpoint average (T : R) (om : nat -> R) (modes : list (nat * Z)) (f : placement -> C) (n : placement) (s : C) : Prop :=
  match modes with
  | [] => s = f n
  | (t, x) :: r => exists g, (forall i, average T om r f (with_phonons n t x i) (g i)) /\ sums_to (fun i => Cmul (RtoC (boltzmann T (om t) i)) (g i)) s
  end.

(** The frequency of type [t]. *)
Definition freq_of (m : model R) (t : nat) : R := nth t (h_freqs (m_ham m)) 0%R.

(** [s] is the q-th moment of [m] at temperature [T]: whatever the functionals
    of [thermal_row], and however many modes around the particle's site are
    averaged over, if they are enough. *)
Definition thermal_moment (m : model R) (T : R) (c : Z) (k : R) (q : nat) (s : C) : Prop :=
  exists r0, forall r mu, r0 <= r -> (forall n0, full m n0 -> thermal_row m c k n0 (mu n0)) ->
    average T (freq_of m) (near_modes (m_ntypes m) r) (fun n0 => mu n0 q n0 0) vacuum s.

(** The thermofield double of a Hamiltonian (Takahashi and Umezawa): b is
    replaced by cosh a + sinh a'+, b+ by cosh a+ + sinh a', and the energy of
    a' is - omega.  Type t becomes types 2 t and 2 t + 1. *)
Definition flipped (d : dagger) : dagger := match d with Plus => Minus | Minus => Plus end.
Definition real_part (V : R -> R) (h : hterm R) : hterm R :=
  mkHterm (ht_type h) (ht_psi h) (ht_phi h) (ht_dag h) (ht_coupling h * V (ht_freq h))%R (2 * ht_index h) (ht_freq h).
Definition tilde_part (Vt : R -> R) (h : hterm R) : hterm R :=
  mkHterm (ht_type h) (ht_psi h) (ht_phi h) (flipped (ht_dag h)) (ht_coupling h * Vt (ht_freq h))%R (S (2 * ht_index h)) (- ht_freq h)%R.

(** [mT] is the thermofield double of [m] with the prefactors [V], [Vt]: their
    squares are 1 + n and n, n the Bose function. *)
Record thermofield (T : R) (V Vt : R -> R) (m mT : model R) : Prop := {
  tf_lattice : m_lattice mT = m_lattice m; tf_hop : h_hop (m_ham mT) = h_hop (m_ham m);
  tf_mps : m_mps m = None /\ m_mps mT = None;
  tf_types : m_ntypes mT = (2 * m_ntypes m)%nat /\ List.length (h_freqs (m_ham m)) = m_ntypes m;
  tf_freqs : h_freqs (m_ham mT) = flat_map (fun f => [f; - f]%R) (h_freqs (m_ham m));
  tf_bose : forall f, In f (h_freqs (m_ham m)) -> (0 < f)%R /\ (V f * V f = 1 + 1 / (exp (f / T) - 1))%R /\ (Vt f * Vt f = 1 / (exp (f / T) - 1))%R;
  tf_index : forall h, In h (h_terms (m_ham m)) -> nth_error (h_freqs (m_ham m)) (ht_index h) = Some (ht_freq h);
  tf_terms : Permutation (h_terms (m_ham mT)) (flat_map (fun h => [real_part V h; tilde_part Vt h]) (h_terms (m_ham m))) }.
