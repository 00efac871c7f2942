(** Specification of the exact Green's function (C66): the Hamiltonian of the
    model on the infinite chain with any number of phonons, without a
    variational space. *)
From Coq Require Import String ZArith Reals List Bool Factorial.
From Verif Require Import Base Model HModel Cplx Spec_eom Spec_green.
Import ListNotations.
Open Scope list_scope.
Open Scope Z_scope.

(** The modes within [r] sites of site 0. *)
Definition sites (r : Z) : list Z := map (fun i => Z.of_nat i - r) (seq 0 (Z.to_nat (2 * r + 1))).
Definition near_modes (nt : nat) (r : Z) : list (nat * Z) := list_prod (seq 0 nt) (sites r).
(** All phonons are in these modes. *)
Definition near (nt : nat) (r : Z) (n : placement) : Prop := forall t x, n t x <> 0 -> (t < nt)%nat /\ Z.abs x <= r.

(** Finitely many phonons of the types of the model; if the model forbids more
    than k phonons in a mode, at most k. *)
Definition full (m : model R) (n : placement) : Prop :=
  (forall t x, 0 <= n t x) /\ (exists r, near (m_ntypes m) r n) /\
  forall k, m_mps m = Some k -> forall t x, n t x <= k.

(** Number of phonons, phonon energy, and <n|n> = product of n!. *)
Definition phonons (nt : nat) (r : Z) (n : placement) : Z := fold_right (fun p s => n (fst p) (snd p) + s) 0 (near_modes nt r).
Definition energy (m : model R) (r : Z) (n : placement) : R :=
  fold_right (fun p s => nth (fst p) (h_freqs (m_ham m)) 0%R * IZR (n (fst p) (snd p)) + s)%R 0%R (near_modes (m_ntypes m) r).
Definition norm2 (nt : nat) (r : Z) (n : placement) : R :=
  fold_right (fun p s => INR (fact (Z.to_nat (n (fst p) (snd p)))) * s)%R 1%R (near_modes nt r).

(** [Psi] is the functional <k| (z - H)^-1 on all states: square-summable, of
    momentum [k], and Psi ((z - H) |j, n>) = <k|j, n>. *)
Record exact_row (m : model R) (c : Z) (k : R) (z : C) (Psi : placement -> Z -> C) : Prop := {
  er_support : forall n j, ~ full m n -> Psi n j = C0;
  er_norm : exists V, forall r l, NoDup l -> (forall n, In n l -> full m n /\ near (m_ntypes m) r n) ->
    (fold_right (fun n s => Cnorm2 (Psi n 0%Z) / norm2 (m_ntypes m) r n + s) 0 l <= V)%R;
  er_momentum : forall n s j, Psi (translated n s) (j + s) = Cmul (Cexpi (- (k * m_lattice m * IZR s))) (Psi n j);
  er_cloud : forall n r j, full m n -> near (m_ntypes m) r n -> (exists t x, n t x <> 0) ->
    Csub (Cmul z (Psi n j)) (on_H m c (energy m r n) Psi n j) = C0;
  er_vacuum : forall j, Csub (Cmul z (Psi vacuum j)) (on_H m c 0%R Psi vacuum j) = Cexpi (- (k * m_lattice m * IZR j)) }.

(** The sum of |coupling| over the operators of the interaction. *)
Definition coupling_sum (m : model R) : R := fold_right (fun h s => Rabs (ht_coupling h) + s)%R 0%R (h_terms (m_ham m)).

(** The variational space has room for [p] phonons of every type on [M] sites;
    the limit per site is that of [m]. *)
Definition room (m m' : model R) (ae' M p : Z) : Prop :=
  m_mps m = m_mps m' /\ M <= ae' /\
  forall t, (t < m_ntypes m)%nat -> M <= nth t (m_pe m') 0 /\ p <= nth t (m_pn m') 0.
