(** Specification of the energies of trial states in the variational space (C78). *)
From Coq Require Import ZArith Reals List.
From Verif Require Import Base NdArray Model HModel Spec_engine Cplx Spec_eom Spec_green Spec_exact.
Import ListNotations.
Open Scope R_scope.

(** A trial state of momentum [k]: finitely many arrangements [l] of phonons
    around the particle, all in the variational space and within [r] sites.
    [Psi n j] is its scalar product with |j, n>. *)
Record trial (m : model R) (ae : Z) (k : R) (r : Z) (l : list placement) (Psi : placement -> Z -> C) : Prop := {
  tr_nodup : NoDup l;
  tr_space : forall n, In n l -> allowed m ae n /\ near (m_ntypes m) r n;
  tr_support : forall n, ~ In n l -> Psi n 0%Z = C0;
  tr_momentum : forall n s j, Psi (translated n s) (j + s)%Z = Cmul (Cexpi (- (k * m_lattice m * IZR s))) (Psi n j) }.

(** <Psi|Psi> and <Psi|H|Psi>, per site: the states |j, n> are orthogonal and
    <j, n|j, n> = norm2 n. *)
Definition trial_norm (m : model R) (r : Z) (l : list placement) (Psi : placement -> Z -> C) : R :=
  fold_right (fun n s => Cnorm2 (Psi n 0%Z) / norm2 (m_ntypes m) r n + s) 0 l.
Definition trial_energy (m : model R) (c r : Z) (l : list placement) (Psi : placement -> Z -> C) : R :=
  fold_right (fun n s => (Re (Psi n 0%Z) * Re (on_H m c (energy m r n) Psi n 0%Z) + Im (Psi n 0%Z) * Im (on_H m c (energy m r n) Psi n 0%Z)) / norm2 (m_ntypes m) r n + s) 0 l.

(** No trial state has an energy below, above [e]. *)
Definition energies_above (m : model R) (ae c : Z) (k e : R) : Prop :=
  forall r l Psi, trial m ae k r l Psi -> e * trial_norm m r l Psi <= trial_energy m c r l Psi.
Definition energies_below (m : model R) (ae c : Z) (k e : R) : Prop :=
  forall r l Psi, trial m ae k r l Psi -> trial_energy m c r l Psi <= e * trial_norm m r l Psi.

(** The variational space of [m'] contains that of [m]. *)
Definition contained (m : model R) (ae : Z) (m' : model R) (ae' : Z) : Prop := forall a, space m ae a -> space m' ae' a.
(** Every limit of [m'] is at least that of [m]. *)
Definition at_least (lim lim' : option Z) : Prop := match lim, lim' with _, None => True | None, Some _ => False | Some a, Some b => (a <= b)%Z end.
Definition wider (m : model R) (ae : Z) (m' : model R) (ae' : Z) : Prop :=
  (ae <= ae')%Z /\ at_least (m_mps m) (m_mps m') /\
  forall t, (t < m_ntypes m)%nat -> (nth t (m_pe m) 0 <= nth t (m_pe m') 0 /\ nth t (m_pn m) 0 <= nth t (m_pn m') 0)%Z.
