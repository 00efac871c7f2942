(** Specification of the moments of the spectral function (C69): the numbers
    <k|H^q|k>, and the states that H reaches from the phonon-free state. *)
From Coq Require Import ZArith Reals List.
From Verif Require Import Base Model HModel Cplx Spec_eom Spec_green Spec_exact.
Import ListNotations.
Open Scope list_scope.
Open Scope Z_scope.

(** [mu q] is the functional <k| H^q on all states, H on the infinite chain
    without a variational space.  <k|H^q|k> is its value on |0, vacuum>. *)
Record moments (m : model R) (c : Z) (k : R) (mu : nat -> placement -> Z -> C) : Prop := {
  mo_support : forall q n j, ~ full m n -> mu q n j = C0;
  mo_start : forall j, mu 0%nat vacuum j = Cexpi (- (k * m_lattice m * IZR j));
  mo_phonons : forall n j, (exists t x, n t x <> 0) -> mu 0%nat n j = C0;
  mo_next : forall q n r j, full m n -> near (m_ntypes m) r n -> mu (S q) n j = on_H m c (energy m r n) (mu q) n j }.

(** mu_0 / z + mu_1 / z^2 + ... + mu_{Q-1} / z^Q *)
Fixpoint power (z : C) (q : nat) : C := match q with O => C1 | S q => Cmul z (power z q) end.
Definition series (z : C) (mu : nat -> C) (Q : nat) : C := Csum_list (map (fun q => Cdiv (mu q) (power z (S q))) (seq 0 Q)).

(** What [q] applications of H make of the particle on site 0 without phonons:
    H keeps the state (phonon energy), moves the particle to a neighbour, or
    applies an operator of the interaction. *)
Inductive reached (m : model R) (c : Z) : nat -> placement -> Z -> Prop :=
| at_start : reached m c 0 vacuum 0
| by_stay : forall q n j, reached m c q n j -> reached m c (S q) n j
| by_hop : forall q n j s, reached m c q n j -> s = 1 \/ s = -1 -> reached m c (S q) n (j + s)
| by_act : forall q n j h, reached m c q n j -> In h (h_terms (m_ham m)) -> full m (after c h n j) -> reached m c (S q) (after c h n j) (target h j).

(** The variational space of [m'] has all that [d] applications of H reach. *)
Definition covers (m : model R) (c : Z) (m' : model R) (ae' : Z) (d : nat) : Prop :=
  m_mps m = m_mps m' /\ forall n j, reached m c d n j -> allowed m' ae' n.

(** No operator takes the particle further than [r] sites. *)
Definition jumps_within (m : model R) (r : Z) : Prop := 1 <= r /\ forall h, In h (h_terms (m_ham m)) -> Z.abs (target h 0) <= r.
