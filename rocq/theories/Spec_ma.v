(** Specification of closed forms of the Green's function (C54): the momentum
    average approximation of the Holstein polaron. *)
From Coq Require Import String ZArith Reals List Bool.
From Verif Require Import Base Model HModel Ring Coef Cplx Spec_eom.
Import ListNotations.
Open Scope list_scope.
Open Scope Z_scope.

(** The continued fraction n g2 p(n) / (1 - p(n) (n + 1) g2 p(n + 1) / (1 - ...))
    of depth [r]. *)
Fixpoint ladder {F : cfield} (g2 : F) (p : Z -> F) (n : Z) (r : nat) : F :=
  match r with
  | O => k0
  | S r' => kmul (kmul (kmul (kz n) g2) (p n)) (kinv (ksub k1 (kmul (p n) (ladder g2 p (n + 1) r'))))
  end.

(** No denominator vanishes. *)
Fixpoint ladder_ok {F : cfield} (g2 : F) (p : Z -> F) (n : Z) (r : nat) : Prop :=
  match r with
  | O => True
  | S r' => ladder_ok g2 p (n + 1) r' /\ ksub k1 (kmul (p n) (ladder g2 p (n + 1) r')) <> k0
  end.

(** One phonon type of frequency [Om], coupled to the density on its site with
    coupling [c]; clouds of at most [M] sites and [N] phonons. *)
Record holstein {T} (m : model T) (c Om : T) (M N : Z) : Prop := {
  ho_types : m_ntypes m = 1%nat;
  ho_pe : m_pe m = [M];
  ho_pn : m_pn m = [N];
  ho_freqs : h_freqs (m_ham m) = [Om];
  ho_terms : exists h h', h_terms (m_ham m) = [h; h'] /\ ht_dag h = Plus /\ ht_dag h' = Minus /\
    forall x, x = h \/ x = h' -> v2 (ht_psi x) = [0] /\ v2 (ht_phi x) = [0] /\ ht_index x = 0%nat /\ ht_coupling x = c }.

(** The largest number of phonons on one site. *)
Definition most {T} (m : model T) (N : Z) : Z := match m_mps m with Some k => Z.min N k | None => N end.

(** The local Green's function of a particle on the chain with hopping [t]:
    p^2 (z^2 - 4 t^2) = 1, on the branch with negative imaginary part. *)
Definition local_greens (t : R) (z p : C) : Prop :=
  Cmul (Cmul p p) (Csub (Cmul z z) (RtoC (4 * t * t))) = C1 /\ (Im p < 0)%R.
