(** Specification of the linear system and of the equation of motion
    (C16, C21-C23, C42, C47, C48). *)
From Coq Require Import String ZArith List Bool.
From Verif Require Import Base NdArray Config Spec Model Space Spec_space Term Equation Spec_engine Ring Coef.
Import ListNotations.
Open Scope list_scope.
Open Scope Z_scope.

(** An unknown is a cloud and a (doubled) argument. *)
Definition unk {T} (t : term T) : nd * list Z :=
  (cfg (t_cfg t), match t_f t with Some f => v2 f | None => [] end).

(** The left-hand side of equation [q] on the values [u] of the unknowns: the
    unknown of the equation plus the weighted unknowns of its terms. *)
Definition row {T} {K : cring} (e : env T K) (u : nd * list Z -> K) (q : equation T) : K :=
  kadd (u (unk (e_index q))) (ksum (map (fun t => kmul (coefficient e t) (u (unk t))) (e_terms q))).

(** The values [u] of the unknowns satisfy equation [q]. *)
Definition holds {T} {K : cring} (e : env T K) (u : nd * list Z -> K) (q : equation T) : Prop :=
  row e u q = bias e q.

(** A family of auxiliary Green's functions: [F n d] for an arbitrary placement
    [n] of phonons on the chain (type, site) and an argument [d] (doubled). *)
Definition family (K : cring) := (nat -> Z -> Z) -> Z -> K.

Definition vacuum : nat -> Z -> Z := fun _ _ => 0.
Definition shifted (n : nat -> Z -> Z) (s : Z) : nat -> Z -> Z := fun t x => n t (x + s).
Definition changed (n : nat -> Z -> Z) (t0 : nat) (x0 e : Z) : nat -> Z -> Z :=
  fun t x => n t x + (if Nat.eqb t t0 && (x =? x0) then e else 0).

(** Translating the whole cloud and the argument by [s] sites costs a phase;
    the phonon-free function is G up to a phase. *)
Record covariant {T} {K : cring} (e : env T K) (F : family K) : Prop := {
  cov_ext : forall n n' d, (forall t x, n t x = n' t x) -> F n d = F n' d;
  cov_shift : forall n s d, F n d = kmul (ph e [-2 * s]) (F (shifted n s) (d + 2 * s));
  cov_vac : forall d, F vacuum d = kmul (ph e [d]) (F vacuum 0) }.

(** The values that a family assigns to the unknowns. *)
Definition cloud (a : nd) : nat -> Z -> Z := fun t x => occ a t [x].
Definition of_family {K : cring} (F : family K) (p : nd * list Z) : K :=
  F (cloud (fst p)) (hd 0 (snd p)).

(** phi, psi of a one-dimensional operator, doubled *)
Definition phi1 {T} (h : hterm T) : Z := hd 0 (v2 (ht_phi h)).
Definition psi1 {T} (h : hterm T) : Z := hd 0 (v2 (ht_psi h)).

(** The summand of operator [h] at site [x] in the equation of motion of
    (a, d): coupling * n-factor * g0(d + x - phi + psi, w - E_a) * F(a changed
    at x, phi - x). *)
Definition eom_summand {T} {K : cring} (e : env T K) (F : family K) (l : list (T * Z)) (a : nd) (d : Z)
    (h : hterm T) (x : Z) : K :=
  let n := match ht_dag h with Minus => occ a (ht_index h) [x] | Plus => 1 end in
  let s := match ht_dag h with Minus => -1 | Plus => 1 end in
  kmul (kmul (kmul (ev e (ht_coupling h)) (kz n)) (g0 e [psi1 h - phi1 h + 2 * x + d] l))
       (F (changed (cloud a) (ht_index h) x s) (phi1 h - 2 * x)).

(** The summand of a creation operator [h] in the Green's function's equation. *)
Definition green_summand {T} {K : cring} (e : env T K) (F : family K) (h : hterm T) : K :=
  kmul (kmul (kmul (ev e (ht_coupling h)) (kz 1)) (kmul (G0 e) (ph e [psi1 h - phi1 h])))
       (F (changed vacuum (ht_index h) 0 1) (phi1 h)).

Definition creation {T} (h : hterm T) : bool := match ht_dag h with Plus => true | Minus => false end.

(** The operators of [m] acting on cloud [a], and the sites they act on. *)
Definition acting {T} (m : model T) (ae : Z) (a : nd) (st : hterm T -> list Z) : Prop :=
  forall h, In h (h_terms (m_ham m)) -> NoDup (st h) /\ forall x, In x (st h) <-> acts_at m ae a h [x].
