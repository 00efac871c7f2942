(** Specification for maps between rings of numbers (C83). *)
From Coq Require Import ZArith List.
From Verif Require Import Ring Coef.

(** A homomorphism of rings. *)
Record ring_map {K K' : cring} (h : K -> K') : Prop := {
  rm_0 : h k0 = k0;
  rm_1 : h k1 = k1;
  rm_add : forall x y, h (kadd x y) = kadd (h x) (h y);
  rm_mul : forall x y, h (kmul x y) = kmul (h x) (h y) }.

(** The numbers at the second point are the images of those at the first. *)
Record carried {T} {K K' : cring} (h : K -> K') (e : env T K) (e' : env T K') : Prop := {
  ca_ev : forall x, ev e' x = h (ev e x);
  ca_ph : forall v, ph e' v = h (ph e v);
  ca_g0 : forall v l, g0 e' v l = h (g0 e v l);
  ca_G0 : G0 e' = h (G0 e) }.

(** [h] has an inverse. *)
Definition invertible {A B : Type} (h : A -> B) : Prop := exists h' : B -> A, (forall y, h (h' y) = y) /\ (forall x, h' (h x) = x).
