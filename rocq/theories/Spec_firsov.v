(** Specification of the atomic limit (C67): the Green's function of one
    electron on one site, coupled to one oscillator, in closed form
    (Lang and Firsov).  The levels are n Om - g^2 / Om, the weights are those of
    the Poisson distribution with mean (g / Om)^2. *)
From Coq Require Import Reals Factorial.
From Verif Require Import Cplx.
Open Scope R_scope.

Definition poisson (x : R) (n : nat) : R := exp (- x) * (x ^ n / INR (fact n)).
Definition polaron_level (Om g : R) (n : nat) : R := INR n * Om - g * g / Om.
Definition line (Om g : R) (z : C) (n : nat) : C :=
  Cdiv (RtoC (poisson (g / Om * (g / Om)) n)) (Csub z (RtoC (polaron_level Om g n))).
(** The first N + 1 lines. *)
Fixpoint lang_firsov (Om g : R) (z : C) (N : nat) : C :=
  match N with O => line Om g z 0 | S n => Cadd (lang_firsov Om g z n) (line Om g z N) end.
Definition tends (u : nat -> C) (l : C) : Prop := Un_cv (fun n => Re (u n)) (Re l) /\ Un_cv (fun n => Im (u n)) (Im l).
