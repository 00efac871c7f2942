(** Specification of the checks after a solve (C55). *)
From Coq Require Import ZArith Reals List Bool.
From Verif Require Import Base Ring Cplx Solvers Spec_solve Logger Conv.
Import ListNotations.
Open Scope R_scope.

(** The Euclidean norm of the first [n] entries. *)
Fixpoint sumsq (n : nat) (x : nat -> C) : R :=
  match n with O => 0 | S m => sumsq m x + Cnorm2 (x m) end.
Definition euclid (n : nat) (x : nat -> C) : R := sqrt (sumsq n x).
Definition diff (x y : nat -> C) : nat -> C := fun i => Csub (x i) (y i).

(** A vector without nan. *)
Definition some (x : nat -> C) : vec := fun i => Some (x i).

(** The factorization acts as the function [P] on the first [n] entries of
    vectors without nan. *)
Definition acts_as (n : nat) (f : vec -> vec) (P : (nat -> C) -> nat -> C) : Prop :=
  forall v x, (forall i, (i < n)%nat -> v i = Some (x i)) -> forall i, (i < n)%nat -> f v i = Some (P x i).

(** [P] approximately inverts the matrix: the relative error is at most
    [delta]. *)
Definition inverts (n : nat) (tr : list (@triplet CR)) (delta : R) (P : (nat -> C) -> nat -> C) : Prop :=
  (forall x y, (forall i, (i < n)%nat -> x i = y i) -> forall i, (i < n)%nat -> P x i = P y i) /\
  forall y, euclid n (diff (P (@mv CR tr y)) y) <= delta * euclid n y.

(** A message somebody who does not read debug output sees. *)
Definition alarming (l : lvl) : bool := (severity Warning <=? severity l)%nat.

(** No file of that name in the results directory. *)
Definition not_stored (key : String.string) (d : option (Cache.dir num)) : Prop :=
  match d with None => True | Some f => Cache.fget key f = None end.
