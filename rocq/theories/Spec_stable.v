(** Specification of the effect of an inexact solution of the linear system (C70). *)
From Coq Require Import ZArith Reals List.
From Verif Require Import Base Model Ring Cplx Solvers Spec_solve.
Import ListNotations.
Open Scope R_scope.

(** What row [i] of X x = v is missed by. *)
Definition residual (X v : coo CR) (x : nat -> C) (i : nat) : C := Csub (mv (c_ent X) x i : C) (entry (c_ent v) i 0).

(** The Euclidean norm of the first [n] components of a vector. *)
Definition norm (y : nat -> C) (n : nat) : R := sqrt (fold_right Rplus 0 (map (fun i => Cnorm2 (y i)) (seq 0 n))).

(** The sum of the sizes of its components. *)
Definition norm1 (y : nat -> C) (n : nat) : R := fold_right Rplus 0 (map (fun i => Cabs (y i)) (seq 0 n)).

(** The largest number of phonons of all types together. *)
Definition room {T} (m : model T) : R := IZR (fold_right Z.add 0%Z (m_pn m)).

(** Matrices of the same shape with entries at most [d] apart. *)
Definition near (d : R) (X Y : coo CR) : Prop :=
  c_rows Y = c_rows X /\ c_cols Y = c_cols X /\
  forall i j, (i < c_rows X)%nat -> (j < c_cols X)%nat -> Cabs (Csub (entry (c_ent Y) i j : C) (entry (c_ent X) i j)) <= d.

(** The entries are at positions of the matrix. *)
Definition in_shape (X : coo CR) : Prop := forall i j c, In (i, j, c) (c_ent X) -> (i < c_rows X)%nat /\ (j < c_cols X)%nat.
