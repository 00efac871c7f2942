(** Specification of the linear algebra (C21-C23). *)
From Coq Require Import String ZArith List Bool.
From Verif Require Import Base NdArray Config Spec Model Space Render Term Equation System Spec_engine Ring Coef Spec_eom Solvers.
Import ListNotations.
Open Scope list_scope.
Open Scope Z_scope.

(** An assignment of values to the unknowns; all phonon-free clouds are the
    same unknown, the Green's function. *)
Definition proper {K : cring} (u : nd * list Z -> K) : Prop :=
  forall a a' d, valid_cloud a -> valid_cloud a' -> phonon_free a -> phonon_free a' -> u (a, d) = u (a', d).

(** Row [i] of the product of a matrix given by its entries with a vector. *)
Definition mv {K : cring} (tr : list (@triplet K)) (x : nat -> K) (i : nat) : K :=
  ksum (map (fun p => kmul (snd p) (x (snd (fst p)))) (filter (fun p => Nat.eqb (fst (fst p)) i) tr)).

(** The entry at a position; duplicates add up, as in scipy. *)
Definition entry {K : cring} (tr : list (@triplet K)) (i j : nat) : K :=
  ksum (map snd (filter (fun p => Nat.eqb (fst (fst p)) i && Nat.eqb (snd (fst p)) j) tr)).

Definition nonsingular {K : cring} (X : coo K) : Prop :=
  forall x, (forall i, (i < c_rows X)%nat -> mv (c_ent X) x i = k0) ->
  forall i, (i < c_cols X)%nat -> x i = k0.

Definition solves {K : cring} (X v : coo K) (x : nat -> K) : Prop :=
  forall i, (i < c_rows X)%nat -> mv (c_ent X) x i = entry (c_ent v) i 0.

(** What is assumed of scipy's [spsolve]: it solves nonsingular systems. *)
Definition spsolve_ok {K : cring} (f : coo K -> coo K -> nat -> K) : Prop :=
  forall X v, c_rows X = c_cols X -> c_rows v = c_rows X -> nonsingular X -> solves X v (f X v).

(** The values of all equations of a system. *)
Definition all_eqs {T} (s : system T) : list (equation T) := flat_map snd (s_eqs s).

Definition solution {T} {K : cring} (e : env T K) (s : system T) (u : nd * list Z -> K) : Prop :=
  forall q, In q (all_eqs s) -> holds e u q.

(** The value assigned to the Green's function. *)
Definition g_value {T} {K : cring} (s : system T) (u : nd * list Z -> K) (g : K) : Prop :=
  forall q, In q (all_eqs s) -> e_green q = true -> u (unk (e_index q)) = g.

(** Dense matrices. *)
Definition dmv {F : cfield} (A : mat F) (x : nat -> F) (i : nat) : F :=
  ksum (map (fun j => kmul (d_at A i j) (x j)) (seq 0 (d_cols A))).

Definition dnonsingular {F : cfield} (X : mat F) : Prop :=
  forall x, (forall i, (i < d_rows X)%nat -> dmv X x i = k0) -> forall i, (i < d_cols X)%nat -> x i = k0.

(** [R] solves X R = B. *)
Definition msolves {F : cfield} (X B : mat F) (R : nat -> nat -> F) : Prop :=
  forall i c, (i < d_rows X)%nat -> (c < d_cols B)%nat -> dmv X (fun j => R j c) i = d_at B i c.

(** What is assumed of scipy's [linalg.solve]. *)
Definition lsolve_ok {F : cfield} (f : mat F -> mat F -> nat -> nat -> F) : Prop :=
  forall X B, d_rows X = d_cols X -> d_rows B = d_rows X -> dnonsingular X -> msolves X B (f X B).

(** The matrix R held by DenseSolver after handling the levels N .. k, and the
    matrix X it inverts at level k. *)
Definition R_at {T} {F : cfield} (e : env T F) ls (s : system T) (k : Z) : result (mat F) :=
  R <- get_alpha e s (total_bosons s) ;; foldM (dense_step e ls s) (rev (range k (total_bosons s))) R.
Definition pivot {T} {F : cfield} (e : env T F) ls (s : system T) (k : Z) : result (mat F) :=
  beta <- get_beta e s k ;;
  R <- R_at e ls s (k + 1) ;;
  bR <- matmul beta R ;;
  eye_minus (d_rows beta) (d_cols R) bR.

(** The final division, 1 - beta_0 R_1. *)
Definition denominator {T} {F : cfield} (e : env T F) ls (s : system T) : result F :=
  beta <- get_beta e s 0 ;;
  R <- R_at e ls s 1 ;;
  bR <- matmul beta R ;;
  Ok (ksub k1 (d_at bR 0%nat 0%nat)).
