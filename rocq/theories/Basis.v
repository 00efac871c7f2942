(** The argument [basis] of the solvers: ggce/executors/solvers.py:49-53
    ([Solver.__init__] keeps it), 209-212 and 367-370, petsc4py/solvers.py:24-27
    (each solver calls [get_basis] only when it is None).

    A basis is a dictionary.  SparseSolver and MassSolverMUMPS look up ids of
    terms in it, DenseSolver numbers of phonons and then ids.  Values other than
    nonnegative integers, and dictionaries with both kinds of keys, are not
    modelled. *)
From Coq Require Import String ZArith List Bool.
From Verif Require Import Base NdArray Config Model Space Render Term Equation System Ring Coef Solvers Mpi Petsc.
Import ListNotations.
Open Scope list_scope.
Open Scope Z_scope.

(** What [get_basis] returns with [full_basis] True and False. *)
Inductive pybasis :=
| Flat (d : sdict nat)
| Levels (b : list (Z * sdict nat)).

(** The dictionary as seen by [basis[id]] and by [basis[n]]: with keys of the
    other type every lookup is a KeyError, as in an empty dictionary. *)
Definition as_flat (b : pybasis) : sdict nat := match b with Flat d => d | Levels _ => [] end.
Definition as_levels (b : pybasis) : list (Z * sdict nat) := match b with Flat _ => [] | Levels l => l end.
(** [len(basis)] *)
Definition blen (b : pybasis) : nat := match b with Flat d => List.length d | Levels l => List.length l end.

(** solvers.py:209-212, 367-370 and petsc4py/solvers.py:24-27 *)
Definition sparse_basis {T} (arg : option pybasis) (s : system T) : pybasis :=
  match arg with None => Flat (full_basis s) | Some b => b end.
Definition dense_basis {T} (arg : option pybasis) (s : system T) : pybasis :=
  match arg with None => Levels (local_basis s) | Some b => b end.

Section SparseIn.
Context {T : Type} {K : cring}.
Variable e : env T K.
Variable spsolve : coo K -> coo K -> nat -> K.

(** solvers.py:318-347 with [self._basis] *)
Definition sparse_solve_in (arg : option pybasis) (s : system T) : result K :=
  let basis := as_flat (sparse_basis arg s) in
  ' (X, v) <- scaffold e basis s ;;
  _ <- guard (Nat.eqb (c_rows X) (c_cols X) && Nat.eqb (c_rows v) (c_rows X)) ValueError ;;
  g <- lookup basis "{G}[0.0]" ;;
  Ok (spsolve X v g).

(** petsc4py/base.py:244-329 and petsc4py/solvers.py:160-222: the number of rows
    is [len(self._basis)]; the right-hand side is put into the last row and the
    last entry of the solution is taken *)
Definition mass_solve_in (mumps : nat -> list triplet -> (nat -> K) -> nat -> K) (arg : option pybasis) (s : system T) (p : nat) : result K :=
  let basis := sparse_basis arg s in
  let N := blen basis in
  tr <- sparse_matrix e (as_flat basis) s ;;
  brigade_solve mumps (petsc_sizes N p) N tr (G0 e).
End SparseIn.

Section DenseIn.
Context {T : Type} {F : cfield}.
Variable e : env T F.
Variable lsolve : mat F -> mat F -> nat -> nat -> F.

(** solvers.py:375-402 *)
Definition fill_matrix_in (b : list (Z * sdict nat)) (s : system T) (n shift : Z) : result (mat F) :=
  es <- equations_at s n ;;
  bn <- basis_at b n ;;
  bm <- basis_at b (n + shift) ;;
  foldM (fill_row e s n shift bn bm) es (mzero (List.length bn) (List.length bm)).

(** solvers.py:436-446 *)
Definition dense_step_in (b : list (Z * sdict nat)) (s : system T) (R : mat F) (n : Z) : result (mat F) :=
  beta <- fill_matrix_in b s n 1 ;;
  alpha <- fill_matrix_in b s n (-1) ;;
  bR <- matmul beta R ;;
  X <- eye_minus (d_rows beta) (d_cols R) bR ;;
  linalg_solve lsolve X alpha.

(** solvers.py:424-434 *)
Definition dense_R_in (b : list (Z * sdict nat)) (s : system T) : result (mat F) :=
  let N := total_bosons s in
  R <- fill_matrix_in b s N (-1) ;;
  foldM (dense_step_in b s) (rev (range 1 N)) R.

(** solvers.py:404-459 *)
Definition dense_solve_in (arg : option pybasis) (s : system T) : result F :=
  let b := as_levels (dense_basis arg s) in
  R <- (if 0 <? total_bosons s then dense_R_in b s else Err AttributeError) ;;
  beta0 <- fill_matrix_in b s 0 1 ;;
  bR <- matmul beta0 R ;;
  Ok (kmul (G0 e) (kinv (ksub k1 (d_at bR 0%nat 0%nat)))).
End DenseIn.
