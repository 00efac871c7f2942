(** ggce/executors/petsc4py/base.py:140-432, 582-682 and solvers.py:104-235:
    assembly of the distributed matrix, matrices on disk, the value of G.

    The caching in [solve] is in Brigade.v, the distribution of points in
    Mpi.v.  PETSc is represented by: the default ownership ranges, insertion of
    values with INSERT_VALUES into preallocated rows, and a solver oracle. *)
From Coq Require Import String ZArith List Bool.
From Verif Require Import Base NdArray Config Model Space Render Term Equation System Ring Coef Solvers Utils Mpi Keys.
Import ListNotations.
Open Scope list_scope.

(** Ownership ranges for given numbers of local rows. *)
Fixpoint ranges (start : nat) (sizes : list nat) : list (nat * nat) :=
  match sizes with [] => [] | n :: r => (start, (start + n)%nat) :: ranges (start + n)%nat r end.

(** base.py:155-166: PETSC_DECIDE gives N/p rows to each of p ranks and one
    more to the first N mod p *)
Definition petsc_sizes (N p : nat) : list nat := section_sizes N p.

Section Assembly.
Context {K : cring}.
Notation trip := (@triplet K).
Definition row_of (p : trip) : nat := fst (fst p).
Definition col_of (p : trip) : nat := snd (fst p).

(** [self._rstart <= i and i < self._rend] *)
Definition owned (lo hi i : nat) : bool := Nat.leb lo i && Nat.ltb i hi.

(** base.py:283-296: the numbers of entries per row, in the diagonal and in the
    off-diagonal block *)
Definition bump (l : list nat) (i : nat) : list nat := setn l i (S (nth i l 0%nat)).
Definition prealloc (lo hi : nat) (tr : list trip) : list nat * list nat :=
  fold_left (fun c p =>
    if owned lo hi (row_of p) then
      if owned lo hi (col_of p) then (bump (fst c) (row_of p - lo), snd c)
      else (fst c, bump (snd c) (row_of p - lo))
    else c) tr (repeat 0%nat (hi - lo), repeat 0%nat (hi - lo)).

Definition same_pos (p q : trip) : bool := Nat.eqb (row_of p) (row_of q) && Nat.eqb (col_of p) (col_of q).

(** Mat.setValues of one value: a column outside the matrix is an error; an
    existing entry is replaced; a new one must fit the preallocation. *)
Definition set_value (N lo hi : nat) (cap : list nat * list nat) (m : list trip) (p : trip) : result (list trip) :=
  _ <- guard (Nat.ltb (col_of p) N) RuntimeError ;;
  if existsb (same_pos p) m then Ok (map (fun q => if same_pos p q then p else q) m)
  else
    let b := owned lo hi (col_of p) in
    let used := List.length (filter (fun q => Nat.eqb (row_of q) (row_of p) && Bool.eqb (owned lo hi (col_of q)) b) m) in
    _ <- guard (Nat.ltb used (nth (row_of p - lo) (if b then fst cap else snd cap) 0%nat)) RuntimeError ;;
    Ok (m ++ [p]).

(** base.py:298-309: the part of one rank *)
Definition assemble (N lo hi : nat) (tr : list trip) : result (list trip) :=
  foldM (set_value N lo hi (prealloc lo hi tr)) (filter (fun p => owned lo hi (row_of p)) tr) [].

(** base.py:315-323: every rank sets the last entry of b to G0 (INSERT) *)
Definition vector_b (N : nat) (g : K) (i : nat) : K := if Nat.eqb i (N - 1) then g else k0.

(** The MUMPS factorization, given size, assembled entries and right-hand side. *)
Variable mumps : nat -> list trip -> (nat -> K) -> nat -> K.

(** petsc4py/solvers.py:204-222: the local parts of the solution are gathered;
    the last entry of the part of the last rank is taken ([-1] of an empty array
    raises IndexError) *)
Definition last_entry (parts : list (list K)) : result K :=
  match nth_error parts (List.length parts - 1) with
  | None => Err IndexError
  | Some l => match rev l with [] => Err IndexError | x :: _ => Ok x end
  end.

Definition local_part (x : nat -> K) (r : nat * nat) : list K := map x (seq (fst r) (snd r - fst r)).

(** petsc4py/solvers.py:160-222, with the local numbers of rows as argument *)
Definition brigade_solve (sizes : list nat) (N : nat) (tr : list trip) (g : K) : result K :=
  locals <- mapM (fun r => assemble N (fst r) (snd r) tr) (ranges 0 sizes) ;;
  let x := mumps N (List.concat locals) (vector_b N g) in
  last_entry (map (local_part x) (ranges 0 sizes)).

(** base.py:244-329 [_scaffold] and the solve, on [p] ranks; the entries are
    computed as in SparseSolver (base.py:192-242 repeats that code) *)
Definition mass_solve {T} (e : env T K) (s : system T) (p : nat) : result K :=
  let basis := full_basis s in
  let N := List.length basis in
  tr <- sparse_matrix e basis s ;;
  brigade_solve (petsc_sizes N p) N tr (G0 e).

(** * Matrices on disk *)
(** What a file in the matrix directory holds: three lists, some other object
    (which does not unpack into three), or an incomplete pickle. *)
Inductive pickle := Matrix (tr : list trip) | Other | Torn.
Definition mdir := list (string * pickle).

Fixpoint dput (n : string) (v : pickle) (d : mdir) : mdir :=
  match d with
  | [] => [(n, v)]
  | (m, x) :: r => if String.eqb m n then (m, v) :: r else (m, x) :: dput n v r
  end.
Fixpoint dget (n : string) (d : mdir) : option pickle :=
  match d with [] => None | (m, x) :: r => if String.eqb m n then Some x else dget n r end.

(** [row_ind, col_ind, dat = pickle.load(open(...))] *)
Definition load_matrix (n : string) (d : mdir) : result (list trip) :=
  match dget n d with
  | None => Err FileNotFoundError
  | Some (Matrix tr) => Ok tr
  | Some Other => Err ValueError
  | Some Torn => Err EOFError
  end.

(** [sub in s] on strings *)
Fixpoint contains (sub s : string) : bool :=
  String.prefix sub s || match s with EmptyString => false | String _ r => contains sub r end.

(** base.py:668-682 [_get_matr_size]; [choose] is numpy.random.choice, which
    raises ValueError on an empty list *)
Definition matr_size (choose : list string -> string) (d : mdir) : result nat :=
  match filter (contains ".pkl") (map fst d) with
  | [] => Err ValueError
  | l => tr <- load_matrix (choose l) d ;;
         match map row_of tr with [] => Err ValueError | rows => Ok (S (lmax rows)) end
  end.

Section Disk.
Context {T : Type}.
Variable fmt : T -> string.
(** The entries and the free propagator at a point (k, w); eta is fixed. *)
Variable build : T * T -> result (list trip).
Variable g0_at : T * T -> K.
Variable eta : T.
Definition mname (p : T * T) : string := matrix_name fmt (fst p) (snd p) eta.

(** base.py:582-607 [prepare_system]; without directory os.path.join(None, ..)
    raises TypeError.  Writing one file is one step: the ranks of a brigade write
    the same contents to the same file, and files are read only afterwards. *)
Definition prepare_system (d : option (mdir)) (p : T * T) : result (option mdir) :=
  tr <- build p ;;
  match d with None => Err TypeError | Some d => Ok (Some (dput (mname p) (Matrix tr) d)) end.

(** base.py:627-651: the points of one rank *)
Definition prepared_jobs (G : gridops T) (world : nat) (bs : option Z) (rank : nat) (k w : arg T) : result (list (T * T)) :=
  ' (ks, ws) <- brigade_grid G world bs k w ;;
  jobs <- make_jobs (AList ks) (AList ws) ;;
  jobs_on_brigade world bs rank jobs.

(** base.py:609-661 [prepare_greens_function] on all ranks; [order] is the
    order in which the calls of the ranks happen *)
Definition prepare_greens (order : list (T * T) -> list (T * T)) (G : gridops T) (world : nat) (bs : option Z)
    (d : option mdir) (k w : arg T) : result (option mdir) :=
  per <- mapM (fun r => prepared_jobs G world bs r k w) (seq 0 world) ;;
  foldM prepare_system (order (List.concat per)) d.

(** base.py:331-432 [_scaffold_from_disk] as far as size, entries and right-hand
    side; the rest is as in [brigade_solve] *)
Definition from_disk (choose : list string -> string) (d : mdir) (p : T * T) : result (nat * list trip * K) :=
  N <- matr_size choose d ;;
  tr <- load_matrix (mname p) d ;;
  Ok (N, tr, g0_at p).

(** The same data built on the fly, base.py:244-265 *)
Definition on_the_fly (basis : sdict nat) (p : T * T) : result (nat * list trip * K) :=
  tr <- build p ;; Ok (List.length basis, tr, g0_at p).

(** petsc4py/solvers.py:160-222 in a brigade of [b] ranks, given these data *)
Definition solve_with (b : nat) (sys : result (nat * list trip * K)) : result K :=
  ' (N, tr, g) <- sys ;; brigade_solve (petsc_sizes N b) N tr g.
End Disk.
End Assembly.
Arguments pickle : clear implicits.
Arguments mdir : clear implicits.
