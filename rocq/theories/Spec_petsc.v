(** Specification vocabulary for the distributed solver. *)
From Coq Require Import String ZArith List Bool.
From Verif Require Import Base Ring Solvers Spec_solve Petsc.
Import ListNotations.
Open Scope list_scope.

(** What is assumed of MUMPS: it solves nonsingular systems.  Nothing depends on
    the order in which entries were inserted. *)
Definition mumps_ok {K : cring} (f : nat -> list (@triplet K) -> (nat -> K) -> nat -> K) : Prop :=
  forall n tr b, nonsingular (mkCoo n n tr) -> forall i, (i < n)%nat -> mv tr (f n tr b) i = b i.

(** The number of entries in row [i] satisfying [f] on the column. *)
Definition row_count {K : cring} (f : nat -> bool) (i : nat) (tr : list (@triplet K)) : nat :=
  List.length (filter (fun p => Nat.eqb (fst (fst p)) i && f (snd (fst p))) tr).

(** [tr] is a matrix with [N] rows as far as the reader of the directory can
    tell: the largest row index is [N - 1]. *)
Definition has_rows {K : cring} (N : nat) (tr : list (@triplet K)) : Prop :=
  (exists p, In p tr /\ S (fst (fst p)) = N) /\ forall p, In p tr -> (fst (fst p) < N)%nat.

(** The pickles in the directory are matrices with [N] rows; for example there
    are none. *)
Definition clean {K : cring} (N : nat) (d : mdir K) : Prop :=
  forall x v, dget x d = Some v -> contains ".pkl" x = true -> exists tr, v = Matrix tr /\ has_rows N tr.

(** A choice among given names. *)
Definition picks (choose : list string -> string) : Prop := forall l, l <> [] -> In (choose l) l.

(** The matrices of a directory: [file d n c] says that the file [n] holds [c]. *)
Definition file {K : cring} (d : mdir K) (n : string) (c : pickle K) : Prop := In (n, c) d.
Definition named_pkl (n : string) : Prop := exists a b, n = (a ++ ".pkl" ++ b)%string.
(** One more than the largest row of a matrix. *)
Definition size_of {K : cring} (tr : list (@triplet K)) (N : nat) : Prop :=
  (forall t, In t tr -> (fst (fst t) < N)%nat) /\ exists t, In t tr /\ S (fst (fst t)) = N.
(** What reading the matrix [n] gives if the size is taken from the file [x]. *)
Inductive reads {K : cring} (d : mdir K) (x n : string) : result (nat * list (@triplet K)) -> Prop :=
| sample_other : file d x Other -> reads d x n (Err ValueError)
| sample_torn : file d x Torn -> reads d x n (Err EOFError)
| sample_empty : file d x (Matrix []) -> reads d x n (Err ValueError)
| read_missing : forall tr N, file d x (Matrix tr) -> size_of tr N -> (forall c, ~ file d n c) -> reads d x n (Err FileNotFoundError)
| read_other : forall tr N, file d x (Matrix tr) -> size_of tr N -> file d n Other -> reads d x n (Err ValueError)
| read_torn : forall tr N, file d x (Matrix tr) -> size_of tr N -> file d n Torn -> reads d x n (Err EOFError)
| read_matrix : forall tr N tr', file d x (Matrix tr) -> size_of tr N -> file d n (Matrix tr') -> reads d x n (Ok (N, tr')).
