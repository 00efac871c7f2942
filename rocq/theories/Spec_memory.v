(** Specification of the memory of sparse matrices (C88). *)
From Coq Require Import ZArith QArith List.
From Verif Require Import Base Ring Solvers Memory.
Import ListNotations.
Open Scope Z_scope.

(** The number in row i and column j that the three arrays stand for. *)
Definition csr_entry {K : cring} (c : csr K) (i j : nat) : K :=
  let a := nth i (r_indptr c) 0%nat in
  let b := nth (S i) (r_indptr c) 0%nat in
  ksum (map snd (filter (fun p => Nat.eqb (fst p) j) (firstn (b - a) (skipn a (combine (r_indices c) (r_data c)))))).

(** Bytes: complex64 numbers take 8, the indices (int32) 4. *)
Definition csr_bytes {K} (c : csr K) : Z :=
  8 * Z.of_nat (length (r_data c)) + 4 * Z.of_nat (length (r_indices c)) + 4 * Z.of_nat (length (r_indptr c)).

(** 2 ^ 20 bytes *)
Definition in_MB (bytes : Z) : Q := bytes # 1048576.
