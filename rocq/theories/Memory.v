(** What the solvers log about memory: [SparseSolver._sparse_matrix_from_equations]
    and [_scaffold] (solvers.py:259-262, 287-297), and the same estimate in
    [petsc4py/base.py:237-240].  Quotients are rational numbers: the rounding of
    the division is left out. *)
From Coq Require Import String ZArith QArith List Bool.
From Verif Require Import Base NdArray Config Model Space Term Equation System Ring Coef Solvers Render Keys.
Import ListNotations.
Open Scope list_scope.
Open Scope string_scope.
Open Scope Z_scope.

(** solvers.py:18 and base.py:16 *)
Definition BYTES_TO_MB : positive := 1048576.
Definition BYTES_TO_GB : positive := 1073741274.

(** scipy's [csr_matrix]: the three arrays *)
Record csr (K : Type) := mkCsr { r_data : list K; r_indices : list nat; r_indptr : list nat }.
Arguments mkCsr {K}. Arguments r_data {K}. Arguments r_indices {K}. Arguments r_indptr {K}.

Section Csr.
Context {K : cring}.
(** The entries of row i by column: entries at one place are added, zeros are
    kept. *)
Definition csr_row (l : list (@triplet K)) (i : nat) : list (nat * K) :=
  fold_left (fun d p => if Nat.eqb (fst (fst p)) i then dadd (snd (fst p)) (snd p) d else d) l [].
(** Where the rows begin, and where the last one ends. *)
Fixpoint offsets {A} (a : nat) (ls : list (list A)) : list nat :=
  match ls with [] => [a] | r :: t => a :: offsets (a + List.length r) t end.
(** scipy's [coo_matrix.tocsr] (solvers.py:293) *)
Definition tocsr (X : @coo K) : csr K :=
  let rows := map (csr_row (c_ent X)) (seq 0 (c_rows X)) in
  mkCsr (map snd (concat rows)) (map fst (concat rows)) (offsets 0 rows).
End Csr.

(** f"{x:.02f}" for numbers that are not negative *)
Definition fmt2 (x : Q) : string :=
  let n := round_half_even (Qnum x * 100) (Z.pos (Qden x)) in
  str_int (n / 100) ++ "." ++ digits 2 (n mod 100).

(** solvers.py:261 and base.py:239: [24 * len(dat) / ...] *)
Definition estimate (unit : positive) (len : nat) : Q := (24 * Z.of_nat len) # unit.
(** solvers.py:262 and base.py:240 *)
Definition estimate_text (unit : positive) (len : nat) : string := "Estimated memory needed is " ++ fmt2 (estimate unit len) ++ " MB".
(** solvers.py:295: [.size] is the number of elements of an array *)
Definition logged_size {K} (c : csr K) : Q :=
  (Z.of_nat (List.length (r_data c)) + Z.of_nat (List.length (r_indptr c)) + Z.of_nat (List.length (r_indices c))) # BYTES_TO_MB.
