(** File names built from numbers: f"{x:.10f}" (solvers.py:104-107,
    petsc4py/base.py:357-359, 603-605, 663-666).  Floats are rational numbers
    here (no nan, inf, negative zero); Python rounds the exact value to the
    nearest multiple of 1e-10, ties to even. *)
From Coq Require Import String Ascii ZArith QArith List Bool.
From Verif Require Import Base Render.
Import ListNotations.
Open Scope list_scope.
Open Scope Z_scope.

Definition ten10 : Z := 10000000000.

(** Nearest integer to n/d, ties to even; d > 0, n >= 0. *)
Definition round_half_even (n d : Z) : Z :=
  let q := n / d in
  let r := n mod d in
  if 2 * r <? d then q
  else if d <? 2 * r then q + 1
  else if Z.even q then q else q + 1.

(** The last [k] decimal digits of [n], with leading zeros. *)
Fixpoint digits (k : nat) (n : Z) : string :=
  match k with
  | O => EmptyString
  | S k' => append (digits k' (n / 10)) (str_int (n mod 10))
  end.

Definition fmt10 (x : Q) : string :=
  let n := round_half_even (Z.abs (Qnum x) * ten10) (Z.pos (Qden x)) in
  append (if Qnum x <? 0 then "-" else "") (append (str_int (n / ten10)) (append "." (digits 10 (n mod ten10)))).

Section Names.
Context {T : Type}.
Variable fmt : T -> string.

(** solvers.py:104-107 [_k_omega_eta_to_str] and 133: the cache file *)
Definition result_name (k w eta : T) : string :=
  append (fmt k) (append "_" (append (fmt w) (append "_" (append (fmt eta) ".pkl")))).

(** base.py:357-359, 603-605: the matrix file *)
Definition matrix_name (k w eta : T) : string :=
  append "matr_at_k_" (append (fmt k) (append "_w_" (append (fmt w) (append "_e_" (append (fmt eta) ".pkl"))))).
End Names.
