(** [SingleTerm] (model.py:52-203): the checks of its constructor and setters, and
    its text.

    Attributes hold Python values, of which these kinds are distinguished: int,
    bool (a kind of int), float, numpy's float64 (a kind of float) and int64 (not a
    kind of int), str, arrays, lists, None.  For [dag], arrays are left out: comparing
    them with a string depends on the version of numpy.  Floats in the text are
    rational numbers, as in Keys.v. *)
From Coq Require Import String ZArith QArith List Bool.
From Verif Require Import Base Model Render Keys Logger.
Import ListNotations.
Open Scope list_scope.
Open Scope string_scope.
Open Scope Z_scope.

Inductive pyval (T : Type) :=
| VInt (z : Z) | VBool (b : bool) | VFloat (x : T) | VFloat64 (x : T) | VInt64 (z : Z) | VStr (s : string) | VArr (v : vec) | VList (l : list Z) | VNone.
Arguments VInt {T}. Arguments VBool {T}. Arguments VFloat {T}. Arguments VFloat64 {T}. Arguments VInt64 {T}. Arguments VStr {T}. Arguments VArr {T}. Arguments VList {T}. Arguments VNone {T}.

(** The attributes, in the order in which the constructor sets them. *)
Record single (T : Type) := mkSingle { s_type : pyval T; s_psi : pyval T; s_phi : pyval T; s_dag : pyval T; s_coupling : pyval T; s_index : pyval T; s_freq : pyval T }.
Arguments mkSingle {T}. Arguments s_type {T}. Arguments s_psi {T}. Arguments s_phi {T}. Arguments s_dag {T}. Arguments s_coupling {T}. Arguments s_index {T}. Arguments s_freq {T}.

Section Checks.
Context {T : Type}.
Variable st : lstate.

(** [isinstance] *)
Definition is_ndarray (x : pyval T) : bool := match x with VArr _ => true | _ => false end.
Definition is_int (x : pyval T) : bool := match x with VInt _ | VBool _ => true | _ => false end.
Definition is_number (x : pyval T) : bool := match x with VInt _ | VBool _ | VFloat _ | VFloat64 _ => true | _ => false end.

(** [logger.critical(...)]: ends the program, or returns None *)
Definition critical {A} (k : result A) : result A := if snd (log st Critical) then Err SystemExit else k.
(** [raise None] raises TypeError *)
Definition raise_critical {A} : result A := critical (Err TypeError).

(** model.py:75-79, 92-96 *)
Definition check_array (x : pyval T) : result (pyval T) := if is_ndarray x then Ok x else critical (Ok x).
(** model.py:110-114 *)
Definition check_dag (x : pyval T) : result (pyval T) :=
  match x with VStr s => if String.eqb s "+" || String.eqb s "-" then Ok x else raise_critical | _ => raise_critical end.
(** model.py:128-132, 169-173 *)
Definition check_number (x : pyval T) : result (pyval T) := if is_number x then Ok x else raise_critical.
(** model.py:145-151 *)
Definition check_index (x : pyval T) : result (pyval T) :=
  if is_int x then match x with VInt z => if z <? 0 then raise_critical else Ok x | _ => Ok x end else raise_critical.

(** model.py:175-193 *)
Definition single_init (ty psi phi dag g i f : pyval T) : result (single T) :=
  psi <- check_array psi ;; phi <- check_array phi ;; dag <- check_dag dag ;; g <- check_number g ;; i <- check_index i ;; f <- check_number f ;;
  Ok (mkSingle ty psi phi dag g i f).

(** model.py:64-73, 81-90: [self._psi.copy()]; numbers of numpy have copy as well *)
Definition copied (x : pyval T) : result (pyval T) :=
  match x with VArr _ | VList _ | VFloat64 _ | VInt64 _ => Ok x | _ => Err AttributeError end.

(** The term of Model.v as an object. *)
Definition dag_text (d : dagger) : string := match d with Plus => "+" | Minus => "-" end.
Definition as_single (h : hterm T) : single T :=
  mkSingle (VStr (ht_type h)) (VArr (ht_psi h)) (VArr (ht_phi h)) (VStr (dag_text (ht_dag h))) (VFloat (ht_coupling h)) (VInt (Z.of_nat (ht_index h))) (VFloat (ht_freq h)).
End Checks.

(** f"{x:.02f}" *)
Definition fmt02 (x : Q) : string :=
  let n := round_half_even (Z.abs (Qnum x) * 100) (Z.pos (Qden x)) in
  (if Qnum x <? 0 then "-" else "") ++ str_int (n / 100) ++ "." ++ digits 2 (n mod 100).
(** An array with one integer; [v2] holds doubled numbers *)
Definition str_array1 (v : vec) : string := "[" ++ str_int (hd 0 (v2 v) / 2) ++ "]".
(** model.py:195-200 [__str__] *)
Definition single_str (h : hterm Q) : string :=
  ht_type h ++ ": " ++ fmt02 (ht_coupling h) ++ " x (" ++ str_array1 (ht_psi h) ++ " " ++ str_array1 (ht_phi h) ++ " " ++ dag_text (ht_dag h) ++ ") | " ++
  str_int (Z.of_nat (ht_index h)) ++ " (" ++ fmt02 (ht_freq h) ++ ")".
