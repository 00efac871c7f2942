(** Common vocabulary of the model: Python exceptions as values, the result
    type, list helpers.  Not tied to one source file. *)
From Coq Require Import ZArith List Bool Lia String.
From Coq Require Export ZifyBool ZifyNat.
Import ListNotations.
Open Scope Z_scope.
Set Implicit Arguments.

(** The exceptions that the modelled code can raise.  [SystemExit] stands for
    [logger.critical] (ggce/logger.py:51-128: a CRITICAL record makes the
    program exit; see also Logger.v). *)
Inductive exn : Set :=
| SystemExit | IndexError | KeyError | TypeError | ValueError
| AttributeError | RuntimeError | EOFError | AssertionError
| ZeroDivisionError | FileNotFoundError | RecursionError.

Inductive result (A : Type) : Type :=
| Ok (a : A)
| Err (e : exn).
Arguments Ok {A} a.
Arguments Err {A} e.

Definition bind {A B} (m : result A) (f : A -> result B) : result B :=
  match m with Ok a => f a | Err e => Err e end.

Notation "x <- m ;; k" := (bind m (fun x => k))
  (at level 61, m at next level, right associativity).
Notation "' p <- m ;; k" := (bind m (fun x => match x with p => k end))
  (at level 61, p pattern, m at next level, right associativity).

(** [guard b e] continues if [b], otherwise raises [e]. *)
Definition guard (b : bool) (e : exn) : result unit :=
  if b then Ok tt else Err e.

(** Python loop / list comprehension whose body may raise. *)
Fixpoint mapM {A B} (f : A -> result B) (l : list A) : result (list B) :=
  match l with
  | [] => Ok []
  | x :: r => y <- f x ;; ys <- mapM f r ;; Ok (y :: ys)
  end.

Fixpoint foldM {A S} (f : S -> A -> result S) (l : list A) (s : S) : result S :=
  match l with
  | [] => Ok s
  | x :: r => s' <- f s x ;; foldM f r s'
  end.

Definition sumZ (l : list Z) : Z := fold_right Z.add 0 l.

(** [lst[n] = v] on a list, no effect when out of range. *)
Fixpoint setn {A} (l : list A) (n : nat) (v : A) : list A :=
  match l, n with
  | [], _ => []
  | _ :: r, O => v :: r
  | x :: r, S m => x :: setn r m v
  end.

Fixpoint eqlZ (a b : list Z) : bool :=
  match a, b with
  | [], [] => true
  | x :: a', y :: b' => (x =? y) && eqlZ a' b'
  | _, _ => false
  end.

Fixpoint eqln (a b : list nat) : bool :=
  match a, b with
  | [], [] => true
  | x :: a', y :: b' => Nat.eqb x y && eqln a' b'
  | _, _ => false
  end.

(** Pointwise vector operations on integer vectors of equal length. *)
Fixpoint addv (a b : list Z) : list Z :=
  match a, b with
  | x :: a', y :: b' => (x + y) :: addv a' b'
  | _, _ => []
  end.

Definition oppv (a : list Z) : list Z := map Z.opp a.
Definition subv (a b : list Z) : list Z := addv a (oppv b).
Definition zerov (n : nat) : list Z := repeat 0 n.
