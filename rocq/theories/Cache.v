(** The results directory: ggce/executors/solvers.py:56-61, 104-107, 124-142,
    318-347, 405-450 and the same code in petsc4py/solvers.py:104-122.

    A directory maps names to files; a process killed while writing leaves an
    incomplete file.  [calc] is the computation without cache. *)
From Coq Require Import String ZArith List Bool.
From Verif Require Import Base.
Import ListNotations.
Open Scope list_scope.

Inductive content (V : Type) := Complete (v : V) | Torn.
Arguments Complete {V} v.
Arguments Torn {V}.

Definition dir (V : Type) := list (string * content V).
Fixpoint fput {V} (n : string) (c : content V) (d : dir V) : dir V :=
  match d with
  | [] => [(n, c)]
  | (m, x) :: r => if String.eqb m n then (m, c) :: r else (m, x) :: fput n c r
  end.
Fixpoint fget {V} (n : string) (d : dir V) : option (content V) :=
  match d with [] => None | (m, x) :: r => if String.eqb m n then Some x else fget n r end.

(** [pickle.load(open(path, "rb"))] on an existing file *)
Definition unpickle {V} (c : content V) : result V :=
  match c with Complete v => Ok v | Torn => Err EOFError end.

Section Cache.
Context {P V : Type}.
(** f"{k:.10f}_{omega:.10f}_{eta:.10f}.pkl" *)
Variable key : P -> string.
Variable calc : P -> result V.
(** [-G.imag / np.pi < 0.0] *)
Variable negative : V -> bool.

(** solvers.py:128-136 [_pre_solve]; no directory without root *)
Definition pre_solve (d : option (dir V)) (p : P) : result (option V) :=
  match d with
  | None => Ok None
  | Some d => match fget (key p) d with None => Ok None | Some c => v <- unpickle c ;; Ok (Some v) end
  end.

(** solvers.py:138-142 [_post_solve]: whether an error is logged, and the
    directory *)
Definition post_solve (d : option (dir V)) (p : P) (g : V) : bool * option (dir V) :=
  (negative g, match d with None => None | Some d => Some (fput (key p) (Complete g) d) end).

(** solvers.py:335-347 and 420-450 [solve]: result, logged error, directory *)
Definition solve (d : option (dir V)) (p : P) : result V * bool * option (dir V) :=
  match pre_solve d p with
  | Err x => (Err x, false, d)
  | Ok (Some v) => (Ok v, false, d)
  | Ok None =>
      match calc p with
      | Err x => (Err x, false, d)
      | Ok g => let '(l, d') := post_solve d p g in (Ok g, l, d')
      end
  end.

(** What can happen to a results directory: a call of [solve], or a call during
    which the process is killed while the result is being written. *)
Inductive event := Solve (p : P) | Killed (p : P).

Definition killed (d : option (dir V)) (p : P) : option (dir V) :=
  match d with
  | None => None
  | Some f => match pre_solve d p, calc p with Ok None, Ok _ => Some (fput (key p) Torn f) | _, _ => d end
  end.

(** The results of a history, and the final directory. *)
Fixpoint history (d : option (dir V)) (es : list event) : list (result V) * option (dir V) :=
  match es with
  | [] => ([], d)
  | Solve p :: r => let '(x, _, d') := solve d p in let '(xs, d2) := history d' r in (x :: xs, d2)
  | Killed p :: r => history (killed d p) r
  end.
End Cache.
Arguments Solve {P} p.
Arguments Killed {P} p.
