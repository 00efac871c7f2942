(** Systems that are not primed: ggce/engine/system.py:295-338 [checkpoint],
    381-413 [__init__] with [autoprime=False], 415-438 [_prime_system] called by
    hand, 470-515 [get_basis]; the solvers given such a System
    (executors/solvers.py:49-81, 209-212, 367-370, petsc4py/solvers.py:24-27).

    The object is [ls_]: equations and lists may still be None.  The object
    left by a [_prime_system] that raises is not considered.  As in Checkpoint.v
    one root directory is modelled by the states it goes through. *)
From Coq Require Import String ZArith List Bool.
From Verif Require Import Base NdArray Config Model Space Render Term Equation System Ring Coef Solvers Cache Checkpoint Mpi Petsc Basis.
Import ListNotations.
Open Scope list_scope.
Open Scope Z_scope.

Section Objects.
Context {T : Type}.
Variable ord : string -> list vec -> list vec.

Record lsystem := mkLs {
  ls_model : model T; ls_gen : option (geqs T); ls_fargs : option (sdict (list vec)); ls_eqs : option (geqs T);
  ls_lim : Z; ls_root : bool }.

(** system.py:392-413 with [autoprime=False]: model.json is written *)
Definition create (m : model T) (gen : option (geqs T)) (fargs : option (sdict (list vec))) (eqs : option (geqs T))
    (lim : Z) (root : bool) (d : cdir T) : list (cdir T) * lsystem :=
  (with_root (save_model m) root d, mkLs m gen fargs eqs lim root).

(** system.py:295-338; without equations the limit is not looked at (line 324) *)
Definition lcheckpoint (x : lsystem) (d : cdir T) : list (cdir T) :=
  with_root (checkpoint (ls_lim x) (ls_gen x) (ls_fargs x) (ls_eqs x)) (ls_root x) d.

(** system.py:415-438 [_prime_system]; 257-281 [_final_checks] *)
Definition prime (x : lsystem) (d : cdir T) : list (cdir T) * result lsystem :=
  match (match ls_gen x with
         | Some g => Ok (g, ls_fargs x)
         | None => space <- generate_space (ls_model x) ;; ' (g, fl) <- generalized_on (ls_fargs x) ord (ls_model x) space ;; Ok (g, Some fl)
         end) with
  | Err y => ([], Err y)
  | Ok (g, fl) =>
      let x1 := mkLs (ls_model x) (Some g) fl (ls_eqs x) (ls_lim x) (ls_root x) in
      let w1 := lcheckpoint x1 d in
      match (match ls_eqs x with
             | Some e => Ok e
             | None => match fl with Some fl => full_equations fl g | None => Err AttributeError end
             end) with
      | Err y => (w1, Err y)
      | Ok e =>
          let x2 := mkLs (ls_model x) (Some g) fl (Some e) (ls_lim x) (ls_root x) in
          (w1 ++ lcheckpoint x2 (final w1 d), _ <- final_checks e ;; Ok x2)
      end
  end.

(** The property [model] (system.py:120-122) gives the object itself, so the
    model can be changed in place. *)
Definition adjust (m : model T) (x : lsystem) : lsystem :=
  mkLs m (ls_gen x) (ls_fargs x) (ls_eqs x) (ls_lim x) (ls_root x).

(** system.py:470-515 [get_basis]: [self._equations.items()] *)
Definition as_system (x : lsystem) (e : geqs T) : system T :=
  mkSys (ls_model x) (match ls_gen x with Some g => g | None => [] end) (match ls_fargs x with Some l => l | None => [] end) e.
Definition get_basis (full : bool) (x : lsystem) : result pybasis :=
  match ls_eqs x with
  | None => Err AttributeError
  | Some e => Ok (if full then Flat (full_basis (as_system x e)) else Levels (local_basis (as_system x e)))
  end.

(** Which solver; MassSolverMUMPS with its own [autoprime]. *)
Inductive solver := Sparse | Dense | Mass (autoprime : bool).

(** executors/solvers.py:75-78 (the System is checkpointed), 209-212, 367-370,
    petsc4py/solvers.py:24-27: the states of the System's directory and the
    basis of the solver *)
Definition new_solver (k : solver) (arg : option pybasis) (x : lsystem) (d : cdir T) : list (cdir T) * result (option pybasis) :=
  (lcheckpoint x d,
   match arg, k with
   | Some b, _ => Ok (Some b)
   | None, Sparse => b <- get_basis true x ;; Ok (Some b)
   | None, Dense => b <- get_basis false x ;; Ok (Some b)
   | None, Mass true => b <- get_basis true x ;; Ok (Some b)
   | None, Mass false => Ok None
   end).

(** What can be done with a System object. *)
Inductive levent := LCheckpoint | LPrime | LSolver (k : solver) (arg : option pybasis) | LAdjust (m : model T).
Definition lstep (st : lsystem * cdir T) (v : levent) : (lsystem * cdir T) * result unit :=
  let '(x, d) := st in
  match v with
  | LCheckpoint => ((x, final (lcheckpoint x d) d), Ok tt)
  | LPrime => let '(w, r) := prime x d in ((match r with Ok y => y | Err _ => x end, final w d), _ <- r ;; Ok tt)
  | LSolver k arg => let '(w, r) := new_solver k arg x d in ((x, final w d), _ <- r ;; Ok tt)
  | LAdjust m => ((adjust m x, d), Ok tt)
  end.
Fixpoint lrun (st : lsystem * cdir T) (vs : list levent) : (lsystem * cdir T) * list (result unit) :=
  match vs with
  | [] => (st, [])
  | v :: r => let '(st1, o) := lstep st v in let '(st2, os) := lrun st1 r in (st2, o :: os)
  end.
End Objects.
Arguments lsystem T : clear implicits.
Arguments levent T : clear implicits.
Arguments LCheckpoint {T}. Arguments LPrime {T}. Arguments LSolver {T}.

(** * One point *)
Section Point.
Context {T : Type} {F : cfield}.
Variable e : env T F.
Variable spsolve : coo F -> coo F -> nat -> F.
Variable lsolve : mat F -> mat F -> nat -> nat -> F.
Variable mumps : nat -> list (@triplet F) -> (nat -> F) -> nat -> F.

(** What the System contributes to the computation of a point (without cache):
    solvers.py:234-236 [self._system.equations[n_bosons]], 378 and
    petsc4py/base.py:218 raise TypeError if the equations are None.  (With a
    negative total number of phonons the loop would be empty; Model excludes
    it.)  MassSolverMUMPS, petsc4py/solvers.py:160-163: with a matrix directory
    the entries come from there ([disk], as in Petsc.v), else the first thing
    is [len(self._basis)], base.py:263. *)
Definition lsolve_point (k : solver) (p : nat) (basis : option pybasis) (disk : option (result (nat * list (@triplet F) * F)))
    (x : lsystem T) : result F :=
  match k, disk with
  | Mass _, Some data => solve_with mumps p data
  | _, _ =>
      match basis, ls_eqs x with
      | None, _ => Err TypeError
      | Some _, None => Err TypeError
      | Some b, Some eqs =>
          let s := as_system x eqs in
          match k with
          | Sparse => sparse_solve_in e spsolve (Some b) s
          | Dense => dense_solve_in e lsolve (Some b) s
          | Mass _ => mass_solve_in e mumps (Some b) s p
          end
      end
  end.
End Point.
