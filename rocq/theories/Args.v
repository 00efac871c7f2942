(** Calls of the solver constructors: ggce/executors/solvers.py:50, 209, 367
    ([*args, **kwargs] passed on to [Solver.__init__]), petsc4py/base.py:66-91
    and petsc4py/solvers.py:24-27, where each class takes its own parameters off
    the front and passes on the rest. *)
From Coq Require Import String ZArith List Bool.
From Verif Require Import Base Config Model Space Render Term Equation System Cache Checkpoint Roots.
Import ListNotations.
Open Scope list_scope.
Open Scope string_scope.

Section Binding.
Context {V : Type}.

(** Python's binding of a call to parameters [ps] followed by [*args] and
    [**kwargs]: positional arguments fill the parameters from the left, a
    keyword for a filled parameter is a TypeError ("got multiple values"), other
    keywords fill their parameter or stay in [kwargs].  Parameters not filled
    have their default.  The result: what is filled, [args], [kwargs]. *)
Fixpoint take (ps : list string) (pos : list V) (kw : sdict V) : result (sdict V * list V * sdict V) :=
  match ps with
  | [] => Ok ([], pos, kw)
  | p :: r =>
      match pos, sget p kw with
      | _ :: _, Some _ => Err TypeError
      | v :: pos', None => ' (b, a, k) <- take r pos' kw ;; Ok ((p, v) :: b, a, k)
      | [], Some v => ' (b, a, k) <- take r [] (filter (fun kv => negb (String.eqb (fst kv) p)) kw) ;; Ok ((p, v) :: b, a, k)
      | [], None => take r [] kw
      end
  end.

(** A function without [*args] and [**kwargs]: anything left is a TypeError. *)
Definition take_all (ps : list string) (pos : list V) (kw : sdict V) : result (sdict V) :=
  ' (b, a, k) <- take ps pos kw ;;
  match a, k with [], [] => Ok b | _, _ => Err TypeError end.

(** solvers.py:50 *)
Definition solver_params : list string := ["system"; "root"; "basis"; "mpi_comm"].
(** petsc4py/base.py:66 and petsc4py/solvers.py:24 *)
Definition mass_params : list string := ["brigade_size"; "matr_dir"].
Definition mumps_params : list string := ["autoprime"].

(** SparseSolver and DenseSolver, solvers.py:209-210 and 367-368 *)
Definition basic_call (pos : list V) (kw : sdict V) : result (sdict V) := take_all solver_params pos kw.

(** MassSolverMUMPS: [super().__init__( *args, **kwargs)] is the first thing
    each constructor does *)
Definition mumps_call (pos : list V) (kw : sdict V) : result (sdict V) :=
  ' (b1, pos1, kw1) <- take mumps_params pos kw ;;
  ' (b2, pos2, kw2) <- take mass_params pos1 kw1 ;;
  b3 <- take_all solver_params pos2 kw2 ;;
  Ok (b1 ++ b2 ++ b3)%list.
End Binding.

(** * The System of the solver *)
Section Systems.
Context {T : Type}.
Variable ord : string -> list vec -> list vec.

(** Arguments; anything else is not modelled. *)
Inductive pyarg := PNone | PSystem (s : rsystem T) | PPath (r : string) | PComm | PBool (b : bool).

(** [self._system], [self._root]; another object as System has no method
    [checkpoint], and Path accepts only paths *)
Definition system_arg (b : sdict pyarg) : result (option (rsystem T)) :=
  match sget "system" b with
  | None | Some PNone => Ok None
  | Some (PSystem s) => Ok (Some s)
  | Some _ => Err AttributeError
  end.
Definition root_arg (b : sdict pyarg) : result (option string) :=
  match sget "root" b with
  | None | Some PNone => Ok None
  | Some (PPath r) => Ok (Some r)
  | Some _ => Err TypeError
  end.

(** solvers.py:50-81 on bound arguments *)
Definition init_with (b : sdict pyarg) (k : disk T) : disk T * result (rsystem T) :=
  match root_arg b, system_arg b with
  | Err x, _ => (k, Err x)
  | _, Err x => (k, Err x)
  | Ok r, Ok s => solver_init ord s r k
  end.
Definition basic_new (pos : list pyarg) (kw : sdict pyarg) (k : disk T) : disk T * result (rsystem T) :=
  match basic_call pos kw with
  | Err x => (k, Err x)
  | Ok b => init_with b k
  end.

(** petsc4py/base.py:66-91 as well: without communicator logger.critical exits *)
Definition mumps_new (pos : list pyarg) (kw : sdict pyarg) (k : disk T) : disk T * result (rsystem T) :=
  match mumps_call pos kw with
  | Err x => (k, Err x)
  | Ok b =>
      let '(k', r) := init_with b k in
      match r with
      | Err x => (k', Err x)
      | Ok s => (k', match sget "mpi_comm" b with Some PComm => Ok s | _ => Err SystemExit end)
      end
  end.
End Systems.
Arguments PNone {T}. Arguments PPath {T}. Arguments PComm {T}. Arguments PBool {T}.
