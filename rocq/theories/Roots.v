(** Solvers and root directories: ggce/executors/solvers.py:50-81
    [Solver.__init__].  A disk gives the System files of every root; the results
    directories (Cache.v) hold no System files and are left out, as is the
    creation of directories, which changes no file.  Roots are compared as
    strings: two spellings of one directory are not considered. *)
From Coq Require Import String ZArith List Bool.
From Verif Require Import Base Config Model Space Render Term Equation System Cache Checkpoint.
Import ListNotations.
Open Scope list_scope.

Section Roots.
Context {T : Type}.
Variable ord : string -> list vec -> list vec.

Definition disk := string -> cdir T.
Definition put_root (r : string) (d : cdir T) (k : disk) : disk := fun x => if String.eqb x r then d else k x.

(** A System object remembers the root it was built with (system.py:392). *)
Record rsystem := mkRs { rs_sys : pysystem T; rs_root : option string }.

(** system.py:381-413 [System(model, root=root, chkpt_lim=lim)] *)
Definition new_rsystem (m : model T) (lim : Z) (root : option string) (k : disk) : disk * result rsystem :=
  match root with
  | None => (k, p <- snd (new_system ord m lim false no_files) ;; Ok (mkRs p None))
  | Some r => let '(w, x) := new_system ord m lim true (k r) in
              (put_root r (final w (k r)) k, p <- x ;; Ok (mkRs p (Some r)))
  end.

(** system.py:295-338 [checkpoint] on an existing object *)
Definition recheckpoint (s : rsystem) (k : disk) : disk :=
  match rs_root s with
  | None => k
  | Some r => let p := rs_sys s in
              put_root r (final (checkpoint (py_lim p) (Some (py_gen p)) (py_fargs p) (Some (py_eqs p)) (k r)) (k r)) k
  end.

(** solvers.py:50-81: the System of the new solver *)
Definition solver_init (sys : option rsystem) (root : option string) (k : disk) : disk * result rsystem :=
  match sys, root with
  | None, None => (k, Err SystemExit)
  | Some s, _ => (recheckpoint s k, Ok s)
  | None, Some r =>
      let '(w, x) := from_checkpoint ord (k r) in
      let k1 := put_root r (final w (k r)) k in
      match x with
      | Err e => (k1, Err e)
      | Ok p => let s := mkRs p (Some r) in (recheckpoint s k1, Ok s)
      end
  end.

(** The disk after a sequence of solvers. *)
Fixpoint solvers (ops : list (option rsystem * option string)) (k : disk) : disk :=
  match ops with
  | [] => k
  | (s, r) :: rest => solvers rest (fst (solver_init s r k))
  end.
End Roots.
Arguments disk T : clear implicits.
Arguments rsystem T : clear implicits.
