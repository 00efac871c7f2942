(** Specification vocabulary for Systems that are not primed (C62). *)
From Coq Require Import String ZArith List Bool.
From Verif Require Import Base Model Equation System Cache Checkpoint Spec_checkpoint Basis Lazy.
Import ListNotations.
Open Scope list_scope.

(** A System object with nothing but a model, and one with everything. *)
Definition bare {T} (m : model T) (lim : Z) (root : bool) : lsystem T := mkLs m None None None lim root.
Definition filled {T} (s : system T) (lim : Z) (root : bool) : lsystem T :=
  mkLs (s_model s) (Some (s_gen s)) (Some (s_fargs s)) (Some (s_eqs s)) lim root.

(** A primed object against what the constructor of Checkpoint.v gives. *)
Definition same_outcome {T} (r : result (lsystem T)) (r' : result (pysystem T)) : Prop :=
  match r, r' with
  | Ok x, Ok p => ls_model x = py_model p /\ ls_gen x = Some (py_gen p) /\ ls_fargs x = py_fargs p /\ ls_eqs x = Some (py_eqs p) /\ ls_lim x = py_lim p
  | Err a, Err b => a = b
  | _, _ => False
  end.

(** Uses of a System that neither prime nor change it. *)
Definition idle {T} (v : levent T) : Prop := v = LCheckpoint \/ exists k arg, v = LSolver k arg.

(** What they give on a System without equations. *)
Definition unprimed_outcome {T} (v : levent T) : result unit :=
  match v with
  | LSolver Sparse None | LSolver Dense None | LSolver (Mass true) None => Err AttributeError
  | _ => Ok tt
  end.
