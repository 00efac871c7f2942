(** Specification vocabulary for constructor calls (C63). *)
From Coq Require Import String List Bool.
From Verif Require Import Base Config Equation Args.
Import ListNotations.
Open Scope list_scope.
Open Scope string_scope.

(** The documented parameters of the solvers, in the order in which positional
    arguments reach them. *)
Definition basic_names : list string := ["system"; "root"; "basis"; "mpi_comm"].
Definition mumps_names : list string := ["autoprime"; "brigade_size"; "matr_dir"; "system"; "root"; "basis"; "mpi_comm"].

(** A call is acceptable to a function with these parameters. *)
Definition acceptable {V} (names : list string) (pos : list V) (kw : sdict V) : Prop :=
  (List.length pos <= List.length names)%nat /\
  forall x, In x (map fst kw) -> In x (skipn (List.length pos) names).

(** What a parameter is: the positional argument at its place, else the keyword
    argument of its name, else nothing (the default). *)
Fixpoint meaning {V} (names : list string) (pos : list V) (kw : sdict V) (x : string) : option V :=
  match names, pos with
  | n :: r, v :: pos' => if String.eqb n x then Some v else meaning r pos' kw x
  | _, _ => if existsb (String.eqb x) names then sget x kw else None
  end.
