(** Specification of runs of several processes on one directory. *)
From Coq Require Import String List Arith Bool.
From Verif Require Import Base Config Model Term Equation System Cache Checkpoint Conc.
Import ListNotations.
Open Scope list_scope.

(** The process is over. *)
Definition over {V A} (p : prog V A) : Prop :=
  match p with Ret _ | Raise _ => True | _ => False end.

(** How often a process appears in a schedule. *)
Definition times (i : nat) (l : list (nat * bool)) : nat := count_occ Nat.eq_dec (map fst l) i.

(** No file is incomplete. *)
Definition closed {V} (d : dir V) : Prop := forall f, fget f d <> Some Torn.

(** The complete files among [names] have the contents [F]. *)
Definition holds {V} (names : list string) (F : string -> V) (d : dir V) : Prop :=
  forall f, In f names -> forall v, fget f d = Some (Complete v) -> v = F f.

(** The files of a system. *)
Definition root_names : list string := [f_model; f_gen; f_args; f_eqs].
Definition root_file {T} (s : system T) (f : string) : obj T :=
  if String.eqb f f_model then OJson (json_of_model (s_model s))
  else if String.eqb f f_gen then OEqs (s_gen s)
  else if String.eqb f f_args then OArgs (s_fargs s)
  else OEqs (s_eqs s).

(** The directory of Checkpoint.v with these contents. *)
Definition file_as {X Y} (c : X -> Y) (o : option (content X)) : option (content Y) :=
  match o with None => None | Some Torn => Some Torn | Some (Complete x) => Some (Complete (c x)) end.
Record same_files {T} (d : dir (obj T)) (c : cdir T) : Prop := {
  sf_model : fget f_model d = file_as OJson (c_model c);
  sf_gen : fget f_gen d = file_as OEqs (c_gen c);
  sf_fargs : fget f_args d = file_as OArgs (c_fargs c);
  sf_eqs : fget f_eqs d = file_as OEqs (c_eqs c) }.
