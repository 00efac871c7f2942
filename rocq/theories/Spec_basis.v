(** Specification of the bases a user may pass (C60). *)
From Coq Require Import String ZArith List Bool Permutation.
From Verif Require Import Base NdArray Config Model Space Render Term Equation System Ring Solvers Spec_solve.
Import ListNotations.
Open Scope list_scope.
Open Scope Z_scope.

(** Every id of a list exactly once, with the numbers 0 .. n-1 each exactly
    once; the order of the entries of the dictionary is arbitrary. *)
Definition numbering (ids : list string) (d : sdict nat) : Prop :=
  Permutation (map fst d) ids /\ Permutation (map snd d) (seq 0 (List.length ids)).

(** The ids of the unknowns of a system. *)
Definition unknown_ids {T} (s : system T) : list string := map (fun q => tid (e_index q)) (all_eqs s).

(** A numbering for each number of phonons, under that number. *)
Definition level_numberings {T} (s : system T) (b : list (Z * sdict nat)) : Prop :=
  NoDup (map fst b) /\
  forall n es, In (n, es) (s_eqs s) -> exists d, In (n, d) b /\ numbering (map (fun q => tid (e_index q)) es) d.
