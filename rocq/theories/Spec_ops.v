(** Histories of Config operations (specification of C08). *)
From Coq Require Import ZArith List Bool.
From Verif Require Import Base NdArray Config Spec.
Import ListNotations.
Open Scope Z_scope.

(** The shift returned by [remove_phonon_] as a vector; the scalar 0 that is
    returned for the vacuum broadcasts over the [n] axes. *)
Definition shift_vec (n : nat) (s : shiftv) : list Z :=
  match s with SScalar z => repeat z n | SVec v => v end.

Inductive op := OpAdd (x : list Z) | OpRemove (x : list Z).

Definition run_op (c : config) (o : op) : result config :=
  match o with
  | OpAdd x => p <- add_phonon c x ;; Ok (fst p)
  | OpRemove x => p <- remove_phonon c x ;; Ok (fst p)
  end.

(** A history of operations; phonons are only added to non-empty clouds. *)
Inductive history : config -> list op -> config -> Prop :=
| h_nil : forall c, history c [] c
| h_add : forall c x c1 r c2, ~ phonon_free (cfg c) -> run_op c (OpAdd x) = Ok c1 ->
    history c1 r c2 -> history c (OpAdd x :: r) c2
| h_rem : forall c x c1 r c2, run_op c (OpRemove x) = Ok c1 ->
    history c1 r c2 -> history c (OpRemove x :: r) c2.

Definition balance (l : list op) : Z :=
  sumZ (map (fun o => match o with OpAdd _ => 1 | OpRemove _ => -1 end) l).
