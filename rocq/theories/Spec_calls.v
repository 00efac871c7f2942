(** Specification for lists of add_ calls (C82). *)
From Coq Require Import String ZArith List Bool Reals.
From Verif Require Import Base Model HModel Spec_model Physics.
Import ListNotations.
Open Scope list_scope.
Open Scope Z_scope.

(** The frequencies that the calls give to phonon types. *)
Definition given_freqs {T} (N : numops T) (temp : T) (l : list (add_args T)) : list T :=
  flat_map (fun a => if n_ltb N (n_0 N) temp then [a_freq a; n_opp N (a_freq a)] else [a_freq a]) l.

(** A fictitious extent, 0 if there is none. *)
Definition other_M {T} (a : add_args T) : Z := match a_Mtfd a with Some x => x | None => 0 end.

(** No call of [idle] has an extent larger than all of [l]. *)
Definition within {T} (l idle : list (add_args T)) : Prop := forall a, In a idle -> exists a', In a' l /\ a_M a <= a_M a' /\ other_M a <= a_M a'.

(** Parameters and calls for which there is a Green's function at eta > 0. *)
Record well_posed (hop lat : R) (mps : option Z) (l : list (add_args R)) : Prop := {
  wp_some : l <> [];
  wp_types : (forall a, In a l -> a_type a = "BondPeierls"%string) \/ (forall a, In a l -> a_type a <> "BondPeierls"%string);
  wp_mps : forall k, mps = Some k -> 1 <= k;
  wp_lattice : lat = 1%R \/ hop = 0%R }.
