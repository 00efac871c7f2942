(** [peak_location_and_weight_scipy] (utils.py:182-190).  scipy's [curve_fit] is a
    parameter; what it does is stated in Spec_curve.v. *)
From Coq Require Import Reals List.
From Verif Require Import Base Physics.
Import ListNotations.
Open Scope R_scope.

(** The arguments of [lorentzian] after the first. *)
Record line := mkLine { l_loc : R; l_scale : R; l_eta : R }.
(** utils.py:193-194 *)
Definition line_at (w : R) (p : line) : R := lorentzian w (l_loc p) (l_scale p) (l_eta p).

(** utils.py:182-190; [p0 = [wrange[-1], 1, eta]] *)
Definition peak_scipy {E} (curve_fit : (R -> line -> R) -> list R -> list R -> line -> result (line * E)) (ws As : list R) (eta : R) : result (line * E) :=
  match rev ws with
  | [] => Err IndexError
  | w :: _ => curve_fit line_at ws As (mkLine w 1 eta)
  end.
