(** Specification of curve fits (C90). *)
From Coq Require Import Reals List.
From Verif Require Import Base Curve.
Import ListNotations.
Open Scope R_scope.

(** The sum of the squares of the deviations. *)
Definition deviation2 (f : R -> line -> R) (ws As : list R) (p : line) : R :=
  fold_right Rplus 0 (map (fun wa => (f (fst wa) p - snd wa) ^ 2) (combine ws As)).
(** A solution of the least-squares problem. *)
Definition least_squares (f : R -> line -> R) (ws As : list R) (p : line) : Prop := forall q, deviation2 f ws As p <= deviation2 f ws As q.

(** scipy's [curve_fit] without bounds (Levenberg-Marquardt): TypeError for fewer
    points than parameters, RuntimeError if it does not converge, and otherwise
    parameters no worse than those it started from. *)
Record fits {E} (curve_fit : (R -> line -> R) -> list R -> list R -> line -> result (line * E)) : Prop := {
  fit_few : forall f ws As p0, length As = length ws -> (length ws < 3)%nat -> curve_fit f ws As p0 = Err TypeError;
  fit_more : forall f ws As p0, length As = length ws -> (3 <= length ws)%nat ->
    curve_fit f ws As p0 = Err RuntimeError \/ exists p e, curve_fit f ws As p0 = Ok (p, e) /\ deviation2 f ws As p <= deviation2 f ws As p0 }.

(** At least three different frequencies. *)
Definition three (ws : list R) : Prop := exists x y z, In x ws /\ In y ws /\ In z ws /\ x <> y /\ x <> z /\ y <> z.
(** The same line, with both signs changed. *)
Definition flip (p : line) : line := mkLine (l_loc p) (- l_scale p) (- l_eta p).
