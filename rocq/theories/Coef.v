(** Numerical coefficients of terms: terms.py:816-834 (IndexTerm), 857-873
    (EOMTerm), 909-923 (NonIndexTerm), equations.py:154-158, 348-369 (bias). *)
From Coq Require Import String ZArith List Bool.
From Verif Require Import Base NdArray Config Model Term Equation Ring.
Import ListNotations.
Open Scope list_scope.

(** What the coefficients need at one point (k, w, eta): the numbers of the
    model as elements of [K]; [ph v] = exp(i k a v/2); [g0 v l] = g0 at
    separation v/2 and frequency w - sum l; [G0] = G0(k, w).  Vectors are
    doubled, see Model.v.  The complex functions themselves are in Physics.v. *)
Record env (T : Type) (K : cring) := mkEnv {
  ev : T -> K; ph : list Z -> K; g0 : list Z -> list (T * Z) -> K; G0 : K }.
Arguments mkEnv {T K}. Arguments ev {T K}. Arguments ph {T K}.
Arguments g0 {T K}. Arguments G0 {T K}.

Section Coef.
Context {T : Type} {K : cring}.
Variable e : env T K.

(** [constant_prefactor]: coupling times integer multiplicity *)
Definition const_of (c : option (T * Z)) : K :=
  match c with
  | None => k1
  | Some (g, n) => kmul (ev e g) (kz n)
  end.

(** A non-index term without g_arg is never built; its coefficient would raise. *)
Definition coefficient (t : term T) : K :=
  match t_kind t with
  | KIndex => k1
  | KEom => kmul (kmul (const_of (t_const t)) (G0 e)) (ph e (v2 (t_exp t)))
  | KAnnih | KCreat =>
      match t_g t with
      | Some g => kmul (kmul (const_of (t_const t)) (ph e (v2 (t_exp t)))) (g0 e (v2 g) (t_fshift t))
      | None => k0
      end
  end.

(** equations.py:154-158 and 348-369 *)
Definition bias (q : equation T) : K := if e_green q then G0 e else k0.
End Coef.
