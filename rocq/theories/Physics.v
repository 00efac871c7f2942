(** ggce/utils/physics.py, the lineshape and time helpers of
    ggce/utils/utils.py, and the arithmetic of model.py, on exact real and
    complex numbers. *)
From Coq Require Import String Reals ZArith List Lra.
From Verif Require Import Base Model HModel Ring Coef Cplx.
Import ListNotations.
Open Scope list_scope.
Open Scope R_scope.

(** The operations of HModel.v on the reals; math.sqrt raises ValueError on
    negative arguments, arctanh is only meant on (-1, 1). *)
Definition Ratanh (x : R) : R := ln ((1 + x) / (1 - x)) / 2.
Definition Rnum : numops R :=
  mkNum R 0 1 2 Rmult Rdiv Ropp Rabs (fun x => if Rlt_dec x 0 then Err ValueError else Ok (sqrt x))
    exp Ratanh cosh sinh (fun x y => if Req_EM_T x y then true else false) (fun x y => if Rlt_dec x y then true else false).

(** physics.py:6-71.  [delta] is the site separation.  For the non-zero
    hopping branch the branch with hopping 0 is tested first, as in the code. *)
Definition g0_delta_omega (delta : R) (omega : C) (a broadening hopping sgn e0 : R) : C :=
  if Req_EM_T hopping 0 then
    if Req_EM_T delta 0 then Cdiv C1 (Cadd omega (Cmul (RtoC broadening) Ci)) else C0
  else
    let omega := Cadd omega (Cmul (RtoC broadening) Ci) in
    let B := 2 * Rabs hopping in
    let x := Cdiv (Csub omega (RtoC e0)) (RtoC B) in
    let prefactor := Cdiv (Cmul (Copp (RtoC sgn)) Ci)
        (Csqrt (Csub (RtoC (B * B)) (Cmul (Csub omega (RtoC e0)) (Csub omega (RtoC e0))))) in
    let t1 := Cpow (Cadd (Copp x) (Cmul (Cmul (RtoC sgn) Ci) (Csqrt (Csub C1 (Cmul x x))))) (Rabs (delta * a)) in
    Cmul t1 prefactor.

(** physics.py:74-105 *)
Definition G0_k_omega (k : R) (omega : C) (a eta hopping : R) : C :=
  Cdiv C1 (Cadd (Cadd omega (Cmul Ci (RtoC eta))) (RtoC (2 * hopping * cos (k * a)))).

(** terms.py:857-873, 909-923: the phases and propagators of Coef.v at the point
    (k, w, eta) of model [m].  Vectors are doubled and one-dimensional. *)
Definition half_of (v : list Z) : R := IZR (hd 0%Z v) / 2.
Definition shift_of (l : list (R * Z)) : R := fold_right (fun p s => fst p * IZR (snd p) + s) 0 l.
Definition phys_env (m : model R) (k w eta : R) : env R CR :=
  mkEnv (K := CR) RtoC (fun v => Cexpi (k * (m_lattice m * half_of v)))
    (fun v l => g0_delta_omega (half_of v) (RtoC (w - shift_of l)) (m_lattice m) eta (h_hop (m_ham m)) 1 0)
    (G0_k_omega k (RtoC w) (m_lattice m) eta (h_hop (m_ham m))).

(** utils.py:145-157 *)
Definition peak_location_and_weight (w A A' eta eta' : R) : R * R :=
  let numerator1 := sqrt (eta * eta') in
  let numerator2 := A * eta - A' * eta' in
  let den1 := A' * eta - A * eta' in
  let den2 := A * eta - A' * eta' in
  let loc := w - Rabs (numerator1 * numerator2 / sqrt (den1 * den2)) in
  (loc, PI * A * ((w - loc) * (w - loc) + eta * eta) / eta).

(** utils.py:160-179 *)
Definition peak_location_and_weight_wstep (w w' A A' eta : R) : R * R :=
  let firstterm := A * A' * ((w - w') * (w - w')) / ((A - A') * (A - A')) in
  let secondterm := eta * eta in
  let loc1 := (w * A - w' * A') / (A - A') + sqrt (firstterm - secondterm) in
  let loc2 := (w * A - w' * A') / (A - A') - sqrt (firstterm - secondterm) in
  let area1 := PI * A * ((w - loc1) * (w - loc1) + eta * eta) / eta in
  let area2 := PI * A * ((w - loc2) * (w - loc2) + eta * eta) / eta in
  if Rlt_dec 1 area1 then (loc2, area2) else (loc1, area1).

(** utils.py:193-194 *)
Definition lorentzian (w loc scale eta : R) : R :=
  scale * (eta / PI) / ((w - loc) * (w - loc) + eta * eta).

(** utils.py:76-83; float division by zero raises *)
Definition time_remaining (time_elapsed percentage_complete : R) : result R :=
  if Req_EM_T percentage_complete 100 then Ok 0
  else if Req_EM_T percentage_complete 0 then Err ZeroDivisionError
  else Ok ((100 - percentage_complete) * time_elapsed / percentage_complete).

(** utils.py:86-109 *)
Definition elapsed_time_str (dt : R) : R * string :=
  if Rlt_dec dt 10 then (dt, "s"%string)
  else if Rlt_dec dt 600 then (dt / 60, "m"%string)
  else if Rlt_dec dt 36000 then (dt / 3600, "h"%string)
  else (dt / 86400, "d"%string).
