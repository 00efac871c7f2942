(** Specification vocabulary for numbers in file names (C64): reading a decimal
    number, and the nearest multiple of 1e-10. *)
From Coq Require Import String Ascii ZArith QArith Qabs.
Open Scope string_scope.
Open Scope Z_scope.

Definition digit_value (c : ascii) : option Z :=
  let n := Z.of_nat (nat_of_ascii c) in
  if (48 <=? n) && (n <=? 57) then Some (n - 48) else None.

(** A string of digits, most significant first, after a number read so far. *)
Fixpoint digits_value (acc : Z) (s : string) : option Z :=
  match s with
  | "" => Some acc
  | String c r => match digit_value c with Some v => digits_value (10 * acc + v) r | None => None end
  end.

(** The parts before and after the first point. *)
Fixpoint at_point (s : string) : option (string * string) :=
  match s with
  | "" => None
  | String c r => if Ascii.eqb c "." then Some ("", r) else match at_point r with Some (a, b) => Some (String c a, b) | None => None end
  end.

(** A decimal number: whether it has a minus sign, its digits as one integer,
    how many of them follow the point. *)
Definition read_decimal (s : string) : option (bool * Z * nat) :=
  let '(neg, r) := match s with String "-" r => (true, r) | _ => (false, s) end in
  match at_point r with
  | Some (a, b) => match digits_value 0 (a ++ b) with Some v => Some (neg, v, String.length b) | None => None end
  | None => None
  end.

(** [u] is the number of units 1e-10 nearest to the absolute value of [x], an
    even one if two are equally near. *)
Definition nearest (x : Q) (u : Z) : Prop :=
  let err := Qabs (Qabs x * inject_Z 10000000000 - inject_Z u) in
  (err <= 1 # 2)%Q /\ ((err == 1 # 2)%Q -> Z.Even u).

(** Two numbers have the same sign and the same nearest unit. *)
Definition alike (x y : Q) : Prop := ((x < 0)%Q <-> (y < 0)%Q) /\ exists u, nearest x u /\ nearest y u.
