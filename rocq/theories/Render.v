(** String identifiers: Config.__str__/id (terms.py:284-305) and
    Term.id (terms.py:681-737), as real strings. *)
From Coq Require Import ZArith List Bool String Ascii DecimalString.
From Verif Require Import Base NdArray Config Model.
Import ListNotations.
Open Scope string_scope.
Open Scope Z_scope.

(** [str(n)] for an integer *)
Definition str_int (z : Z) : string := NilZero.string_of_int (Z.to_int z).

(** [str(x)] of a float that is a half-integer, given doubled.  Python prints
    fixed notation below 1e16 in absolute value; lattice offsets that large do
    not fit in memory as arrays, and the exponent notation used beyond is not
    modelled. *)
Definition str_half (z : Z) : string :=
  (if z <? 0 then "-" else "") ++ str_int (Z.abs z / 2) ++
  (if Z.even z then ".0" else ".5").

(** [", ".join(l)] *)
Fixpoint join (l : list string) : string :=
  match l with
  | [] => ""
  | [x] => x
  | x :: r => x ++ ", " ++ join r
  end.

(** [str(list)] *)
Definition str_list (l : list string) : string := "[" ++ join l ++ "]".

(** [str(tuple)] of integers; a one-tuple prints with a trailing comma *)
Definition str_tuple (l : list string) : string :=
  match l with
  | [x] => "(" ++ x ++ ",)"
  | _ => "(" ++ join l ++ ")"
  end.

(** terms.py:284-289 [Config.__str__], terms.py:294-305 [Config.id] *)
Definition config_id (a : nd) : string :=
  if total a =? 0 then "G"
  else str_list (map str_int (dat a)) ++ str_tuple (map (fun n => str_int (Z.of_nat n)) (shp a)).

(** terms.py:681-684 [_get_phonon_config_id] *)
Definition phonon_config_id (a : nd) : string := "{" ++ config_id a ++ "}".

(** terms.py:686-692 [_get_f_arg_id]; the argument is [None] for a generalized
    index term. *)
Definition f_arg_id (f : option vec) : string :=
  match f with
  | None => "(!)"
  | Some v => str_list (map str_half (v2 v))
  end.

(** terms.py:710-737 [Term.id] with [full=False] *)
Definition term_id (a : nd) (f : option vec) : string :=
  phonon_config_id a ++ f_arg_id f.
