(** Specification of the printed texts (C68). *)
From Coq Require Import String ZArith List Bool Ascii Permutation.
From Verif Require Import Base NdArray Config Spec Model Term Equation Spec_engine HModel.
Import ListNotations.
Open Scope list_scope.
Open Scope string_scope.
Open Scope Z_scope.

(** The text made of the lines [l], each with its line feed. *)
Definition newline : string := String (ascii_of_nat 10) "".
Definition text_of (l : list string) : string := String.concat "" (map (fun s => s ++ newline) l).

(** Two terms that print alike: the same unknown and, in full, numerically
    equal arguments of the free Green's function and of the exponential. *)
Definition alike {T} (full : bool) (t t' : term T) : Prop :=
  same_unknown t t' /\
  (full = true -> option_map v2 (t_g t) = option_map v2 (t_g t') /\ v2 (t_exp t) = v2 (t_exp t')).
Definition alike_eq {T} (full : bool) (e e' : equation T) : Prop :=
  alike full (e_index e) (e_index e') /\ Forall2 (alike full) (e_terms e) (e_terms e').
(** Every block of [d] is one of [d'] *)
Definition blocks_in {T} (full : bool) (d d' : list (Z * list (equation T))) : Prop :=
  forall n es, In (n, es) d -> exists es', In (n, es') d' /\ Forall2 (alike_eq full) es es'.

(** Blocks of which the texts are unambiguous: one per number of phonons, all
    clouds tight boxes. *)
Definition clean {T} (d : list (Z * list (equation T))) : Prop :=
  NoDup (map fst d) /\
  forall n es e, In (n, es) d -> In e es ->
    valid_cloud (cfg (t_cfg (e_index e))) /\ forall t, In t (e_terms e) -> valid_cloud (cfg (t_cfg t)).

(** The lines of a block; [id] is how a term is printed, [num] an integer. *)
Definition eq_lines {T} (id : term T -> string) (e : equation T) : list string :=
  id (e_index e) :: map (fun t => String (ascii_of_nat 9) (String " " (id t))) (e_terms e).
Definition block_lines {T} (num : Z -> string) (id : term T -> string) (b : Z * list (equation T)) : list string :=
  [num (fst b); "------------------------------------------------------------"]
  ++ flat_map (eq_lines id) (snd b) ++ [""; ""].
Definition falling {A} (p : list (Z * A)) : Prop := ForallOrdPairs (fun x y => fst y < fst x) p.

(** The heading; [e2] is the format .02e. *)
Definition num_opt (num : Z -> string) (x : option Z) : string := match x with None => "None" | Some z => num z end.
Definition head_lines {T} (num : Z -> string) (e2 : T -> string) (m : model T) : list string :=
  ["Hamiltonian parameters:"; "  Hopping (t)          = " ++ e2 (h_hop (m_ham m));
   "  Lattice constant (a) = " ++ e2 (m_lattice m); "  Temperature (T)      = " ++ e2 (m_temp m);
   "  Max bosons per site  = " ++ num_opt num (m_mps m); "  Absolute extent      = " ++ num_opt num (absolute_extent m)].
(** Phonon type [i] with its limits and its terms. *)
Definition type_lines {T} (num : Z -> string) (st : hterm T -> string) (m : model T) (i : nat) : list string :=
  ("  Phonon type = " ++ num (Z.of_nat i) ++ " (M = " ++ num (nth i (m_pe m) 0) ++ "; N = " ++ num (nth i (m_pn m) 0) ++ ")")
  :: map (fun h => "    " ++ st h) (filter (fun h => Nat.eqb (ht_index h) i) (h_terms (m_ham m))).

(** Any completed calls, whether or not they reported errors. *)
Inductive called {T} (N : numops T) : model T -> Prop :=
| called_start : forall hop lat temp mps dim, called N (from_parameters hop lat temp mps dim)
| called_add : forall m a logs m', called N m -> model_add N m a = Ok (logs, m') -> called N m'
| called_temp : forall m x, called N m -> called N (snd (set_temperature N m x))
| called_lattice : forall m x, called N m -> called N (snd (set_lattice N m x))
| called_aext : forall m x, called N m -> called N (snd (set_absolute_extent m x))
| called_mps : forall m x, called N m -> called N (set_max_per_site m x).
