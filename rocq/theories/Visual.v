(** What is printed: [System.visualize] (system.py:440-468),
    [Equation.visualize] (equations.py:160-195), [Hamiltonian.get_dict_rep]
    (model.py:229-244), [Hamiltonian.visualize] (model.py:536-544) and
    [Model.visualize] (model.py:723-743).

    The text is one string, with line feeds.  [coef=None] only: coefficients are
    not printed.  Floats are half-integers, printed as by numpy before version 2
    (as in Render.v); the formats .02e and .02f are parameters. *)
From Coq Require Import String ZArith List Bool Ascii.
From Verif Require Import Base NdArray Config Model Render Term Equation System.
Import ListNotations.
Open Scope list_scope.
Open Scope string_scope.
Open Scope Z_scope.

Definition lf : string := String (ascii_of_nat 10) "".
Definition tab : string := String (ascii_of_nat 9) "".
(** [print(s)] *)
Definition print (s : string) : string := s ++ lf.
Definition texts (l : list string) : string := fold_right append "" l.

(** terms.py:694-700 *)
Definition g_arg_id (g : option vec) : string :=
  match g with None => "<!>" | Some v => str_list (map str_half (v2 v)) end.
(** terms.py:702-708; the shift is never None here *)
Definition c_exp_id (v : vec) : string := str_list (map str_half (v2 v)).
(** terms.py:710-737 [Term.id] *)
Definition show_term {T} (full : bool) (t : term T) : string :=
  if full then tid t ++ g_arg_id (t_g t) ++ c_exp_id (t_exp t) else tid t.

(** equations.py:180-195; [print] of two arguments puts a space between them *)
Definition show_equation {T} (full : bool) (e : equation T) : string :=
  print (show_term full (e_index e)) ++ texts (map (fun t => print (tab ++ " " ++ show_term full t)) (e_terms e)).

(** [sorted(d.items(), reverse=True)]: keys of a dictionary are distinct, so the
    values are not compared *)
Fixpoint insert_desc {A} (x : Z * A) (l : list (Z * A)) : list (Z * A) :=
  match l with
  | [] => [x]
  | y :: r => if fst y <? fst x then x :: y :: r else y :: insert_desc x r
  end.
Definition sorted_desc {A} (l : list (Z * A)) : list (Z * A) := fold_right insert_desc [] l.

Definition dashes : string := texts (repeat "-" 60).
(** system.py:463-468 *)
Definition show_block {T} (full : bool) (b : Z * list (equation T)) : string :=
  print (str_int (fst b)) ++ print dashes ++ texts (map (show_equation full) (snd b)) ++ print lf.

(** system.py:459-468; [None] is a System that has not been primed *)
Definition visualize {T} (full : bool) (d : option (list (Z * list (equation T)))) : result string :=
  match d with
  | None => Err AttributeError
  | Some l => Ok (texts (map (show_block full) (sorted_desc l)))
  end.

(** model.py:229-244: a dictionary in insertion order *)
Fixpoint put_term {T} (h : hterm T) (d : list (nat * list (hterm T))) : list (nat * list (hterm T)) :=
  match d with
  | [] => [(ht_index h, [h])]
  | (i, l) :: r => if Nat.eqb i (ht_index h) then (i, (l ++ [h])%list) :: r else (i, l) :: put_term h r
  end.
Definition get_dict_rep {T} (h : hamiltonian T) : list (nat * list (hterm T)) :=
  fold_left (fun d t => put_term t d) (h_terms h) [].

Section Show.
Context {T : Type}.
(** the formats .02e of a number and [SingleTerm.__str__] (model.py:195-200) *)
Variable e2 : T -> string.
Variable st : hterm T -> string.

Definition show_option (x : option Z) : string := match x with None => "None" | Some z => str_int z end.
Definition show_head (m : model T) : string :=
  texts (map print
   ["Hamiltonian parameters:";
    "  Hopping (t)          = " ++ e2 (h_hop (m_ham m));
    "  Lattice constant (a) = " ++ e2 (m_lattice m);
    "  Temperature (T)      = " ++ e2 (m_temp m);
    "  Max bosons per site  = " ++ show_option (m_mps m);
    "  Absolute extent      = " ++ show_option (absolute_extent m)]).
(** model.py:739-743 *)
Definition show_type (i : nat) (M N : Z) (ts : list (hterm T)) : string :=
  print ("  Phonon type = " ++ str_int (Z.of_nat i) ++ " (M = " ++ str_int M ++ "; N = " ++ str_int N ++ ")")
  ++ texts (map (fun h => print ("    " ++ st h)) ts).
(** model.py:735-743: the loop prints while it looks up; output before an
    exception is left out *)
Fixpoint show_types (m : model T) (ii : nat) (d : list (nat * list (hterm T))) : result string :=
  match d with
  | [] => Ok ""
  | (i, ts) :: r =>
    match nth_error (m_pe m) ii, nth_error (m_pn m) ii with
    | Some M, Some N => s <- show_types m (S ii) r ;; Ok (show_type i M N ts ++ s)
    | _, _ => Err IndexError
    end
  end.
(** model.py:723-743 *)
Definition model_visualize (m : model T) : result string :=
  if Nat.eqb (List.length (m_pe m)) 0 then Ok (show_head m ++ print "Terms not initialized...")
  else s <- show_types m 0 (get_dict_rep (m_ham m)) ;; Ok (show_head m ++ print "Terms:" ++ s).

(** model.py:536-544; [st] gives no backslash, so the replacement in line 538 does
    nothing *)
Fixpoint join_lines (l : list string) : string :=
  match l with [] => "" | [x] => x | x :: r => x ++ lf ++ join_lines r end.
Definition hamiltonian_visualize (h : hamiltonian T) : string := print (join_lines (map st (h_terms h))).
End Show.
