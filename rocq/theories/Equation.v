(** ggce/engine/equations.py - generalized and full equations. *)
From Coq Require Import String ZArith List Bool.
From Verif Require Import Base NdArray Config Model Render Term.
Import ListNotations.
Open Scope list_scope.
Open Scope Z_scope.

(** A Python dictionary from strings, in insertion order. *)
Definition sdict (A : Type) := list (string * A).

Fixpoint sget {A} (k : string) (d : sdict A) : option A :=
  match d with
  | [] => None
  | (k', v) :: r => if String.eqb k' k then Some v else sget k r
  end.

(** [d[k].append(v)], creating the entry on KeyError (equations.py:211-216,
    system.py:150-155) *)
Fixpoint sappend {A} (k : string) (v : A) (d : sdict (list A)) : sdict (list A) :=
  match d with
  | [] => [(k, [v])]
  | (k', l) :: r => if String.eqb k' k then (k', (l ++ [v])%list) :: r else (k', l) :: sappend k v r
  end.

Record equation (T : Type) := mkEq {
  e_green : bool; e_index : term T; e_terms : list (term T); e_fargs : sdict (list vec) }.
Arguments mkEq {T}. Arguments e_green {T}. Arguments e_index {T}.
Arguments e_terms {T}. Arguments e_fargs {T}.

(** equations.py:197-216 [_populate_f_arg_terms].  A term without f_arg (no
    such term is ever built here) would fail later, at [tolist()]. *)
Definition populate {T} (ts : list (term T)) : result (sdict (list vec)) :=
  foldM (fun d t => match t_f t with
                    | Some f => Ok (sappend (phonon_config_id (cfg (t_cfg t))) f d)
                    | None => Err AttributeError
                    end) ts [].

(** equations.py:264-273 and 309-318: simplify, validate, keep if legal *)
Definition finish {T} (m : model T) (t : term T) : result (list (term T)) :=
  t' <- simplify_green t ;;
  _ <- validate_config_is_legal (cfg (t_cfg t')) ;;
  b <- config_legal (cfg (t_cfg t')) (m_mps m) (Some (m_pe m)) None true ;;
  Ok (if b then [t'] else []).

(** equations.py:247-273: annihilation at the site [loc] of array [a] *)
Definition annih_at {T} (m : model T) (a : nd) (h : hterm T) (loc : list nat) : result (list (term T)) :=
  let nval := get a (ht_index h :: loc) in
  if nval =? 0 then Ok []
  else
    t <- nonindex_term KAnnih a h (h_freqs (m_ham m)) nval ;;
    t' <- step t (map Z.of_nat loc) ;;
    finish m t'.

(** equations.py:302-318: creation at [loc] *)
Definition creat_at {T} (m : model T) (a : nd) (h : hterm T) (loc : list Z) : result (list (term T)) :=
  t <- nonindex_term KCreat a h (h_freqs (m_ham m)) 1 ;;
  t' <- step t loc ;;
  finish m t'.

(** equations.py:284-300: the sites visited by the loop over the dummy array,
    whose axis [j] has [2*ae - L_j] entries. *)
Definition creat_sites (ae : Z) (shape : list nat) : list (list Z) :=
  map (fun index => map (fun il => Z.of_nat (fst il) - ae + Z.of_nat (snd il)) (combine index shape))
      (all_idx (map (fun L => Z.to_nat (2 * ae - Z.of_nat L)) shape)).

(** equations.py:238-318: the terms of one Hamiltonian term *)
Definition terms_of {T} (m : model T) (a : nd) (h : hterm T) : result (list (term T)) :=
  _ <- guard (Nat.ltb (ht_index h) (hd 0%nat (shp a))) IndexError ;;
  match ht_dag h with
  | Minus =>
      ls <- mapM (annih_at m a h) (all_idx (tl (shp a))) ;; Ok (concat ls)
  | Plus =>
      match nth_error (m_pn m) (ht_index h) with
      | None => Err IndexError
      | Some N =>
          if N <? total_type a (ht_index h) + 1 then Ok []
          else
            match absolute_extent m with
            | None => Err TypeError
            | Some ae =>
                _ <- guard (negb (existsb (fun L => ae <? Z.of_nat L) (tl (shp a)))) SystemExit ;;
                ls <- mapM (creat_at m a h) (creat_sites ae (tl (shp a))) ;; Ok (concat ls)
            end
      end
  end.

(** equations.py:226-318 [Equation._initialize_terms] *)
Definition initialize_terms {T} (m : model T) (a : nd) : result (list (term T)) :=
  ls <- mapM (terms_of m a) (h_terms (m_ham m)) ;; Ok (concat ls).

(** equations.py:85-103, 143-152 [Equation.from_config], [Equation.__init__] *)
Definition equation_from {T} (m : model T) (a : nd) : result (equation T) :=
  i <- index_term a ;;
  ts <- initialize_terms m a ;;
  d <- populate ts ;;
  Ok (mkEq false i ts d).

(** equations.py:375-393 [GreenEquation._initialize_terms]; [n[idx, ...] = 1] *)
Definition single_phonon (nt d t : nat) : nd :=
  tab (nt :: repeat 1%nat d) (fun i => if Nat.eqb (hd 0%nat i) t then 1 else 0).

Definition green_term {T} (m : model T) (h : hterm T) : result (list (term T)) :=
  match ht_dag h with
  | Minus => Ok []
  | Plus =>
      _ <- guard (Nat.ltb (ht_index h) (m_ntypes m)) IndexError ;;
      t <- eom_term (single_phonon (m_ntypes m) (h_dim (m_ham m)) (ht_index h)) h ;;
      Ok [t]
  end.

(** equations.py:337-346 [GreenEquation.__init__] *)
Definition green_equation {T} (m : model T) : result (equation T) :=
  i <- index_term (zeros (m_ntypes m :: repeat 1%nat (h_dim (m_ham m)))) ;;
  ls <- mapM (green_term m) (h_terms (m_ham m)) ;;
  d <- populate (concat ls) ;;
  Ok (mkEq true i (concat ls) d).

(** equations.py:218-224 [_init_full] *)
Definition init_full {T} (e : equation T) (delta : vec) : result (equation T) :=
  i <- set_f_arg (e_index e) delta ;;
  ts <- mapM (fun t => increment_g t delta) (e_terms e) ;;
  Ok (mkEq (e_green e) i ts (e_fargs e)).
