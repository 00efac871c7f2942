(** ggce/engine/terms.py:485-954 - the terms of an equation.  [T] is the type
    of the model's numbers.  The class of a term is its [t_kind]; the numeric
    prefactors are kept symbolic (coupling and integer multiplicity, frequency
    and phonon count) and evaluated in Coef.v. *)
From Coq Require Import String ZArith List Bool.
From Verif Require Import Base NdArray Config Model Render.
Import ListNotations.
Open Scope Z_scope.

Inductive kind := KIndex | KEom | KAnnih | KCreat.

Record term (T : Type) := mkTerm {
  t_kind : kind;
  t_cfg : config;
  t_h : option (hterm T);
  (** [constant_prefactor]: [None] is 1.0, [Some (g, n)] is g*n *)
  t_const : option (T * Z);
  t_exp : vec;
  t_f : option vec;
  t_g : option vec;
  (** [freq_shift] = sum of frequency * count *)
  t_fshift : list (T * Z) }.
Arguments mkTerm {T}. Arguments t_kind {T}. Arguments t_cfg {T}. Arguments t_h {T}.
Arguments t_const {T}. Arguments t_exp {T}. Arguments t_f {T}. Arguments t_g {T}.
Arguments t_fshift {T}.

(** numpy [a += b] (and [a -= b] with [oppv]): adding a float array into an int
    array raises UFuncTypeError (a TypeError).  Broadcasting of vectors of
    different length is not modelled (the setters exit on a length mismatch). *)
Definition vadd_ip (a b : vec) : result vec :=
  if negb (isf a) && isf b then Err TypeError
  else if Nat.eqb (List.length (v2 a)) (List.length (v2 b))
  then Ok (mkVec (isf a) (addv (v2 a) (v2 b)))
  else Err ValueError.

Definition vneg (a : vec) : vec := mkVec (isf a) (oppv (v2 a)).

(** numpy [a - b] *)
Definition vsub (a b : vec) : result vec :=
  if Nat.eqb (List.length (v2 a)) (List.length (v2 b))
  then Ok (mkVec (isf a || isf b) (subv (v2 a) (v2 b)))
  else Err ValueError.

Definition n_spatial (c : config) : nat := Nat.pred (List.length (shp (cfg c))).

(** the setters of exp_shift, f_arg and g_arg (terms.py:588-598, 618-628,
    642-651): the length must be the number of spatial dimensions *)
Definition checked (c : config) (v : vec) : result vec :=
  _ <- guard (Nat.eqb (List.length (v2 v)) (n_spatial c)) SystemExit ;; Ok v.

(** terms.py:659-679 [Term.__init__] with default arguments: exp_shift is a
    float zero vector. *)
Definition zero_shift (c : config) : vec := mkVec true (zerov (n_spatial c)).

(** terms.py:799-807 [IndexTerm.__init__] *)
Definition index_term {T} (a : nd) : result (term T) :=
  c <- config_init a 1 0 ;;
  Ok (mkTerm KIndex c None None (zero_shift c) None None []).

(** terms.py:841-855 [EOMTerm.__init__] *)
Definition eom_term {T} (a : nd) (h : hterm T) : result (term T) :=
  c <- config_init a 1 0 ;;
  e <- vsub (ht_psi h) (ht_phi h) ;;
  Ok (mkTerm KEom c (Some h) (Some (ht_coupling h, 1)) e (Some (ht_phi h)) None []).

(** terms.py:891-896: [freq_shift]; a frequency list shorter than the number
    of types raises IndexError. *)
Definition freq_shift {T} (freqs : list T) (a : nd) : result (list (T * Z)) :=
  mapM (fun p => match nth_error freqs (fst p) with
                 | Some f => Ok (f, snd p)
                 | None => Err IndexError
                 end)
       (combine (seq 0 (hd 0%nat (shp a))) (total_phonons_per_type a)).

(** terms.py:880-898 [NonIndexTerm.__init__] *)
Definition nonindex_term {T} (kd : kind) (a : nd) (h : hterm T) (freqs : list T) (mult : Z)
  : result (term T) :=
  c <- config_init a 1 0 ;;
  f <- checked c (ht_phi h) ;;
  g0 <- vsub (ht_psi h) (ht_phi h) ;;
  g <- checked c g0 ;;
  fs <- freq_shift freqs a ;;
  Ok (mkTerm kd c (Some h) (Some (ht_coupling h, mult)) (zero_shift c) (Some f) (Some g) fs).

(** [x += shift] for the shift returned by the reduction rules; the scalar 0
    changes nothing. *)
Definition vadd_shift (a : vec) (s : shiftv) : result vec :=
  match s with
  | SScalar z => vadd_ip a (ivec (repeat z (List.length (v2 a))))
  | SVec v => vadd_ip a (ivec v)
  end.

Definition neg_shift (s : shiftv) : shiftv :=
  match s with SScalar z => SScalar (- z) | SVec v => SVec (oppv v) end.

(** terms.py:930-937 [AnnihilationTerm._modify_n_phonons_] and
    terms.py:944-954 [CreationTerm._modify_n_phonons_] *)
Definition modify {T} (t : term T) (f : vec) (g : vec) (loc : list Z) : result (term T) :=
  match t_kind t with
  | KAnnih =>
      ' (c, s) <- remove_phonon (t_cfg t) loc ;;
      e0 <- vadd_shift (t_exp t) (neg_shift s) ;;
      e <- checked c e0 ;;
      f0 <- vadd_shift f s ;;
      f' <- checked c f0 ;;
      Ok (mkTerm (t_kind t) c (t_h t) (t_const t) e (Some f') (Some g) (t_fshift t))
  | KCreat =>
      ' (c, s) <- add_phonon (t_cfg t) loc ;;
      match s with
      | SVec v =>
          e <- checked c (ivec v) ;;
          f0 <- vadd_shift f (neg_shift s) ;;
          f' <- checked c f0 ;;
          Ok (mkTerm (t_kind t) c (t_h t) (t_const t) e (Some f') (Some g) (t_fshift t))
      (* add_phonon_ always returns a vector; len() of a scalar would raise *)
      | SScalar _ => Err TypeError
      end
  | _ => Ok t
  end.

(** terms.py:900-907 [step_].  The hamiltonian term, f_arg and g_arg of a
    non-index term are always set. *)
Definition step {T} (t : term T) (loc : list Z) : result (term T) :=
  match t_h t, t_f t, t_g t with
  | Some h, Some f, Some g =>
      g0 <- vadd_ip g (ivec loc) ;;
      g' <- checked (t_cfg t) g0 ;;
      f0 <- vadd_ip f (ivec (oppv loc)) ;;
      f' <- checked (t_cfg t) f0 ;;
      modify t f' g' (Z.of_nat (ht_index h) :: loc)
  | _, _, _ => Err TypeError
  end.

(** terms.py:773-790 [check_if_green_and_simplify_]; with [f_arg] None the
    comparison [None != 0] is True and the += raises. *)
Definition simplify_green {T} (t : term T) : result (term T) :=
  if String.eqb (phonon_config_id (cfg (t_cfg t))) "{G}" then
    match t_f t with
    | None => Err TypeError
    | Some f =>
        if existsb (fun z => negb (z =? 0)) (v2 f) then
          e <- vadd_ip (t_exp t) f ;;
          Ok (mkTerm (t_kind t) (t_cfg t) (t_h t) (t_const t) e
                     (Some (mkVec (isf f) (zerov (List.length (v2 f))))) (t_g t) (t_fshift t))
        else Ok t
    end
  else Ok t.

(** terms.py:710-737 [Term.id] *)
Definition tid {T} (t : term T) : string := term_id (cfg (t_cfg t)) (t_f t).

(** terms.py:809-814 [IndexTerm._set_f_arg_] *)
Definition set_f_arg {T} (t : term T) (d : vec) : result (term T) :=
  match t_h t with
  | Some _ => Err SystemExit
  | None =>
      d' <- checked (t_cfg t) d ;;
      Ok (mkTerm (t_kind t) (t_cfg t) None (t_const t) (t_exp t) (Some d') (t_g t) (t_fshift t))
  end.

(** terms.py:754-768 [_increment_g_arg_] and the no-op override in EOMTerm
    (terms.py:875-876); a shape mismatch is only logged, but then += raises. *)
Definition increment_g {T} (t : term T) (d : vec) : result (term T) :=
  match t_kind t with
  | KEom => Ok t
  | KIndex => Err TypeError
  | _ =>
      match t_g t with
      | None => Err AttributeError
      | Some g =>
          g' <- vadd_ip g d ;;
          Ok (mkTerm (t_kind t) (t_cfg t) (t_h t) (t_const t) (t_exp t) (t_f t) (Some g') (t_fshift t))
      end
  end.
