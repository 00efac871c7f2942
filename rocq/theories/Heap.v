(** Building a System on Python objects (terms.py, equations.py, system.py).

    The other files of this model treat arrays, terms and equations as values.
    The program works on mutable objects instead: numpy arrays are changed in
    place by [+=] and [-=], attributes are rebound, lists and dictionaries are
    extended in place, and an object may be referred to from several places.
    Here the objects are cells of a heap and a variable holds the location of a
    cell.  Props_Aliasing.v shows that the values are what the rest of the
    model says they are.

    Simplifications.  An object appears when its constructor is done (nothing
    else refers to it before).  [_terms_list] and [_f_arg_terms] of an equation
    appear when they are complete, likewise.  The Hamiltonian and its list of
    terms are part of the Model cell, through which alone they are reached;
    lists of numbers are values.  The dictionaries [_generalized_equations] and
    [_equations] of the System are values too (they are referred to from the
    System alone).  The configurations come from Space.v as values. *)
From Coq Require Import String ZArith List Bool.
From Verif Require Import Base NdArray Config Model Space Render Term Equation System.
Import ListNotations.
Open Scope list_scope.
Open Scope Z_scope.

Definition loc := nat.

(** The attributes of a Term (terms.py:659-679, 841-855, 880-898). *)
Record oterm (T : Type) := mkOterm {
  ot_kind : kind; ot_cfg : loc; ot_h : option loc; ot_const : option (T * Z);
  ot_exp : loc; ot_f : option loc; ot_g : option loc; ot_fshift : list (T * Z);
  ot_model : option loc }.
Arguments mkOterm {T}. Arguments ot_kind {T}. Arguments ot_cfg {T}. Arguments ot_h {T}.
Arguments ot_const {T}. Arguments ot_exp {T}. Arguments ot_f {T}. Arguments ot_g {T}.
Arguments ot_fshift {T}. Arguments ot_model {T}.

Inductive cell (T : Type) :=
(** a one-dimensional numpy array *)
| CVec (v : vec)
(** the array of a configuration *)
| CNd (a : nd)
(** [Config] (terms.py:264-282) *)
| CConfig (arr : loc) (mm m : Z)
(** [SingleTerm] (model.py:52-203) *)
| CHterm (ty : string) (psi phi : loc) (dag : dagger) (coupling : T) (index : nat) (freq : T)
(** [Model] with its [Hamiltonian] (model.py:433-441, 785-803) *)
| CModel (lattice temp : T) (terms : list loc) (freqs : list T) (dim : nat) (hop : T)
    (mps : option Z) (pe pn : list Z) (aext : option Z) (ntypes : nat)
| CTerm (o : oterm T)
(** a list of objects *)
| CList (l : list loc)
(** a dictionary from strings to objects *)
| CDict (d : sdict loc)
(** [Equation] / [GreenEquation] (equations.py:143-152) *)
| CEq (green : bool) (index model terms fargs : loc).
Arguments CVec {T}. Arguments CNd {T}. Arguments CConfig {T}. Arguments CHterm {T}.
Arguments CModel {T}. Arguments CTerm {T}. Arguments CList {T}. Arguments CDict {T}. Arguments CEq {T}.

Definition heap (T : Type) := list (cell T).
Definition cell_at {T} (h : heap T) (l : loc) : option (cell T) := nth_error h l.

Definition olist {A} (x : option A) : list A := match x with Some a => [a] | None => [] end.

(** The objects that an object refers to. *)
Definition refs {T} (c : cell T) : list loc :=
  match c with
  | CVec _ | CNd _ => []
  | CConfig a _ _ => [a]
  | CHterm _ p q _ _ _ _ => [p; q]
  | CModel _ _ ts _ _ _ _ _ _ _ _ => ts
  | CTerm o => ot_cfg o :: ot_exp o :: olist (ot_h o) ++ olist (ot_f o) ++ olist (ot_g o) ++ olist (ot_model o)
  | CList l => l
  | CDict d => map snd d
  | CEq _ i m ts fs => [i; m; ts; fs]
  end.

(** The same object with other references. *)
Definition relink {T} (p : loc -> loc) (c : cell T) : cell T :=
  match c with
  | CVec v => CVec v
  | CNd a => CNd a
  | CConfig a mm m => CConfig (p a) mm m
  | CHterm ty x y d g i f => CHterm ty (p x) (p y) d g i f
  | CModel a t ts fr d hp mps pe pn ae nt => CModel a t (map p ts) fr d hp mps pe pn ae nt
  | CTerm o => CTerm (mkOterm (ot_kind o) (p (ot_cfg o)) (option_map p (ot_h o)) (ot_const o) (p (ot_exp o))
                        (option_map p (ot_f o)) (option_map p (ot_g o)) (ot_fshift o) (option_map p (ot_model o)))
  | CList l => CList (map p l)
  | CDict d => CDict (map (fun kv => (fst kv, p (snd kv))) d)
  | CEq g i m ts fs => CEq g (p i) (p m) (p ts) (p fs)
  end.

(** * What an object stands for *)
Section Values.
Context {T : Type}.
Implicit Types (h : heap T) (l : loc).

Definition opt_bind {A B} (x : option A) (f : A -> option B) : option B := match x with Some a => f a | None => None end.
Fixpoint opt_map {A B} (f : A -> option B) (l : list A) : option (list B) :=
  match l with
  | [] => Some []
  | x :: r => opt_bind (f x) (fun y => opt_bind (opt_map f r) (fun ys => Some (y :: ys)))
  end.
(** an attribute that may be None *)
Definition maybe {A B} (f : A -> option B) (x : option A) : option (option B) :=
  match x with None => Some None | Some a => opt_bind (f a) (fun b => Some (Some b)) end.

Definition a_vec h l : option vec := match cell_at h l with Some (CVec v) => Some v | _ => None end.
Definition a_nd h l : option nd := match cell_at h l with Some (CNd a) => Some a | _ => None end.
Definition a_cfg h l : option config :=
  match cell_at h l with
  | Some (CConfig a mm m) => opt_bind (a_nd h a) (fun x => Some (mkConfig x mm m))
  | _ => None
  end.
Definition a_hterm h l : option (hterm T) :=
  match cell_at h l with
  | Some (CHterm ty p q d g i f) => opt_bind (a_vec h p) (fun x => opt_bind (a_vec h q) (fun y => Some (mkHterm ty x y d g i f)))
  | _ => None
  end.
Definition a_model h l : option (model T) :=
  match cell_at h l with
  | Some (CModel a t ts fr d hp mps pe pn ae nt) =>
      opt_bind (opt_map (a_hterm h) ts) (fun hs => Some (mkModel a t (mkHam hs fr d hp) mps pe pn ae nt))
  | _ => None
  end.
Definition a_term h l : option (term T) :=
  match cell_at h l with
  | Some (CTerm o) =>
      opt_bind (a_cfg h (ot_cfg o)) (fun c =>
      opt_bind (maybe (a_hterm h) (ot_h o)) (fun x =>
      opt_bind (a_vec h (ot_exp o)) (fun e =>
      opt_bind (maybe (a_vec h) (ot_f o)) (fun f =>
      opt_bind (maybe (a_vec h) (ot_g o)) (fun g =>
      Some (mkTerm (ot_kind o) c x (ot_const o) e f g (ot_fshift o)))))))
  | _ => None
  end.
Definition a_list {A} (f : loc -> option A) h l : option (list A) :=
  match cell_at h l with Some (CList xs) => opt_map f xs | _ => None end.
Definition a_dict h l : option (sdict (list vec)) :=
  match cell_at h l with
  | Some (CDict d) => opt_map (fun kv => opt_bind (a_list (a_vec h) h (snd kv)) (fun v => Some (fst kv, v))) d
  | _ => None
  end.
Definition a_eq h l : option (equation T) :=
  match cell_at h l with
  | Some (CEq g i m ts fs) =>
      opt_bind (a_term h i) (fun x =>
      opt_bind (a_list (a_term h) h ts) (fun us =>
      opt_bind (a_dict h fs) (fun d => Some (mkEq g x us d))))
  | _ => None
  end.
(** the dictionaries of equations *)
Definition a_eqs h (d : list (Z * list loc)) : option (list (Z * list (equation T))) :=
  opt_map (fun kv => opt_bind (opt_map (a_eq h) (snd kv)) (fun es => Some (fst kv, es))) d.
End Values.

(** * Programs on the heap *)
Section Programs.
Context {T : Type}.

(** A program changes the heap and returns or raises. *)
Definition prog (A : Type) := heap T -> heap T * result A.
Definition ret {A} (a : A) : prog A := fun h => (h, Ok a).
Definition pbind {A B} (p : prog A) (k : A -> prog B) : prog B :=
  fun h => match p h with
           | (h', Ok a) => k a h'
           | (h', Err e) => (h', Err e)
           end.
Notation "x <~ p ;; k" := (pbind p (fun x => k)) (at level 61, p at next level, right associativity).
Definition lift {A} (r : result A) : prog A := fun h => (h, r).
Definition alloc (c : cell T) : prog loc := fun h => (h ++ [c], Ok (List.length h)).
Definition store (l : loc) (c : cell T) : prog unit := fun h => (setn h l c, Ok tt).
(** reading an attribute that is not there *)
Definition load {A} (f : heap T -> loc -> option A) (l : loc) : prog A :=
  fun h => (h, match f h l with Some a => Ok a | None => Err AttributeError end).
Fixpoint each {A B} (f : A -> prog B) (l : list A) : prog (list B) :=
  match l with
  | [] => ret []
  | x :: r => y <~ f x ;; ys <~ each f r ;; ret (y :: ys)
  end.

Definition is_term (c : cell T) : option (oterm T) := match c with CTerm o => Some o | _ => None end.
Definition is_list (c : cell T) : option (list loc) := match c with CList l => Some l | _ => None end.
Definition is_dict (c : cell T) : option (sdict loc) := match c with CDict d => Some d | _ => None end.
Definition is_cfg (c : cell T) : option (loc * Z * Z) := match c with CConfig a mm m => Some (a, mm, m) | _ => None end.
Definition is_hterm (c : cell T) : option (loc * loc) := match c with CHterm _ p q _ _ _ _ => Some (p, q) | _ => None end.
Definition is_model (c : cell T) : option (list loc) := match c with CModel _ _ ts _ _ _ _ _ _ _ _ => Some ts | _ => None end.
Definition is_eq (c : cell T) : option (loc * loc * loc * loc) := match c with CEq _ i m ts fs => Some (i, m, ts, fs) | _ => None end.
Definition as_ {A} (f : cell T -> option A) (h : heap T) (l : loc) : option A := opt_bind (cell_at h l) f.

(** [copy.deepcopy]: every object that can be reached is copied once (the memo
    of the module [copy]), references between copied objects being kept. *)
Definition seen_in (l : loc) (s : list loc) : bool := existsb (Nat.eqb l) s.
Fixpoint reach (fuel : nat) (h : heap T) (todo seen : list loc) : list loc :=
  match fuel with
  | O => seen
  | S n =>
      match todo with
      | [] => seen
      | l :: r =>
          if seen_in l seen then reach n h r seen
          else reach n h (match cell_at h l with Some c => refs c | None => [] end ++ r) (l :: seen)
      end
  end.
Definition edges (h : heap T) : nat := fold_right (fun c n => S (List.length (refs c) + n)) O h.
Fixpoint place (l : loc) (s : list loc) : nat :=
  match s with [] => O | x :: r => if Nat.eqb x l then O else S (place l r) end.
Definition deepcopy (l : loc) : prog loc := fun h =>
  let s := reach (S (S (edges h))) h [l] [] in
  let p := fun x => (List.length h + place x s)%nat in
  (h ++ map (fun x => match cell_at h x with Some c => relink p c | None => CList [] end) s, Ok (p l)).

(** * terms.py *)

(** numpy [a.copy()] *)
Definition copy_vec (l : loc) : prog loc := v <~ load a_vec l ;; alloc (CVec v).
Definition copy_nd (l : loc) : prog loc := a <~ load a_nd l ;; alloc (CNd a).

(** numpy [a += v] on the array at [l] *)
Definition iadd (l : loc) (v : vec) : prog unit :=
  a <~ load a_vec l ;; b <~ lift (vadd_ip a v) ;; store l (CVec b).
Definition iadd_shift (l : loc) (s : shiftv) : prog unit :=
  a <~ load a_vec l ;; b <~ lift (vadd_shift a s) ;; store l (CVec b).

(** model.py:64-100: the properties [psi] and [phi] return copies *)
Definition get_psi (l : loc) : prog loc := x <~ load (as_ is_hterm) l ;; copy_vec (fst x).
Definition get_phi (l : loc) : prog loc := x <~ load (as_ is_hterm) l ;; copy_vec (snd x).
(** [psi - phi]: a new array *)
Definition diff (x y : loc) : prog loc :=
  a <~ load a_vec x ;; b <~ load a_vec y ;; d <~ lift (vsub a b) ;; alloc (CVec d).

(** terms.py:264-282 [Config.__init__]: [np.array(config).astype(int)] copies *)
Definition o_config (l : loc) : prog loc :=
  a <~ load a_nd l ;; _ <~ lift (validate_config_is_legal a) ;;
  b <~ alloc (CNd a) ;; alloc (CConfig b 1 0).

(** the length check of the setters (terms.py:588-598, 618-628, 642-651) *)
Definition o_checked (c : loc) (l : loc) : prog unit :=
  x <~ load a_cfg c ;; v <~ load a_vec l ;; _ <~ lift (checked x v) ;; ret tt.

(** terms.py:671-679: the default [exp_shift] *)
Definition o_zero_shift (c : loc) : prog loc := x <~ load a_cfg c ;; alloc (CVec (zero_shift x)).

(** terms.py:799-807 [IndexTerm.__init__] *)
Definition o_index_term (l : loc) : prog loc :=
  c <~ o_config l ;; e <~ o_zero_shift c ;;
  alloc (CTerm (mkOterm KIndex c None None e None None [] None)).

(** terms.py:841-855 [EOMTerm.__init__] *)
Definition o_eom_term (l hl ml : loc) : prog loc :=
  c <~ o_config l ;; _ <~ o_zero_shift c ;;
  p <~ get_psi hl ;; q <~ get_phi hl ;; d <~ diff p q ;; e <~ copy_vec d ;;
  q' <~ get_phi hl ;; f <~ copy_vec q' ;;
  ht <~ load a_hterm hl ;;
  alloc (CTerm (mkOterm KEom c (Some hl) (Some (ht_coupling ht, 1)) e (Some f) None [] (Some ml))).

(** terms.py:880-898 [NonIndexTerm.__init__] *)
Definition o_nonindex_term (kd : kind) (l hl ml : loc) (mult : Z) : prog loc :=
  c <~ o_config l ;; e <~ o_zero_shift c ;;
  q <~ get_phi hl ;; f <~ copy_vec q ;; _ <~ o_checked c f ;;
  p <~ get_psi hl ;; q' <~ get_phi hl ;; d <~ diff p q' ;; g <~ copy_vec d ;; _ <~ o_checked c g ;;
  ht <~ load a_hterm hl ;; m <~ load a_model ml ;; x <~ load a_cfg c ;;
  fs <~ lift (freq_shift (h_freqs (m_ham m)) (cfg x)) ;;
  alloc (CTerm (mkOterm kd c (Some hl) (Some (ht_coupling ht, mult)) e (Some f) (Some g) fs (Some ml))).

(** terms.py:350-400 [remove_phonon_]: the array is decremented in place, then
    [_config] is bound to the array without the empty edges. *)
Definition o_remove_phonon (l : loc) (x : list Z) : prog shiftv :=
  c <~ load (as_ is_cfg) l ;;
  let '(la, mm, m) := c in
  a <~ load a_nd la ;;
  _ <~ lift (guard (m <? mm) SystemExit) ;;
  _ <~ lift (guard (Nat.eqb (List.length x) (List.length (shp a))) SystemExit) ;;
  i <~ lift (match norm_indexes (shp a) x with None => Err SystemExit | Some i => Ok i end) ;;
  _ <~ store la (CNd (upd a i (-1))) ;;
  b <~ load a_nd la ;;
  _ <~ lift (guard (0 <=? get b i) SystemExit) ;;
  p <~ lift (reduction_rules b) ;;
  la' <~ alloc (CNd (fst p)) ;;
  _ <~ store l (CConfig la' mm (m + 1)) ;;
  ret (snd p).

(** terms.py:402-482 [add_phonon_]: in place inside the cloud, else in a padded
    new array *)
Definition o_add_phonon (l : loc) (x : list Z) : prog shiftv :=
  c <~ load (as_ is_cfg) l ;;
  let '(la, mm, m) := c in
  a <~ load a_nd la ;;
  _ <~ lift (guard (m <? mm) SystemExit) ;;
  _ <~ lift (guard (Nat.eqb (List.length x) (List.length (shp a))) SystemExit) ;;
  match shp a, x with
  | d :: s, t :: y =>
      _ <~ lift (guard ((0 <=? t) && (t <=? Z.of_nat d - 1)) SystemExit) ;;
      if inb s y then
        _ <~ store la (CNd (upd a (map Z.to_nat x) 1)) ;;
        _ <~ store l (CConfig la mm (m + 1)) ;;
        ret (SVec (zerov (List.length y)))
      else
        la' <~ alloc (CNd (pad a ((0, 0)%nat :: map (fun dx => pad_of (fst dx) (snd dx)) (combine s y)))) ;;
        b <~ load a_nd la' ;;
        _ <~ store la' (CNd (upd b (map (fun z => Z.to_nat (Z.max z 0)) x) 1)) ;;
        _ <~ store l (CConfig la' mm (m + 1)) ;;
        ret (SVec (map (fun z => - Z.min z 0) y))
  | _, _ => lift (Err IndexError)
  end.

(** rebinding an attribute of a term *)
Definition with_exp (o : oterm T) (e : loc) : oterm T :=
  mkOterm (ot_kind o) (ot_cfg o) (ot_h o) (ot_const o) e (ot_f o) (ot_g o) (ot_fshift o) (ot_model o).
Definition with_f (o : oterm T) (f : loc) : oterm T :=
  mkOterm (ot_kind o) (ot_cfg o) (ot_h o) (ot_const o) (ot_exp o) (Some f) (ot_g o) (ot_fshift o) (ot_model o).

(** terms.py:930-937, 944-954 [_modify_n_phonons_]; [f] is [self.f_arg] *)
Definition o_modify (tl f : loc) (x : list Z) : prog unit :=
  o <~ load (as_ is_term) tl ;;
  match ot_kind o with
  | KAnnih =>
      s <~ o_remove_phonon (ot_cfg o) x ;;
      _ <~ iadd_shift (ot_exp o) (neg_shift s) ;; _ <~ o_checked (ot_cfg o) (ot_exp o) ;;
      _ <~ iadd_shift f s ;; o_checked (ot_cfg o) f
  | KCreat =>
      s <~ o_add_phonon (ot_cfg o) x ;;
      match s with
      | SVec v =>
          e <~ alloc (CVec (ivec v)) ;; _ <~ o_checked (ot_cfg o) e ;;
          _ <~ store tl (CTerm (with_exp o e)) ;;
          _ <~ iadd_shift f (neg_shift s) ;; o_checked (ot_cfg o) f
      | SScalar _ => lift (Err TypeError)
      end
  | _ => ret tt
  end.

(** terms.py:900-907 [step_] *)
Definition o_step (tl : loc) (x : list Z) : prog unit :=
  o <~ load (as_ is_term) tl ;;
  match ot_h o, ot_f o, ot_g o with
  | Some hl, Some f, Some g =>
      _ <~ iadd g (ivec x) ;; _ <~ o_checked (ot_cfg o) g ;;
      _ <~ iadd f (ivec (oppv x)) ;; _ <~ o_checked (ot_cfg o) f ;;
      ht <~ load a_hterm hl ;;
      o_modify tl f (Z.of_nat (ht_index ht) :: x)
  | _, _, _ => lift (Err TypeError)
  end.

(** terms.py:773-790 [check_if_green_and_simplify_]: [_exp_shift] is changed in
    place, [_f_arg] is bound to a new array *)
Definition o_simplify (tl : loc) : prog unit :=
  o <~ load (as_ is_term) tl ;; c <~ load a_cfg (ot_cfg o) ;;
  if String.eqb (phonon_config_id (cfg c)) "{G}" then
    match ot_f o with
    | None => lift (Err TypeError)
    | Some f =>
        v <~ load a_vec f ;;
        if existsb (fun z => negb (z =? 0)) (v2 v) then
          _ <~ iadd (ot_exp o) v ;;
          f' <~ alloc (CVec (mkVec (isf v) (zerov (List.length (v2 v))))) ;;
          store tl (CTerm (with_f o f'))
        else ret tt
    end
  else ret tt.

(** terms.py:710-737 [Term.id] *)
Definition o_tid (tl : loc) : prog string := t <~ load a_term tl ;; ret (tid t).

(** terms.py:809-814 [IndexTerm._set_f_arg_]: the attribute is bound to the
    array given, which is not copied *)
Definition o_set_f_arg (tl d : loc) : prog unit :=
  o <~ load (as_ is_term) tl ;;
  match ot_h o with
  | Some _ => lift (Err SystemExit)
  | None => _ <~ o_checked (ot_cfg o) d ;; store tl (CTerm (with_f o d))
  end.

(** terms.py:754-768 [_increment_g_arg_]; 816-817; 875-876 *)
Definition o_increment_g (d tl : loc) : prog unit :=
  o <~ load (as_ is_term) tl ;;
  match ot_kind o with
  | KEom => ret tt
  | KIndex => lift (Err TypeError)
  | _ =>
      match ot_g o with
      | None => lift (Err AttributeError)
      | Some g => v <~ load a_vec d ;; iadd g v
      end
  end.

(** * equations.py *)

(** equations.py:264-273, 309-318 *)
Definition o_finish (ml tl : loc) : prog (list loc) :=
  _ <~ o_simplify tl ;;
  m <~ load a_model ml ;; t <~ load a_term tl ;;
  _ <~ lift (validate_config_is_legal (cfg (t_cfg t))) ;;
  b <~ lift (config_legal (cfg (t_cfg t)) (m_mps m) (Some (m_pe m)) None true) ;;
  ret (if b : bool then [tl] else []).

(** equations.py:85-103, 226-318: the array of the index term *)
Definition index_array (il : loc) : prog loc :=
  o <~ load (as_ is_term) il ;; c <~ load (as_ is_cfg) (ot_cfg o) ;; ret (fst (fst c)).

(** equations.py:247-273; [hterm.coupling * nval] is in [o_nonindex_term] *)
Definition o_annih_at (ml il hl : loc) (x : list nat) : prog (list loc) :=
  la <~ index_array il ;; a <~ load a_nd la ;; ht <~ load a_hterm hl ;;
  let nval := get a (ht_index ht :: x) in
  if nval =? 0 then ret []
  else
    b <~ copy_nd la ;; m' <~ deepcopy ml ;;
    t <~ o_nonindex_term KAnnih b hl m' nval ;;
    _ <~ o_step t (map Z.of_nat x) ;;
    o_finish ml t.

(** equations.py:302-318 *)
Definition o_creat_at (ml il hl : loc) (x : list Z) : prog (list loc) :=
  la <~ index_array il ;; b <~ copy_nd la ;; m' <~ deepcopy ml ;;
  t <~ o_nonindex_term KCreat b hl m' 1 ;;
  _ <~ o_step t x ;;
  o_finish ml t.

(** equations.py:238-318: the terms of one Hamiltonian term *)
Definition o_terms_of (ml il hl : loc) : prog (list loc) :=
  m <~ load a_model ml ;; la <~ index_array il ;; a <~ load a_nd la ;; ht <~ load a_hterm hl ;;
  _ <~ lift (guard (Nat.ltb (ht_index ht) (hd 0%nat (shp a))) IndexError) ;;
  match ht_dag ht with
  | Minus => ls <~ each (o_annih_at ml il hl) (all_idx (tl (shp a))) ;; ret (concat ls)
  | Plus =>
      match nth_error (m_pn m) (ht_index ht) with
      | None => lift (Err IndexError)
      | Some N =>
          if N <? total_type a (ht_index ht) + 1 then ret []
          else
            match absolute_extent m with
            | None => lift (Err TypeError)
            | Some ae =>
                _ <~ lift (guard (negb (existsb (fun L => ae <? Z.of_nat L) (tl (shp a)))) SystemExit) ;;
                ls <~ each (o_creat_at ml il hl) (creat_sites ae (tl (shp a))) ;; ret (concat ls)
            end
      end
  end.

Definition o_initialize_terms (ml il : loc) : prog (list loc) :=
  hs <~ load (as_ is_model) ml ;; ls <~ each (o_terms_of ml il) hs ;; ret (concat ls).

(** equations.py:197-216 [_populate_f_arg_terms]: the arrays of the terms
    themselves, not copies, are listed *)
Definition f_entry (tl : loc) : prog (string * loc) :=
  o <~ load (as_ is_term) tl ;; c <~ load a_cfg (ot_cfg o) ;;
  match ot_f o with
  | Some f => ret (phonon_config_id (cfg c), f)
  | None => lift (Err AttributeError)
  end.
Definition new_entry (kv : string * list loc) : prog (string * loc) :=
  l <~ alloc (CList (snd kv)) ;; ret (fst kv, l).
Definition o_populate (ts : list loc) : prog loc :=
  es <~ each f_entry ts ;;
  d <~ each new_entry (fold_left (fun d kf => sappend (fst kf) (snd kf) d) es []) ;;
  alloc (CDict d).

(** equations.py:143-152 [Equation.__init__] *)
Definition o_equation_init (green : bool) (init : loc -> loc -> prog (list loc)) (il ml : loc) : prog loc :=
  i <~ deepcopy il ;; m <~ deepcopy ml ;;
  ts <~ init m i ;; d <~ o_populate ts ;;
  tl <~ alloc (CList ts) ;; alloc (CEq green i m tl d).

(** equations.py:85-103 [Equation.from_config] *)
Definition o_equation (ml la : loc) : prog loc :=
  b <~ copy_nd la ;; i <~ o_index_term b ;; o_equation_init false o_initialize_terms i ml.

(** equations.py:375-393 [GreenEquation._initialize_terms]; [n[t, ...] = 1] in
    place, on a copy of the array of the index term *)
Definition fill (a : nd) (t : nat) : nd := tab (shp a) (fun i => if Nat.eqb (hd 0%nat i) t then 1 else get a i).
Definition o_green_term (ml il hl : loc) : prog (list loc) :=
  ht <~ load a_hterm hl ;;
  match ht_dag ht with
  | Minus => ret []
  | Plus =>
      la <~ index_array il ;; n <~ copy_nd la ;; a <~ load a_nd n ;;
      _ <~ lift (guard (Nat.ltb (ht_index ht) (hd 0%nat (shp a))) IndexError) ;;
      _ <~ store n (CNd (fill a (ht_index ht))) ;;
      m' <~ deepcopy ml ;;
      t <~ o_eom_term n hl m' ;;
      ret [t]
  end.
Definition o_green_terms (ml il : loc) : prog (list loc) :=
  hs <~ load (as_ is_model) ml ;; ls <~ each (o_green_term ml il) hs ;; ret (concat ls).

(** equations.py:337-346 [GreenEquation.__init__] *)
Definition o_green_equation (ml : loc) : prog loc :=
  m <~ load a_model ml ;;
  z <~ alloc (CNd (zeros (m_ntypes m :: repeat 1%nat (h_dim (m_ham m))))) ;;
  b <~ copy_nd z ;; i <~ o_index_term b ;; o_equation_init true o_green_terms i ml.

(** equations.py:218-224 [_init_full] *)
Definition o_init_full (e d : loc) : prog unit :=
  x <~ load (as_ is_eq) e ;;
  let '(i, _, tl, _) := x in
  _ <~ o_set_f_arg i d ;;
  ts <~ load (as_ is_list) tl ;;
  _ <~ each (o_increment_g d) ts ;; ret tt.

(** * system.py *)

(** system.py:142-155 [_append_master_dictionary]: the first dictionary is
    copied, the arrays of the later ones are listed without copying *)
Definition o_append_one (d : loc) (kx : string * loc) : prog unit :=
  D <~ load (as_ is_dict) d ;;
  match sget (fst kx) D with
  | Some l => xs <~ load (as_ is_list) l ;; store l (CList (xs ++ [snd kx]))
  | None => l <~ alloc (CList [snd kx]) ;; store d (CDict (D ++ [(fst kx, l)]))
  end.
Definition o_append_master (master : option loc) (e : loc) : prog loc :=
  x <~ load (as_ is_eq) e ;;
  let '(_, _, _, fs) := x in
  match master with
  | None => deepcopy fs
  | Some d =>
      F <~ load (as_ is_dict) fs ;;
      _ <~ each (fun kl => xs <~ load (as_ is_list) (snd kl) ;; each (fun x => o_append_one d (fst kl, x)) xs) F ;;
      ret d
  end.

(** system.py:157-167, 218-221: all equations, with the master dictionary *)
Fixpoint o_gen_list (ml : loc) (master : option loc) (cs : list config) : prog (option loc * list loc) :=
  match cs with
  | [] => ret (master, [])
  | c :: r =>
      la <~ alloc (CNd (cfg c)) ;; e <~ o_equation ml la ;;
      d <~ o_append_master master e ;;
      x <~ o_gen_list ml (Some d) r ;; ret (fst x, e :: snd x)
  end.
Fixpoint o_gen_blocks (ml : loc) (master : option loc) (space : list (Z * list config))
  : prog (option loc * list (Z * list loc)) :=
  match space with
  | [] => ret (master, [])
  | (n, cs) :: r =>
      x <~ o_gen_list ml master cs ;; y <~ o_gen_blocks ml (fst x) r ;;
      ret (fst y, (n, snd x) :: snd y)
  end.

(** system.py:169-177 [_determine_unique_dictionary]: new lists of new arrays *)
Definition o_unique_entry (ord : string -> list vec -> list vec) (kl : string * loc) : prog (string * loc) :=
  vs <~ load (fun h => a_list (a_vec h) h) (snd kl) ;;
  xs <~ each (fun v => alloc (CVec v)) (ord (fst kl) (dedup [] vs)) ;;
  l <~ alloc (CList xs) ;; ret (fst kl, l).
Definition o_unique (ord : string -> list vec -> list vec) (d : loc) : prog unit :=
  D <~ load (as_ is_dict) d ;; D' <~ each (o_unique_entry ord) D ;; store d (CDict D').

(** system.py:215-230 [_initialize_generalized_equations] *)
Definition o_generalized (ord : string -> list vec -> list vec) (ml : loc) (space : list (Z * list config))
  : prog (list (Z * list loc) * loc) :=
  x <~ o_gen_blocks ml None space ;;
  e <~ o_green_equation ml ;;
  d <~ o_append_master (fst x) e ;;
  let gen := snd x ++ [(0, [e])] in
  _ <~ o_unique ord d ;;
  m <~ load a_model ml ;;
  _ <~ lift (predict_total_terms m (sumZ (map (fun kv => Z.of_nat (List.length (snd kv))) gen))) ;;
  ret (gen, d).

(** system.py:243-250 *)
Definition o_expand (d e : loc) : prog (list loc) :=
  x <~ load (as_ is_eq) e ;;
  let '(i, _, _, _) := x in
  t <~ load a_term i ;; D <~ load (as_ is_dict) d ;;
  match sget (phonon_config_id (cfg (t_cfg t))) D with
  | None => lift (Err KeyError)
  | Some l =>
      ds <~ load (as_ is_list) l ;;
      each (fun x => e' <~ deepcopy e ;; _ <~ o_init_full e' x ;; ret e') ds
  end.

(** system.py:232-260 [_initialize_equations] *)
Definition o_full_equations (d : loc) (gen : list (Z * list loc)) : prog (list (Z * list loc)) :=
  each (fun kv => ls <~ each (o_expand d) (snd kv) ;; ret (fst kv, concat ls)) gen.

(** system.py:262-281 [_final_checks] *)
Definition o_final_checks (eqs : list (Z * list loc)) : prog unit :=
  ids <~ each (fun e =>
    x <~ load (as_ is_eq) e ;;
    let '(i, _, tl, _) := x in
    k <~ o_tid i ;; ts <~ load (as_ is_list) tl ;; ks <~ each o_tid ts ;; ret (k, ks)) (flat_map snd eqs) ;;
  lift (guard (sset_eqb (map fst ids) (flat_map snd ids)) SystemExit).

(** The attributes of a System. *)
Record osystem := mkOsys {
  os_model : loc; os_gen : list (Z * list loc); os_fargs : loc; os_eqs : list (Z * list loc) }.

(** system.py:381-438 [System.__init__] and [_prime_system] for the Model at
    [ml], without a root directory *)
Definition o_prime (ord : string -> list vec -> list vec) (ml : loc) : prog osystem :=
  m' <~ deepcopy ml ;; m <~ load a_model m' ;;
  space <~ lift (generate_space m) ;;
  gd <~ o_generalized ord m' space ;;
  eqs <~ o_full_equations (snd gd) (fst gd) ;;
  _ <~ o_final_checks eqs ;;
  ret (mkOsys m' (fst gd) (snd gd) eqs).
End Programs.
Arguments prog : clear implicits.
Notation "x <~ p ;; k" := (pbind p (fun x => k)) (at level 61, p at next level, right associativity).
