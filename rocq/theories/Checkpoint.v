(** Files of a System: model.json (ggce/engine/system.py:283-293 [_save_model],
    written and read with monty's MSONable) and the three pickles
    (system.py:295-338 [checkpoint], 340-379 [from_checkpoint]), and the
    constructor with a root directory (system.py:381-438).

    A file is absent, complete, or incomplete (Cache.v [content]); opening for
    writing truncates, so a file is incomplete until it is closed.  Pickling
    and unpickling a complete file is the identity; unpickling an incomplete
    file raises (EOFError stands for UnpicklingError as well). *)
From Coq Require Import String ZArith List Bool.
From Verif Require Import Base NdArray Config Model Space Render Term Equation System Cache.
Import ListNotations.
Open Scope list_scope.
Open Scope Z_scope.

(** * JSON *)
(** [JNum] is a number of the model's type, [JHalf z] the float z/2. *)
Inductive json (T : Type) :=
| JNull | JInt (z : Z) | JHalf (z : Z) | JNum (x : T) | JStr (s : string)
| JArr (l : list (json T)) | JObj (l : list (string * json T)).
Arguments JNull {T}. Arguments JInt {T}. Arguments JHalf {T}. Arguments JNum {T}. Arguments JStr {T}. Arguments JArr {T}. Arguments JObj {T}.

Section Json.
Context {T : Type}.

(** MontyEncoder on numpy arrays *)
Definition json_of_vec (v : vec) : json T :=
  JObj [("@module"%string, JStr "numpy"); ("@class"%string, JStr "array");
        ("dtype"%string, JStr (if isf v then "float64" else "int64"));
        ("data"%string, JArr (map (fun z => if isf v then JHalf z else JInt (z / 2)) (v2 v)))].

Definition json_of_dag (d : dagger) : json T := JStr (match d with Plus => "+" | Minus => "-" end).
Definition json_of_option (x : option Z) : json T := match x with Some z => JInt z | None => JNull end.

(** MSONable.as_dict: for every argument of the constructor the attribute of
    that name or, if there is none, with an underscore; model.py:171-189 *)
Definition json_of_term (h : hterm T) : json T :=
  JObj [("@module"%string, JStr "ggce.model"); ("@class"%string, JStr "SingleTerm");
        ("coupling_type"%string, JStr (ht_type h)); ("psi"%string, json_of_vec (ht_psi h)); ("phi"%string, json_of_vec (ht_phi h));
        ("dag"%string, json_of_dag (ht_dag h)); ("coupling"%string, JNum (ht_coupling h));
        ("phonon_index"%string, JInt (Z.of_nat (ht_index h))); ("phonon_frequency"%string, JNum (ht_freq h))].

(** model.py:433-441 *)
Definition json_of_ham (h : hamiltonian T) : json T :=
  JObj [("@module"%string, JStr "ggce.model"); ("@class"%string, JStr "Hamiltonian");
        ("terms"%string, JArr (map json_of_term (h_terms h))); ("phonon_frequencies"%string, JArr (map JNum (h_freqs h)));
        ("dimension"%string, JInt (Z.of_nat (h_dim h))); ("hopping"%string, JNum (h_hop h))].

(** model.py:785-803; the attribute phonon_absolute_extent is the property
    model.py:614-630, not the stored value *)
Definition json_of_model (m : model T) : json T :=
  JObj [("@module"%string, JStr "ggce.model"); ("@class"%string, JStr "Model");
        ("lattice_constant"%string, JNum (m_lattice m)); ("temperature"%string, JNum (m_temp m));
        ("hamiltonian"%string, json_of_ham (m_ham m)); ("phonon_max_per_site"%string, json_of_option (m_mps m));
        ("phonon_extent"%string, JArr (map JInt (m_pe m))); ("phonon_number"%string, JArr (map JInt (m_pn m)));
        ("phonon_absolute_extent"%string, json_of_option (absolute_extent m)); ("n_phonon_types"%string, JInt (Z.of_nat (m_ntypes m)))].

(** Reading: MSONable.from_dict and MontyDecoder.  Only files of the form above
    are considered; anything else is a ValueError here. *)
Fixpoint jfind (k : string) (l : list (string * json T)) : result (json T) :=
  match l with [] => Err ValueError | (k', v) :: r => if String.eqb k' k then Ok v else jfind k r end.
Definition jget (k : string) (j : json T) : result (json T) :=
  match j with JObj l => jfind k l | _ => Err ValueError end.
Definition as_num (j : json T) : result T := match j with JNum x => Ok x | _ => Err ValueError end.
Definition as_int (j : json T) : result Z := match j with JInt z => Ok z | _ => Err ValueError end.
Definition as_str (j : json T) : result string := match j with JStr s => Ok s | _ => Err ValueError end.
Definition as_arr (j : json T) : result (list (json T)) := match j with JArr l => Ok l | _ => Err ValueError end.
Definition as_option (j : json T) : result (option Z) :=
  match j with JNull => Ok None | JInt z => Ok (Some z) | _ => Err ValueError end.
Definition is_class (c : string) (j : json T) : result unit :=
  v <- jget "@class" j ;; s <- as_str v ;; guard (String.eqb s c) ValueError.

(** np.array(data, dtype) *)
Definition vec_of_json (j : json T) : result vec :=
  _ <- is_class "array" j ;;
  d <- jget "dtype" j ;; d <- as_str d ;;
  a <- jget "data" j ;; a <- as_arr a ;;
  let f := String.eqb d "float64" in
  l <- mapM (fun x => match x with JHalf z => Ok z | JInt z => Ok (2 * z) | _ => Err ValueError end) a ;;
  Ok (mkVec f l).

(** model.py:92-96: another dagger exits *)
Definition dag_of_json (j : json T) : result dagger :=
  s <- as_str j ;;
  if String.eqb s "+" then Ok Plus else if String.eqb s "-" then Ok Minus else Err SystemExit.

(** model.py:171-189; a negative index exits (141-146) *)
Definition term_of_json (j : json T) : result (hterm T) :=
  _ <- is_class "SingleTerm" j ;;
  c <- jget "coupling_type" j ;; c <- as_str c ;;
  psi <- jget "psi" j ;; psi <- vec_of_json psi ;;
  phi <- jget "phi" j ;; phi <- vec_of_json phi ;;
  dag <- jget "dag" j ;; dag <- dag_of_json dag ;;
  g <- jget "coupling" j ;; g <- as_num g ;;
  i <- jget "phonon_index" j ;; i <- as_int i ;;
  _ <- guard (0 <=? i) SystemExit ;;
  w <- jget "phonon_frequency" j ;; w <- as_num w ;;
  Ok (mkHterm c psi phi dag g (Z.to_nat i) w).

Definition ham_of_json (j : json T) : result (hamiltonian T) :=
  _ <- is_class "Hamiltonian" j ;;
  ts <- jget "terms" j ;; ts <- as_arr ts ;; ts <- mapM term_of_json ts ;;
  fs <- jget "phonon_frequencies" j ;; fs <- as_arr fs ;; fs <- mapM as_num fs ;;
  d <- jget "dimension" j ;; d <- as_int d ;;
  t <- jget "hopping" j ;; t <- as_num t ;;
  Ok (mkHam ts fs (Z.to_nat d) t).

Definition model_of_json (j : json T) : result (model T) :=
  a <- jget "lattice_constant" j ;; a <- as_num a ;;
  t <- jget "temperature" j ;; t <- as_num t ;;
  h <- jget "hamiltonian" j ;; h <- ham_of_json h ;;
  mps <- jget "phonon_max_per_site" j ;; mps <- as_option mps ;;
  pe <- jget "phonon_extent" j ;; pe <- as_arr pe ;; pe <- mapM as_int pe ;;
  pn <- jget "phonon_number" j ;; pn <- as_arr pn ;; pn <- mapM as_int pn ;;
  ae <- jget "phonon_absolute_extent" j ;; ae <- as_option ae ;;
  n <- jget "n_phonon_types" j ;; n <- as_int n ;;
  Ok (mkModel a t h mps pe pn ae (Z.to_nat n)).
End Json.

(** * The files *)
Section Files.
Context {T : Type}.

Definition geqs := list (Z * list (equation T)).

(** A root directory. *)
Record cdir := mkCdir {
  c_model : option (content (json T)); c_gen : option (content geqs);
  c_fargs : option (content (sdict (list vec))); c_eqs : option (content geqs) }.
Definition no_files : cdir := mkCdir None None None None.

Definition put_model c d := mkCdir (Some c) (c_gen d) (c_fargs d) (c_eqs d).
Definition put_gen c d := mkCdir (c_model d) (Some c) (c_fargs d) (c_eqs d).
Definition put_fargs c d := mkCdir (c_model d) (c_gen d) (Some c) (c_eqs d).
Definition put_eqs c d := mkCdir (c_model d) (c_gen d) (c_fargs d) (Some c).

(** Operations on a directory are described by the states it goes through. *)
Definition final (ds : list cdir) (d : cdir) : cdir := last ds d.

(** system.py:283-293; an existing file is overwritten *)
Definition save_model (m : model T) (d : cdir) : list cdir :=
  [put_model Torn d; put_model (Complete (json_of_model m)) d].

(** system.py:327-337: one attribute; only if it is there and the file is not *)
Definition dump {A} (put : content A -> cdir -> cdir) (there : option (content A)) (obj : option A) (d : cdir) : list cdir :=
  match obj, there with
  | Some x, None => [put Torn d; put (Complete x) d]
  | _, _ => []
  end.

(** system.py:309-325 *)
Definition n_equations (e : geqs) : Z := sumZ (map (fun kv => Z.of_nat (List.length (snd kv))) e).
Definition too_many (lim : Z) (eqs : option geqs) : bool :=
  match eqs with Some e => lim <? n_equations e | None => false end.

(** system.py:295-338 [checkpoint] with a root *)
Definition checkpoint (lim : Z) (gen : option geqs) (fargs : option (sdict (list vec))) (eqs : option geqs) (d : cdir) : list cdir :=
  if too_many lim eqs then []
  else
    let w1 := dump put_gen (c_gen d) gen d in
    let d1 := final w1 d in
    let w2 := dump put_fargs (c_fargs d1) fargs d1 in
    let d2 := final w2 d1 in
    w1 ++ w2 ++ dump put_eqs (c_eqs d2) eqs d2.

(** The attributes of a System; the f_arg_list may be None after a reload. *)
Record pysystem := mkPy {
  py_model : model T; py_gen : geqs; py_fargs : option (sdict (list vec)); py_eqs : geqs; py_lim : Z }.
Definition py_of (lim : Z) (s : system T) : pysystem := mkPy (s_model s) (s_gen s) (Some (s_fargs s)) (s_eqs s) lim.

(** system.py:215-230 [_initialize_generalized_equations] when there is an
    f_arg_list already: [_append_master_dictionary] (142-155) adds to it *)
Definition generalized_on (old : option (sdict (list vec))) (ord : string -> list vec -> list vec) (m : model T)
    (space : list (Z * list config)) : result (geqs * sdict (list vec)) :=
  blocks <- mapM (gen_block m) space ;;
  g <- green_equation m ;;
  let gen := (blocks ++ [(0, [g])])%list in
  let master := fold_left (fun acc e => append_master acc (e_fargs e)) (flat_map snd gen) (match old with Some fl => fl | None => [] end) in
  let L := sumZ (map (fun kv => Z.of_nat (List.length (snd kv))) gen) in
  _ <- predict_total_terms m L ;;
  Ok (gen, determine_unique ord master).

(** system.py:381-438 [__init__], [_prime_system] (autoprime): the states of the
    root directory, if there is one, and the result *)
Definition with_root (f : cdir -> list cdir) (root : bool) (d : cdir) : list cdir := if root then f d else [].

Definition system_init (ord : string -> list vec -> list vec) (m : model T) (gen : option geqs) (fargs : option (sdict (list vec)))
    (eqs : option geqs) (lim : Z) (root : bool) (d : cdir) : list cdir * result pysystem :=
  let w1 := with_root (save_model m) root d in
  let d1 := final w1 d in
  match (match gen with
         | Some g => Ok (g, fargs)
         | None => space <- generate_space m ;; ' (g, fl) <- generalized_on fargs ord m space ;; Ok (g, Some fl)
         end) with
  | Err x => (w1, Err x)
  | Ok (g, fl) =>
    let w2 := with_root (checkpoint lim (Some g) fl eqs) root d1 in
    let d2 := final w2 d1 in
    match (match eqs with
           | Some e => Ok e
           | None => match fl with Some fl => full_equations fl g | None => Err AttributeError end
           end) with
    | Err x => (w1 ++ w2, Err x)
    | Ok e =>
      let w3 := with_root (checkpoint lim (Some g) fl (Some e)) root d2 in
      (w1 ++ w2 ++ w3, _ <- final_checks e ;; Ok (mkPy m g fl e lim))
    end
  end.

(** [System(model, root=..., chkpt_lim=lim)] *)
Definition new_system (ord : string -> list vec -> list vec) (m : model T) (lim : Z) (root : bool) (d : cdir) :=
  system_init ord m None None None lim root d.

(** [pickle.load] if the file exists *)
Definition load {A} (f : option (content A)) : result (option A) :=
  match f with None => Ok None | Some c => v <- unpickle c ;; Ok (Some v) end.

Definition default_lim : Z := 1000000.

(** system.py:340-379 [from_checkpoint] *)
Definition from_checkpoint (ord : string -> list vec -> list vec) (d : cdir) : list cdir * result pysystem :=
  match (match c_model d with
         | None => Err SystemExit
         | Some Torn => Err ValueError
         | Some (Complete j) =>
             m <- model_of_json j ;;
             g <- load (c_gen d) ;; fl <- load (c_fargs d) ;; e <- load (c_eqs d) ;; Ok (m, g, fl, e)
         end) with
  | Err x => ([], Err x)
  | Ok (m, g, fl, e) => system_init ord m g fl e default_lim true d
  end.

(** What can happen to a root directory; [Kill n] is the process being killed
    after [n] steps. *)
Inductive cevent := Construct (m : model T) (lim : Z) | Reload | KillConstruct (m : model T) (lim : Z) (n : nat) | KillReload (n : nat).

Definition crash (n : nat) (ds : list cdir) (d : cdir) : cdir := final (firstn n ds) d.

Definition cstep (ord : string -> list vec -> list vec) (d : cdir) (e : cevent) : cdir * option (result pysystem) :=
  match e with
  | Construct m lim => let '(w, r) := new_system ord m lim true d in (final w d, Some r)
  | Reload => let '(w, r) := from_checkpoint ord d in (final w d, Some r)
  | KillConstruct m lim n => (crash n (fst (new_system ord m lim true d)) d, None)
  | KillReload n => (crash n (fst (from_checkpoint ord d)) d, None)
  end.

Fixpoint chistory (ord : string -> list vec -> list vec) (d : cdir) (es : list cevent) : list (result pysystem) * cdir :=
  match es with
  | [] => ([], d)
  | e :: r =>
    let '(d1, x) := cstep ord d e in
    let '(xs, d2) := chistory ord d1 r in
    (match x with Some x => x :: xs | None => xs end, d2)
  end.
End Files.
Arguments cdir T : clear implicits.
Arguments pysystem T : clear implicits.
Arguments cevent T : clear implicits.
Arguments geqs T : clear implicits.
Arguments Reload {T}. Arguments KillReload {T}.
