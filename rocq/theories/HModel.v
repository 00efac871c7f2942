(** ggce/model.py: building models.  Numbers are of a type [T] with the
    operations of [numops]; the instance on the real numbers is in Physics.v. *)
From Coq Require Import String ZArith List Bool.
From Verif Require Import Base Model.
Import ListNotations.
Open Scope list_scope.
Open Scope Z_scope.

(** The arithmetic used by model.py.  [n_sqrt] is math.sqrt, which raises
    ValueError on negative numbers; the other functions never raise. *)
Record numops (T : Type) := mkNum {
  n_0 : T; n_1 : T; n_2 : T;
  n_mul : T -> T -> T; n_div : T -> T -> T; n_opp : T -> T; n_abs : T -> T;
  n_sqrt : T -> result T;
  n_exp : T -> T; n_atanh : T -> T; n_cosh : T -> T; n_sinh : T -> T;
  n_eqb : T -> T -> bool; n_ltb : T -> T -> bool }.
Arguments n_0 {T}. Arguments n_1 {T}. Arguments n_2 {T}. Arguments n_mul {T}. Arguments n_div {T}.
Arguments n_opp {T}. Arguments n_abs {T}. Arguments n_sqrt {T}. Arguments n_exp {T}. Arguments n_atanh {T}.
Arguments n_cosh {T}. Arguments n_sinh {T}. Arguments n_eqb {T}. Arguments n_ltb {T}.

(** Records written to the log. *)
Inductive level := LDebug | LWarning | LError.

Section HModel.
Context {T : Type}.
Variable N : numops T.

(** model.py:10-49 *)
Definition model_coupling_map (c : string) (t Omega lam : T) : result T :=
  if String.eqb c "Holstein" then n_sqrt N (n_mul N (n_mul N (n_mul N (n_2 N) t) (n_abs N Omega)) lam)
  else if String.eqb c "EdwardsFermionBoson" then Ok lam
  else if String.eqb c "Peierls" then n_sqrt N (n_div N (n_mul N (n_mul N t (n_abs N Omega)) lam) (n_2 N))
  else if String.eqb c "BondPeierls" then n_sqrt N (n_mul N (n_mul N t (n_abs N Omega)) lam)
  else Err RuntimeError.

(** np.array([0.5]) and np.array([-0.5]) *)
Definition half : vec := mkVec true [1].
Definition mhalf : vec := mkVec true [-1].

(** model.py:246-431 [_get_SingleTerm_objects]; [None] is its RuntimeError *)
Definition get_terms (dim : nat) (c : string) (g : T) (idx : nat) (freq : T) : option (list (hterm T)) :=
  let st psi phi dag g := mkHterm c psi phi dag g idx freq in
  let z := ivec (repeat 0 dim) in
  let i v := ivec [v] in
  if String.eqb c "Holstein" then Some [ st z z Plus (n_opp N g); st z z Minus (n_opp N g) ]
  else if String.eqb c "EdwardsFermionBoson" then
    Some [ st (i 1) (i 1) Plus g; st (i (-1)) (i (-1)) Plus g; st (i 1) (i 0) Minus g; st (i (-1)) (i 0) Minus g ]
  else if String.eqb c "BondPeierls" then
    Some [ st (i 1) half Plus g; st (i 1) half Minus g; st (i (-1)) mhalf Plus g; st (i (-1)) mhalf Minus g ]
  else if String.eqb c "Peierls" then
    Some [ st (i 1) (i 0) Plus g; st (i 1) (i 0) Minus g; st (i 1) (i 1) Plus (n_opp N g); st (i 1) (i 1) Minus (n_opp N g);
           st (i (-1)) (i (-1)) Plus g; st (i (-1)) (i (-1)) Minus g; st (i (-1)) (i 0) Plus (n_opp N g); st (i (-1)) (i 0) Minus (n_opp N g) ]
  else None.

(** model.py:443-490 [_add_] and 492-534 [add_] of Hamiltonian.  A negative
    phonon index makes the SingleTerm setter (model.py:141-146) exit. *)
Definition ham_add (h : hamiltonian T) (c : string) (idx : Z) (freq : T) (cs dcs : option T) (mult : T)
    : result (list level * hamiltonian T) :=
  let g := match cs, dcs with
           | Some g, None => Ok g
           | None, Some lam => model_coupling_map c (h_hop h) freq lam
           | _, _ => Err ValueError
           end in
  match g with
  | Err RuntimeError => Ok ([LError; LDebug], h)
  | Err x => Err x
  | Ok g =>
    match get_terms (h_dim h) c (n_mul N g mult) (Z.to_nat idx) freq with
    | None => Ok ([LError; LDebug], h)
    | Some ts =>
      _ <- guard (0 <=? idx) SystemExit ;;
      let fs := if existsb (n_eqb N freq) (h_freqs h) then h_freqs h else h_freqs h ++ [freq] in
      Ok ([LDebug], mkHam (h_terms h ++ ts) fs (h_dim h) (h_hop h))
    end
  end.

(** model.py:745-783 [from_parameters] *)
Definition from_parameters (hopping lattice temp : T) (mps : option Z) (dim : nat) : model T :=
  mkModel lattice temp (mkHam [] [] dim hopping) mps [] [] None 0.

(** model.py:805-833 *)
Definition tfd_prefactors (temp Omega : T) : T * T :=
  if n_ltb N (n_0 N) temp then
    let beta := n_div N (n_1 N) temp in
    let theta := n_atanh N (n_exp N (n_div N (n_mul N (n_opp N beta) Omega) (n_2 N))) in
    (n_cosh N theta, n_sinh N theta)
  else (n_1 N, n_0 N).

(** The arguments of [Model.add_]. *)
Record add_args := mkAdd {
  a_type : string; a_freq : T; a_M : Z; a_N : Z; a_Mtfd : option Z; a_Ntfd : option Z;
  a_cs : option T; a_dcs : option T; a_override : option Z }.

Definition is_none {A} (x : option A) : bool := match x with None => true | Some _ => false end.
Definition lt1 (x : option Z) : bool := match x with Some v => v <? 1 | None => false end.

(** model.py:835-965 [Model.add_] *)
Definition model_add (m : model T) (a : add_args) : result (list level * model T) :=
  let hot := n_ltb N (n_0 N) (m_temp m) in
  if hot && (is_none (a_Mtfd a) || is_none (a_Ntfd a)) then Ok ([LError], m)
  else if (a_N a <? 1) || (a_M a <? 1) then Ok ([LError], m)
  else if lt1 (a_Mtfd a) || lt1 (a_Ntfd a) then Ok ([LError], m)
  else if negb (xorb (is_none (a_cs a)) (is_none (a_dcs a))) then Ok ([LError], m)
  else if match a_override a with Some o => hot && Z.odd o | None => false end then Ok ([LError], m)
  else
    let warn := if n_eqb N (m_temp m) (n_0 N) && (negb (is_none (a_Mtfd a)) || negb (is_none (a_Ntfd a))) then [LWarning] else [] in
    let (V, Vt) := tfd_prefactors (m_temp m) (a_freq a) in
    let idx := match a_override a with Some o => o | None => Z.of_nat (m_ntypes m) end in
    ' (l1, h1) <- ham_add (m_ham m) (a_type a) idx (a_freq a) (a_cs a) (a_dcs a) V ;;
    let m1 := mkModel (m_lattice m) (m_temp m) h1 (m_mps m) (m_pe m ++ [a_M a]) (m_pn m ++ [a_N a]) (m_aext m) (S (m_ntypes m)) in
    if hot then
      ' (l2, h2) <- ham_add h1 (a_type a) (idx + 1) (n_opp N (a_freq a)) (a_cs a) (a_dcs a) Vt ;;
      match a_Mtfd a, a_Ntfd a with
      | Some Mt, Some Nt =>
        Ok (warn ++ l1 ++ l2, mkModel (m_lattice m) (m_temp m) h2 (m_mps m) (m_pe m1 ++ [Mt]) (m_pn m1 ++ [Nt]) (m_aext m) (S (m_ntypes m1)))
      | _, _ => Err AssertionError
      end
    else Ok (warn ++ l1, m1).

(** The setters; [None] stands for a value that is not a number. *)

(** model.py:570-578 *)
Definition set_temperature (m : model T) (x : option T) : list level * model T :=
  match x with
  | None => ([LError], m)
  | Some v => if n_ltb N v (n_0 N) then ([LError], m)
              else ([], mkModel (m_lattice m) v (m_ham m) (m_mps m) (m_pe m) (m_pn m) (m_aext m) (m_ntypes m))
  end.

(** model.py:602-612 *)
Definition set_lattice (m : model T) (x : option T) : list level * model T :=
  match x with
  | None => ([LError], m)
  | Some v => if n_ltb N v (n_0 N) || n_eqb N v (n_0 N) then ([LError], m)
              else (if n_eqb N v (n_1 N) then [] else [LWarning],
                    mkModel v (m_temp m) (m_ham m) (m_mps m) (m_pe m) (m_pn m) (m_aext m) (m_ntypes m))
  end.

(** model.py:632-638 *)
Definition set_absolute_extent (m : model T) (x : option Z) : list level * model T :=
  if Nat.ltb 1 (List.length (m_pe m)) then ([LError], m)
  else ([], mkModel (m_lattice m) (m_temp m) (m_ham m) (m_mps m) (m_pe m) (m_pn m) x (m_ntypes m)).

(** model.py:669-673; a non-integer fails its assertion and is not represented *)
Definition set_max_per_site (m : model T) (x : option Z) : model T :=
  mkModel (m_lattice m) (m_temp m) (m_ham m) x (m_pe m) (m_pn m) (m_aext m) (m_ntypes m).
End HModel.
Arguments add_args : clear implicits.
Arguments mkAdd {T}. Arguments a_type {T}. Arguments a_freq {T}. Arguments a_M {T}. Arguments a_N {T}.
Arguments a_Mtfd {T}. Arguments a_Ntfd {T}. Arguments a_cs {T}. Arguments a_dcs {T}. Arguments a_override {T}.
