(** Specification of models built by add_ calls (C18, C32, C33, C35, C44). *)
From Coq Require Import String ZArith List Bool.
From Verif Require Import Base Model HModel.
Import ListNotations.
Open Scope list_scope.
Open Scope Z_scope.

(** The operators g * s * sum_i c+_i c_{i+psi} b^d_{i+phi} of each supported
    coupling: name, psi, phi (doubled), dagger, sign. *)
Inductive op_spec (dim : nat) : string -> list Z -> list Z -> dagger -> Z -> Prop :=
| op_holstein : forall d, op_spec dim "Holstein" (repeat 0 dim) (repeat 0 dim) d (-1)
| op_edwards_create : forall s, s = 1 \/ s = -1 -> op_spec dim "EdwardsFermionBoson" [2 * s] [2 * s] Plus 1
| op_edwards_destroy : forall s, s = 1 \/ s = -1 -> op_spec dim "EdwardsFermionBoson" [2 * s] [0] Minus 1
| op_bond : forall s d, s = 1 \/ s = -1 -> op_spec dim "BondPeierls" [2 * s] [s] d 1
| op_peierls_here : forall s d, s = 1 \/ s = -1 -> op_spec dim "Peierls" [2 * s] [0] d s
| op_peierls_there : forall s d, s = 1 \/ s = -1 -> op_spec dim "Peierls" [2 * s] [2 * s] d (- s).

Definition supported (c : string) : Prop :=
  c = "Holstein"%string \/ c = "EdwardsFermionBoson"%string \/ c = "BondPeierls"%string \/ c = "Peierls"%string.

Definition signed {T} (N : numops T) (s : Z) (g : T) : T := if s <? 0 then n_opp N g else g.

(** [ts] lists exactly the operators of coupling [c], each once. *)
Definition operators {T} (N : numops T) (dim : nat) (c : string) (g : T) (idx : nat) (freq : T) (ts : list (hterm T)) : Prop :=
  NoDup ts /\ forall h, In h ts <-> exists psi phi d s, op_spec dim c psi phi d s /\
    h = mkHterm c (mkVec false psi) (mkVec (String.eqb c "BondPeierls") phi) d (signed N s g) idx freq.

(** What is assumed of the arithmetic: |-x| = |x|, and math.sqrt raises nothing
    but ValueError. *)
Record num_ok {T} (N : numops T) : Prop := {
  no_abs : forall x, n_abs N (n_opp N x) = n_abs N x;
  no_sqrt : forall x e, n_sqrt N x = Err e -> e = ValueError }.

(** When [Model.add_] is meant to accept its arguments. *)
Record acceptable {T} (N : numops T) (m : model T) (a : add_args T) : Prop := {
  ac_tfd : n_ltb N (n_0 N) (m_temp m) = true -> a_Mtfd a <> None /\ a_Ntfd a <> None;
  ac_N : 1 <= a_N a;
  ac_M : 1 <= a_M a;
  ac_Mtfd : forall x, a_Mtfd a = Some x -> 1 <= x;
  ac_Ntfd : forall x, a_Ntfd a = Some x -> 1 <= x;
  ac_one : (a_cs a = None /\ a_dcs a <> None) \/ (a_cs a <> None /\ a_dcs a = None);
  ac_even : forall o, a_override a = Some o -> n_ltb N (n_0 N) (m_temp m) = true -> Z.Even o }.

(** The coupling strength of a call. *)
Definition coupling_value {T} (N : numops T) (m : model T) (a : add_args T) (g : T) : Prop :=
  a_cs a = Some g \/ (a_cs a = None /\ exists lam, a_dcs a = Some lam /\ model_coupling_map N (a_type a) (h_hop (m_ham m)) (a_freq a) lam = Ok g).

(** The new frequency list: a frequency already present is not repeated. *)
Definition with_freq {T} (N : numops T) (fs : list T) (f : T) (fs' : list T) : Prop :=
  ((exists x, In x fs /\ n_eqb N f x = true) /\ fs' = fs) \/ ((forall x, In x fs -> n_eqb N f x = false) /\ fs' = fs ++ [f]).

(** What a successful call does. *)
Definition added {T} (N : numops T) (m : model T) (a : add_args T) (g : T) (m' : model T) : Prop :=
  let idx := match a_override a with Some o => Z.to_nat o | None => m_ntypes m end in
  let V := fst (tfd_prefactors N (m_temp m) (a_freq a)) in
  let Vt := snd (tfd_prefactors N (m_temp m) (a_freq a)) in
  m_lattice m' = m_lattice m /\ m_temp m' = m_temp m /\ m_mps m' = m_mps m /\ m_aext m' = m_aext m /\
  h_dim (m_ham m') = h_dim (m_ham m) /\ h_hop (m_ham m') = h_hop (m_ham m) /\
  exists ts, operators N (h_dim (m_ham m)) (a_type a) (n_mul N g V) idx (a_freq a) ts /\
  if n_ltb N (n_0 N) (m_temp m) then
    exists Mt Nt ts' fs, a_Mtfd a = Some Mt /\ a_Ntfd a = Some Nt /\
      operators N (h_dim (m_ham m)) (a_type a) (n_mul N g Vt) (S idx) (n_opp N (a_freq a)) ts' /\
      m_pe m' = m_pe m ++ [a_M a; Mt] /\ m_pn m' = m_pn m ++ [a_N a; Nt] /\ m_ntypes m' = S (S (m_ntypes m)) /\
      h_terms (m_ham m') = h_terms (m_ham m) ++ ts ++ ts' /\
      with_freq N (h_freqs (m_ham m)) (a_freq a) fs /\ with_freq N fs (n_opp N (a_freq a)) (h_freqs (m_ham m'))
  else
    m_pe m' = m_pe m ++ [a_M a] /\ m_pn m' = m_pn m ++ [a_N a] /\ m_ntypes m' = S (m_ntypes m) /\
    h_terms (m_ham m') = h_terms (m_ham m) ++ ts /\
    with_freq N (h_freqs (m_ham m)) (a_freq a) (h_freqs (m_ham m')).

(** Models reachable by calls, with the frequency given for each type and the
    names of the couplings added.  Rejected calls leave the model as it is and
    need no mention. *)
Inductive built {T} (N : numops T) (dim : nat) : model T -> list T -> list string -> Prop :=
| built_start : forall hop lat temp mps, built N dim (from_parameters hop lat temp mps dim) [] []
| built_add : forall m fs cs a logs m', built N dim m fs cs -> model_add N m a = Ok (logs, m') -> ~ In LError logs ->
    a_override a = None ->
    built N dim m' (fs ++ if n_ltb N (n_0 N) (m_temp m) then [a_freq a; n_opp N (a_freq a)] else [a_freq a]) (cs ++ [a_type a])
| built_temp : forall m fs cs x, built N dim m fs cs -> built N dim (snd (set_temperature N m x)) fs cs
| built_lattice : forall m fs cs x, built N dim m fs cs -> built N dim (snd (set_lattice N m x)) fs cs
| built_aext : forall m fs cs x, built N dim m fs cs -> built N dim (snd (set_absolute_extent m x)) fs cs
| built_mps : forall m fs cs x, built N dim m fs cs -> built N dim (set_max_per_site m x) fs cs.

(** No frequency was already there when it was given. *)
Definition distinct {T} (N : numops T) (fs : list T) : Prop := ForallOrdPairs (fun x y => n_eqb N y x = false) fs.

(** Hermitian conjugation of c+_i c_{i+psi} b^d_{i+phi}, re-centred on i + psi,
    and reflection i -> -i. *)
Definition vneg (v : vec) : vec := mkVec (isf v) (map Z.opp (v2 v)).
Definition vsub (v w : vec) : vec := mkVec (isf v || isf w) (map (fun p => fst p - snd p) (combine (v2 v) (v2 w))).
Definition flip (d : dagger) : dagger := match d with Plus => Minus | Minus => Plus end.
Definition conjugate {T} (h : hterm T) : hterm T :=
  mkHterm (ht_type h) (vneg (ht_psi h)) (vsub (ht_phi h) (ht_psi h)) (flip (ht_dag h)) (ht_coupling h) (ht_index h) (ht_freq h).
(** The phonon coordinate of Peierls couplings (a displacement along the chain)
    changes sign under reflection, the others do not. *)
Definition reflect {T} (N : numops T) (h : hterm T) : hterm T :=
  mkHterm (ht_type h) (vneg (ht_psi h)) (vneg (ht_phi h)) (ht_dag h)
    (if String.eqb (ht_type h) "Peierls" then n_opp N (ht_coupling h) else ht_coupling h) (ht_index h) (ht_freq h).
