(** Specification of the symmetries of the Green's function (C42, C47, C48). *)
From Coq Require Import String ZArith List Bool Permutation.
From Verif Require Import Base NdArray Config Spec Model HModel Space Term Equation System Spec_engine Ring Coef Spec_eom Solvers Spec_solve Spec_model.
Import ListNotations.
Open Scope list_scope.
Open Scope Z_scope.

(** Everything but the Hamiltonian's operators is the same. *)
Record same_frame {T} (m m' : model T) : Prop := {
  sf_ntypes : m_ntypes m' = m_ntypes m;
  sf_mps : m_mps m' = m_mps m;
  sf_pe : m_pe m' = m_pe m;
  sf_pn : m_pn m' = m_pn m;
  sf_ae : absolute_extent m' = absolute_extent m;
  sf_dim : h_dim (m_ham m') = h_dim (m_ham m);
  sf_freqs : h_freqs (m_ham m') = h_freqs (m_ham m) }.

(** The same operator, with coupling multiplied by [c] (its value at [e]). *)
Definition scaled_op {T} {K : cring} (e : env T K) (c : K) (h h' : hterm T) : Prop :=
  ht_psi h' = ht_psi h /\ ht_phi h' = ht_phi h /\ ht_dag h' = ht_dag h /\ ht_index h' = ht_index h /\
  ev e (ht_coupling h') = kmul c (ev e (ht_coupling h)).

(** The couplings of the phonon types selected by [f] change sign. *)
Definition flipped {T} {K : cring} (e : env T K) (f : nat -> bool) (m m' : model T) : Prop :=
  same_frame m m' /\
  Forall2 (fun h h' => scaled_op e (if f (ht_index h) then kopp k1 else k1) h h') (h_terms (m_ham m)) (h_terms (m_ham m')).

(** A sequence of [add_] calls. *)
Fixpoint adds {T} (N : numops T) (m : model T) (l : list (add_args T)) : result (model T) :=
  match l with
  | [] => Ok m
  | a :: r => p <- model_add N m a ;; adds N (snd p) r
  end.

(** The same call with the opposite coupling strength. *)
Definition negated {T} (N : numops T) (a : add_args T) : add_args T :=
  mkAdd (a_type a) (a_freq a) (a_M a) (a_N a) (a_Mtfd a) (a_Ntfd a) (option_map (n_opp N) (a_cs a)) (a_dcs a) (a_override a).

(** The environment of the opposite momentum: phases are inverted; real-space
    propagators are even. *)
Record opposite {T} {K : cring} (e e' : env T K) : Prop := {
  op_ev : forall x, ev e' x = ev e x;
  op_ph : forall d, ph e' [d] = ph e [- d];
  op_g0 : forall d l, g0 e' [d] l = g0 e [d] l;
  op_G0 : G0 e' = G0 e;
  op_even : forall d l, g0 e [- d] l = g0 e [d] l;
  op_one : ph e [0] = k1;
  op_hom : forall d d', ph e [d + d'] = kmul (ph e [d]) (ph e [d']) }.

(** The list of operators is, up to order, its own mirror image, where the
    couplings of type [t] change sign if [f t]. *)
Definition mirror_op {T} {K : cring} (e : env T K) (f : nat -> bool) (h h' : hterm T) : Prop :=
  v2 (ht_psi h') = map Z.opp (v2 (ht_psi h)) /\ v2 (ht_phi h') = map Z.opp (v2 (ht_phi h)) /\
  ht_dag h' = ht_dag h /\ ht_index h' = ht_index h /\
  ev e (ht_coupling h') = kmul (if f (ht_index h) then kopp k1 else k1) (ev e (ht_coupling h)).

Definition mirror_symmetric {T} {K : cring} (e : env T K) (f : nat -> bool) (m : model T) : Prop :=
  exists l, Permutation (h_terms (m_ham m)) l /\ Forall2 (mirror_op e f) (h_terms (m_ham m)) l.

(** [m0] is the part of [m] on the phonon types [w 0], [w 1], ...; the
    operators of the other types have couplings that vanish at [e].  The same
    operator of [m0] and [m]: *)
Definition same_op {T} {K : cring} (e : env T K) (w : nat -> nat) (h0 h : hterm T) : Prop :=
  ht_psi h = ht_psi h0 /\ ht_phi h = ht_phi h0 /\ ht_dag h = ht_dag h0 /\ ht_index h = w (ht_index h0) /\
  ev e (ht_coupling h) = ev e (ht_coupling h0).

Record part_of {T} {K : cring} (e : env T K) (w : nat -> nat) (m0 m : model T) : Prop := {
  po_inj : forall t t', (t < m_ntypes m0)%nat -> (t' < m_ntypes m0)%nat -> w t = w t' -> t = t';
  po_rng : forall t, (t < m_ntypes m0)%nat -> (w t < m_ntypes m)%nat;
  po_mps : m_mps m0 = m_mps m;
  po_pe : forall t, (t < m_ntypes m0)%nat -> nth t (m_pe m0) 0 = nth (w t) (m_pe m) 0;
  po_pn : forall t, (t < m_ntypes m0)%nat -> nth t (m_pn m0) 0 = nth (w t) (m_pn m) 0;
  po_freq : forall t, (t < m_ntypes m0)%nat -> nth_error (h_freqs (m_ham m0)) t = nth_error (h_freqs (m_ham m)) (w t);
  po_ops : exists live dead, Permutation (h_terms (m_ham m)) (live ++ dead) /\
    Forall2 (same_op e w) (h_terms (m_ham m0)) live /\ Forall (fun h => ev e (ht_coupling h) = k0) dead }.

(** Types without phonons do not shift the frequency. *)
Definition present {T} (l : list (T * Z)) : list (T * Z) := filter (fun p => negb (snd p =? 0)) l.
Definition additive {T} {K : cring} (e : env T K) : Prop :=
  forall d l l', Permutation (present l) (present l') -> g0 e d l = g0 e d l'.

(** [add_] calls, all accepted. *)
Fixpoint accepts {T} (N : numops T) (m : model T) (l : list (add_args T)) (m' : model T) : Prop :=
  match l with
  | [] => m' = m
  | a :: r => exists logs m1, model_add N m a = Ok (logs, m1) /\ ~ In LError logs /\ accepts N m1 r m'
  end.

(** The fictitious couplings of a call at temperature [temp] vanish at [e], and
    the physical ones are those of zero temperature. *)
Definition frozen {T} {K : cring} (N : numops T) (e : env T K) (temp : T) (a : add_args T) : Prop :=
  forall g, ev e (n_mul N g (fst (tfd_prefactors N temp (a_freq a)))) = ev e (n_mul N g (n_1 N)) /\
            ev e (n_mul N g (snd (tfd_prefactors N temp (a_freq a)))) = k0.

(** The frequencies of the doubled system. *)
Definition doubled_freqs {T} (N : numops T) (l : list (add_args T)) : list T :=
  flat_map (fun a => [a_freq a; n_opp N (a_freq a)]) l.

(** The Green's function that SparseSolver computes for a model; [sp] is
    scipy's spsolve. *)
Definition greens {T} {K : cring} (e : env T K) (sp : coo K -> coo K -> nat -> K) (ord : string -> list vec -> list vec) (m : model T) : result K :=
  s <- prime_system ord m ;; sparse_solve e sp s.

(** The linear system of the model is nonsingular. *)
Definition regular_at {T} {K : cring} (e : env T K) (ord : string -> list vec -> list vec) (m : model T) : Prop :=
  exists s X v, prime_system ord m = Ok s /\ scaffold e (full_basis s) s = Ok (X, v) /\ nonsingular X.
