(** Specification of the equations of motion (C13-C20), stated with occupation
    functions on Z^d.  All vectors are doubled, so that half-integer bond
    offsets are integers. *)
From Coq Require Import String ZArith List Bool.
From Verif Require Import Base NdArray Config Spec Model Space Spec_space Term Equation.
Import ListNotations.
Open Scope list_scope.
Open Scope Z_scope.

Definition dbl (x : list Z) : list Z := map (Z.mul 2) x.

(** The energy offset of cloud [a]: frequency and number of each type. *)
Definition energy_of {T} (freqs : list T) (a : nd) (l : list (T * Z)) : Prop :=
  List.length l = ntypes a /\
  forall t, (t < ntypes a)%nat ->
    exists f, nth_error freqs t = Some f /\ nth_error l t = Some (f, total_type a t).

(** [t] is the term that the Hamiltonian term [h] produces from cloud [a] at
    site [x]: [e] = -1 destroys, [e] = 1 creates a phonon there.  [b] is the
    resulting cloud, renormalised to its own box; [s] is the position of the
    corner of that box in the coordinates of [a].  In those coordinates the
    new auxiliary function has argument phi - x; translating the origin by [s]
    changes it to phi - x + s and costs a phase exp(-ik.s).  The vacuum has no
    box; its function is exp(ik.(phi - x)) G. *)
Definition term_for {T} (m : model T) (a : nd) (h : hterm T) (x : list Z) (e mult : Z) (t : term T) : Prop :=
  let b := cfg (t_cfg t) in
  exists s, valid_cloud b /\ modified_by a b s (ht_index h) x e /\
    t_const t = Some (ht_coupling h, mult) /\
    energy_of (h_freqs (m_ham m)) a (t_fshift t) /\
    (exists g, t_g t = Some g /\ v2 g = addv (subv (v2 (ht_psi h)) (v2 (ht_phi h))) (dbl x)) /\
    exists f, t_f t = Some f /\
      ((~ phonon_free b /\
        v2 f = addv (subv (v2 (ht_phi h)) (dbl x)) (dbl s) /\ v2 (t_exp t) = oppv (dbl s)) \/
       (phonon_free b /\
        v2 f = zerov (ndim a) /\ v2 (t_exp t) = subv (v2 (ht_phi h)) (dbl x))).

(** The term of the Green's function's own equation for a creation term [h]. *)
Definition eom_for {T} (m : model T) (h : hterm T) (t : term T) : Prop :=
  let b := cfg (t_cfg t) in
  t_kind t = KEom /\ valid_cloud b /\ shp b = m_ntypes m :: repeat 1%nat (h_dim (m_ham m)) /\
  (forall t' x, List.length x = h_dim (m_ham m) ->
     occ b t' x = if Nat.eqb t' (ht_index h) && eqlZ x (zerov (h_dim (m_ham m))) then 1 else 0) /\
  t_const t = Some (ht_coupling h, 1) /\
  v2 (t_exp t) = subv (v2 (ht_psi h)) (v2 (ht_phi h)) /\ t_f t = Some (ht_phi h).

(** Models for which the engine is meant: one dimension, every type has its
    limits, its frequency and a creation term, some annihilation term exists,
    the limits allow at least one phonon, and integer and half-integer offsets
    are not mixed. *)
Record good_model {T} (m : model T) (ae : Z) : Prop := {
  gm_wf : wf_model m;
  gm_ae : absolute_extent m = Some ae;
  gm_ae1 : 1 <= ae;
  gm_mps : forall k, m_mps m = Some k -> 1 <= k;
  gm_pe : forall t, (t < m_ntypes m)%nat -> 1 <= nth t (m_pe m) 0;
  gm_pn : forall t, (t < m_ntypes m)%nat -> 1 <= nth t (m_pn m) 0;
  gm_freqs : (m_ntypes m <= List.length (h_freqs (m_ham m)))%nat;
  gm_index : forall h, In h (h_terms (m_ham m)) -> (ht_index h < m_ntypes m)%nat;
  gm_phi : forall h, In h (h_terms (m_ham m)) -> List.length (v2 (ht_phi h)) = 1%nat;
  gm_psi : forall h, In h (h_terms (m_ham m)) -> List.length (v2 (ht_psi h)) = 1%nat;
  gm_plus : forall t, (t < m_ntypes m)%nat ->
    exists h, In h (h_terms (m_ham m)) /\ ht_index h = t /\ ht_dag h = Plus;
  gm_minus : exists h, In h (h_terms (m_ham m)) /\ ht_dag h = Minus;
  gm_dtype : forall h h', In h (h_terms (m_ham m)) -> In h' (h_terms (m_ham m)) ->
    isf (ht_phi h') = true -> isf (ht_psi h) || isf (ht_phi h) = true }.

(** A cloud of the model's variational space. *)
Definition space {T} (m : model T) (ae : Z) (a : nd) : Prop := model_space m ae (total a) a.

(** The operator [h] acts on site [x] of cloud [a] without leaving the
    variational space: an annihilation operator needs a phonon there, a
    creation operator must lead to a cloud of the space. *)
Definition acts_at {T} (m : model T) (ae : Z) (a : nd) (h : hterm T) (x : list Z) : Prop :=
  List.length x = 1%nat /\
  match ht_dag h with
  | Minus => 0 < occ a (ht_index h) x
  | Plus => exists b s, valid_cloud b /\ modified_by a b s (ht_index h) x 1 /\ space m ae b
  end.

(** [t] is the right-hand-side term of operator [h] acting on site [x]. *)
Definition rhs_term {T} (m : model T) (ae : Z) (a : nd) (h : hterm T) (x : list Z) (t : term T) : Prop :=
  match ht_dag h with
  | Minus => term_for m a h x (-1) (occ a (ht_index h) x) t /\ t_kind t = KAnnih /\
             total (cfg (t_cfg t)) = total a - 1
  | Plus => term_for m a h x 1 1 t /\ t_kind t = KCreat /\ total (cfg (t_cfg t)) = total a + 1
  end /\ (phonon_free (cfg (t_cfg t)) \/ space m ae (cfg (t_cfg t))).

(** Two terms stand for the same unknown: same cloud (or both phonon-free) and
    numerically equal argument. *)
Definition same_unknown {T} (t t' : term T) : Prop :=
  ((phonon_free (cfg (t_cfg t)) /\ phonon_free (cfg (t_cfg t'))) \/ cfg (t_cfg t) = cfg (t_cfg t')) /\
  option_map v2 (t_f t) = option_map v2 (t_f t').
