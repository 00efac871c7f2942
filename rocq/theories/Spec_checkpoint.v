(** Specification vocabulary for checkpoints (C30, C31, C41, C49). *)
From Coq Require Import String ZArith List Bool Permutation.
From Verif Require Import Base Model Equation System HModel Cache Checkpoint.
Import ListNotations.
Open Scope list_scope.
Open Scope Z_scope.

(** Arrays of integers hold integers. *)
Definition vec_ok (v : vec) : Prop := isf v = false -> Forall Z.Even (v2 v).
Definition storable {T} (m : model T) : Prop :=
  forall h, In h (h_terms (m_ham m)) -> vec_ok (ht_psi h) /\ vec_ok (ht_phi h).

(** Two models with the same public attributes. *)
Record same_attributes {T} (m m' : model T) : Prop := {
  sa_lattice : m_lattice m' = m_lattice m;
  sa_temp : m_temp m' = m_temp m;
  sa_ham : m_ham m' = m_ham m;
  sa_mps : m_mps m' = m_mps m;
  sa_pe : m_pe m' = m_pe m;
  sa_pn : m_pn m' = m_pn m;
  sa_ntypes : m_ntypes m' = m_ntypes m;
  sa_ae : absolute_extent m' = absolute_extent m }.

(** A reloaded system: the same attributes and the same equations. *)
Definition same_system {T} (s : system T) (p : pysystem T) : Prop :=
  same_attributes (s_model s) (py_model p) /\ py_gen p = s_gen s /\ py_fargs p = Some (s_fargs s) /\ py_eqs p = s_eqs s.

(** The number of equations under all keys together. *)
Definition count {A} (e : list (Z * list A)) : Z := Z.of_nat (List.length (flat_map snd e)).

(** A change of a model: an add_ call or an assignment to an attribute. *)
Inductive change (T : Type) := CAdd (a : add_args T) | CTemp (x : option T) | CLattice (x : option T) | CExtent (x : option Z) | CMax (x : option Z).
Arguments CAdd {T}. Arguments CTemp {T}. Arguments CLattice {T}. Arguments CExtent {T}. Arguments CMax {T}.
Definition apply_change {T} (N : numops T) (m : model T) (c : change T) : result (list level * model T) :=
  match c with
  | CAdd a => model_add N m a
  | CTemp x => Ok (set_temperature N m x)
  | CLattice x => Ok (set_lattice N m x)
  | CExtent x => Ok (set_absolute_extent m x)
  | CMax x => Ok ([], set_max_per_site m x)
  end.
Fixpoint apply_changes {T} (N : numops T) (m : model T) (cs : list (change T)) : result (list level * model T) :=
  match cs with
  | [] => Ok ([], m)
  | c :: r => ' (l, m1) <- apply_change N m c ;; ' (l', m2) <- apply_changes N m1 r ;; Ok (l ++ l', m2)
  end.

(** Models that agree but for the absolute extent. *)
Record agree {T} (m m' : model T) : Prop := {
  ag_lattice : m_lattice m' = m_lattice m;
  ag_temp : m_temp m' = m_temp m;
  ag_ham : m_ham m' = m_ham m;
  ag_mps : m_mps m' = m_mps m;
  ag_pe : m_pe m' = m_pe m;
  ag_pn : m_pn m' = m_pn m;
  ag_ntypes : m_ntypes m' = m_ntypes m }.

(** Iteration orders of sets: what comes out is what went in, and putting it in
    again in the order in which it came out does not change the order. *)
Definition settled (ord : string -> list vec -> list vec) : Prop :=
  (forall k l, Permutation (ord k l) l) /\ forall k l, ord k (ord k l) = ord k l.
