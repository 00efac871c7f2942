(** Specifications for C71: which objects can be reached from which. *)
From Coq Require Import String ZArith List Bool Arith.
From Verif Require Import Base Model Heap.
Import ListNotations.
Open Scope list_scope.
Open Scope nat_scope.

Section Alias.
Context {T : Type}.
Implicit Types (h : heap T).

(** Every reference held by an object refers to an object. *)
Definition no_dangling h : Prop := forall l c, cell_at h l = Some c -> forall y, In y (refs c) -> y < List.length h.

(** Following references from x leads to y. *)
Inductive reaches h : loc -> loc -> Prop :=
| reaches_itself : forall x, reaches h x x
| reaches_on : forall x c y z, cell_at h x = Some c -> In y (refs c) -> reaches h y z -> reaches h x z.

(** The array [y] is in one of the lists of the dictionary [d]. *)
Definition listed h (d y : loc) : Prop :=
  exists D k l xs, cell_at h d = Some (CDict D) /\ In (k, l) D /\ cell_at h l = Some (CList xs) /\ In y xs.

(** Objects with a location below n are the same in both heaps. *)
Definition same_below (n : nat) h h' : Prop := forall l, l < n -> cell_at h' l = cell_at h l.
Definition same_from (n : nat) h h' : Prop := List.length h' = List.length h /\ forall l, n <= l -> cell_at h' l = cell_at h l.

(** The equations of a System, generalized ones first. *)
Definition equations_of (s : osystem) : list loc := flat_map snd (os_gen s) ++ flat_map snd (os_eqs s).

(** What a System refers to. *)
Definition attribute (s : osystem) (x : loc) : Prop := x = os_model s \/ x = os_fargs s \/ In x (equations_of s).

(** One way of laying out a Model on an empty heap. *)
Fixpoint lay_terms (b : nat) (hs : list (hterm T)) : heap T :=
  match hs with
  | [] => []
  | t :: r => CVec (ht_psi t) :: CVec (ht_phi t) :: CHterm (ht_type t) b (S b) (ht_dag t) (ht_coupling t) (ht_index t) (ht_freq t) :: lay_terms (S (S (S b))) r
  end.
Fixpoint lay_locs (b : nat) (hs : list (hterm T)) : list loc :=
  match hs with [] => [] | _ :: r => S (S b) :: lay_locs (S (S (S b))) r end.
Definition lay_out (m : model T) : heap T :=
  lay_terms 0 (h_terms (m_ham m)) ++
  [CModel (m_lattice m) (m_temp m) (lay_locs 0 (h_terms (m_ham m))) (h_freqs (m_ham m)) (h_dim (m_ham m)) (h_hop (m_ham m))
     (m_mps m) (m_pe m) (m_pn m) (m_aext m) (m_ntypes m)].
Definition laid_at (m : model T) : loc := List.length (lay_terms 0 (h_terms (m_ham m))).
End Alias.
