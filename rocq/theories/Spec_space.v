(** Specification of the variational space (C10-C12). *)
From Coq Require Import ZArith List Bool.
From Verif Require Import Base NdArray Spec Config Model Space.
Import ListNotations.
Open Scope Z_scope.

(** [a] is a one-dimensional cloud with [n] phonons of the model's types, on at
    most [ae] sites, valid, with both edges occupied, satisfying the per-site,
    per-type extent and per-type number limits. *)
Definition in_space (nt : nat) (ae : Z) (mps : option Z) (pe pn : list Z) (n : Z) (a : nd) : Prop :=
  wf a /\ (exists z, shp a = [nt; z] /\ 1 <= Z.of_nat z <= ae) /\ total a = n /\
  legal_spec a mps (Some pe) (Some pn) false.

(** The model's own limits, with the absolute extent [ae]. *)
Definition model_space {T} (m : model T) (ae : Z) (n : Z) (a : nd) : Prop :=
  in_space (m_ntypes m) ae (m_mps m) (m_pe m) (m_pn m) n a.

(** One model's limits are at most another's: same types, and every limit is
    raised or kept ([None] is no limit). *)
Definition limits_le {T} (m m' : model T) (ae ae' : Z) : Prop :=
  m_ntypes m = m_ntypes m' /\ ae <= ae' /\
  Forall2 Z.le (m_pe m) (m_pe m') /\ Forall2 Z.le (m_pn m) (m_pn m') /\
  match m_mps m, m_mps m' with
  | _, None => True
  | None, Some _ => False
  | Some x, Some y => x <= y
  end.

(** A model whose limits describe each of its phonon types (what [Model.add_]
    maintains), in one dimension. *)
Definition wf_model {T} (m : model T) : Prop :=
  (h_dim (m_ham m) = 1)%nat /\
  length (m_pe m) = m_ntypes m /\ length (m_pn m) = m_ntypes m /\
  (1 <= m_ntypes m)%nat.

(** The arrays generated under key [n]. *)
Definition clouds_of (d : list (Z * list config)) (n : Z) : list nd :=
  match assocZ n d with Some l => map cfg l | None => [] end.

(** Total number of generated clouds. *)
Definition space_size (d : list (Z * list config)) : Z :=
  sumZ (map (fun kv => Z.of_nat (length (snd kv))) d).
