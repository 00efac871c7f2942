(** Specification of the band of a model (C75). *)
From Coq Require Import ZArith Reals List.
From Verif Require Import Base Model HModel.
Import ListNotations.
Open Scope R_scope.

(** The least and the greatest energy that the phonons of a cloud can have: type
    [t] holds at most [nth t (m_pn m) 0] phonons. *)
Definition phonon_floor (m : model R) : R :=
  fold_right (fun t s => Rmin 0 (nth t (h_freqs (m_ham m)) 0 * IZR (nth t (m_pn m) 0%Z)) + s) 0 (seq 0 (m_ntypes m)).
Definition phonon_ceiling (m : model R) : R :=
  fold_right (fun t s => Rmax 0 (nth t (h_freqs (m_ham m)) 0 * IZR (nth t (m_pn m) 0%Z)) + s) 0 (seq 0 (m_ntypes m)).

(** A bound on the hopping and the couplings when no mode holds more than [N]
    phonons. *)
Definition half_width (m : model R) (N : Z) : R :=
  2 * Rabs (h_hop (m_ham m)) + sqrt (IZR N) * fold_right (fun h s => Rabs (ht_coupling h) + s) 0 (h_terms (m_ham m)).

(** The edges of the band. *)
Definition band_floor (m : model R) (N : Z) : R := phonon_floor m - half_width m N.
Definition band_ceiling (m : model R) (N : Z) : R := phonon_ceiling m + half_width m N.

(** [w] lies outside of the band, by [d]. *)
Definition below_band (m : model R) (N : Z) (w d : R) : Prop := w + d <= band_floor m N.
Definition above_band (m : model R) (N : Z) (w d : R) : Prop := band_ceiling m N + d <= w.
Definition off_band (m : model R) (N : Z) (w d : R) : Prop := below_band m N w d \/ above_band m N w d.
