(** Specifications, independent of the program model's helpers.  The only
    thing borrowed is the array record and its reading as a function on Z^d. *)
From Coq Require Import ZArith List Bool Lia.
From Verif Require Import Base NdArray.
Import ListNotations.
Open Scope Z_scope.

(** Number of phonons of type [t] at the spatial position [x] in Z^d; zero
    outside the array. *)
Definition occ (a : nd) (t : nat) (x : list Z) : Z := at_ a (Z.of_nat t :: x).

(** Number of spatial axes, number of types. *)
Definition ndim (a : nd) : nat := Nat.pred (length (shp a)).
Definition ntypes (a : nd) : nat := hd 0%nat (shp a).

(** No phonon anywhere. *)
Definition phonon_free (a : nd) : Prop := forall t x, occ a t x = 0.

(** Some phonon of some type sits on position [p] of spatial axis [d]. *)
Definition occupied_slab (a : nd) (d : nat) (p : Z) : Prop :=
  exists t x, length x = ndim a /\ nth d x 0 = p /\ 0 < occ a t x.

(** A cloud whose box is tight: both faces of every spatial axis occupied. *)
Definition tight (a : nd) : Prop :=
  forall d, (d < ndim a)%nat ->
    occupied_slab a d 0 /\
    occupied_slab a d (Z.of_nat (nth (S d) (shp a) 0%nat) - 1).

(** What Config accepts (property C01). *)
Definition valid_cloud (a : nd) : Prop :=
  wf a /\ (2 <= length (shp a))%nat /\ (forall t x, 0 <= occ a t x) /\
  (phonon_free a \/ tight a).

(** [b] is [a] translated by [s]: position [x] of [b] is position [x+s] of [a],
    and in addition [e] phonons of type [t0] are added at position [x0] of
    [a]'s coordinates. *)
Definition modified_by (a b : nd) (s : list Z) (t0 : nat) (x0 : list Z) (e : Z) : Prop :=
  length (shp b) = length (shp a) /\ ntypes b = ntypes a /\
  length s = ndim a /\
  forall t x, length x = ndim a ->
    occ b t x = occ a t (addv x s)
                + (if Nat.eqb t t0 && eqlZ (addv x s) x0 then e else 0).

(** The extent of type [t]: positions on the first spatial axis. *)
Definition within_extent (a : nd) (t : nat) (e : Z) : Prop :=
  0 <= e /\
  forall x y, occ a t x <> 0 -> occ a t y <> 0 -> hd 0 x - hd 0 y + 1 <= e.

(** The declarative meaning of [config_legal] (C07). *)
Definition legal_spec (a : nd) (mps : option Z) (pe pn : option (list Z)) (green : bool) : Prop :=
  (green = true /\ phonon_free a) \/
  ((2 <= length (shp a))%nat /\ (forall t x, 0 <= occ a t x) /\ tight a /\
   (forall m, mps = Some m -> forall t x, occ a t x <= m) /\
   (forall e, pe = Some e -> forall t, (t < ntypes a)%nat -> within_extent a t (nth t e 0)) /\
   (forall n, pn = Some n -> forall t, (t < ntypes a)%nat -> total_type a t <= nth t n 0)).
