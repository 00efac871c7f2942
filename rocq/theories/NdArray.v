(** Numpy integer arrays of arbitrary rank: row-major data plus a shape.
    Only the numpy operations used by ggce/engine/terms.py are modelled. *)
From Coq Require Import ZArith List Bool Lia.
From Verif Require Import Base.
Import ListNotations.
Open Scope Z_scope.

Record nd := mkNd { shp : list nat; dat : list Z }.

Fixpoint prodn (s : list nat) : nat :=
  match s with [] => 1 | d :: r => d * prodn r end%nat.

(** Every numpy array has as many entries as its shape says. *)
Definition wf (a : nd) : Prop := length (dat a) = prodn (shp a).

(** Row-major offset of an index. *)
Fixpoint ravel (s i : list nat) : nat :=
  match s, i with
  | _ :: s', x :: i' => x * prodn s' + ravel s' i'
  | _, _ => 0
  end%nat.

(** [np.ndindex]: all indexes in row-major order. *)
Fixpoint all_idx (s : list nat) : list (list nat) :=
  match s with
  | [] => [[]]
  | d :: s' => flat_map (fun x => map (cons x) (all_idx s')) (seq 0 d)
  end.

(** [a[i]] for an in-range non-negative index. *)
Definition get (a : nd) (i : list nat) : Z := nth (ravel (shp a) i) (dat a) 0.

(** The array of shape [s] with entries [f i]. *)
Definition tab (s : list nat) (f : list nat -> Z) : nd :=
  mkNd s (map f (all_idx s)).

(** [np.zeros(shape=s)] *)
Definition zeros (s : list nat) : nd := tab s (fun _ => 0).

(** Is the integer vector [x] an in-range index for shape [s]? *)
Fixpoint inb (s : list nat) (x : list Z) : bool :=
  match s, x with
  | [], [] => true
  | d :: s', y :: x' => (0 <=? y) && (y <? Z.of_nat d) && inb s' x'
  | _, _ => false
  end.

(** The array as a function on all of Z^rank, zero outside the array. *)
Definition at_ (a : nd) (x : list Z) : Z :=
  if inb (shp a) x then get a (map Z.to_nat x) else 0.

(** [a[i] += v] *)
Definition upd (a : nd) (i : list nat) (v : Z) : nd :=
  tab (shp a) (fun j => if eqln j i then get a j + v else get a j).

(** [a.swapaxes(0,ax)[lo:lo+len,...].swapaxes(0,ax)]: cut axis [ax] to
    [lo, lo+len). *)
Definition slice (a : nd) (ax lo len : nat) : nd :=
  tab (setn (shp a) ax len)
      (fun i => get a (setn i ax (nth ax i 0%nat + lo)%nat)).

(** [a.sum(axis=0)] *)
Definition sum0 (a : nd) : nd :=
  tab (tl (shp a))
      (fun i => sumZ (map (fun t => get a (t :: i)) (seq 0 (hd 0%nat (shp a))))).

(** [np.sum(a)] *)
Definition total (a : nd) : Z := sumZ (dat a).

(** [np.sum(a[t,...])] for a type index [t]. *)
Definition total_type (a : nd) (t : nat) : Z :=
  sumZ (map (fun i => get a (t :: i)) (all_idx (tl (shp a)))).

(** [np.sum(a.swapaxes(0,ax)[p,...])]: the sum of one slab. *)
Definition slab_sum (a : nd) (ax p : nat) : Z :=
  sumZ (map (get a)
            (filter (fun i => Nat.eqb (nth ax i 0%nat) p) (all_idx (shp a)))).

(** [np.where(a.swapaxes(0,ax) > 0)[0]] up to order: the positions along axis
    [ax] of the positive entries (with repetition). *)
Definition where_pos (a : nd) (ax : nat) : list nat :=
  map (fun i => nth ax i 0%nat)
      (filter (fun i => 0 <? get a i) (all_idx (shp a))).

(** [np.pad(a, [(before, after), ...], constant_values=0)] *)
Definition pad (a : nd) (p : list (nat * nat)) : nd :=
  tab (map (fun dp => (fst (snd dp) + fst dp + snd (snd dp))%nat)
           (combine (shp a) p))
      (fun i => at_ a (subv (map Z.of_nat i) (map (fun q => Z.of_nat (fst q)) p))).
