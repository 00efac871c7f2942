(** ggce/engine/terms.py:11-482 - legality checks and the [Config] class. *)
From Coq Require Import ZArith List Bool Lia.
From Verif Require Import Base NdArray.
Import ListNotations.
Open Scope Z_scope.

(** terms.py:11-14 [_config_shape_legal] *)
Definition config_shape_legal (a : nd) : bool := Nat.leb 2 (length (shp a)).

(** terms.py:17-20 [_config_values_legal] *)
Definition config_values_legal (a : nd) : bool := forallb (fun x => 0 <=? x) (dat a).

(** terms.py:29-39 [_check_config].  The warning for more than four axes
    (terms.py:34-39) has no effect and is omitted. *)
Definition check_config (a : nd) : result unit :=
  _ <- guard (config_shape_legal a) SystemExit ;;
  guard (config_values_legal a) SystemExit.

(** terms.py:49-55, the loop over the axes [axs] of the anchor array [c].
    [swapaxes(0,ii)[0,...]] raises [IndexError] on an axis of length 0. *)
Fixpoint edges_loop (c : nd) (axs : list nat) : result bool :=
  match axs with
  | [] => Ok true
  | ii :: r =>
      let dim := nth ii (shp c) 0%nat in
      if Nat.eqb dim 0 then Err IndexError
      else if (slab_sum c ii 0 =? 0) || (slab_sum c ii (dim - 1) =? 0)
      then Ok false
      else edges_loop c r
  end.

(** terms.py:42-55 [_config_edges_legal] *)
Definition config_edges_legal (a : nd) : result bool :=
  let c := sum0 a in edges_loop c (seq 0 (length (shp c))).

(** terms.py:140-150 [_validate_config_is_legal] *)
Definition validate_config_is_legal (a : nd) : result unit :=
  _ <- check_config a ;;
  if total a =? 0 then Ok tt
  else e <- config_edges_legal a ;; guard e SystemExit.

(** terms.py:58-68 [_extent_of_1d] applied to [config[t,...]].  For more than
    one spatial axis numpy's [np.where(...)[0]] lists positions on the first
    spatial axis, once per nonzero entry; the same is done here. *)
Definition nonzero_positions (a : nd) (t : nat) : list nat :=
  map (fun i => nth 0 i 0%nat)
      (filter (fun i => negb (get a (t :: i) =? 0)) (all_idx (tl (shp a)))).

Definition lmin (l : list nat) : nat :=
  match l with [] => 0%nat | x :: r => fold_right Nat.min x r end.
Definition lmax (l : list nat) : nat := fold_right Nat.max 0%nat l.

Definition extent_of (a : nd) (t : nat) : nat :=
  let w := nonzero_positions a t in
  if Nat.ltb (length w) 2 then length w
  else (lmax w - lmin w + 1)%nat.

(** terms.py:71-137 [config_legal].  [None] arguments are [None] here.  The
    list comprehensions over the phonon types raise [IndexError] when the
    constraint list is shorter than the number of types. *)
Definition extent_check (a : nd) (pe : list Z) : result bool :=
  l <- mapM (fun t => match nth_error pe t with
                      | Some e => Ok (e <? Z.of_nat (extent_of a t))
                      | None => Err IndexError
                      end) (seq 0 (hd 0%nat (shp a))) ;;
  Ok (negb (existsb (fun b => b) l)).

Definition number_check (a : nd) (pn : list Z) : result bool :=
  l <- mapM (fun t => match nth_error pn t with
                      | Some e => Ok (e <? total_type a t)
                      | None => Err IndexError
                      end) (seq 0 (hd 0%nat (shp a))) ;;
  Ok (negb (existsb (fun b => b) l)).

Definition config_legal (a : nd) (mps : option Z) (pe pn : option (list Z))
    (allow_green : bool) : result bool :=
  if allow_green && (total a =? 0) then Ok true
  else if negb (config_shape_legal a) then Ok false
  else if negb (config_values_legal a) then Ok false
  else
    e <- config_edges_legal a ;;
    if negb e then Ok false
    else if negb (match mps with
                  | Some m => forallb (fun x => x <=? m) (dat a)
                  | None => true
                  end) then Ok false
    else
      b <- match pe with Some l => extent_check a l | None => Ok true end ;;
      if negb b then Ok false
      else
        c <- match pn with Some l => number_check a l | None => Ok true end ;;
        Ok c.

(** terms.py:153, 264-282: the [Config] object. *)
Record config := mkConfig { cfg : nd; max_mods : Z; mods : Z }.

(** terms.py:264-282 [Config.__init__].  The [astype(int)] conversion is the
    identity on the integer arrays modelled here. *)
Definition config_init (a : nd) (mm m : Z) : result config :=
  _ <- validate_config_is_legal a ;; Ok (mkConfig a mm m).

(** terms.py:224-234 [total_phonons_per_type] *)
Definition total_phonons_per_type (a : nd) : list Z :=
  map (total_type a) (seq 0 (hd 0%nat (shp a))).

(** The shift returned by the reduction rules: terms.py:312-313 returns the
    scalar 0, otherwise a vector (terms.py:348). *)
Inductive shiftv := SScalar (z : Z) | SVec (v : list Z).

(** terms.py:315-348, one pass of the loop per axis in [axs]; [anchor] is the
    local [_config], [full] is [self._config]. *)
Fixpoint reduce_loop (axs : list nat) (anchor full : nd) (shifts : list Z)
  : result (nd * list Z) :=
  match axs with
  | [] => Ok (full, shifts)
  | ii :: r =>
      match where_pos anchor ii with
      | [] => Err ValueError
      | w =>
          let left := lmin w in
          let right := lmax w in
          let dim := nth ii (shp anchor) 0%nat in
          if Nat.ltb right (dim - 1) then
            reduce_loop r (slice anchor ii 0 (right + 1))
                        (slice full (ii + 1) 0 (right + 1)) (shifts ++ [0])
          else if Nat.ltb 0 left then
            reduce_loop r (slice anchor ii left (dim - left))
                        (slice full (ii + 1) left (dim - left))
                        (shifts ++ [Z.of_nat left])
          else reduce_loop r anchor full (shifts ++ [0])
      end
  end.

(** terms.py:307-348 [_apply_phonon_reduction_rules_] *)
Definition reduction_rules (a : nd) : result (nd * shiftv) :=
  if total a =? 0 then Ok (a, SScalar 0)
  else
    let c := sum0 a in
    p <- reduce_loop (seq 0 (length (shp c))) c a [] ;;
    Ok (fst p, SVec (snd p)).

(** numpy integer indexing: negative indexes count from the end, anything else
    out of range raises [IndexError]. *)
Definition norm_index (d : nat) (x : Z) : option nat :=
  if (0 <=? x) && (x <? Z.of_nat d) then Some (Z.to_nat x)
  else if (- Z.of_nat d <=? x) && (x <? 0) then Some (Z.to_nat (x + Z.of_nat d))
  else None.

Fixpoint norm_indexes (s : list nat) (x : list Z) : option (list nat) :=
  match s, x with
  | [], [] => Some []
  | d :: s', y :: x' =>
      match norm_index d y, norm_indexes s' x' with
      | Some i, Some r => Some (i :: r)
      | _, _ => None
      end
  | _, _ => None
  end.

(** terms.py:350-400 [remove_phonon_] *)
Definition remove_phonon (c : config) (x : list Z) : result (config * shiftv) :=
  _ <- guard (mods c <? max_mods c) SystemExit ;;
  _ <- guard (Nat.eqb (length x) (length (shp (cfg c)))) SystemExit ;;
  match norm_indexes (shp (cfg c)) x with
  | None => Err SystemExit
  | Some i =>
      let a := upd (cfg c) i (-1) in
      _ <- guard (0 <=? get a i) SystemExit ;;
      p <- reduction_rules a ;;
      Ok (mkConfig (fst p) (max_mods c) (mods c + 1), snd p)
  end.

(** terms.py:466-474, the padding of one spatial axis of length [d]. *)
Definition pad_of (d : nat) (x : Z) : nat * nat :=
  if (0 <=? x) && (x <? Z.of_nat d - 1) then (0, 0)%nat
  else if x <? 0 then (Z.to_nat (- x), 0%nat)
  else (0%nat, Z.to_nat (x - Z.of_nat d + 1)).

(** terms.py:402-482 [add_phonon_].  An empty index tuple (or a rank-0 array)
    would raise [IndexError] at [indexes[0]] (terms.py:435). *)
Definition add_phonon (c : config) (x : list Z) : result (config * shiftv) :=
  let a := cfg c in
  _ <- guard (mods c <? max_mods c) SystemExit ;;
  _ <- guard (Nat.eqb (length x) (length (shp a))) SystemExit ;;
  match shp a, x with
  | d :: s, t :: y =>
      _ <- guard ((0 <=? t) && (t <=? Z.of_nat d - 1)) SystemExit ;;
      if inb s y then
        Ok (mkConfig (upd a (map Z.to_nat x) 1) (max_mods c) (mods c + 1),
            SVec (zerov (length y)))
      else
        let p := (0, 0)%nat :: map (fun dx => pad_of (fst dx) (snd dx)) (combine s y) in
        let a' := pad a p in
        let i := map (fun z => Z.to_nat (Z.max z 0)) x in
        Ok (mkConfig (upd a' i 1) (max_mods c) (mods c + 1),
            SVec (map (fun z => - Z.min z 0) y))
  | _, _ => Err IndexError
  end.
