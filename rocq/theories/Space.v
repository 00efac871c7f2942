(** ggce/engine/system.py:20-113 - generation of the variational space - and
    ggce/utils/combinatorics.py. *)
From Coq Require Import ZArith List Bool.
From Verif Require Import Base NdArray Config Model.
Import ListNotations.
Open Scope Z_scope.

(** Python [range(lo, hi)] *)
Definition range (lo hi : Z) : list Z :=
  map (fun i => lo + Z.of_nat i) (seq 0 (Z.to_nat (hi - lo))).

(** system.py:20-55 [config_space_gen] for length [S l]. *)
Fixpoint csg (l : nat) (s : Z) : list (list Z) :=
  match l with
  | O => [[s]]
  | S l' => flat_map (fun v => map (cons v) (csg l' (s - v))) (range 0 (s + 1))
  end.

(** system.py:20-55 [config_space_gen].  Length 0 (or less) with a
    non-negative sum recurses for ever. *)
Definition config_space_gen (len : nat) (s : Z) : result (list (list Z)) :=
  match len with
  | O => if s <? 0 then Ok [] else Err RecursionError
  | S l => Ok (csg l s)
  end.

(** List comprehension with a condition that may raise. *)
Fixpoint filterM {A} (f : A -> result bool) (l : list A) : result (list A) :=
  match l with
  | [] => Ok []
  | x :: r => b <- f x ;; ys <- filterM f r ;; Ok (if b then x :: ys else ys)
  end.

(** system.py:89-105: the configs of [z] sites and [nb] phonons. *)
Definition legal_block {T} (m : model T) (nb : Z) (z : Z) : result (list config) :=
  c <- config_space_gen (Z.to_nat z * m_ntypes m) nb ;;
  let arrs := map (mkNd [m_ntypes m; Z.to_nat z]) c in
  l <- filterM (fun a => config_legal a (m_mps m) (Some (m_pe m)) (Some (m_pn m)) false) arrs ;;
  mapM (fun a => config_init a 1 0) l.

(** system.py:58-113 [generate_all_legal_configurations].  The dictionary is
    the association list in insertion order. *)
Definition generate_space {T} (m : model T) : result (list (Z * list config)) :=
  _ <- guard (Nat.leb (h_dim (m_ham m)) 1) SystemExit ;;
  mapM (fun nb =>
          match absolute_extent m with
          | None => Err TypeError
          | Some ae =>
              bs <- mapM (legal_block m nb) (range 1 (ae + 1)) ;;
              Ok (nb, concat bs)
          end)
       (range 1 (sumZ (m_pn m) + 1)).

(** Python dictionary lookup. *)
Fixpoint assocZ {A} (k : Z) (d : list (Z * A)) : option A :=
  match d with
  | [] => None
  | (k', v) :: r => if k' =? k then Some v else assocZ k r
  end.

(** scipy.special.comb(n, k, exact=True): 0 outside 0 <= k <= n. *)
Fixpoint binom (n k : nat) : Z :=
  match n, k with
  | _, O => 1
  | O, S _ => 0
  | S n', S k' => binom n' k' + binom n' k
  end.

Definition comb (n k : Z) : Z :=
  if (k <? 0) || (n <? 0) then 0 else binom (Z.to_nat n) (Z.to_nat k).

(** combinatorics.py:5-20 [generalized_equations_combinatorics_term] *)
Definition combinatorics_term (m n : Z) : Z :=
  if (m =? 1) || (n =? 2) then 1 else comb (m + n - 3) (n - 2).

(** combinatorics.py:23-43 [total_generalized_equations] *)
Definition total_generalized_equations (M N : list Z) (nbt : nat) : result Z :=
  bosons <- mapM (fun bt =>
      match nth_error M bt, nth_error N bt with
      | Some m', Some n' =>
          Ok (sumZ (map (fun m => sumZ (map (combinatorics_term m) (range 1 (n' + 1))))
                        (range 1 (m' + 1))))
      | None, _ => Err IndexError
      (* with an empty outer range N[bt] is never evaluated *)
      | Some m', None => if m' <? 1 then Ok 0 else Err IndexError
      end) (seq 0 nbt) ;;
  Ok (fold_right Z.mul 1 bosons).

(** system.py:186-213 [_predict_total_terms]: [None] when no prediction is
    made, otherwise whether the prediction agrees with [L] equations. *)
Definition predict_total_terms {T} (m : model T) (L : Z) : result (option bool) :=
  match m_mps m with
  | None =>
      if Nat.eqb (m_ntypes m) 1 then
        t <- total_generalized_equations (m_pe m) (m_pn m) (m_ntypes m) ;;
        Ok (Some (L =? 1 + t))
      else Ok None
  | Some _ => Ok None
  end.
