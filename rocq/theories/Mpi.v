(** Distribution of the points (k, w) over MPI ranks:
    ggce/executors/solvers.py:83-102, 144-190 (BasicSolver) and
    ggce/executors/petsc4py/base.py:28-54, 66-138, 479-580 (MassSolver).

    A run is described by what every rank computes.  [solve r p] is what rank
    [r] gets for the point [p].  A collective operation needs all ranks: if one
    rank raises, the MPI job is aborted, and the run has that rank's error (the
    lowest rank's, if there are several). *)
From Coq Require Import String ZArith List Bool.
From Verif Require Import Base Space Utils.
Import ListNotations.
Open Scope list_scope.
Open Scope Z_scope.

Section Points.
Context {T : Type}.

(** solvers.py:169: [[(_k, _w) for _k in k for _w in w]]; [w] is not touched
    when [k] is empty *)
Definition make_jobs (k w : arg T) : result (list (T * T)) :=
  ks <- elements k ;;
  match ks with
  | [] => Ok []
  | _ => ws <- elements w ;; Ok (flat_map (fun x => map (fun y => (x, y)) ws) ks)
  end.

(** [len(x)]: TypeError on an int *)
Definition length_of (a : arg T) : result nat := l <- elements a ;; Ok (List.length l).
End Points.

(** numpy [reshape(nk, nw)] of a one-dimensional array, as a list of rows *)
Definition reshape {K} (s : list K) (nk nw : nat) : result (list (list K)) :=
  if Nat.eqb (List.length s) (nk * nw) then Ok (map (fun i => slice_list s (i * nw) (i * nw + nw)) (seq 0 nk))
  else Err ValueError.

Section Basic.
Context {T K : Type}.
Variable solve : nat -> T * T -> result K.

(** solvers.py:83-102 [get_jobs_on_this_rank]; [None] is [mpi_comm is None] *)
Definition jobs_on_rank (world : option nat) (rank : nat) (jobs : list (T * T)) : result (list (T * T)) :=
  match world with None => Ok jobs | Some n => chunk_jobs jobs (Z.of_nat n) rank end.

(** solvers.py:164-174: one rank up to the gather *)
Definition rank_part (world : option nat) (rank : nat) (k w : arg T) : result (list K) :=
  jobs <- make_jobs (float_to_list k) (float_to_list w) ;;
  mine <- jobs_on_rank world rank jobs ;;
  mapM (solve rank) mine.

(** solvers.py:144-190 [greens_function] on [rank]; [Ok None] is Python's
    None.  Without communicator the only rank is 0. *)
Definition greens_function (world : option nat) (rank : nat) (k w : arg T) : result (option (list (list K))) :=
  match world with
  | None =>
      s <- rank_part None 0 k w ;;
      nk <- length_of (float_to_list k) ;; nw <- length_of (float_to_list w) ;;
      a <- reshape s nk nw ;; Ok (Some a)
  | Some n =>
      all <- mapM (fun r => rank_part world r k w) (seq 0 n) ;;
      if Nat.eqb rank 0 then
        let s := flatten all in
        nk <- length_of (float_to_list k) ;; nw <- length_of (float_to_list w) ;;
        a <- reshape s nk nw ;; Ok (Some a)
      else Ok None
  end.
End Basic.

(** * Brigades *)
(** base.py:28-54: [int(rank / brigade_size)] and [int(size / brigade_size)];
    exact as long as the division of integers is *)
Definition mpi_brigade (bs : option Z) (rank : nat) : Z :=
  match bs with Some b => Z.quot (Z.of_nat rank) b | None => 0 end.
Definition brigades (world : nat) (bs : option Z) : Z :=
  match bs with Some b => Z.quot (Z.of_nat world) b | None => 1 end.
Definition brigade_size (world : nat) (bs : option Z) : Z :=
  match bs with Some b => b | None => Z.of_nat world end.

(** base.py:107-117: the size must divide the world size; [Split] needs
    non-negative colours (MPI error otherwise, here RuntimeError).  It orders
    the members of a brigade by their global rank (key [mpi_rank]). *)
Definition split_into_brigades (world : nat) (bs : option Z) : result unit :=
  match bs with
  | None => Ok tt
  | Some b =>
      if b =? 0 then Err ZeroDivisionError
      else _ <- guard (Z.of_nat world mod b =? 0) AssertionError ;;
           guard (forallb (fun r => 0 <=? mpi_brigade bs r) (seq 0 world)) RuntimeError
  end.
Definition members (world : nat) (bs : option Z) (brigade : Z) : list nat :=
  filter (fun r => mpi_brigade bs r =? brigade) (seq 0 world).
Definition brigade_rank (world : nat) (bs : option Z) (rank : nat) : nat :=
  List.length (filter (fun r => Nat.ltb r rank) (members world bs (mpi_brigade bs rank))).

Section Mass.
Context {T K Meta : Type}.
Variable G : gridops T.
Variable isnan : K -> bool.
Variable solve : nat -> T * T -> result (K * Meta).

(** base.py:502-521: the grid that is used *)
Definition brigade_grid (world : nat) (bs : option Z) (k w : arg T) : result (list T * list T) :=
  ks <- elements (float_to_list k) ;;
  ws <- elements (float_to_list w) ;;
  if (len ks * len ws) mod brigades world bs =? 0 then Ok (ks, ws)
  else padded_kw G ks ws (brigades world bs) 1000.

(** base.py:119-138 [get_jobs_on_this_brigade] *)
Definition jobs_on_brigade (world : nat) (bs : option Z) (rank : nat) (jobs : list (T * T)) : result (list (T * T)) :=
  if brigades world bs =? 1 then Ok jobs
  else chunk_jobs jobs (brigades world bs) (Z.to_nat (mpi_brigade bs rank)).

(** base.py:536-545: one rank up to the gather *)
Definition brigade_part (world : nat) (bs : option Z) (rank : nat) (ks ws : list T) : result (list (K * Meta)) :=
  jobs <- make_jobs (AList ks) (AList ws) ;;
  mine <- jobs_on_brigade world bs rank jobs ;;
  mapM (solve rank) mine.

(** base.py:557-561: one copy per brigade *)
Definition commanders (world : nat) (bs : option Z) (all : list (list (K * Meta))) : result (list (list (K * Meta))) :=
  if 1 <? brigade_size world bs
  then mapM (fun n => match nth_error all (Z.to_nat (n * brigade_size world bs)) with Some l => Ok l | None => Err IndexError end)
            (range 0 (brigades world bs))
  else Ok all.

(** base.py:479-580 [greens_function]: rank 0 assembles, everybody gets the
    broadcast result (return_meta=True) *)
Definition mass_greens (world : nat) (bs : option Z) (rank : nat) (k w : arg T) : result (list (list K) * list Meta) :=
  ' (ks, ws) <- brigade_grid world bs k w ;;
  all <- mapM (fun r => brigade_part world bs r ks ws) (seq 0 world) ;;
  res <- commanders world bs all ;;
  let flat := flatten res in
  let s := filter (fun x => negb (isnan x)) (map fst flat) in
  a <- reshape s (List.length ks) (List.length ws) ;;
  Ok (a, map snd flat).
End Mass.
