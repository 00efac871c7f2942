(** Specification vocabulary for parallel runs, buffers and padding. *)
From Coq Require Import String ZArith List Bool Reals.
From Verif Require Import Base Utils Mpi.
Import ListNotations.
Open Scope list_scope.
Open Scope Z_scope.

(** The values passed to a buffer, in order. *)
Definition op_values {A} (ops : list (buffer_op A)) : list A :=
  flat_map (fun o => match o with Put v => [v] | Flush => [] end) ops.

(** [n] is the least number of points to add to [l] points such that, with
    [fixed] points on the other axis, [B] divides the size of the grid. *)
Definition least_pad (fixed l B n : Z) : Prop :=
  0 <= n /\ (B | fixed * (l + n)) /\ forall n', 0 <= n' < n -> ~ (B | fixed * (l + n')).

(** [x'] continues [x] by [n] points with the spacing of its last two. *)
Definition continues {T} (G : gridops T) (x x' : list T) (n : Z) : Prop :=
  exists init p q, x = init ++ [p; q] /\ List.length x' = (List.length x + Z.to_nat n)%nat /\ firstn (List.length x) x' = x /\
    forall i d, 0 <= i < n -> nth (List.length x + Z.to_nat i) x' d = g_add G q (g_scale G (i + 1) (g_sub G q p)).

(** Grids of real numbers. *)
Definition Rgrid : gridops R := mkGrid R Rplus Rminus (fun z x => (IZR z * x)%R).
Definition Zgrid : gridops Z := mkGrid Z Z.add Z.sub Z.mul.
Definition increasing (l : list R) : Prop :=
  forall i j d, (i < j < List.length l)%nat -> (nth i l d < nth j l d)%R.

(** The grid of values: entry [i][j] belongs to (k[i], w[j]). *)
Definition grid_of {T K} (f : T * T -> K) (ks ws : list T) : list (list K) :=
  map (fun x => map (fun y => f (x, y)) ws) ks.

(** The points as a list. *)
Definition points {T} (ks ws : list T) : list (T * T) := list_prod ks ws.

(** The points handled by a part of the machine, and a fair distribution:
    every point exactly once, in order, numbers differing by at most one. *)
Definition fair {A} (parts : list (list A)) (l : list A) : Prop :=
  List.concat parts = l /\ forall p q, In p parts -> In q parts -> (List.length p <= S (List.length q))%nat.

(** A configuration of ranks and brigades that the constructor accepts. *)
Record brigaded (W : nat) (bs : option Z) : Prop := {
  br_world : (1 <= W)%nat;
  br_pos : forall b, bs = Some b -> 0 < b;
  br_split : split_into_brigades W bs = Ok tt }.
