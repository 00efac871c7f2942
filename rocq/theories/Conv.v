(** The checks after a solve: ggce/executors/petsc4py/base.py:434-477
    [check_conv_manual], petsc4py/solvers.py:29-102 [check_conv] and
    [check_mem_use], and what [solve] returns, logs and stores
    (petsc4py/solvers.py:104-122, 150-158, 193-235).

    Numbers are exact complex numbers or nan ([None]); infinities and the sign of
    zero are left out.  The factorization is an oracle that is applied both to
    solve (KSP type "preonly") and in the check.  Messages carry their level
    only, times are left out. *)
From Coq Require Import String ZArith Reals List Bool.
From Verif Require Import Base Ring Cplx Solvers Petsc Cache Logger.
Import ListNotations.
Open Scope list_scope.

Definition num := option C.
Definition vec := nat -> num.
Definition lift2 {A B D} (f : A -> B -> D) (x : option A) (y : option B) : option D :=
  match x, y with Some a, Some b => Some (f a b) | _, _ => None end.

(** [self._mat_X(self._vector_x)]: stored entries only *)
Definition mat_vec (tr : list (@triplet CR)) (x : vec) (i : nat) : num :=
  fold_right (fun p acc => if Nat.eqb (fst (fst p)) i then lift2 Cadd (lift2 Cmul (Some (snd p)) (x (snd (fst p)))) acc else acc)
             (Some C0) tr.
Definition minus (x y : vec) : vec := fun i => lift2 Csub (x i) (y i).

(** [norm(PETSc.NormType.NORM_2)] of the first [n] entries *)
Definition norm (n : nat) (x : vec) : option R :=
  option_map sqrt (fold_right (lift2 Rplus) (Some 0%R) (map (fun i => option_map Cnorm2 (x i)) (seq 0 n))).

(** A comparison with nan is false. *)
Definition positive (x : option R) : bool :=
  match x with Some r => if Rlt_dec 0 r then true else false | None => false end.

Section Check.
(** [pc.apply]: the factorization *)
Variable apply : vec -> vec.

(** base.py:456-466: the norm of the preconditioned residual minus rtol times
    that of the preconditioned right-hand side *)
Definition tol_excess (n : nat) (tr : list (@triplet CR)) (b x : vec) (rtol : R) : option R :=
  lift2 Rminus (norm n (apply (minus b (mat_vec tr x)))) (lift2 Rmult (Some rtol) (norm n (apply b))).

(** base.py:468-477: messages of the process with global rank [rank] *)
Definition check_conv_manual (rank : nat) (excess : option R) : list lvl :=
  if Nat.eqb rank 0 then [if positive excess then Warning else Debug] else [].
End Check.

(** petsc4py/solvers.py:45-70, given INFOG(1) *)
Definition check_conv (rank : nat) (code : Z) : list lvl :=
  if Nat.eqb rank 0 then [if (code =? 0)%Z then Debug else if (code <? 0)%Z then Error else Warning] else [].

(** petsc4py/solvers.py:10 and 87-102: INFO(26) and INFOG(31) are in millions of
    bytes *)
Definition BYTES_TO_GB : Z := 1073741274.
Definition in_GB (mb : Z) : R := (IZR mb * 1000000 / IZR BYTES_TO_GB)%R.
Definition check_mem_use (rank : nat) : list lvl := Debug :: if Nat.eqb rank 0 then [Debug] else [].

(** What a call of MUMPS leaves behind. *)
Record outcome := mkOut { o_apply : vec -> vec; o_code : Z; o_mem : Z }.

(** The meta information; [None] is the empty dictionary of a cached point. *)
Record meta := mkMeta { exit_code : Z; mem_tot : R; manual_excess : option R }.

(** [-G.imag / np.pi < 0.0] *)
Definition negative (g : num) : bool :=
  match g with Some z => if Rlt_dec (- Im z / PI) 0 then true else false | None => false end.

(** petsc4py/solvers.py:150-235 on the process with rank [rank] of all and
    [brank] of its brigade, for the system of size [n] (at least one row) and the
    default rtol: value, meta information, messages and results directory.  The
    messages about the assembly are left out. *)
Definition solve_point (rank brank : nat) (key : string) (n : nat) (tr : list (@triplet CR)) (b : vec) (rtol : R) (o : outcome)
    (d : option (dir num)) : result (num * option meta) * list lvl * option (dir num) :=
  match pre_solve (fun _ : unit => key) d tt with
  | Err x => (Err x, [], d)
  | Ok (Some v) => (Ok (v, None), [], d)
  | Ok None =>
      let x := o_apply o b in
      let excess := tol_excess (o_apply o) n tr b x rtol in
      let logs := check_conv_manual rank excess ++ check_conv rank (o_code o) ++ check_mem_use rank in
      let g := x (n - 1)%nat in
      let '(l, d') := if Nat.eqb brank 0
                      then post_solve (fun _ : unit => key) negative d tt g
                      else (false, d) in
      (Ok (g, Some (mkMeta (o_code o) (in_GB (o_mem o)) excess)), logs ++ (if l then [Error] else []), d')
  end.
