(** ggce/executors/solvers.py:193-450 - the linear algebra of SparseSolver and
    DenseSolver.  Caching (pre/post solve) is in Checkpoint.v.  Arithmetic is
    exact; the complex64 rounding of the code is not modelled. *)
From Coq Require Import String ZArith List Bool.
From Verif Require Import Base NdArray Config Model Space Render Term Equation System Ring Coef.
Import ListNotations.
Open Scope list_scope.
Open Scope Z_scope.

Definition lookup {A} (d : sdict A) (k : string) : result A :=
  match sget k d with Some v => Ok v | None => Err KeyError end.

(** [self._system.equations[n]] *)
Definition equations_at {T} (s : system T) (n : Z) : result (list (equation T)) :=
  match assocZ n (s_eqs s) with Some es => Ok es | None => Err KeyError end.

(** [np.sum(self._system.model.phonon_number)] *)
Definition total_bosons {T} (s : system T) : Z := sumZ (m_pn (s_model s)).

Section Sparse.
Context {T : Type} {K : cring}.
Variable e : env T K.

(** solvers.py:252-255: [row_dict[jj] += c], or insert on KeyError *)
Fixpoint dadd (j : nat) (c : K) (d : list (nat * K)) : list (nat * K) :=
  match d with
  | [] => [(j, c)]
  | (j', c') :: r => if Nat.eqb j j' then (j', kadd c' c) :: r else (j', c') :: dadd j c r
  end.

Definition triplet := (nat * nat * K)%type.

(** solvers.py:245-259: the entries of one equation *)
Definition sparse_row (basis : sdict nat) (q : equation T) : result (list triplet) :=
  i <- lookup basis (tid (e_index q)) ;;
  d <- foldM (fun d t => j <- lookup basis (tid t) ;; Ok (dadd j (coefficient e t) d))
             (e_terms q ++ [e_index q]) [] ;;
  Ok (map (fun p => (i, fst p, snd p)) d).

(** solvers.py:219-266 [_sparse_matrix_from_equations]; the three lists are
    kept together. *)
Definition sparse_matrix (basis : sdict nat) (s : system T) : result (list triplet) :=
  ls <- mapM (fun n => es <- equations_at s n ;; rs <- mapM (sparse_row basis) es ;; Ok (concat rs))
             (range 0 (total_bosons s + 1)) ;;
  Ok (concat ls).

(** coo_matrix without a shape: one more than the largest index; without
    entries it raises ValueError. *)
Definition coo_dim (l : list nat) : result nat :=
  match l with [] => Err ValueError | _ => Ok (S (lmax l)) end.

(** A sparse matrix with its shape. *)
Record coo := mkCoo { c_rows : nat; c_cols : nat; c_ent : list triplet }.

Definition coo_matrix (l : list triplet) : result coo :=
  r <- coo_dim (map (fun p => fst (fst p)) l) ;;
  c <- coo_dim (map (fun p => snd (fst p)) l) ;;
  Ok (mkCoo r c l).

(** solvers.py:268-316 [_scaffold] *)
Definition scaffold (basis : sdict nat) (s : system T) : result (coo * coo) :=
  tr <- sparse_matrix basis s ;;
  X <- coo_matrix tr ;;
  g <- lookup basis "{G}[0.0]" ;;
  es <- equations_at s 0 ;;
  match es with
  | [] => Err IndexError
  | q :: _ => v <- coo_matrix [(g, 0%nat, bias e q)] ;; Ok (X, v)
  end.

(** [spsolve]: raises ValueError unless the matrix is square and fits the
    right-hand side; otherwise the library routine [spsolve] is an oracle
    returning a vector. *)
Variable spsolve : coo -> coo -> nat -> K.

(** solvers.py:318-347 [solve], without the cache *)
Definition sparse_solve (s : system T) : result K :=
  let basis := full_basis s in
  ' (X, v) <- scaffold basis s ;;
  _ <- guard (Nat.eqb (c_rows X) (c_cols X) && Nat.eqb (c_rows v) (c_rows X)) ValueError ;;
  g <- lookup basis "{G}[0.0]" ;;
  Ok (spsolve X v g).

End Sparse.

Section Dense.
Context {T : Type} {F : cfield}.
Variable e : env T F.

(** A dense matrix: numbers of rows and columns and its entries. *)
Record mat := mkMat { d_rows : nat; d_cols : nat; d_at : nat -> nat -> F }.

Definition mzero (r c : nat) : mat := mkMat r c (fun _ _ => k0).

(** [A[i, j] += c]; numpy raises IndexError outside the matrix *)
Definition madd (A : mat) (i j : nat) (c : F) : result mat :=
  _ <- guard (Nat.ltb i (d_rows A) && Nat.ltb j (d_cols A)) IndexError ;;
  Ok (mkMat (d_rows A) (d_cols A)
        (fun i' j' => if Nat.eqb i' i && Nat.eqb j' j then kadd (d_at A i' j') c else d_at A i' j')).

Definition basis_at (b : list (Z * sdict nat)) (n : Z) : result (sdict nat) :=
  match assocZ n b with Some d => Ok d | None => Err KeyError end.

(** solvers.py:386-394: one equation *)
Definition fill_row (s : system T) (n shift : Z) (bn bm : sdict nat) (A : mat) (q : equation T) : result mat :=
  i <- lookup bn (tid (e_index q)) ;;
  foldM (fun A t =>
           if negb (total (cfg (t_cfg t)) =? n + shift) then Ok A
           else j <- lookup bm (tid t) ;; madd A i j (coefficient e t)) (e_terms q) A.

(** solvers.py:375-396 [_fill_matrix] *)
Definition fill_matrix (s : system T) (n shift : Z) : result mat :=
  es <- equations_at s n ;;
  bn <- basis_at (local_basis s) n ;;
  bm <- basis_at (local_basis s) (n + shift) ;;
  foldM (fill_row s n shift bn bm) es (mzero (List.length bn) (List.length bm)).

(** solvers.py:398-402 *)
Definition get_alpha (s : system T) (n : Z) : result mat := fill_matrix s n (-1).
Definition get_beta (s : system T) (n : Z) : result mat := fill_matrix s n 1.

(** numpy [A @ B]: raises ValueError when the inner dimensions differ *)
Definition matmul (A B : mat) : result mat :=
  _ <- guard (Nat.eqb (d_cols A) (d_rows B)) ValueError ;;
  Ok (mkMat (d_rows A) (d_cols B)
        (fun i j => ksum (map (fun l => kmul (d_at A i l) (d_at B l j)) (seq 0 (d_cols A))))).

(** [np.eye(r, c) - A]; shapes that differ would broadcast or raise, here they
    raise ValueError *)
Definition eye_minus (r c : nat) (A : mat) : result mat :=
  _ <- guard (Nat.eqb r (d_rows A) && Nat.eqb c (d_cols A)) ValueError ;;
  Ok (mkMat r c (fun i j => ksub (if Nat.eqb i j then k1 else k0) (d_at A i j))).

(** scipy.linalg.solve: X square and of the height of B, else ValueError; the
    solution is an oracle. *)
Variable lsolve : mat -> mat -> nat -> nat -> F.
Definition linalg_solve (X B : mat) : result mat :=
  _ <- guard (Nat.eqb (d_rows X) (d_cols X) && Nat.eqb (d_rows X) (d_rows B)) ValueError ;;
  Ok (mkMat (d_cols X) (d_cols B) (lsolve X B)).

(** solvers.py:436-446: one step of the recursion *)
Definition dense_step (s : system T) (R : mat) (n : Z) : result mat :=
  beta <- get_beta s n ;;
  alpha <- get_alpha s n ;;
  bR <- matmul beta R ;;
  X <- eye_minus (d_rows beta) (d_cols R) bR ;;
  linalg_solve X alpha.

(** solvers.py:424-434: the loop over n = total_phonons .. 1 *)
Definition dense_R (s : system T) : result mat :=
  let N := total_bosons s in
  R <- get_alpha s N ;;
  foldM (dense_step s) (rev (range 1 N)) R.

(** solvers.py:404-459 [solve], without the cache.  With total_phonons = 0 the
    variable R is unbound; [squeeze] of a 1x1 array.  Division by zero gives
    inf/nan in numpy; here [kinv 0] is unspecified. *)
Definition dense_solve (s : system T) : result F :=
  R <- (if 0 <? total_bosons s then dense_R s else Err AttributeError) ;;
  beta0 <- get_beta s 0 ;;
  bR <- matmul beta0 R ;;
  Ok (kmul (G0 e) (kinv (ksub k1 (d_at bR 0%nat 0%nat)))).

End Dense.
Arguments mat : clear implicits.
Arguments coo : clear implicits.
