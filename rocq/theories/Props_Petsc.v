(** Property theorems C27, C28: the distributed matrix, and matrices on disk. *)
From Coq Require Import String ZArith List Bool Lia Permutation Qcanon QArith Qabs.
From Verif Require Import Base NdArray Config Spec Model Space Render Term Equation System Spec_engine Ring Coef Spec_eom Solvers Spec_solve LinSolve Props_Engine Props_Solve Utils Mpi Spec_mpi Keys Petsc Spec_petsc.
From Verif Require Mpi_proofs Keys_proofs Petsc_proofs Disk_proofs Sysok_proofs Sparse_proofs.
Import ListNotations.
Open Scope list_scope.
Open Scope nat_scope.

(** C27.  For every distribution of the rows: assembly succeeds on every rank,
    rank r holds exactly the entries of its rows, and together the ranks hold
    every entry once. *)
Theorem C27_assembly : forall (K : cring) N sizes (tr : list (@triplet K)), NoDup (map fst tr) ->
  (forall i j c, In (i, j, c) tr -> i < N /\ j < N) -> list_sum sizes = N ->
  exists locals, mapM (fun r => assemble N (fst r) (snd r) tr) (ranges 0 sizes) = Ok locals /\
    List.length locals = List.length sizes /\ Permutation (List.concat locals) tr /\
    forall r local, nth_error locals r = Some local ->
      forall i j c, In (i, j, c) local <-> In (i, j, c) tr /\ list_sum (firstn r sizes) <= i < list_sum (firstn (S r) sizes).
Proof.
  intros K N sizes tr ND RG SZ. eexists. split; [apply Petsc_proofs.assembled_all; [exact ND|]|].
  { intros [[i j] c] H. apply (RG i j c H). }
  split; [rewrite map_length; apply Petsc_proofs.ranges_length|]. split.
  - rewrite Petsc_proofs.split_perm. rewrite (Mpi_proofs.filter_id _ _ tr); [reflexivity|].
    intros [[i j] c] H. apply Petsc_proofs.owned_iff. cbn. change (Mpi_proofs.sumn sizes) with (list_sum sizes). rewrite SZ. split; [lia|apply (RG i j c H)].
  - intros r local EL i j c. rewrite nth_error_map in EL.
    destruct (Nat.lt_ge_cases r (List.length sizes)) as [L|L].
    2:{ rewrite (proj2 (nth_error_None _ _)) in EL by (rewrite Petsc_proofs.ranges_length; exact L). discriminate. }
    rewrite Petsc_proofs.ranges_nth in EL by exact L. cbn [option_map fst snd] in EL. injection EL as <-.
    rewrite filter_In, Petsc_proofs.owned_iff. reflexivity.
Qed.
Print Assumptions C27_assembly.

(** The preallocated numbers are the numbers of entries, for each owned row,
    with column inside and outside the owned range. *)
Theorem C27_prealloc : forall (K : cring) lo hi (tr : list (@triplet K)),
  List.length (fst (prealloc lo hi tr)) = hi - lo /\ List.length (snd (prealloc lo hi tr)) = hi - lo /\
  forall i, lo <= i < hi ->
    nth (i - lo) (fst (prealloc lo hi tr)) 0 = row_count (fun j => (lo <=? j) && (j <? hi)) i tr /\
    nth (i - lo) (snd (prealloc lo hi tr)) 0 = row_count (fun j => negb ((lo <=? j) && (j <? hi))) i tr.
Proof. intros K lo hi tr. exact (Petsc_proofs.prealloc_spec lo hi tr). Qed.
Print Assumptions C27_prealloc.

(** The value: for every number of ranks up to the number of unknowns it is the
    value of SparseSolver. *)
Theorem C27_value : forall T (K : cring) (e : env T K) m ae ord s mumps sp p X v, good_model m ae ->
  (forall k l, Permutation (ord k l) l) -> prime_system ord m = Ok s -> mumps_ok mumps -> spsolve_ok sp ->
  scaffold e (full_basis s) s = Ok (X, v) -> nonsingular X -> 1 <= p <= List.length (all_eqs s) ->
  exists g, mass_solve mumps e s p = Ok g /\ sparse_solve e sp s = Ok g /\
    exists u, proper u /\ solution e s u /\ g_value s u g.
Proof.
  intros T K e m ae ord s mumps sp p X v G P E MO SO ES NS HP. destruct (Sysok_proofs.sys_ok_good m ae ord s G P E) as [O _].
  destruct (Disk_proofs.mass_value e s O mumps sp p X v MO SO HP ES NS) as [g [E1 E2]]. exists g. split; [exact E1|]. split; [exact E2|].
  destruct (C22_matrix T K e m ae ord s G P E) as [tr [ES' _]]. rewrite ES in ES'. injection ES' as EX EV.
  destruct (C22_sparse_result T K e m ae ord s sp X v G P E ES) as [g' [Eg [U _]]].
  - apply SO; [subst X; reflexivity|subst X v; reflexivity|exact NS].
  - rewrite E2 in Eg. injection Eg as <-. exact U.
Qed.
Print Assumptions C27_value.

(** With more ranks than unknowns the last rank owns no row and reading its
    last entry fails. *)
Theorem C27_too_many_ranks : forall T (K : cring) (e : env T K) m ae ord s mumps p, good_model m ae ->
  (forall k l, Permutation (ord k l) l) -> prime_system ord m = Ok s -> List.length (all_eqs s) < p ->
  mass_solve mumps e s p = Err IndexError.
Proof.
  intros T K e m ae ord s mumps p G P E HP. destruct (Sysok_proofs.sys_ok_good m ae ord s G P E) as [O _].
  exact (Disk_proofs.mass_too_many e s O mumps p HP).
Qed.
Print Assumptions C27_too_many_ranks.

(** Witnesses. *)
Definition gauss_mumps (n : nat) (tr : list (@triplet Qcf)) (b : nat -> Qcf) : nat -> Qcf :=
  gauss_sparse (F := Qcf) Qc_eq_dec (mkCoo n n tr) (mkCoo n 1 (map (fun i => (i, 0, b i)) (seq 0 n))).

Lemma column_entry : forall (b : nat -> Qcf) n a i, a <= i < a + n ->
  entry (K := Qcf) (map (fun i => (i, 0, b i)) (seq a n)) i 0 = b i.
Proof.
  intros b n. unfold entry. induction n as [|n IH]; intros a i H; [lia|]. cbn [seq map filter fst snd]. rewrite andb_true_r.
  destruct (Nat.eqb_spec a i) as [->|N].
  - cbn [map snd]. rewrite Sparse_proofs.ksum_cons.
    assert (Z : filter (fun p : nat * nat * Qcf => Nat.eqb (fst (fst p)) i && Nat.eqb (snd (fst p)) 0) (map (fun i => (i, 0, b i)) (seq (S i) n)) = []).
    { assert (Q : forall m c, i < c -> filter (fun p : nat * nat * Qcf => Nat.eqb (fst (fst p)) i && Nat.eqb (snd (fst p)) 0) (map (fun i => (i, 0, b i)) (seq c m)) = []).
      { induction m as [|m IHm]; intros c C; [reflexivity|]. cbn [seq map filter fst snd]. destruct (Nat.eqb_spec c i); [lia|]. cbn [andb]. apply IHm. lia. }
      apply Q. lia. }
    rewrite Z. apply Qcplus_0_r.
  - apply IH. lia.
Qed.

Theorem mumps_assumption_satisfiable : mumps_ok gauss_mumps.
Proof.
  intros n tr b NS i Hi. pose proof (gauss_spsolve_ok (F := Qcf) Qc_eq_dec (mkCoo n n tr) (mkCoo n 1 (map (fun i => (i, 0, b i)) (seq 0 n))) eq_refl eq_refl NS i Hi) as H.
  cbn [c_ent] in H. rewrite column_entry in H by lia. exact H.
Qed.
Print Assumptions mumps_assumption_satisfiable.

Example C27_nonvacuous : exists s X v, good_model p_model 1 /\ prime_system id_ord p_model = Ok s /\ List.length (all_eqs s) = 4 /\
  scaffold p_env (full_basis s) s = Ok (X, v) /\ nonsingular X /\
  exists g, (forall p, 1 <= p <= 4 -> mass_solve gauss_mumps p_env s p = Ok g) /\ mass_solve gauss_mumps p_env s 5 = Err IndexError.
Proof.
  destruct (sys_ex id_ord p_model (fun s => regular p_env s && Nat.eqb (List.length (all_eqs s)) 4)) as [s [E H]]; [vm_compute; reflexivity|].
  apply andb_true_iff in H. destruct H as [H1 H2]. apply Nat.eqb_eq in H2. destruct (regular_ok _ _ H1) as [X [v [ES NS]]].
  exists s, X, v. split; [exact p_good|]. split; [exact E|]. split; [exact H2|]. split; [exact ES|]. split; [exact NS|].
  pose proof (fun p => C27_value Z Qcf p_env p_model 1 id_ord s gauss_mumps (gauss_sparse (F := Qcf) Qc_eq_dec) p X v p_good id_perm E
     mumps_assumption_satisfiable (gauss_spsolve_ok (F := Qcf) Qc_eq_dec) ES NS) as V. rewrite H2 in V.
  destruct (V 1 ltac:(lia)) as [g [_ [Eg _]]]. exists g. split.
  - intros p Hp. destruct (V p Hp) as [g' [Em [Eg' _]]]. congruence.
  - apply (C27_too_many_ranks Z Qcf p_env p_model 1%Z id_ord s gauss_mumps 5 p_good id_perm E). rewrite H2. lia.
Qed.

(** The documented use on any number of ranks fails for more ranks than
    unknowns. *)
Theorem C27_ranks_refuted : exists s p g, prime_system id_ord p_model = Ok s /\ 1 <= p /\
  sparse_solve p_env (gauss_sparse (F := Qcf) Qc_eq_dec) s = Ok g /\ mass_solve gauss_mumps p_env s p = Err IndexError.
Proof.
  destruct C27_nonvacuous as [s [X [v [G [E [L [ES [NS [g [V Er]]]]]]]]]].
  destruct (C27_value Z Qcf p_env p_model 1 id_ord s gauss_mumps (gauss_sparse (F := Qcf) Qc_eq_dec) 1 X v p_good id_perm E
     mumps_assumption_satisfiable (gauss_spsolve_ok (F := Qcf) Qc_eq_dec) ES NS) as [g' [_ [Eg _]]]; [lia|].
  exists s, 5, g'. split; [exact E|]. split; [lia|]. split; [exact Eg|exact Er].
Qed.
Print Assumptions C27_ranks_refuted.

(** Without distinct positions the two solvers would differ: PETSc keeps the
    last value, scipy adds. *)
Theorem C27_duplicates_refuted : exists (tr : list (@triplet Qcf)) m, assemble 1 0 1 tr = Ok m /\ entry m 0 0 <> entry tr 0 0.
Proof.
  exists [(0, 0, Props_Solve.q 1 1); (0, 0, Props_Solve.q 2 1)], [(0, 0, Props_Solve.q 2 1)]. split; [vm_compute; reflexivity|]. vm_compute. discriminate.
Qed.
Print Assumptions C27_duplicates_refuted.

(** C28.  After preparing the matrices of a grid (with any interleaving of the
    ranks) every point of the grid read back gives the size, entries and
    right-hand side built on the fly; for points whose file names coincide only
    if their matrices do. *)
Theorem C28_disk : forall (K : cring) T (fmt : T -> string) (build : T * T -> result (list (@triplet K))) g0_at eta (GO : gridops T)
  N W bs k w ks ws order d, brigaded W bs -> brigade_grid GO W bs k w = Ok (ks, ws) ->
  (forall l, Permutation (order l) l) -> clean N d ->
  (forall p, In p (list_prod ks ws) -> exists tr, build p = Ok tr /\ has_rows N tr) ->
  (forall p q, In p (list_prod ks ws) -> In q (list_prod ks ws) -> mname fmt eta p = mname fmt eta q -> build p = build q) ->
  exists d', prepare_greens fmt build eta order GO W bs (Some d) k w = Ok (Some d') /\ clean N d' /\
    forall choose basis p, picks choose -> List.length basis = N -> In p (list_prod ks ws) ->
      from_disk fmt g0_at eta choose d' p = on_the_fly build g0_at basis p.
Proof.
  intros K T fmt build g0_at eta GO N W bs k w ks ws order d HB EG HO C B I.
  destruct (Disk_proofs.all_jobs GO W bs k w ks ws HB EG) as [per [EP HP]]. unfold prepare_greens. rewrite EP. cbn [bind].
  assert (J : forall p, In p (order (List.concat per)) <-> In p (list_prod ks ws)).
  { intros p. rewrite <- (HP p). split; apply Permutation_in; [apply HO|symmetry; apply HO]. }
  destruct (Disk_proofs.prepare_inv fmt build eta N (order (List.concat per)) d) as [d' [E [C' [V _]]]].
  - intros p H. apply B. apply J. exact H.
  - intros p q H H'. apply I; apply J; assumption.
  - exact C.
  - exists d'. split; [exact E|]. split; [exact C'|]. intros choose basis p PC L H.
    destruct (B p H) as [tr [EB _]]. apply (Disk_proofs.disk_point fmt build g0_at eta N choose d' p tr basis PC C' EB); [|exact L].
    apply V; [apply J; exact H|exact EB].
Qed.
Print Assumptions C28_disk.

(** Grids of numbers that are equal or more than 1e-10 apart. *)
Definition separated (l : list Q) : Prop := forall x y, In x l -> In y l -> x = y \/ ((1 # 10000000000) < Qabs (x - y))%Q.
Definition Qgrid : gridops Q := mkGrid Q Qplus Qminus (fun z x => Qmult (inject_Z z) x).

Lemma separated_names : forall ks ws eta p q, separated ks -> separated ws -> In p (list_prod ks ws) -> In q (list_prod ks ws) ->
  mname fmt10 eta p = mname fmt10 eta q -> p = q.
Proof.
  intros ks ws eta [a b] [a' b'] SK SW HP HQ E. apply in_prod_iff in HP. apply in_prod_iff in HQ. destruct HP as [A B], HQ as [A' B'].
  unfold mname in E. cbn [fst snd] in E. apply Keys_proofs.matrix_name_inj in E. destruct E as [E1 [E2 _]].
  apply Keys_proofs.fmt10_close in E1. apply Keys_proofs.fmt10_close in E2.
  destruct (SK a a' A A') as [->|X]; [|exfalso; exact (Qlt_not_le _ _ X E1)].
  destruct (SW b b' B B') as [->|X]; [|exfalso; exact (Qlt_not_le _ _ X E2)]. reflexivity.
Qed.

(** The whole run: for a system, a separated grid and a directory without
    pickles, reading gives the same Green's functions as building, for any
    reader with the same number of brigades. *)
Theorem C28_greens : forall (K : cring) T (env_at : Q * Q -> env T K) eta m ae ord s W bs k w ks ws order d W' bs' rank choose mumps isnan,
  good_model m ae -> (forall k l, Permutation (ord k l) l) -> prime_system ord m = Ok s ->
  brigaded W bs -> brigade_grid Qgrid W bs k w = Ok (ks, ws) -> separated ks -> separated ws -> 
  (forall l, Permutation (order l) l) -> (forall x v, In (x, v) d -> contains ".pkl" x = false) ->
  brigaded W' bs' -> brigades W' bs' = brigades W bs -> (forall r p, picks (choose r p)) ->
  let build p := sparse_matrix (env_at p) (full_basis s) s in
  let g0_at p := G0 (env_at p) in
  let b := Z.to_nat (brigade_size W' bs') in
  exists d', prepare_greens fmt10 build eta order Qgrid W bs (Some d) k w = Ok (Some d') /\
    mass_greens Qgrid isnan (fun r p => x <- solve_with mumps b (from_disk fmt10 g0_at eta (choose r p) d' p) ;; Ok (x, tt)) W' bs' rank k w =
    mass_greens Qgrid isnan (fun r p => x <- mass_solve mumps (env_at p) s b ;; Ok (x, tt)) W' bs' rank k w.
Proof.
  intros K T env_at eta m ae ord s W bs k w ks ws order d W' bs' rank choose mumps isnan G P E HB EG SK SW HO HD HB' EB PC build g0_at b.
  destruct (Sysok_proofs.sys_ok_good m ae ord s G P E) as [O _].
  destruct (C28_disk K Q fmt10 build g0_at eta Qgrid (Sparse_proofs.NN s) W bs k w ks ws order d HB EG HO) as [d' [EP [_ V]]].
  - intros x v H1 H2. exfalso. clear -H1 H2 HD. induction d as [|[y u] r IH]; [discriminate|]. cbn [dget] in H1.
    destruct (String.eqb_spec y x) as [->|N]; [rewrite (HD x u (or_introl eq_refl)) in H2; discriminate|].
    apply IH; [|exact H1]. intros z t I. apply (HD z t). right. exact I.
  - intros p _. exists (Sparse_proofs.triplets (env_at p) s). split; [apply (Sparse_proofs.matrix_ok (env_at p) s O)|apply (Disk_proofs.trip_rows (env_at p) s O)].
  - intros p q HP HQ EN. rewrite (separated_names ks ws eta p q SK SW HP HQ EN). reflexivity.
  - exists d'. split; [exact EP|]. apply Disk_proofs.mass_greens_ext; [exact HB'|]. intros ks' ws' r p EG' Hr Hp.
    assert (EG2 : brigade_grid Qgrid W' bs' k w = Ok (ks, ws)).
    { rewrite <- EG. unfold brigade_grid. rewrite EB. reflexivity. }
    rewrite EG2 in EG'. injection EG' as <- <-.
    rewrite (V (choose r p) (full_basis s) p (PC r p) (Disk_proofs.basis_len s O) Hp). unfold on_the_fly, mass_solve, solve_with, build.
    rewrite (Sparse_proofs.matrix_ok (env_at p) s O). reflexivity.
Qed.
Print Assumptions C28_greens.

(** Without a directory nothing can be prepared. *)
Theorem C28_no_directory : forall (K : cring) T (fmt : T -> string) (build : T * T -> result (list (@triplet K))) eta (GO : gridops T)
  W bs k w ks ws order, brigaded W bs -> brigade_grid GO W bs k w = Ok (ks, ws) -> list_prod ks ws <> [] ->
  (forall l, Permutation (order l) l) -> (forall p, exists tr, build p = Ok tr) ->
  prepare_greens fmt build eta order GO W bs None k w = Err TypeError.
Proof.
  intros K T fmt build eta GO W bs k w ks ws order HB EG NE HO B.
  destruct (Disk_proofs.all_jobs GO W bs k w ks ws HB EG) as [per [EP HP]]. unfold prepare_greens. rewrite EP. cbn [bind].
  destruct (order (List.concat per)) as [|p l] eqn:EO.
  - exfalso. destruct (list_prod ks ws) as [|p l] eqn:EL; [congruence|]. pose proof (HO (List.concat per)) as H. rewrite EO in H.
    apply Permutation_nil in H. pose proof (proj2 (HP p)) as X. unfold points in X. rewrite EL, H in X. destruct X. left. reflexivity.
  - cbn [foldM]. unfold prepare_system at 1. destruct (B p) as [tr ->]. reflexivity.
Qed.
Print Assumptions C28_no_directory.

Lemma prefix_split : forall s n, String.prefix s n = true -> exists b, n = (s ++ b)%string.
Proof.
  induction s as [|c s IH]; intros n H; [exists n; reflexivity|]. destruct n as [|c' n]; [discriminate H|]. cbn [String.prefix] in H.
  destruct (Ascii.ascii_dec c c') as [->|]; [|discriminate H]. destruct (IH n H) as [b ->]. exists b. reflexivity.
Qed.
Lemma prefix_app : forall s b, String.prefix s (s ++ b) = true.
Proof. induction s as [|c s IH]; intros b; [destruct b; reflexivity|]. cbn [String.append String.prefix]. destruct (Ascii.ascii_dec c c) as [_|N]; [apply IH|contradiction]. Qed.

(** What is read from any directory, also one with files of other kinds: the
    size comes from any file with ".pkl" in its name. *)
Theorem C28_files : forall (K : cring) T (fmt : T -> string) (g0_at : T * T -> K) eta choose (d : mdir K) p, NoDup (map fst d) -> picks choose ->
  ((forall n c, file d n c -> ~ named_pkl n) -> from_disk fmt g0_at eta choose d p = Err ValueError) /\
  ((exists n c, file d n c /\ named_pkl n) -> exists x r, named_pkl x /\ reads d x (mname fmt eta p) r /\
     from_disk fmt g0_at eta choose d p = match r with Ok (N, tr) => Ok (N, tr, g0_at p) | Err z => Err z end).
Proof.
  intros K T fmt g0_at eta choose d p ND PC.
  assert (CS : forall s n, contains s n = true <-> exists a b, n = (a ++ s ++ b)%string).
  { intros s n. split.
    - induction n as [|c n IH]; cbn [contains]; intros H; apply orb_true_iff in H; destruct H as [H|H].
      + apply prefix_split in H. destruct H as [b ->]. exists ""%string, b. reflexivity.
      + discriminate H.
      + apply prefix_split in H. destruct H as [b ->]. exists ""%string, b. reflexivity.
      + destruct (IH H) as [a [b ->]]. exists (String c a), b. reflexivity.
    - intros [a [b ->]]. apply Disk_proofs.contains_app. destruct s as [|c s]; [destruct b; reflexivity|]. cbn [String.append contains]. apply orb_true_iff. left. exact (prefix_app (String c s) b). }
  assert (DG : forall n c, dget n d = Some c <-> file d n c).
  { unfold file. clear -ND. induction d as [|[m x] r IH]; intros n c; cbn [dget]; [split; [discriminate|intros []]|]. cbn [map fst] in ND. apply NoDup_cons_iff in ND. destruct ND as [NI ND].
    destruct (String.eqb_spec m n) as [->|NE].
    - split; [intros H; injection H as ->; left; reflexivity|]. intros [H|H]; [injection H as ->; reflexivity|]. exfalso. apply NI. apply (in_map fst) in H. exact H.
    - rewrite (IH ND). split; [intros H; right; exact H|]. intros [H|H]; [injection H as -> _; contradiction|exact H]. }
  assert (FL : forall n, In n (filter (contains ".pkl") (map fst d)) <-> named_pkl n /\ exists c, file d n c).
  { intros n. rewrite filter_In, CS, in_map_iff. unfold named_pkl, file. split.
    - intros [[[m x] [E H]] Q]. cbn in E. subst. split; [exact Q|exists x; exact H].
    - intros [Q [c H]]. split; [exists (n, c); split; [reflexivity|exact H]|exact Q]. }
  unfold from_disk, matr_size. split.
  - intros H. destruct (filter (contains ".pkl") (map fst d)) as [|x l] eqn:E; [reflexivity|]. exfalso.
    destruct (proj1 (FL x) (or_introl eq_refl)) as [Q [c F]]. exact (H x c F Q).
  - intros [n0 [c0 [F0 Q0]]]. destruct (filter (contains ".pkl") (map fst d)) as [|y l] eqn:E; [exfalso; exact (proj2 (FL n0) (conj Q0 (ex_intro _ c0 F0)))|].
    set (x := choose (y :: l)). destruct (proj1 (FL x) (PC (y :: l) ltac:(discriminate))) as [Q [c F]]. exists x.
    unfold load_matrix. rewrite (proj2 (DG x c) F). destruct c as [tr| |]; cbn [bind].
    + destruct tr as [|t0 tr0]; cbn [map]; [cbn [bind]; exists (Err ValueError); split; [exact Q|]; split; [apply sample_empty; exact F|reflexivity]|].
      set (tr := t0 :: tr0) in *. change (row_of t0 :: map row_of tr0) with (map row_of tr). set (N := S (Config.lmax (map row_of tr))).
      assert (SZ : size_of tr N).
      { split.
        - intros t Ht. apply (in_map row_of) in Ht. apply Config_proofs.lmax_ge in Ht. unfold N, row_of in *. lia.
        - assert (NE : map row_of tr <> []) by discriminate. apply Config_proofs.lmax_In in NE. apply in_map_iff in NE. destruct NE as [t [Et Ht]]. exists t. split; [exact Ht|]. unfold N. rewrite <- Et. reflexivity. }
      cbn [bind]. destruct (dget (mname fmt eta p) d) as [[tr'| |]|] eqn:D; cbn [bind].
      * apply DG in D. exists (Ok (N, tr')). split; [exact Q|]. split; [exact (read_matrix d x _ tr N tr' F SZ D)|reflexivity].
      * apply DG in D. exists (Err ValueError). split; [exact Q|]. split; [exact (read_other d x _ tr N F SZ D)|reflexivity].
      * apply DG in D. exists (Err EOFError). split; [exact Q|]. split; [exact (read_torn d x _ tr N F SZ D)|reflexivity].
      * exists (Err FileNotFoundError). split; [exact Q|]. split; [|reflexivity]. apply (read_missing d x _ tr N F SZ). intros c Fc. apply DG in Fc. congruence.
    + exists (Err ValueError). split; [exact Q|]. split; [apply sample_other; exact F|reflexivity].
    + exists (Err EOFError). split; [exact Q|]. split; [apply sample_torn; exact F|reflexivity].
Qed.
Print Assumptions C28_files.

Example C28_files_nonvacuous : exists (d : mdir Zring) tr, NoDup (map fst d) /\ picks (fun l => hd ""%string l) /\ named_pkl "a.pkl" /\
  file d "a.pkl" (Matrix tr) /\ file d "b.pkl" Torn /\ file d "c.pkl" Other /\
  reads d "a.pkl" "a.pkl" (Ok (3, tr)) /\ reads d "a.pkl" "b.pkl" (Err EOFError) /\ reads d "a.pkl" "c.pkl" (Err ValueError) /\
  reads d "a.pkl" "d.pkl" (Err FileNotFoundError).
Proof.
  set (tr := [((0, 0), 1%Z); ((2, 1), 5%Z)] : list (@triplet Zring)).
  assert (SZ : size_of tr 3).
  { split; [|exists ((2, 1), 5%Z); split; [right; left; reflexivity|reflexivity]]. intros t [<-|[<-|[]]]; cbn; lia. }
  exists [("a.pkl", Matrix tr); ("b.pkl", Torn); ("c.pkl", Other)]%string, tr.
  assert (FA : file [("a.pkl", Matrix tr); ("b.pkl", Torn); ("c.pkl", Other)]%string "a.pkl" (Matrix tr)) by (left; reflexivity).
  split; [repeat constructor; cbn; intuition discriminate|]. split; [intros [|x l] H; [contradiction|left; reflexivity]|].
  split; [exists "a"%string, ""%string; reflexivity|]. split; [exact FA|]. split; [right; left; reflexivity|]. split; [right; right; left; reflexivity|].
  split; [exact (read_matrix _ _ _ tr 3 tr FA SZ FA)|]. split; [exact (read_torn _ _ _ tr 3 FA SZ (or_intror (or_introl eq_refl)))|].
  split; [exact (read_other _ _ _ tr 3 FA SZ (or_intror (or_intror (or_introl eq_refl))))|].
  apply (read_missing _ _ _ tr 3 FA SZ). intros c [H|[H|[H|[]]]]; discriminate H.
Qed.

(** Witness: a Holstein system whose first coefficient is w. *)
Definition w_env (p : Q * Q) : env Z Qcf := h_env (Q2Qc (snd p)) (Props_Solve.q 1 3).
Definition w_eta : Q := (5 # 1000)%Q.
Definition w_ks : list Q := [(0 # 1)%Q; (1 # 2)%Q].
Definition w_ws : list Q := [(1 # 4)%Q; (1 # 3)%Q].
Definition w_sep (l : list Q) : bool :=
  forallb (fun x => forallb (fun y => (Z.eqb (Qnum x) (Qnum y) && Pos.eqb (Qden x) (Qden y)) ||
    negb (Qle_bool (Qabs (x - y)) (1 # 10000000000))) l) l.
Lemma w_sep_ok : forall l, w_sep l = true -> separated l.
Proof.
  intros l H x y X Y. unfold w_sep in H. rewrite forallb_forall in H. specialize (H x X). rewrite forallb_forall in H. specialize (H y Y).
  apply orb_true_iff in H. destruct H as [H|H].
  - left. apply andb_true_iff in H. destruct H as [A B]. apply Z.eqb_eq in A. apply Pos.eqb_eq in B. destruct x, y. simpl in *. congruence.
  - right. apply negb_true_iff in H. apply Qnot_le_lt. intros L. apply Qle_bool_iff in L. congruence.
Qed.

Lemma dir_ex : forall (r : result (option (mdir Qcf))) f, match r with Ok (Some d) => f d | _ => false end = true -> exists d, r = Ok (Some d) /\ f d = true.
Proof. intros [[d|]|] f H; try discriminate. exists d. auto. Qed.
Definition names_are (l : list string) (d : mdir Qcf) : bool := if list_eq_dec string_dec (map fst d) l then true else false.
Definition size_is (n : nat) (r : result (nat * list (@triplet Qcf) * Qcf)) : bool := match r with Ok (m, _, _) => Nat.eqb m n | Err _ => false end.
Definition w_dir (s : system Z) (ws : list Q) (order : list (Q * Q) -> list (Q * Q)) (W : nat) (bs : option Z) : result (option (mdir Qcf)) :=
  prepare_greens fmt10 (fun p => sparse_matrix (w_env p) (full_basis s) s) w_eta order Qgrid W bs (Some []) (AList w_ks) (AList ws).

Definition w_names : list string :=
  ["matr_at_k_0.5000000000_w_0.3333333333_e_0.0050000000.pkl"; "matr_at_k_0.5000000000_w_0.2500000000_e_0.0050000000.pkl";
                  "matr_at_k_0.0000000000_w_0.3333333333_e_0.0050000000.pkl"; "matr_at_k_0.0000000000_w_0.2500000000_e_0.0050000000.pkl"]%string.

Example C28_nonvacuous : brigaded 2 (Some 1%Z) /\ brigade_grid Qgrid 2 (Some 1%Z) (AList w_ks) (AList w_ws) = Ok (w_ks, w_ws) /\
  separated w_ks /\ separated w_ws /\ good_model h_model 1 /\
  exists s d', prime_system id_ord h_model = Ok s /\
    prepare_greens fmt10 (fun p => sparse_matrix (w_env p) (full_basis s) s) w_eta (@rev _) Qgrid 2 (Some 1%Z) (Some []) (AList w_ks) (AList w_ws) = Ok (Some d') /\
    map fst d' = w_names.
Proof.
  split; [constructor; [lia|intros b E; injection E as <-; lia|reflexivity]|]. split; [vm_compute; reflexivity|].
  split; [apply w_sep_ok; vm_compute; reflexivity|]. split; [apply w_sep_ok; vm_compute; reflexivity|]. split; [exact h_good|].
  destruct (sys_ex id_ord h_model (fun s => match w_dir s w_ws (@rev _) 2 (Some 1%Z) with Ok (Some d') => names_are w_names d' | _ => false end)) as [s [E H]];
    [vm_compute; reflexivity|].
  apply dir_ex in H. destruct H as [d' [EP H]]. exists s, d'. split; [exact E|]. split; [exact EP|].
  unfold names_are in H. destruct (list_eq_dec string_dec (map fst d') w_names) as [X|X]; [exact X|discriminate H].
Qed.

(** Two points of the grid with the same rendering: the matrix of one is used
    for the other. *)
Theorem C28_collision_refuted : exists s d' p, prime_system id_ord h_model = Ok s /\
  let ws := [(0 # 1)%Q; (1 # 100000000000)%Q] in let build p := sparse_matrix (w_env p) (full_basis s) s in
  prepare_greens fmt10 build w_eta (fun l => l) Qgrid 1 None (Some []) (AList w_ks) (AList ws) = Ok (Some d') /\ In p (list_prod w_ks ws) /\
  from_disk fmt10 (fun p => G0 (w_env p)) w_eta (fun l => hd ""%string l) d' p <> on_the_fly build (fun p => G0 (w_env p)) (full_basis s) p.
Proof.
  pose (ws := [(0 # 1)%Q; (1 # 100000000000)%Q]).
  destruct (sys_ex id_ord h_model (fun s => let build p := sparse_matrix (w_env p) (full_basis s) s in
    match w_dir s ws (fun l => l) 1 None with
     | Ok (Some d') => match from_disk fmt10 (fun p => G0 (w_env p)) w_eta (fun l => hd ""%string l) d' (hd (0, 0)%Q (list_prod w_ks ws)),
           on_the_fly build (fun p => G0 (w_env p)) (full_basis s) (hd (0, 0)%Q (list_prod w_ks ws)) with
         | Ok (_, tr, _), Ok (_, tr', _) => negb (forallb (fun p => qb (snd (fst p)) (snd (snd p))) (combine tr tr'))
         | _, _ => false end
     | _ => false end)) as [s [E H]]; [vm_compute; reflexivity|].
  cbv zeta in H. apply dir_ex in H. destruct H as [d' [EP H]].
  exists s, d', (hd (0, 0)%Q (list_prod w_ks ws)). split; [exact E|]. cbv zeta. split; [exact EP|]. split; [left; reflexivity|].
  fold ws.
  intros EQ. rewrite EQ in H. destruct (on_the_fly _ _ _ _) as [[[n tr] g]|]; [|discriminate].
  apply negb_true_iff in H. rewrite <- not_true_iff_false in H. apply H. apply forallb_forall. intros [a b] I. cbn [fst snd].
  assert (a = b). { clear -I. induction tr as [|x r IH]; [destruct I|]. destruct I as [I|I]; [congruence|auto]. }
  subst b. unfold qb, Qc_eq_bool. destruct (Qc_eq_dec (snd a) (snd a)); congruence.
Qed.
Print Assumptions C28_collision_refuted.

(** A directory that also holds a matrix of another size: the size is read from
    a file chosen at random. *)
Theorem C28_other_size_refuted : exists (K : cring) (build : Q * Q -> result (list (@triplet K))) basis d d' choose p, picks choose /\
  prepare_greens fmt10 build w_eta (fun l => l) Qgrid 1 None (Some d) (AList [fst p]) (AList [snd p]) = Ok (Some d') /\
  from_disk fmt10 (fun _ => k0) w_eta choose d' p <> on_the_fly build (fun _ => k0) basis p.
Proof.
  pose (build := fun _ : Q * Q => Ok [(0, 0, Props_Solve.q 1 1)] : result (list (@triplet Qcf))).
  pose (d := [("matr_at_k_0.0000000000_w_7.0000000000_e_0.0050000000.pkl"%string, Matrix [(0, 0, Props_Solve.q 1 1); (1, 1, Props_Solve.q 1 1)])] : mdir Qcf).
  pose (choose := fun l : list string => hd ""%string l).
  destruct (dir_ex (prepare_greens fmt10 build w_eta (fun l => l) Qgrid 1 None (Some d) (AList [0%Q]) (AList [0%Q]))
    (fun d' => size_is 2 (from_disk fmt10 (fun _ => k0) w_eta choose d' (0%Q, 0%Q)))) as [d' [E H]]; [vm_compute; reflexivity|].
  exists Qcf, build, [("{G}[0.0]"%string, 0)], d, d', choose, (0%Q, 0%Q). split; [intros [|x l] X; [congruence|left; reflexivity]|].
  split; [exact E|]. intros EQ. rewrite EQ in H. discriminate H.
Qed.
Print Assumptions C28_other_size_refuted.

(** A reader with another number of brigades pads the grid differently and does
    not find its points. *)
Theorem C28_brigades_refuted : exists (K : cring) (build : Q * Q -> result (list (@triplet K))) d' W bs ks ws p k w,
  prepare_greens fmt10 build w_eta (fun l => l) Qgrid 1 None (Some []) k w = Ok (Some d') /\
  brigaded W bs /\ brigade_grid Qgrid W bs k w = Ok (ks, ws) /\ In p (list_prod ks ws) /\
  from_disk fmt10 (fun _ => k0) w_eta (fun l => hd ""%string l) d' p = Err FileNotFoundError.
Proof.
  pose (build := fun _ : Q * Q => Ok [(0, 0, Props_Solve.q 1 1)] : result (list (@triplet Qcf))).
  destruct (dir_ex (prepare_greens fmt10 build w_eta (fun l => l) Qgrid 1 None (Some []) (AList [(0 # 1)%Q]) (AList [(1 # 1)%Q; (2 # 1)%Q; (3 # 1)%Q]))
    (fun d' => match from_disk fmt10 (fun _ => k0) w_eta (fun l => hd ""%string l) d' ((0 # 1)%Q, (4 # 1)%Q) with Err FileNotFoundError => true | _ => false end))
    as [d' [E H]]; [vm_compute; reflexivity|].
  exists Qcf, build, d', 2, (Some 1%Z), [(0 # 1)%Q], [(1 # 1)%Q; (2 # 1)%Q; (3 # 1)%Q; (4 # 1)%Q], ((0 # 1)%Q, (4 # 1)%Q),
    (AList [(0 # 1)%Q]), (AList [(1 # 1)%Q; (2 # 1)%Q; (3 # 1)%Q]). split; [exact E|].
  split; [constructor; [lia|intros b X; injection X as <-; lia|reflexivity]|]. split; [vm_compute; reflexivity|].
  split; [do 3 right; left; reflexivity|]. destruct (from_disk _ _ _ _ d' _) as [x|[]]; try discriminate H. reflexivity.
Qed.
Print Assumptions C28_brigades_refuted.
