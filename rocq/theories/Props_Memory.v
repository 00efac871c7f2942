(** Property theorems about what is logged about memory (C88). *)
From Coq Require Import String ZArith QArith Qcanon List Bool Lia Permutation Lqa.
From Verif Require Import Base NdArray Config Spec Model Space Spec_space Term Equation System Spec_engine Props_Engine Ring Coef Solvers Spec_solve LinSolve Props_Solve Render Keys Memory Spec_memory.
From Verif Require Keys_proofs Memory_proofs.
Import ListNotations.
Open Scope list_scope.
Open Scope Z_scope.

(** The three arrays stand for the same matrix, with one number per place. *)
Theorem C88_arrays : forall (K : cring) (X : @coo K), let c := tocsr X in
  (forall i j, (i < c_rows X)%nat -> csr_entry c i j = entry (c_ent X) i j) /\
  List.length (r_indptr c) = S (c_rows X) /\ List.length (r_indices c) = List.length (r_data c) /\
  (NoDup (map fst (c_ent X)) -> (forall p, In p (c_ent X) -> (fst (fst p) < c_rows X)%nat) -> List.length (r_data c) = List.length (c_ent X)).
Proof.
  intros K X c. split; [exact (Memory_proofs.faithful X)|]. split; [apply Memory_proofs.indptr_len|]. split; [symmetry; apply Memory_proofs.data_indices|apply Memory_proofs.data_len].
Qed.
Print Assumptions C88_arrays.

Lemma sizes : forall T (K : cring) (e : env T K) m ae ord s X v, good_model m ae -> (forall k l, Permutation (ord k l) l) -> prime_system ord m = Ok s ->
  scaffold e (full_basis s) s = Ok (X, v) -> sparse_matrix e (full_basis s) s = Ok (c_ent X) /\ c_rows X = List.length (all_eqs s) /\ (1 <= c_rows X <= List.length (c_ent X))%nat /\
  List.length (r_data (tocsr X)) = List.length (c_ent X) /\ List.length (r_indices (tocsr X)) = List.length (c_ent X) /\ List.length (r_indptr (tocsr X)) = S (c_rows X).
Proof.
  intros T K e m ae ord s X v G P E ES. destruct (C22_matrix T K e m ae ord s G P E) as [tr [ES' [ND [R [D [_ [q [Q _]]]]]]]]. rewrite ES in ES'.
  assert (EX : X = mkCoo (List.length (all_eqs s)) (List.length (all_eqs s)) tr) by congruence. subst X. cbn [c_rows c_ent].
  assert (L : List.length (r_data (tocsr (mkCoo (List.length (all_eqs s)) (List.length (all_eqs s)) tr))) = List.length tr).
  { apply (Memory_proofs.data_len (mkCoo (List.length (all_eqs s)) (List.length (all_eqs s)) tr) ND). intros [[i j] c] Hp. apply R in Hp. apply Hp. }
  assert (NE : (0 < List.length (all_eqs s))%nat) by (destruct (all_eqs s); [destruct (List.length (all_eqs s) - 1)%nat; discriminate Q|cbn; lia]).
  split; [|split; [reflexivity|]; split; [|split; [exact L|]; split; [rewrite <- Memory_proofs.data_indices; exact L|apply Memory_proofs.indptr_len]]].
  - unfold scaffold in ES. destruct (sparse_matrix e (full_basis s) s) as [l|]; [|discriminate]. cbn [bind] in ES. unfold coo_matrix at 1 in ES.
    destruct (coo_dim (map (fun p => fst (fst p)) l)) as [a|]; [|discriminate]. cbn [bind] in ES. destruct (coo_dim (map (fun p => snd (fst p)) l)) as [b|]; [|discriminate]. cbn [bind] in ES.
    destruct (lookup (full_basis s) "{G}[0.0]") as [g|]; [|discriminate]. cbn [bind] in ES. destruct (equations_at s 0) as [[|q0 es]|]; [discriminate| |discriminate]. cbn [bind] in ES.
    destruct (coo_matrix [(g, 0%nat, bias e q0)]) as [w|]; [|discriminate]. cbn [bind] in ES. congruence.
  - split; [exact NE|]. apply (Memory_proofs.rows_le (mkCoo (List.length (all_eqs s)) (List.length (all_eqs s)) tr)). exact D.
Qed.

(** The estimate of SparseSolver: never less than the matrix takes, and less than
    twice as much. *)
Theorem C88_estimate : forall T (K : cring) (e : env T K) m ae ord s X v, good_model m ae -> (forall k l, Permutation (ord k l) l) -> prime_system ord m = Ok s ->
  scaffold e (full_basis s) s = Ok (X, v) -> exists tr, sparse_matrix e (full_basis s) s = Ok tr /\
  (in_MB (csr_bytes (tocsr X)) <= estimate BYTES_TO_MB (List.length tr) < 2 * in_MB (csr_bytes (tocsr X)))%Q.
Proof.
  intros T K e m ae ord s X v G P E ES. destruct (sizes T K e m ae ord s X v G P E ES) as [EM [_ [[L1 L2] [D [I J]]]]]. exists (c_ent X). split; [exact EM|].
  unfold in_MB, estimate, csr_bytes, BYTES_TO_MB. rewrite D, I, J. unfold Qle, Qlt, Qmult. cbn [Qnum Qden]. rewrite Pos.mul_1_l. lia.
Qed.
Print Assumptions C88_estimate.

(** "Memory usage of sparse X is ... MB": the number of elements is divided by the
    bytes of a MB, so the matrix takes more than four times what is logged. *)
Theorem C88_usage_refuted : forall T (K : cring) (e : env T K) m ae ord s X v, good_model m ae -> (forall k l, Permutation (ord k l) l) -> prime_system ord m = Ok s ->
  scaffold e (full_basis s) s = Ok (X, v) -> (4 * logged_size (tocsr X) < in_MB (csr_bytes (tocsr X)) < 6 * logged_size (tocsr X))%Q.
Proof.
  intros T K e m ae ord s X v G P E ES. destruct (sizes T K e m ae ord s X v G P E ES) as [EM [_ [[L1 L2] [D [I J]]]]].
  unfold in_MB, logged_size, csr_bytes, BYTES_TO_MB. rewrite D, I, J. unfold Qlt, Qmult. cbn [Qnum Qden]. rewrite !Pos.mul_1_l. lia.
Qed.
Print Assumptions C88_usage_refuted.

(** The parallel solver divides by the bytes of a GB (nearly) and writes MB: its
    number is less than a thousandth of the other one. *)
Theorem C88_parallel_refuted : forall len, (0 < len)%nat ->
  (1023 * estimate BYTES_TO_GB len < estimate BYTES_TO_MB len < 1024 * estimate BYTES_TO_GB len)%Q.
Proof. intros len H. unfold estimate, BYTES_TO_GB, BYTES_TO_MB, Qlt, Qmult. cbn [Qnum Qden]. rewrite !Pos.mul_1_l. lia. Qed.
Print Assumptions C88_parallel_refuted.

(** So it writes 0.00 for every matrix with at most 223696 entries, and for these
    only. *)
Theorem C88_zero : forall len, estimate_text BYTES_TO_GB len = "Estimated memory needed is 0.00 MB"%string <-> Z.of_nat len <= 223696.
Proof.
  intros len. unfold estimate_text, fmt2, estimate, BYTES_TO_GB. cbn [Qnum Qden]. set (n := round_half_even (24 * Z.of_nat len * 100) 1073741274).
  assert (N0 : 0 <= n) by (apply Keys_proofs.round_nonneg; lia). pose proof (Keys_proofs.round_near (24 * Z.of_nat len * 100) 1073741274 ltac:(lia)) as NR. fold n in NR.
  split.
  - intros E. assert (Z0 : n = 0) by (apply (Memory_proofs.text_inj "Estimated memory needed is " n 0 N0 ltac:(lia)); exact E). rewrite Z0 in NR. lia.
  - intros H. assert (Z0 : n = 0) by lia. rewrite Z0. reflexivity.
Qed.
Print Assumptions C88_zero.

(** The model of C22: 4 equations, 10 entries, 140 bytes; 25 are logged. *)
Example C88_nonvacuous : good_model p_model 1 /\ exists s X v, prime_system id_ord p_model = Ok s /\ scaffold p_env (full_basis s) s = Ok (X, v) /\
  csr_bytes (tocsr X) = 140 /\ (logged_size (tocsr X) == in_MB 25)%Q /\ estimate_text BYTES_TO_MB 3000 = "Estimated memory needed is 0.07 MB"%string.
Proof.
  split; [exact p_good|]. destruct C22_nonvacuous as [s [E [L [X [v [ES [_ [N _]]]]]]]]. exists s, X, v. split; [exact E|]. split; [exact ES|].
  destruct (sizes _ _ p_env p_model 1 id_ord s X v p_good id_perm E ES) as [_ [R [_ [D [I J]]]]]. unfold csr_bytes, logged_size, in_MB. rewrite D, I, J, R, L, N. repeat split; vm_compute; reflexivity.
Qed.
Print Assumptions C88_nonvacuous.
