(** Property theorems C21-C23: the linear systems of SparseSolver and
    DenseSolver, in exact arithmetic over an arbitrary field. *)
From Coq Require Import String ZArith List Bool Lia Permutation Qcanon.
From Verif Require Import Base NdArray Config Spec Model Space Render Term Equation System Spec_engine Ring Coef Spec_eom Solvers Spec_solve LinSolve Props_Engine.
From Verif Require Order_proofs Sysok_proofs Sparse_proofs Dense_proofs.
Import ListNotations.
Open Scope list_scope.
Open Scope Z_scope.

(** The assumptions made of scipy below are satisfiable over every field with
    decidable equality. *)
Theorem solver_assumptions_satisfiable : forall (F : cfield), (forall x y : F, {x = y} + {x <> y}) ->
  (exists sp, @spsolve_ok F sp) /\ (exists ls, @lsolve_ok F ls).
Proof. intros F D. split; eexists; [apply (gauss_spsolve_ok D)|apply (gauss_lsolve_ok D)]. Qed.
Print Assumptions solver_assumptions_satisfiable.

(** C22.  Shape, positions and entries of the assembled matrix.  [su] is any
    decision procedure for "same unknown". *)
Theorem C22_matrix : forall T (K : cring) (e : env T K) m ae ord s, good_model m ae ->
  (forall k l, Permutation (ord k l) l) -> prime_system ord m = Ok s ->
  let n := List.length (all_eqs s) in
  exists tr, scaffold e (full_basis s) s = Ok (mkCoo n n tr, mkCoo n 1 [((n - 1)%nat, 0%nat, G0 e)]) /\
    NoDup (map fst tr) /\
    (forall i j c, In (i, j, c) tr -> (i < n)%nat /\ (j < n)%nat) /\
    (forall i, (i < n)%nat -> In (i, i) (map fst tr)) /\
    (forall su i j q q', (forall t t', su t t' = true <-> same_unknown t t') ->
       nth_error (all_eqs s) i = Some q -> nth_error (all_eqs s) j = Some q' ->
       entry tr i j = kadd (if Nat.eqb i j then k1 else k0)
         (ksum (map (coefficient e) (filter (fun t => su t (e_index q')) (e_terms q))))) /\
    (exists q, nth_error (all_eqs s) (n - 1) = Some q /\ e_green q = true /\ phonon_free (cfg (t_cfg (e_index q)))).
Proof.
  intros T K e m ae ord s G P E n. destruct (Sysok_proofs.sys_ok_good m ae ord s G P E) as [O _].
  exists (Sparse_proofs.triplets e s). split; [apply (Sparse_proofs.scaffold_ok e s O)|].
  split; [apply (Sparse_proofs.trip_nodup e s O)|]. split; [apply (Sparse_proofs.trip_range e s O)|].
  split; [apply (Sparse_proofs.diag e s O)|]. split; [intros su i j q q'; apply (Sparse_proofs.matrix_entry e s O)|].
  destruct (Sparse_proofs.green_pos s O) as [q [Hq [_ [Eg [E0 _]]]]]. exists q. split; [exact Hq|]. split; [exact Eg|].
  pose proof (nth_error_In _ _ Hq) as Aq. destruct (Sysok_proofs.so_valid s O q (e_index q) Aq (or_introl eq_refl)) as [V _].
  apply (Render_proofs.valid_total_free _ V).
  pose proof (Sysok_proofs.so_N s O) as NP. destruct (Sysok_proofs.level_ex s O 0 ltac:(lia)) as [es [H1 H2]].
  assert (es = [q]) by congruence. subst es. apply (Sysok_proofs.so_level s O 0 [q] q H1 (or_introl eq_refl)).
Qed.
Print Assumptions C22_matrix.

(** A vector solves the matrix equation iff the assignment it stands for
    satisfies every equation; every vector stands for one. *)
Theorem C22_solutions : forall T (K : cring) (e : env T K) m ae ord s, good_model m ae ->
  (forall k l, Permutation (ord k l) l) -> prime_system ord m = Ok s ->
  exists X v, scaffold e (full_basis s) s = Ok (X, v) /\
    (forall (u : nd * list Z -> K) x, proper u ->
       (forall i q, nth_error (all_eqs s) i = Some q -> x i = u (unk (e_index q))) ->
       (forall i q, nth_error (all_eqs s) i = Some q -> mv (c_ent X) x i = row e u q) /\
       (solves X v x <-> solution e s u)) /\
    (forall x, exists u : nd * list Z -> K, proper u /\ forall i q, nth_error (all_eqs s) i = Some q -> x i = u (unk (e_index q))).
Proof.
  intros T K e m ae ord s G P E. destruct (Sysok_proofs.sys_ok_good m ae ord s G P E) as [O _].
  eexists. eexists. split; [apply (Sparse_proofs.scaffold_ok e s O)|]. cbn [c_ent c_rows]. split.
  - intros u x Pu Hx. assert (EX : forall i, mv (Sparse_proofs.triplets e s) x i = mv (Sparse_proofs.triplets e s) (Sparse_proofs.xof s u) i).
    { intros i. apply Sparse_proofs.mv_ext. intros [[a b] c] Hp. cbn [fst snd]. destruct (Sparse_proofs.trip_range e s O a b c Hp) as [_ L].
      unfold Sparse_proofs.xof. destruct (nth_error (all_eqs s) b) as [q|] eqn:Eb; [apply Hx; exact Eb|].
      apply nth_error_None in Eb. unfold Sparse_proofs.NN in L. lia. }
    split.
    + intros i q Hi. rewrite EX. apply (Sparse_proofs.mv_value e s O u i q Pu Hi).
    + rewrite <- (Sparse_proofs.solves_iff e s O u Pu). unfold solves. cbn [c_ent c_rows]. split; intros H i Hi; specialize (H i Hi); rewrite EX in *; exact H.
  - intros x. exists (Sparse_proofs.uof s x). split; [apply Sparse_proofs.uof_proper|]. intros i q Hi.
    assert (L : (i < Sparse_proofs.NN s)%nat) by (unfold Sparse_proofs.NN; apply nth_error_Some; congruence).
    rewrite <- (Sparse_proofs.uof_xof s O x i L) at 1. unfold Sparse_proofs.xof. rewrite Hi. reflexivity.
Qed.
Print Assumptions C22_solutions.

(** What SparseSolver returns: the Green's function of the solution. *)
Theorem C22_sparse_result : forall T (K : cring) (e : env T K) m ae ord s sp X v, good_model m ae ->
  (forall k l, Permutation (ord k l) l) -> prime_system ord m = Ok s ->
  scaffold e (full_basis s) s = Ok (X, v) -> solves X v (sp X v) ->
  exists g, sparse_solve e sp s = Ok g /\ (exists u, proper u /\ solution e s u /\ g_value s u g) /\
    (nonsingular X -> forall u, proper u -> solution e s u -> g_value s u g).
Proof.
  intros T K e m ae ord s sp X v G P E ES SV. destruct (Sysok_proofs.sys_ok_good m ae ord s G P E) as [O _].
  destruct (Sparse_proofs.sparse_result e s O sp X v ES SV) as [g H]. exists g. exact H.
Qed.
Print Assumptions C22_sparse_result.

(** C21: two iteration orders give the same result. *)
Theorem C21_result_order_independent : forall T (K : cring) (e : env T K) m ae ord ord' s sp X v, good_model m ae ->
  (forall k l, Permutation (ord k l) l) -> (forall k l, Permutation (ord' k l) l) ->
  prime_system ord m = Ok s -> scaffold e (full_basis s) s = Ok (X, v) -> nonsingular X -> spsolve_ok sp ->
  exists s' X' v', prime_system ord' m = Ok s' /\ scaffold e (full_basis s') s' = Ok (X', v') /\ nonsingular X' /\
    sparse_solve e sp s' = sparse_solve e sp s.
Proof.
  intros T K e m ae ord ord' s sp X v G P P' E ES NS SO.
  destruct (Order_proofs.order_irrelevant ord ord' P P' m s E) as [s' [E' [_ [_ B]]]].
  destruct (Sysok_proofs.sys_ok_good m ae ord s G P E) as [O _]. destruct (Sysok_proofs.sys_ok_good m ae ord' s' G P' E') as [O' _].
  exact (Sparse_proofs.order_result e s s' O O' (Order_proofs.blocks_flat _ _ B) m ord' E' sp X v ES NS SO).
Qed.
Print Assumptions C21_result_order_independent.

(** C23.  [D] is the denominator 1 - beta_0 R_1 of the continued fraction.
    First: when linalg.solve solved every system it was given, the result of
    DenseSolver extends to a solution of all equations. *)
Theorem C23_dense_extends : forall T (F : cfield) (e : env T F) m ae ord s ls, good_model m ae ->
  (forall k l, Permutation (ord k l) l) -> prime_system ord m = Ok s ->
  (forall k X A, 1 <= k < total_bosons s -> pivot e ls s k = Ok X -> get_alpha e s k = Ok A -> msolves X A (ls X A)) ->
  exists D, denominator e ls s = Ok D /\ dense_solve e ls s = Ok (kmul (G0 e) (kinv D)) /\
    (D <> k0 -> exists u, proper u /\ solution e s u /\ g_value s u (kmul (G0 e) (kinv D))).
Proof.
  intros T F e m ae ord s ls G P E PS. destruct (Sysok_proofs.sys_ok_good m ae ord s G P E) as [O _].
  destruct (Dense_proofs.dense_extends e s O ls PS) as [D [E1 [E2 [E3 _]]]]. exists D. auto.
Qed.
Print Assumptions C23_dense_extends.

(** Second: if moreover the sparse system is nonsingular, the two solvers
    agree; the denominator is then not zero. *)
Theorem C23_dense_is_sparse : forall T (F : cfield) (e : env T F) m ae ord s ls sp X v, good_model m ae ->
  (forall k l, Permutation (ord k l) l) -> prime_system ord m = Ok s ->
  (forall k X A, 1 <= k < total_bosons s -> pivot e ls s k = Ok X -> get_alpha e s k = Ok A -> msolves X A (ls X A)) ->
  scaffold e (full_basis s) s = Ok (X, v) -> nonsingular X -> solves X v (sp X v) ->
  exists D, denominator e ls s = Ok D /\ D <> k0 /\ dense_solve e ls s = sparse_solve e sp s.
Proof.
  intros T F e m ae ord s ls sp X v G P E PS ES NS SV. destruct (Sysok_proofs.sys_ok_good m ae ord s G P E) as [O _].
  exact (Dense_proofs.dense_is_sparse e s O ls PS sp X v ES NS SV).
Qed.
Print Assumptions C23_dense_is_sparse.

(** Third: nonsingular pivots (including the denominator) make the sparse
    system nonsingular; then both solvers succeed and agree. *)
Theorem C23_pivots_nonsingular : forall T (F : cfield) (e : env T F) m ae ord s ls sp D, good_model m ae ->
  (forall k l, Permutation (ord k l) l) -> prime_system ord m = Ok s -> lsolve_ok ls -> spsolve_ok sp ->
  (forall k X, 1 <= k < total_bosons s -> pivot e ls s k = Ok X -> dnonsingular X) ->
  denominator e ls s = Ok D -> D <> k0 ->
  exists X v, scaffold e (full_basis s) s = Ok (X, v) /\ nonsingular X /\ dense_solve e ls s = sparse_solve e sp s.
Proof.
  intros T F e m ae ord s ls sp D G P E LO SO PN ED ND. destruct (Sysok_proofs.sys_ok_good m ae ord s G P E) as [O _].
  exact (Dense_proofs.pivots_result e s O ls sp D LO SO PN ED ND).
Qed.
Print Assumptions C23_pivots_nonsingular.

(** Witnesses: rational numbers; one Holstein type, two phonons on one site,
    so three unknowns and one matrix pivot. *)
Definition Qcf : cfield.
Proof.
  refine (mkField (mkRing Qc (Q2Qc (QArith_base.Qmake 0 1)) (Q2Qc (QArith_base.Qmake 1 1)) Qcplus Qcmult Qcminus Qcopp Qcrt) Qcinv _ _); cbn.
  - intros x H. rewrite Qcmult_comm. apply Qcmult_inv_r. exact H.
  - intros H. discriminate H.
Defined.
Definition q (a : Z) (b : positive) : Qcf := Q2Qc (QArith_base.Qmake a b).
Definition qb : Qcf -> Qcf -> bool := Qc_eq_bool.
Lemma qb_ok : forall x y, qb x y = true -> x = y.
Proof. exact Qc_eq_bool_correct. Qed.

Definition h_terms2 : list (hterm Z) :=
  [ mkHterm "Holstein" (iv 0) (iv 0) Plus 1 0 5; mkHterm "Holstein" (iv 0) (iv 0) Minus 1 0 5 ].
Definition h_model : model Z := mkModel 1 0 (mkHam h_terms2 [5] 1 1) None [1] [2] None 1.

Lemma h_good : good_model h_model 1.
Proof.
  constructor; try (simpl; lia).
  - repeat split; simpl; lia.
  - reflexivity.
  - discriminate.
  - intros [|t] H; simpl in *; lia.
  - intros [|t] H; simpl in *; lia.
  - intros h H. simpl in H. repeat (destruct H as [<-|H]; [simpl; lia|]). destruct H.
  - intros h H. simpl in H. repeat (destruct H as [<-|H]; [reflexivity|]). destruct H.
  - intros h H. simpl in H. repeat (destruct H as [<-|H]; [reflexivity|]). destruct H.
  - intros [|t] H; [|simpl in H; lia].
    exists (mkHterm "Holstein" (iv 0) (iv 0) Plus 1 0%nat 5). simpl. auto.
  - exists (mkHterm "Holstein" (iv 0) (iv 0) Minus 1 0%nat 5). simpl. auto.
  - intros h h' _ H. simpl in H. repeat (destruct H as [<-|H]; [discriminate|]). destruct H.
Qed.

(** g0 is [g1] with one phonon present and [g2] with two. *)
Definition h_env (g1 g2 : Qcf) : env Z Qcf :=
  mkEnv (K := Qcf) (fun z => q z 1) (fun _ => q 1 1) (fun _ l => if fold_right (fun p s => snd p + s) 0 l =? 1 then g1 else g2) (q 7 2).

Definition inv_of (X : coo Qcf) (i l : nat) : Qcf :=
  gauss (F := Qcf) Qc_eq_dec (c_rows X) (entry (c_ent X)) (fun r => if Nat.eqb r l then k1 else k0) i.
Definition regular (e : env Z Qcf) (s : system Z) : bool :=
  match scaffold e (full_basis s) s with Ok (X, _) => check_sparse qb X (inv_of X) | Err _ => false end.
Lemma regular_ok : forall e s, regular e s = true -> exists X v, scaffold e (full_basis s) s = Ok (X, v) /\ nonsingular X.
Proof.
  intros e s H. unfold regular in H. destruct (scaffold e (full_basis s) s) as [[X v]|]; [|discriminate]. exists X, v.
  split; [reflexivity|]. apply (check_sparse_ok qb qb_ok _ _ H).
Qed.

Definition ok_qb (r : result Qcf) (x : Qcf) : bool := match r with Ok y => qb y x | Err _ => false end.

(** A Peierls model whose four unknowns come in different orders. *)
Definition p_model : model Z :=
  mkModel 1 0 (mkHam [ mkHterm "Peierls" (iv 1) (iv 0) Plus 3 0 7; mkHterm "Peierls" (iv 1) (iv 0) Minus 3 0 7;
    mkHterm "Peierls" (iv 1) (iv 1) Plus (-3) 0 7; mkHterm "Peierls" (iv 1) (iv 1) Minus (-3) 0 7;
    mkHterm "Peierls" (iv (-1)) (iv (-1)) Plus 3 0 7; mkHterm "Peierls" (iv (-1)) (iv (-1)) Minus 3 0 7;
    mkHterm "Peierls" (iv (-1)) (iv 0) Plus (-3) 0 7; mkHterm "Peierls" (iv (-1)) (iv 0) Minus (-3) 0 7 ] [7] 1 1) None [1] [1] None 1.
Definition p_env : env Z Qcf :=
  mkEnv (K := Qcf) (fun z => q z 1) (fun v => if Z.even (hd 0 v / 2) then q 1 1 else q (-1) 1)
    (fun v l => q 1 (Z.to_pos (2 + Z.abs (hd 0 v)))) (q 7 2).

Lemma p_good : good_model p_model 1.
Proof.
  constructor; try (simpl; lia).
  - repeat split; simpl; lia.
  - reflexivity.
  - discriminate.
  - intros [|t] H; simpl in *; lia.
  - intros [|t] H; simpl in *; lia.
  - intros h H. simpl in H. repeat (destruct H as [<-|H]; [simpl; lia|]). destruct H.
  - intros h H. simpl in H. repeat (destruct H as [<-|H]; [reflexivity|]). destruct H.
  - intros h H. simpl in H. repeat (destruct H as [<-|H]; [reflexivity|]). destruct H.
  - intros [|t] H; [|simpl in H; lia].
    exists (mkHterm "Peierls" (iv 1) (iv 0) Plus 3 0%nat 7). simpl. auto.
  - exists (mkHterm "Peierls" (iv 1) (iv 0) Minus 3 0%nat 7). simpl. auto.
  - intros h h' _ H. simpl in H. repeat (destruct H as [<-|H]; [discriminate|]). destruct H.
Qed.

Example C22_nonvacuous : exists s, prime_system id_ord p_model = Ok s /\ List.length (all_eqs s) = 4%nat /\
  exists X v, scaffold p_env (full_basis s) s = Ok (X, v) /\ nonsingular X /\ List.length (c_ent X) = 10%nat /\
    exists g, sparse_solve p_env (gauss_sparse (F := Qcf) Qc_eq_dec) s = Ok g.
Proof.
  destruct (sys_ex id_ord p_model (fun s => regular p_env s && Nat.eqb (List.length (all_eqs s)) 4 &&
    match scaffold p_env (full_basis s) s with Ok (X, _) => Nat.eqb (List.length (c_ent X)) 10 | Err _ => false end)) as [s [E H]];
    [vm_compute; reflexivity|].
  apply andb_true_iff in H. destruct H as [H H3]. apply andb_true_iff in H. destruct H as [H1 H2]. apply Nat.eqb_eq in H2.
  exists s. split; [exact E|]. split; [exact H2|]. destruct (regular_ok _ _ H1) as [X [v [ES NS]]]. exists X, v.
  split; [exact ES|]. split; [exact NS|]. rewrite ES in H3. apply Nat.eqb_eq in H3. split; [exact H3|].
  destruct (C22_matrix Z Qcf p_env p_model 1 id_ord s p_good id_perm E) as [tr [ES' _]]. rewrite ES in ES'. injection ES' as EX EV.
  destruct (C22_sparse_result Z Qcf p_env p_model 1 id_ord s (gauss_sparse (F := Qcf) Qc_eq_dec) X v p_good id_perm E ES) as [g [Eg _]].
  - apply (gauss_spsolve_ok (F := Qcf) Qc_eq_dec); [subst X; reflexivity|subst X v; reflexivity|exact NS].
  - exists g. exact Eg.
Qed.

Example C21_result_nonvacuous : exists s s', prime_system id_ord p_model = Ok s /\ prime_system rev_ord p_model = Ok s' /\
  index_ids (all_eqs s) <> index_ids (all_eqs s') /\
  (exists X v, scaffold p_env (full_basis s) s = Ok (X, v) /\ nonsingular X) /\
  sparse_solve p_env (gauss_sparse (F := Qcf) Qc_eq_dec) s' = sparse_solve p_env (gauss_sparse (F := Qcf) Qc_eq_dec) s.
Proof.
  destruct (sys_ex id_ord p_model (fun s => regular p_env s && match prime_system rev_ord p_model with
    | Ok s' => negb (forallb (fun p => String.eqb (fst p) (snd p)) (combine (index_ids (all_eqs s)) (index_ids (all_eqs s'))))
    | Err _ => false end)) as [s [E H]]; [vm_compute; reflexivity|].
  apply andb_true_iff in H. destruct H as [H1 H2]. destruct (regular_ok _ _ H1) as [X [v [ES NS]]].
  destruct (C21_result_order_independent Z Qcf p_env p_model 1 id_ord rev_ord s _ X v p_good id_perm rev_perm E ES NS (gauss_spsolve_ok (F := Qcf) Qc_eq_dec))
    as [s' [X' [v' [E' [_ [_ R]]]]]].
  exists s, s'. split; [exact E|]. split; [exact E'|]. rewrite E' in H2. split; [|split; [exists X, v; auto|exact R]].
  intros EQ. rewrite EQ in H2. apply negb_true_iff in H2. rewrite <- not_true_iff_false in H2. apply H2.
  apply forallb_forall. intros [a b] I. cbn [fst snd]. apply String.eqb_eq. clear -I. revert I. generalize (index_ids (all_eqs s')). intros l.
  induction l as [|x r IH]; [intros []|]. cbn [combine]. intros [I|I]; [congruence|apply IH; exact I].
Qed.

(** All pivots regular: g1 = 1/4, g2 = 1/3 gives D = 1 - 7/2 * (1/4) / (1 - 1/4 * 2/3) = -1/20. *)
Definition h_pivot (e : env Z Qcf) (s : system Z) (x a : Qcf) : bool :=
  match pivot e (gauss_dense (F := Qcf) Qc_eq_dec) s 1, get_alpha e s 1 with
  | Ok X, Ok A => Nat.eqb (d_rows X) 1 && Nat.eqb (d_cols X) 1 && qb (d_at X 0 0) x && Nat.eqb (d_cols A) 1 && qb (d_at A 0 0) a
  | _, _ => false
  end.

Lemma h_pivot_ok : forall e s x a, h_pivot e s x a = true -> exists X A,
  pivot e (gauss_dense (F := Qcf) Qc_eq_dec) s 1 = Ok X /\ get_alpha e s 1 = Ok A /\
  d_rows X = 1%nat /\ d_cols X = 1%nat /\ d_at X 0%nat 0%nat = x /\ d_cols A = 1%nat /\ d_at A 0%nat 0%nat = a.
Proof.
  intros e s x a H. unfold h_pivot in H. destruct (pivot _ _ _ _) as [X|]; [|discriminate]. destruct (get_alpha e s 1) as [A|]; [|discriminate].
  rewrite !andb_true_iff in H. destruct H as [[[[H1 H2] H3] H4] H5]. apply Nat.eqb_eq in H1, H2, H4. apply qb_ok in H3, H5.
  exists X, A. auto 8.
Qed.

Example C23_nonvacuous : let e := h_env (q 1 4) (q 1 3) in let ls := gauss_dense (F := Qcf) Qc_eq_dec in
  good_model h_model 1 /\ exists s D, prime_system id_ord h_model = Ok s /\ total_bosons s = 2 /\
  (forall k X, 1 <= k < total_bosons s -> pivot e ls s k = Ok X -> dnonsingular X) /\
  denominator e ls s = Ok D /\ D = q (-1) 20 /\ D <> k0 /\ dense_solve e ls s = Ok (q (-70) 1).
Proof.
  intros e ls. split; [exact h_good|].
  destruct (sys_ex id_ord h_model (fun s => (total_bosons s =? 2) && h_pivot e s (q 5 6) (q 1 4) && ok_qb (denominator e ls s) (q (-1) 20) &&
     ok_qb (dense_solve e ls s) (q (-70) 1))) as [s [E H]]; [vm_compute; reflexivity|].
  rewrite !andb_true_iff in H. destruct H as [[[H1 H2] H3] H4]. apply Z.eqb_eq in H1. exists s, (q (-1) 20). split; [exact E|]. split; [exact H1|].
  split; [|split; [|split; [reflexivity|split; [discriminate|]]]].
  - intros k X Hk EX. assert (k = 1) by lia. subst k. destruct (h_pivot_ok _ _ _ _ H2) as [X' [A [EX' [_ [RX [CX [V _]]]]]]].
    fold ls in EX'. assert (X' = X) by congruence. subst X'. intros x Hx i Hi. assert (i = 0%nat) by lia. subst i.
    specialize (Hx 0%nat ltac:(lia)). unfold dmv in Hx. rewrite CX in Hx. cbn [seq map] in Hx. rewrite Sparse_proofs.ksum_cons, V in Hx.
    change (Qcplus (Qcmult (q 5 6) (x 0%nat)) (Q2Qc (QArith_base.Qmake 0 1)) = Q2Qc (QArith_base.Qmake 0 1)) in Hx.
    rewrite Qcplus_0_r in Hx. apply Qcmult_integral in Hx. destruct Hx as [Hx|Hx]; [discriminate Hx|exact Hx].
  - unfold ok_qb in H3. destruct (denominator e ls s); [|discriminate]. apply qb_ok in H3. congruence.
  - unfold ok_qb in H4. destruct (dense_solve e ls s); [|discriminate]. apply qb_ok in H4. congruence.
Qed.

(** Without the assumption on the pivots the solvers need not agree: with
    g1 = 1, g2 = 1/2 the sparse system is nonsingular, but the matrix that
    DenseSolver passes to linalg.solve is singular and X R = alpha has no
    solution. *)
Theorem C23_singular_pivot_refuted : exists (e : env Z Qcf) m s X v P A,
  good_model m 1 /\ prime_system id_ord m = Ok s /\ scaffold e (full_basis s) s = Ok (X, v) /\ nonsingular X /\
  pivot e (gauss_dense (F := Qcf) Qc_eq_dec) s 1 = Ok P /\ get_alpha e s 1 = Ok A /\ forall R, ~ msolves P A R.
Proof.
  pose (e := h_env (q 1 1) (q 1 2)).
  destruct (sys_ex id_ord h_model (fun s => regular e s && h_pivot e s (q 0 1) (q 1 1))) as [s [E H]]; [vm_compute; reflexivity|].
  apply andb_true_iff in H. destruct H as [H1 H2]. destruct (regular_ok _ _ H1) as [X [v [ES NS]]].
  destruct (h_pivot_ok _ _ _ _ H2) as [P [A [EP [EA [RX [CX [V [CA W]]]]]]]].
  exists e, h_model, s, X, v, P, A. split; [exact h_good|]. split; [exact E|]. split; [exact ES|]. split; [exact NS|]. split; [exact EP|]. split; [exact EA|].
  intros R M. specialize (M 0%nat 0%nat ltac:(lia) ltac:(lia)). rewrite W in M. unfold dmv in M. rewrite CX in M. cbn [seq map] in M.
  rewrite Sparse_proofs.ksum_cons, V in M.
  change (Qcplus (Qcmult (q 0 1) (R 0%nat 0%nat)) (Q2Qc (QArith_base.Qmake 0 1)) = q 1 1) in M.
  change (q 0 1) with (Q2Qc (QArith_base.Qmake 0 1)) in M. rewrite Qcmult_0_l, Qcplus_0_l in M. discriminate M.
Qed.
Print Assumptions C23_singular_pivot_refuted.
