(** Lemmas on Petsc.v: systems, and matrices on disk. *)
From Coq Require Import String ZArith List Bool Lia Permutation.
From Verif Require Import Base NdArray NdArray_proofs Config Model Space Render Term Equation System Ring Coef Solvers Spec_solve Utils Mpi Spec_mpi Mpi_proofs Petsc Spec_petsc Sysok_proofs Sparse_proofs Dense_proofs Petsc_proofs Spec_engine Keys.
Import ListNotations.
Open Scope list_scope.
Open Scope nat_scope.

Lemma sizes_last : forall N p, 1 <= p <= N -> exists l n, petsc_sizes N p = l ++ [n] /\ 0 < n /\ sumn l + n = N.
Proof.
  intros N p H. unfold petsc_sizes.
  destruct (exists_last (l := section_sizes N p)) as [l [n E]].
  { intros E. pose proof (section_sizes_length N p ltac:(lia)) as L. rewrite E in L. simpl in L. lia. }
  exists l, n. split; [exact E|]. split.
  - assert (I : In n (section_sizes N p)) by (rewrite E; apply in_app_iff; right; left; reflexivity).
    apply section_sizes_in in I. assert (1 <= N / p) by (apply Nat.div_le_lower_bound; lia). lia.
  - pose proof (section_sizes_sum N p ltac:(lia)) as S. rewrite E, sumn_app in S. cbn [sumn fold_right] in S. unfold sumn in *. lia.
Qed.

Lemma sizes_last_empty : forall N p, N < p -> exists l, petsc_sizes N p = l ++ [0].
Proof.
  intros N p H. unfold petsc_sizes, section_sizes. rewrite (Nat.div_small N p H), (Nat.mod_small N p H).
  exists (repeat 1 N ++ repeat 0 (p - N - 1)). rewrite <- app_assoc. f_equal.
  replace (p - N) with (p - N - 1 + 1) at 1 by lia. rewrite repeat_app. reflexivity.
Qed.

Section Value.
Context {T : Type} {K : cring}.
Add Ring KRm : (klaws K).
Variable e : env T K.
Variable s : system T.
Hypothesis O : sys_ok s.

Lemma basis_len : List.length (full_basis s) = NN s.
Proof.
  unfold full_basis, NN. fold (all_eqs s). rewrite number_len by apply (so_nodup s O).
  unfold index_ids. apply map_length.
Qed.

Lemma trip_rng : forall p, In p (triplets e s) -> row_of p < NN s /\ col_of p < NN s.
Proof. intros [[i j] c] H. apply (trip_range e s O i j c H). Qed.

Lemma mass_value : forall mumps sp p X v, mumps_ok mumps -> spsolve_ok sp -> 1 <= p <= NN s ->
  scaffold e (full_basis s) s = Ok (X, v) -> nonsingular X ->
  exists g, mass_solve mumps e s p = Ok g /\ sparse_solve e sp s = Ok g.
Proof.
  intros mumps sp p X v MO SO HP ES NS. rewrite (scaffold_ok e s O) in ES. injection ES as <- <-.
  set (X := mkCoo (NN s) (NN s) (triplets e s)) in *. set (v := mkCoo (NN s) 1 [((NN s - 1)%nat, 0, G0 e)]).
  destruct (sizes_last (NN s) p HP) as [l [n [EL [HN SZ]]]].
  destruct (brigade_value mumps l n (NN s) (triplets e s) (G0 e) (trip_nodup e s O) trip_rng SZ HN NS MO) as [x [EX HX]].
  exists (x (NN s - 1)). split.
  - unfold mass_solve. rewrite (matrix_ok e s O). cbn [bind]. rewrite basis_len, EL. exact EX.
  - assert (SV : solves X v (sp X v)) by (apply SO; auto).
    unfold sparse_solve. rewrite (scaffold_ok e s O). cbn [bind c_rows c_cols]. unfold guard. rewrite !Nat.eqb_refl. cbn [andb bind].
    destruct (green_pos s O) as [q [Hq [Et _]]]. unfold lookup. rewrite <- Et.
    rewrite (proj2 (fb_spec s O (tid (e_index q)) (NN s - 1))) by (unfold index_ids; rewrite nth_error_map, Hq; reflexivity).
    cbn [bind]. f_equal. fold X. fold v. pose proof (NN_pos s O) as NP.
    assert (Z : ksub (sp X v (NN s - 1)) (x (NN s - 1)) = k0).
    { apply (NS (fun i => ksub (sp X v i) (x i))); [|cbn [c_cols X]; lia]. cbn [c_rows c_ent X]. intros i I. rewrite mv_sub.
      pose proof (SV i I) as S1. cbn [c_ent X] in S1. rewrite S1, (HX i I). unfold entry, v, vector_b. cbn [c_ent filter fst snd].
      rewrite Nat.eqb_refl, andb_true_r, (Nat.eqb_sym (NN s - 1) i). destruct (Nat.eqb i (NN s - 1)); cbn [map snd]; rewrite ?ksum_cons; cbn; ring. }
    transitivity (kadd (ksub (sp X v (NN s - 1)) (x (NN s - 1))) (x (NN s - 1))); [ring|rewrite Z; ring].
Qed.

Lemma mass_too_many : forall mumps p, NN s < p -> mass_solve mumps e s p = Err IndexError.
Proof.
  intros mumps p HP. unfold mass_solve. rewrite (matrix_ok e s O). cbn [bind]. rewrite basis_len.
  destruct (sizes_last_empty (NN s) p HP) as [l EL]. rewrite EL. unfold brigade_solve.
  rewrite assembled_all; [|apply (trip_nodup e s O)|intros q Q; apply trip_rng; exact Q]. cbn [bind]. apply last_value_empty.
Qed.

Lemma trip_rows : has_rows (NN s) (triplets e s).
Proof.
  split.
  - pose proof (NN_pos s O). pose proof (diag e s O (NN s - 1) ltac:(lia)) as D. apply in_map_iff in D. destruct D as [p [E I]].
    exists p. split; [exact I|]. rewrite E. cbn [fst]. lia.
  - intros p H1. apply trip_rng. exact H1.
Qed.
End Value.

Section Disk.
Context {K : cring} {T : Type}.
Notation trip := (@triplet K).

Lemma dget_dput : forall n v (d : mdir K) x, dget x (dput n v d) = if String.eqb n x then Some v else dget x d.
Proof.
  induction d as [|[m y] r IH]; intros x; cbn [dput dget].
  - destruct (String.eqb n x); reflexivity.
  - destruct (String.eqb_spec m n).
    + subst m. cbn [dget]. destruct (String.eqb n x); reflexivity.
    + cbn [dget]. rewrite IH. destruct (String.eqb_spec m x), (String.eqb_spec n x); congruence.
Qed.

Lemma dget_in : forall (d : mdir K) x v, dget x d = Some v -> In x (map fst d).
Proof.
  induction d as [|[m y] r IH]; intros x v H; cbn [dget] in H; [discriminate|]. cbn [map fst].
  destruct (String.eqb_spec m x); [left; auto|right; eapply IH; eauto].
Qed.

Lemma in_dget : forall (d : mdir K) x, In x (map fst d) -> exists v, dget x d = Some v.
Proof.
  induction d as [|[m y] r IH]; intros x H; [destruct H|]. cbn [dget]. cbn [map fst] in H.
  destruct (String.eqb_spec m x); [eauto|]. destruct H as [H|H]; [contradiction|auto].
Qed.

Lemma prefix_refl : forall s, String.prefix s s = true.
Proof. induction s; simpl; auto. rewrite IHs. destruct (Ascii.ascii_dec a a); auto. Qed.
Lemma contains_app : forall sub a s, contains sub s = true -> contains sub (append a s) = true.
Proof. induction a; intros s H; cbn [append]; [exact H|]. cbn [contains]. rewrite IHa by exact H. apply orb_true_r. Qed.
Lemma contains_self : forall s, contains s s = true.
Proof. intros [|c s]; [reflexivity|]. cbn [contains]. rewrite prefix_refl. reflexivity. Qed.

Variable fmt : T -> string.
Variable build : T * T -> result (list trip).
Variable g0_at : T * T -> K.
Variable eta : T.
Notation mname := (mname fmt eta).

Lemma mname_pkl : forall p, contains ".pkl" (mname p) = true.
Proof. intros p. unfold mname, matrix_name. repeat apply contains_app. reflexivity. Qed.

Lemma prepare_inv : forall N ops (d : mdir K),
  (forall p, In p ops -> exists tr, build p = Ok tr /\ has_rows N tr) ->
  (forall p q, In p ops -> In q ops -> mname p = mname q -> build p = build q) ->
  clean N d ->
  exists d', foldM (prepare_system fmt build eta) ops (Some d) = Ok (Some d') /\ clean N d' /\
    (forall p tr, In p ops -> build p = Ok tr -> dget (mname p) d' = Some (Matrix tr)) /\
    (forall x, (forall p, In p ops -> mname p <> x) -> dget x d' = dget x d).
Proof.
  induction ops as [|p ops IH]; intros d B I C.
  - exists d. cbn [foldM]. repeat split; auto. intros p tr [].
  - destruct (B p (or_introl eq_refl)) as [tr [EB HR]]. cbn [foldM]. unfold prepare_system at 1. rewrite EB. cbn [bind].
    destruct (IH (dput (mname p) (Matrix tr) d)) as [d' [E [C' [V U]]]].
    + intros q Q. apply B. right; exact Q.
    + intros q q' Q Q'. apply I; right; assumption.
    + intros x v G P. rewrite dget_dput in G. destruct (String.eqb (mname p) x); [|exact (C x v G P)].
      injection G as <-. exists tr. auto.
    + exists d'. split; [exact E|]. split; [exact C'|]. split.
      * intros q t [<-|Q] EQ; [|apply V; auto].
        destruct (existsb (fun q => String.eqb (mname q) (mname p)) ops) eqn:X.
        -- apply existsb_exists in X. destruct X as [q [Q S]]. apply String.eqb_eq in S. rewrite <- S. apply V; [exact Q|].
           rewrite (I q p); auto; [right; exact Q|left; reflexivity].
        -- rewrite U.
           ++ rewrite dget_dput, String.eqb_refl. congruence.
           ++ intros q Q S. rewrite <- not_true_iff_false in X. apply X. apply existsb_exists. exists q. split; [exact Q|]. apply String.eqb_eq. exact S.
      * intros x H. rewrite U by (intros q Q; apply H; right; exact Q). rewrite dget_dput.
        destruct (String.eqb_spec (mname p) x) as [Ex|]; [|reflexivity]. exfalso. exact (H p (or_introl eq_refl) Ex).
Qed.

Lemma rows_max : forall N (tr : list trip), has_rows N tr ->
  match map row_of tr with [] => Err ValueError | rows => Ok (S (lmax rows)) end = Ok N.
Proof.
  intros N tr [[p [I E]] H]. destruct tr as [|q r]; [destruct I|].
  assert (L : lmax (map row_of (q :: r)) = N - 1).
  { apply lmax_is.
    - intros x X. apply in_map_iff in X. destruct X as [y [<- Y]]. specialize (H y Y). unfold row_of. lia.
    - apply in_map_iff. exists p. split; [unfold row_of; lia|exact I]. }
  cbn [map] in *. rewrite L. f_equal. specialize (H p I). lia.
Qed.

Lemma size_clean : forall N choose (d : mdir K) p v, picks choose -> clean N d -> dget (mname p) d = Some v -> matr_size choose d = Ok N.
Proof.
  intros N choose d p v PC C G. unfold matr_size.
  assert (F : In (mname p) (filter (contains ".pkl") (map fst d))).
  { apply filter_In. split; [eapply dget_in; eauto|apply mname_pkl]. }
  remember (filter (contains ".pkl") (map fst d)) as l. destruct l as [|x r]; [destruct F|].
  assert (CI : In (choose (x :: r)) (x :: r)) by (apply PC; discriminate).
  rewrite Heql in CI at 2. apply filter_In in CI. destruct CI as [CI CP]. apply in_dget in CI. destruct CI as [v' V'].
  destruct (C _ _ V' CP) as [tr [-> HR]]. unfold load_matrix. rewrite V'. cbn [bind]. apply rows_max. exact HR.
Qed.

Lemma disk_point : forall N choose (d : mdir K) p tr basis, picks choose -> clean N d -> build p = Ok tr ->
  dget (mname p) d = Some (Matrix tr) -> List.length basis = N ->
  from_disk fmt g0_at eta choose d p = on_the_fly build g0_at basis p.
Proof.
  intros N choose d p tr basis PC C B G L. unfold from_disk, on_the_fly. rewrite (size_clean N choose d p _ PC C G). cbn [bind].
  unfold load_matrix. rewrite G, B. cbn [bind]. rewrite L. reflexivity.
Qed.

End Disk.

Section Jobs.
Context {T : Type}.
Variable GO : gridops T.

(** The points of all ranks together are the points of the grid. *)
Lemma all_jobs : forall W bs k w ks ws, brigaded W bs -> brigade_grid GO W bs k w = Ok (ks, ws) ->
  exists per, mapM (fun r => prepared_jobs GO W bs r k w) (seq 0 W) = Ok per /\
    forall p, In p (List.concat per) <-> In p (points ks ws).
Proof.
  intros W bs k w ks ws HB EG.
  exists (map (fun r => chunk_of W bs (points ks ws) (Z.to_nat (mpi_brigade bs r))) (seq 0 W)). split.
  - rewrite <- mapM_pure. apply mapM_ext_in. intros r Hr. apply in_seq in Hr. unfold prepared_jobs. rewrite EG. cbn [bind].
    rewrite jobs_points. cbn [bind]. apply (jobs_chunk W bs r (points ks ws) HB). lia.
  - intros p. destruct (brigaded_size W bs HB) as [P1 [P2 P3]].
    assert (EC : In p (points ks ws) <-> In p (List.concat (map (chunk_of W bs (points ks ws)) (seq 0 (Z.to_nat (brigades W bs))))))
      by (rewrite (chunks_concat W bs (points ks ws) HB); reflexivity).
    rewrite EC, !in_concat. split; intros [l [L I]]; apply in_map_iff in L; destruct L as [r [<- Hr]]; apply in_seq in Hr.
    + destruct (jobs_chunk W bs r (points ks ws) HB ltac:(lia)) as [_ RR].
      eexists. split; [apply in_map_iff; exists (Z.to_nat (mpi_brigade bs r)); split; [reflexivity|apply in_seq; lia]|exact I].
    + assert (LT : (Z.to_nat (Z.of_nat r * brigade_size W bs) < W)) by nia.
      exists (chunk_of W bs (points ks ws) r). split; [|exact I]. apply in_map_iff. exists (Z.to_nat (Z.of_nat r * brigade_size W bs)).
      split; [|apply in_seq; lia]. f_equal.
      destruct bs as [b|]; cbn [mpi_brigade brigades brigade_size] in *; [|lia].
      rewrite quot_pos by exact P2. rewrite Z2Nat.id by nia. rewrite Z.div_mul by lia. apply Nat2Z.id.
Qed.
End Jobs.

Lemma mass_greens_ext : forall T K Meta (G : gridops T) (isnan : K -> bool) (f f' : nat -> T * T -> result (K * Meta)) W bs r k w,
  brigaded W bs ->
  (forall ks ws r p, brigade_grid G W bs k w = Ok (ks, ws) -> (r < W) -> In p (points ks ws) -> f r p = f' r p) ->
  mass_greens G isnan f W bs r k w = mass_greens G isnan f' W bs r k w.
Proof.
  intros T K Meta G isnan f f' W bs r k w HB H. unfold mass_greens.
  destruct (brigade_grid G W bs k w) as [[ks ws]|] eqn:EG; [|reflexivity]. cbn [bind].
  assert (E : mapM (fun r => brigade_part f W bs r ks ws) (seq 0 W) = mapM (fun r => brigade_part f' W bs r ks ws) (seq 0 W)).
  { apply mapM_ext_in. intros r' Hr. apply in_seq in Hr. unfold brigade_part. rewrite jobs_points. cbn [bind].
    destruct (jobs_chunk W bs r' (points ks ws) HB ltac:(lia)) as [-> RR]. cbn [bind]. apply mapM_ext_in. intros p Hp.
    apply (H ks ws); [reflexivity|lia|].
    assert (I : In p (List.concat (map (chunk_of W bs (points ks ws)) (seq 0 (Z.to_nat (brigades W bs)))))).
    { apply in_concat. exists (chunk_of W bs (points ks ws) (Z.to_nat (mpi_brigade bs r'))). split; [|exact Hp].
      apply in_map_iff. exists (Z.to_nat (mpi_brigade bs r')). split; [reflexivity|apply in_seq; lia]. }
    rewrite (chunks_concat W bs (points ks ws) HB) in I. exact I. }
  rewrite E. reflexivity.
Qed.
