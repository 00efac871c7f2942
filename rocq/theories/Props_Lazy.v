(** Property theorems C62: Systems built with [autoprime=False]. *)
From Coq Require Import String ZArith QArith List Bool Lia Permutation.
From Verif Require Import Base NdArray Config Spec Model Space Render Term Equation System Spec_engine Ring Coef Solvers Spec_solve Cache Checkpoint Spec_checkpoint Checkpoint_proofs
  Utils Mpi Spec_mpi Keys Petsc Spec_petsc Basis Lazy Spec_lazy Lazy_proofs Props_Engine Props_Solve Props_Checkpoint Props_Petsc.
Import ListNotations.
Open Scope list_scope.
Open Scope Z_scope.

Section C62.
Context {T : Type}.
Variable ord : string -> list vec -> list vec.
Implicit Types (m : model T) (s : system T) (d : cdir T) (vs : list (levent T)).

(** Creating without priming and priming afterwards goes through the states of
    the directory and gives the result of the constructor, for any arguments. *)
Theorem C62_split : forall m gen fargs eqs lim root d,
  let w0 := fst (create m gen fargs eqs lim root d) in let x := snd (create m gen fargs eqs lim root d) in
  fst (system_init ord m gen fargs eqs lim root d) = w0 ++ fst (prime ord x (final w0 d)) /\
  same_outcome (snd (prime ord x (final w0 d))) (snd (system_init ord m gen fargs eqs lim root d)).
Proof. exact (split_init ord). Qed.

(** Between creation and priming: checkpoints write nothing; solvers without a
    basis fail, and change nothing.  Priming then completes the System. *)
Theorem C62_defer : forall m s lim (root : bool) d vs, prime_system ord m = Ok s -> Forall (idle (T := T)) vs ->
  let d0 := if root then put_model (Complete (json_of_model m)) d else d in
  final (fst (create m None None None lim root d)) d = d0 /\
  exists d1, lrun ord (snd (create m None None None lim root d), d0) (vs ++ [LPrime]) =
    ((filled s lim root, d1), map unprimed_outcome vs ++ [Ok tt]) /\
  (root = true -> d1 = final (fst (new_system ord m lim true d)) d) /\ (root = false -> d1 = d).
Proof.
  intros m s lim root d vs E H d0. assert (E0 : final (fst (create m None None None lim root d)) d = d0) by (destruct root; reflexivity).
  split; [exact E0|]. change (snd (create m None None None lim root d)) with (bare m lim root).
  exists (final (fst (prime ord (bare m lim root) d0)) d0). split; [|split].
  - rewrite lrun_app, (idle_run ord m lim root vs d0 H). cbn [lrun lstep]. pose proof (prime_bare ord m s lim root d0 E) as P.
    destruct (prime ord (bare m lim root) d0) as [w r]. cbn [snd fst] in *. subst r. reflexivity.
  - intros ->. destruct (C62_split m None None None lim true d) as [W _]. unfold new_system. rewrite W, final_app, E0. reflexivity.
  - intros ->. cbn [d0]. unfold prime. cbn [bare ls_model ls_gen ls_fargs ls_eqs ls_lim ls_root].
    destruct (match _ with Ok _ => _ | Err _ => _ end) as [w r] eqn:X. cbn [fst].
    assert (w = []); [|subst; reflexivity]. revert X. destruct (bind _ _) as [[g fl]|y]; [|intros [= <- _]; reflexivity]. unfold lcheckpoint.
    cbn [ls_root ls_lim ls_gen ls_fargs ls_eqs with_root]. destruct fl as [fl|]; [destruct (full_equations fl g)|]; intros [= <- _]; reflexivity.
Qed.

(** Priming twice, or as often as one likes, with checkpoints and solvers in
    between: neither the object nor the directory changes. *)
Theorem C62_again : forall (x y : lsystem T) d w vs, prime ord x d = (w, Ok y) -> Forall (fun v => idle v \/ v = LPrime) vs ->
  lrun ord (y, final w d) vs = ((y, final w d), map (fun _ => Ok tt) vs).
Proof. exact (primed_run ord). Qed.

(** The directory of a System that was never primed can be reloaded, and is
    then complete. *)
Theorem C62_reload : forall m s lim vs, storable m -> prime_system ord m = Ok s -> Forall (idle (T := T)) vs ->
  let d := snd (fst (lrun ord (snd (create m None None None lim true no_files), final (fst (create m None None None lim true no_files)) no_files) vs)) in
  d = mkCdir (Some (Complete (json_of_model m))) None None None /\
  exists w p, from_checkpoint ord d = (w, Ok p) /\ same_system s p /\
    c_gen (final w d) = Some (Complete (s_gen s)) /\ c_fargs (final w d) = Some (Complete (s_fargs s)) /\
    c_eqs (final w d) = (if default_lim <? count (s_eqs s) then None else Some (Complete (s_eqs s))).
Proof.
  intros m s lim vs ST E H d. rewrite count_eq. assert (ED : d = mkCdir (Some (Complete (json_of_model m))) None None None).
  { unfold d. change (snd (create m None None None lim true no_files)) with (bare m lim true). rewrite (idle_run ord m lim true vs _ H). reflexivity. }
  split; [exact ED|]. rewrite ED. clear d ED. unfold from_checkpoint. cbn [c_model c_gen c_fargs c_eqs load bind]. rewrite (model_roundtrip m ST). cbn [bind].
  destruct (prime_parts ord m s E) as [sp [E1 [E2 [E3 [E4 SM]]]]].
  assert (EP : exists s', prime_system ord (pin m) = Ok s' /\ s_gen s' = s_gen s /\ s_fargs s' = s_fargs s /\ s_eqs s' = s_eqs s /\ s_model s' = pin m).
  { destruct (same_generalized m (pin m) ord (pin_same m)) as [S1 S2]. exists (mkSys (pin m) (s_gen s) (s_fargs s) (s_eqs s)).
    split; [|auto]. unfold prime_system. rewrite S1, E1. cbn [bind]. rewrite <- generalized_none, S2, generalized_none, E2. cbn [bind]. rewrite E3. cbn [bind]. rewrite E4. reflexivity. }
  destruct EP as (s' & EP & G1 & G2 & G3 & G4). set (d := mkCdir _ None None None).
  pose proof (new_result ord (pin m) default_lim true d) as NR. rewrite EP in NR. cbn [bind] in NR.
  destruct (C62_split (pin m) None None None default_lim true d) as [W _].
  change (system_init ord (pin m) None None None default_lim true d) with (new_system ord (pin m) default_lim true d) in *.
  destruct (new_system ord (pin m) default_lim true d) as [w r]. cbn [fst snd] in NR, W. subst r. exists w, (py_of default_lim s'). split; [reflexivity|].
  split; [unfold same_system, py_of; cbn [py_model py_gen py_fargs py_eqs]; rewrite SM, G4, G1, G2, G3; split; [apply pin_same|auto]|].
  rewrite W, final_app. change (snd (create (pin m) None None None default_lim true d)) with (bare (pin m) default_lim true).
  rewrite (prime_bare_files ord (pin m) s' default_lim _ EP) by reflexivity. cbn [c_gen c_fargs c_eqs]. rewrite G1, G2, G3. auto.
Qed.

(** Changing the model of the object before priming: the equations are those of
    the changed model, but model.json is not written again. *)
Theorem C62_adjust : forall m m' s' lim, storable m -> prime_system ord m' = Ok s' -> count (s_eqs s') <= lim ->
  let c := create m None None None lim true no_files in
  exists d, lrun ord (snd c, final (fst c) no_files) [LAdjust m'; LPrime] = ((filled s' lim true, d), [Ok tt; Ok tt]) /\
    c_model d = Some (Complete (json_of_model m)) /\
    exists w p, from_checkpoint ord d = (w, Ok p) /\ same_attributes m (py_model p) /\ py_gen p = s_gen s' /\ py_fargs p = Some (s_fargs s') /\ py_eqs p = s_eqs s'.
Proof.
  intros m m' s' lim ST E L c. rewrite count_eq in L. set (d0 := final (fst c) no_files). change (snd c) with (bare m lim true).
  exists (final (fst (prime ord (bare m' lim true) d0)) d0). split.
  - cbn [lrun lstep]. change (adjust m' (bare m lim true)) with (bare m' lim true). pose proof (prime_bare ord m' s' lim true d0 E) as P.
    destruct (prime ord (bare m' lim true) d0) as [w r]. cbn [snd fst] in *. subst r. reflexivity.
  - rewrite (prime_bare_files ord m' s' lim d0 E) by reflexivity. cbn [c_model]. split; [reflexivity|].
    replace (lim <? n_equations (s_eqs s')) with false by (symmetry; apply Z.ltb_ge; exact L).
    destruct (prime_parts ord m' s' E) as [_ [_ [_ [_ [E4 _]]]]]. unfold from_checkpoint, d0. cbn [c fst create with_root save_model final last put_model c_model c_gen c_fargs c_eqs load unpickle bind].
    rewrite (model_roundtrip m ST). cbn [bind]. unfold system_init. rewrite E4. cbn [bind]. do 2 eexists. split; [reflexivity|]. cbn [py_model py_gen py_fargs py_eqs].
    split; [apply pin_same|auto].
Qed.
End C62.
Print Assumptions C62_split.
Print Assumptions C62_defer.
Print Assumptions C62_again.
Print Assumptions C62_reload.
Print Assumptions C62_adjust.

(** A System without equations given to a solver.  Without a basis no solver
    but MassSolverMUMPS with [autoprime=False] can be built; however it was
    built, a point not in the results directory raises TypeError and leaves the
    directory as it is, and a stored point is returned. *)
Theorem C62_unprimed : forall T (F : cfield) (e : Q * Q * Q -> env T F) sp ls mumps (x : lsystem T) d, ls_eqs x = None ->
  (forall k, snd (new_solver k None x d) = match k with Mass false => Ok None | _ => Err AttributeError end) /\
  (forall k b, snd (new_solver k (Some b) x d) = Ok (Some b)) /\
  forall k p b key neg (r : option (dir F)) q,
    let ans := solve key (fun q => lsolve_point (e q) sp ls mumps k p b None x) neg r q in
    (forall f v, r = Some f -> fget (key q) f = Some (Complete v) -> fst (fst ans) = Ok v) /\
    ((forall f, r = Some f -> fget (key q) f = None) -> ans = (Err TypeError, false, r)).
Proof.
  intros T F e sp ls mumps x d H. split; [|split].
  - intros k. unfold new_solver, get_basis. rewrite H. destruct k as [| |[|]]; reflexivity.
  - intros k b. unfold new_solver. destruct k as [| |[|]]; reflexivity.
  - intros k p b key neg r q ans.
    assert (TE : lsolve_point (e q) sp ls mumps k p b None x = Err TypeError) by (unfold lsolve_point; rewrite H; destruct k, b; reflexivity).
    unfold ans, solve, pre_solve. split.
    + intros f v -> G. rewrite G. reflexivity.
    + intros G. destruct r as [f|]; [rewrite (G f eq_refl)|]; rewrite TE; reflexivity.
Qed.
Print Assumptions C62_unprimed.

(** After priming the three solvers compute what they compute on a System that
    was primed at once. *)
Theorem C62_primed : forall T (F : cfield) (e : env T F) sp ls mumps ord (m : model T) s lim root d p, prime_system ord m = Ok s ->
  exists x, snd (prime ord (snd (create m None None None lim root d)) (final (fst (create m None None None lim root d)) d)) = Ok x /\
  (forall d', exists b, snd (new_solver Sparse None x d') = Ok b /\ lsolve_point e sp ls mumps Sparse p b None x = sparse_solve e sp s) /\
  (forall d', exists b, snd (new_solver Dense None x d') = Ok b /\ lsolve_point e sp ls mumps Dense p b None x = dense_solve e ls s) /\
  (forall d', exists b, snd (new_solver (Mass true) None x d') = Ok b /\ lsolve_point e sp ls mumps (Mass true) p b None x = mass_solve mumps e s p).
Proof.
  intros T F e sp ls mumps ord m s lim root d p E. exists (filled s lim root). split; [apply (prime_bare ord m s lim root _ E)|].
  split; [|split]; intros d'; eexists; (split; [reflexivity|]); destruct s; reflexivity.
Qed.
Print Assumptions C62_primed.

(** The two-stage use of docs/source/tutorials/petsc_advanced.rst: matrices
    prepared with a primed System, then a solver with a System that was never
    primed: the same Green's functions as without the directory. *)
Theorem C62_two_stages : forall T (F : cfield) (env_at : Q * Q -> env T F) eta (m : model T) ae ord s W bs k w ks ws order d W' bs' rank choose mumps isnan sp ls lim root cd x,
  good_model m ae -> (forall k l, Permutation (ord k l) l) -> prime_system ord m = Ok s ->
  brigaded W bs -> brigade_grid Qgrid W bs k w = Ok (ks, ws) -> separated ks -> separated ws ->
  (forall l, Permutation (order l) l) -> (forall y v, In (y, v) d -> contains ".pkl" y = false) ->
  brigaded W' bs' -> brigades W' bs' = brigades W bs -> (forall r p, picks (choose r p)) ->
  let build p := sparse_matrix (env_at p) (full_basis s) s in
  let g0_at p := G0 (env_at p) in
  let b := Z.to_nat (brigade_size W' bs') in
  x = snd (create m None None None lim root cd) -> 
  snd (new_solver (Mass false) None x cd) = Ok None /\
  exists d', prepare_greens fmt10 build eta order Qgrid W bs (Some d) k w = Ok (Some d') /\
    mass_greens Qgrid isnan (fun r p => v <- lsolve_point (env_at p) sp ls mumps (Mass false) b None (Some (from_disk fmt10 g0_at eta (choose r p) d' p)) x ;; Ok (v, tt)) W' bs' rank k w =
    mass_greens Qgrid isnan (fun r p => v <- mass_solve mumps (env_at p) s b ;; Ok (v, tt)) W' bs' rank k w.
Proof.
  intros T F env_at eta m ae ord s W bs k w ks ws order d W' bs' rank choose mumps isnan sp ls lim root cd x G P E HB EG SK SW HO HD HB' EB PC build g0_at b ->.
  split; [reflexivity|]. exact (C28_greens F T env_at eta m ae ord s W bs k w ks ws order d W' bs' rank choose mumps isnan G P E HB EG SK SW HO HD HB' EB PC).
Qed.
Print Assumptions C62_two_stages.

(** docs/source/tutorials/benchmark.rst:76-105: "This defers the building of the
    system of equations within System until we instantiate a Solver".  It does
    not: the instantiation fails. *)
Theorem C62_docs_refuted : exists (m : model Z) s lim d, prime_system id_ord m = Ok s /\
  (exists b, snd (new_solver Sparse None (filled s lim false) d) = Ok b) /\
  snd (new_solver Sparse None (snd (create m None None None lim false d)) d) = Err AttributeError.
Proof.
  destruct (sys_ex id_ord h_model (fun _ => true)) as [s [E _]]; [vm_compute; reflexivity|].
  exists h_model, s, 10, no_files. split; [exact E|]. split; [eexists; reflexivity|reflexivity].
Qed.
Print Assumptions C62_docs_refuted.

(** "adjust its parameters later on": the checkpoint is then of the model as it
    was, with the equations of the changed one. *)
Theorem C62_adjust_refuted : exists (m m' : model Z) s s' d w p, storable m /\ prime_system id_ord m = Ok s /\ prime_system id_ord m' = Ok s' /\
  (let c := create m None None None 10 true no_files in lrun id_ord (snd c, final (fst c) no_files) [LAdjust m'; LPrime] = ((filled s' 10 true, d), [Ok tt; Ok tt])) /\
  from_checkpoint id_ord d = (w, Ok p) /\ same_attributes m (py_model p) /\ List.length (flat_map snd (s_eqs s)) <> List.length (flat_map snd (py_eqs p)).
Proof.
  destruct (sys_ex id_ord h_model (fun s => (count (s_eqs s) <=? 10) && Nat.eqb (List.length (flat_map snd (s_eqs s))) 3)) as [s1 [E1 H1]]; [vm_compute; reflexivity|].
  destruct (sys_ex id_ord h_small (fun s => negb (Nat.eqb (List.length (flat_map snd (s_eqs s))) 3))) as [s2 [E2 H2]]; [vm_compute; reflexivity|].
  apply andb_true_iff in H1. destruct H1 as [H1 H3]. apply Nat.eqb_eq in H3. apply Z.leb_le in H1.
  destruct (C62_adjust id_ord h_small h_model s1 10 h_small_storable E1 H1) as (d & A & B & w & p & C & D & _ & _ & X).
  exists h_small, h_model, s2, s1, d, w, p. split; [exact h_small_storable|]. split; [exact E2|]. split; [exact E1|]. split; [exact A|]. split; [exact C|]. split; [exact D|].
  rewrite X, H3. intros Y. rewrite Y in H2. discriminate H2.
Qed.
Print Assumptions C62_adjust_refuted.

Example C62_nonvacuous : exists s, storable h_model /\ prime_system id_ord h_model = Ok s /\ count (s_eqs s) = 3 /\
  (forall d, ls_eqs (snd (create h_model None None None 2 true d)) = None) /\
  exists d1, lrun id_ord (snd (create h_model None None None 2 true no_files), put_model (Complete (json_of_model h_model)) no_files)
     [LCheckpoint; LSolver Sparse None; LSolver (Mass false) None; LPrime; LSolver Sparse None; LPrime] =
     ((filled s 2 true, d1), [Ok tt; Err AttributeError; Ok tt; Ok tt; Ok tt; Ok tt]) /\ c_eqs d1 = None /\ c_gen d1 <> None.
Proof.
  destruct (sys_ex id_ord h_model (fun s => count (s_eqs s) =? 3)) as [s [E H]]; [vm_compute; reflexivity|]. apply Z.eqb_eq in H.
  exists s. split; [exact h_storable|]. split; [exact E|]. split; [exact H|]. split; [reflexivity|].
  set (d0 := put_model (Complete (json_of_model h_model)) no_files). change (snd (create h_model None None None 2 true no_files)) with (bare h_model 2 true).
  pose proof (prime_bare id_ord h_model s 2 true d0 E) as PB. pose proof (prime_bare_files id_ord h_model s 2 d0 E eq_refl eq_refl eq_refl) as PF.
  exists (final (fst (prime id_ord (bare h_model 2 true) d0)) d0). split.
  - change [LCheckpoint; LSolver Sparse None; LSolver (Mass false) None; LPrime; LSolver Sparse None; LPrime] with
      (([LCheckpoint; LSolver Sparse None; LSolver (Mass false) None] ++ [LPrime]) ++ @cons (levent Z) (LSolver Sparse None) [LPrime]).
    rewrite lrun_app. rewrite lrun_app. rewrite (idle_run id_ord h_model 2 true).
    2:{ apply Forall_forall. intros v [<-|[<-|[<-|[]]]]; [left; reflexivity|right; eexists; eexists; reflexivity|right; eexists; eexists; reflexivity]. }
    destruct (prime id_ord (bare h_model 2 true) d0) as [w r] eqn:EP. cbn [snd fst] in PB |- *. subst r.
    pose proof (C62_again id_ord _ _ _ _ [LSolver Sparse None; LPrime] EP) as AG.
    assert (ONE : lrun id_ord (bare h_model 2 true, d0) [LPrime] = ((filled s 2 true, final w d0), [Ok tt])) by (cbn [lrun lstep]; rewrite EP; reflexivity).
    rewrite ONE. cbn [app map]. rewrite AG; [reflexivity|]. constructor; [left; right; eexists; eexists; reflexivity|]. constructor; [right; reflexivity|constructor].
  - rewrite PF, <- count_eq, H. cbn [c_eqs c_gen]. split; [reflexivity|discriminate].
Qed.
