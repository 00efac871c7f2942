(** C63: calls of the solver constructors. *)
From Coq Require Import String ZArith List Bool Lia Permutation.
From Verif Require Import Base Config Model Space Render Term Equation System Cache Checkpoint Roots Args Spec_args Spec_checkpoint.
From Verif Require Import Args_proofs Checkpoint_proofs Roots_proofs Props_Engine Props_Solve Props_Checkpoint.
Import ListNotations.
Open Scope list_scope.
Open Scope string_scope.

Lemma basic_nodup : NoDup basic_names.
Proof. repeat constructor; cbn [In]; intuition discriminate. Qed.
Lemma mumps_nodup : NoDup mumps_names.
Proof. repeat constructor; cbn [In]; intuition discriminate. Qed.

(** SparseSolver and DenseSolver take system, root, basis and mpi_comm, in this
    order or by name; every other call is a TypeError. *)
Theorem C63_basic : forall V (pos : list V) kw,
  (acceptable basic_names pos kw -> exists b, basic_call pos kw = Ok b /\ forall x, sget x b = meaning basic_names pos kw x) /\
  (~ acceptable basic_names pos kw -> basic_call pos kw = Err TypeError).
Proof.
  intros V pos kw. change (basic_call pos kw) with (take_all basic_names pos kw). split; [apply take_all_ok|apply take_all_bad]; apply basic_nodup.
Qed.
Print Assumptions C63_basic.

(** MassSolverMUMPS takes three more, before these: three constructors that
    each take their own parameters off the front act as one. *)
Theorem C63_mumps : forall V (pos : list V) kw,
  (acceptable mumps_names pos kw -> exists b, mumps_call pos kw = Ok b /\ forall x, sget x b = meaning mumps_names pos kw x) /\
  (~ acceptable mumps_names pos kw -> mumps_call pos kw = Err TypeError).
Proof.
  intros V pos kw. rewrite mumps_flat. split; [apply take_all_ok|apply take_all_bad]; apply mumps_nodup.
Qed.
Print Assumptions C63_mumps.

(** By name only: in any order, and the same for all solvers. *)
Theorem C63_keywords : forall V (kw kw' : sdict V), NoDup (map fst kw) -> Permutation kw kw' -> (forall x, In x (map fst kw) -> In x basic_names) ->
  exists b b' c, basic_call [] kw = Ok b /\ basic_call [] kw' = Ok b' /\ mumps_call [] kw = Ok c /\
    forall x, sget x b = sget x kw /\ sget x b' = sget x kw /\ sget x c = sget x kw.
Proof.
  intros V kw kw' N P I.
  assert (G : forall x, sget x kw' = sget x kw).
  { intros x. clear I. revert N. induction P as [|[k v] l l' P IH|[k1 v1] [k2 v2] l|l1 l2 l3 P1 IH1 P2 IH2]; intros N; [reflexivity| | |].
    - cbn [sget]. rewrite IH; [reflexivity|]. inversion N; assumption.
    - cbn [sget]. inversion N; subst. destruct (String.eqb_spec k1 x), (String.eqb_spec k2 x); try reflexivity. subst. exfalso. apply H1. left. reflexivity.
    - rewrite IH2, IH1; [reflexivity|exact N|]. eapply Permutation_NoDup; [apply Permutation_map; exact P1|exact N]. }
  assert (I' : forall x, In x (map fst kw') -> In x basic_names).
  { intros x H. apply I. eapply Permutation_in; [apply Permutation_sym, Permutation_map; exact P|exact H]. }
  destruct (proj1 (C63_basic V [] kw)) as [b [EB MB]]; [split; [cbn; lia|exact I]|].
  destruct (proj1 (C63_basic V [] kw')) as [b' [EB' MB']]; [split; [cbn; lia|exact I']|].
  destruct (proj1 (C63_mumps V [] kw)) as [c [EC MC]]; [split; [cbn; lia|]|].
  { intros x H. apply I in H. change mumps_names with (["autoprime"; "brigade_size"; "matr_dir"] ++ basic_names)%list. apply in_or_app. right. exact H. }
  exists b, b', c. split; [exact EB|]. split; [exact EB'|]. split; [exact EC|]. intros x.
  assert (A : forall (k : sdict V) ns, (forall x, In x (map fst k) -> In x ns) -> meaning ns [] k x = sget x k).
  { intros k ns H. rewrite meaning_nil. destruct (existsb (String.eqb x) ns) eqn:Q; [reflexivity|]. symmetry. apply sget_notin. intros W.
    apply H, existsb_In in W. congruence. }
  rewrite MB, MB', MC. rewrite (A kw basic_names I), (A kw' basic_names I'), G. rewrite (A kw mumps_names); [auto|].
  intros y H. apply I in H. change mumps_names with (["autoprime"; "brigade_size"; "matr_dir"] ++ basic_names)%list. apply in_or_app. right. exact H.
Qed.
Print Assumptions C63_keywords.

Section Systems.
Context {T : Type}.
Variable ord : string -> list vec -> list vec.
Implicit Types (s : rsystem T) (k : disk T).

(** The System of the solver, for arguments given by name in any order. *)
Theorem C63_system : forall s r k kw, Permutation kw [("system", PSystem s); ("root", PPath r); ("mpi_comm", PComm)] ->
  basic_new ord [] kw k = solver_init ord (Some s) (Some r) k /\ mumps_new ord [] kw k = solver_init ord (Some s) (Some r) k.
Proof.
  intros s r k kw P.
  assert (N : NoDup (map fst [("system", PSystem s); ("root", PPath r); ("mpi_comm", PComm)])) by (repeat constructor; cbn [In map fst]; intuition discriminate).
  destruct (C63_keywords (pyarg (T := T)) _ kw N (Permutation_sym P)) as (b0 & b & c0 & _ & EB & _ & HB); [cbn; intuition|].
  destruct (C63_keywords (pyarg (T := T)) kw kw) as (b1 & b2 & c & _ & _ & EC & HC);
    [eapply Permutation_NoDup; [apply Permutation_map, Permutation_sym; exact P|exact N]|reflexivity| |].
  { intros x H. apply (Permutation_in x (Permutation_map fst P)) in H. revert H. cbn. intuition. }
  assert (G : forall x, sget x b = sget x [("system", PSystem s); ("root", PPath r); ("mpi_comm", PComm)]) by (intros x; apply HB).
  assert (G' : forall x, sget x c = sget x [("system", PSystem s); ("root", PPath r); ("mpi_comm", PComm)]).
  { intros x. destruct (C63_keywords (pyarg (T := T)) _ kw N (Permutation_sym P)) as (u & u' & v & _ & EU & _ & HU); [cbn; intuition|].
    destruct (HC x) as [X1 [_ X2]]. rewrite X2. destruct (HU x) as [_ [Y _]]. rewrite <- Y. rewrite EB in EU. injection EU as <-.
    destruct (C63_basic (pyarg (T := T)) [] kw) as [Z _]. destruct Z as [b' [EZ MZ]].
    { split; [cbn; lia|]. intros y H. apply (Permutation_in y (Permutation_map fst P)) in H. revert H. cbn. intuition. }
    rewrite EB in EZ. injection EZ as <-. rewrite MZ, meaning_nil. destruct (existsb (String.eqb x) basic_names) eqn:Q; [reflexivity|].
    apply sget_notin. intros W. apply (Permutation_in x (Permutation_map fst P)) in W.
    assert (In x basic_names) by (revert W; cbn; intuition). apply existsb_In in H. congruence. }
  split.
  - unfold basic_new. rewrite EB. unfold init_with, root_arg, system_arg. rewrite !G. reflexivity.
  - unfold mumps_new. rewrite EC. unfold init_with, root_arg, system_arg. rewrite !G'. cbn [sget String.eqb Ascii.eqb Bool.eqb].
    cbn [solver_init]. reflexivity.
Qed.

(** SparseSolver(s), SparseSolver(s, r) and DenseSolver likewise use [s];
    MassSolverMUMPS takes the same first argument as [autoprime]: with a root it
    loads what that root holds, whatever System was given, without one it
    exits. *)
Theorem C63_positional : forall s r k,
  basic_new ord [PSystem s] [] k = (recheckpoint s k, Ok s) /\
  basic_new ord [PSystem s; PPath r] [] k = (recheckpoint s k, Ok s) /\
  mumps_new ord [PSystem s] [("root", PPath r); ("mpi_comm", PComm)] k = solver_init ord None (Some r) k /\
  mumps_new ord [PSystem s] [("mpi_comm", PComm)] k = (k, Err SystemExit).
Proof.
  intros s r k. split; [reflexivity|]. split; [reflexivity|]. split; [|reflexivity].
  unfold mumps_new. change (mumps_call [PSystem s] [("root", PPath r); ("mpi_comm", PComm)]) with
    (Ok [("autoprime", PSystem s); ("root", PPath r); ("mpi_comm", @PComm T)]).
  assert (I : init_with ord [("autoprime", PSystem s); ("root", PPath r); ("mpi_comm", PComm)] k = solver_init ord None (Some r) k) by reflexivity.
  cbv beta iota. rewrite I. destruct (solver_init ord None (Some r) k) as [k' [y|x]]; reflexivity.
Qed.

(** Without communicator: MassSolverMUMPS exits, but what the constructor of
    Solver did to the disk is done. *)
Theorem C63_no_comm : forall s r k,
  mumps_new ord [] [("system", PSystem s); ("root", PPath r)] k = (fst (basic_new ord [] [("system", PSystem s); ("root", PPath r)] k), Err SystemExit).
Proof. reflexivity. Qed.
End Systems.
Print Assumptions C63_system.
Print Assumptions C63_positional.
Print Assumptions C63_no_comm.

(** One call, two solvers, two Systems. *)
Theorem C63_positional_refuted : exists (m1 m2 : model Z) s1 s2 x1 x2 k1 k2 y k3, storable m1 /\ prime_system id_ord m1 = Ok s1 /\ prime_system id_ord m2 = Ok s2 /\
  new_rsystem id_ord m1 10 (Some "r") (fun _ => no_files) = (k1, Ok x1) /\ new_rsystem id_ord m2 10 None k1 = (k2, Ok x2) /\
  snd (basic_new id_ord [PSystem x2] [("root", PPath "r"); ("mpi_comm", PComm)] k2) = Ok x2 /\ same_system s2 (rs_sys x2) /\
  mumps_new id_ord [PSystem x2] [("root", PPath "r"); ("mpi_comm", PComm)] k2 = (k3, Ok y) /\ same_system s1 (rs_sys y) /\
  List.length (flat_map snd (s_eqs s1)) <> List.length (flat_map snd (s_eqs s2)).
Proof.
  destruct (sys_ex id_ord h_model (fun s => Nat.eqb (List.length (flat_map snd (s_eqs s))) 3)) as [s1 [E1 H1]]; [vm_compute; reflexivity|].
  destruct (sys_ex id_ord h_small (fun s => negb (Nat.eqb (List.length (flat_map snd (s_eqs s))) 3))) as [s2 [E2 H2]]; [vm_compute; reflexivity|].
  destruct (C49_same_root id_ord h_model s1 10 "r" (fun _ => no_files) [] h_storable E1 eq_refl) as [k1 [x1 [N1 [RX [SX H]]]]].
  assert (ND : exists k3 y, solver_init id_ord None (Some "r") k1 = (k3, Ok y) /\ same_system s1 (rs_sys y)).
  { destruct (prime_parts id_ord h_model s1 E1) as [_ [_ [_ [_ [_ SM]]]]].
    pose proof E1 as E1'. rewrite <- SM in E1'.
    assert (ST : storable (s_model s1)) by (rewrite SM; exact h_storable).
    destruct (construct_files id_ord s1 no_files 10 E1' ST (or_intror eq_refl)) as [w [EC F]].
    unfold new_rsystem in N1. rewrite SM in EC. rewrite EC in N1. cbn [bind] in N1. injection N1 as <- <-.
    destruct (solver_loads id_ord s1 (put_root "r" (final w no_files) (fun _ => no_files)) "r" E1') as [k3 [p [EQ [SP _]]]]; [rewrite put_same; exact F|].
    exists k3. eexists. split; [exact EQ|exact SP]. }
  destruct ND as (k3 & y & L & SY).
  exists h_model, h_small, s1, s2, x1, (mkRs (py_of 10 s2) None), k1, k1, y, k3.
  split; [exact h_storable|]. split; [exact E1|]. split; [exact E2|]. split; [exact N1|]. split.
  { unfold new_rsystem. rewrite (new_result id_ord h_small 10 false no_files), E2. reflexivity. }
  split; [reflexivity|]. split; [repeat split|]. split.
  { rewrite (proj1 (proj2 (proj2 (C63_positional id_ord _ "r" k1)))). exact L. }
  split; [exact SY|]. apply Nat.eqb_eq in H1. rewrite H1. intros Q. rewrite <- Q in H2. discriminate H2.
Qed.
Print Assumptions C63_positional_refuted.

Example C63_nonvacuous :
  acceptable mumps_names [1%nat; 2%nat] [("root", 3%nat); ("matr_dir", 4%nat)] /\
  mumps_call [1%nat; 2%nat] [("root", 3%nat); ("matr_dir", 4%nat)] = Ok [("autoprime", 1); ("brigade_size", 2); ("matr_dir", 4); ("root", 3)]%nat /\
  mumps_call [1%nat; 2%nat] [("autoprime", 3%nat)] = Err TypeError /\ mumps_call [] [("eta", 3%nat)] = Err TypeError /\
  basic_call [1; 2; 3; 4; 5]%nat [] = Err TypeError /\ ~ acceptable basic_names [1%nat] [("system", 2%nat)].
Proof.
  split; [split; [cbn; lia|cbn; intuition]|]. do 4 (split; [reflexivity|]). intros [_ H]. specialize (H "system" (or_introl eq_refl)). cbn in H. intuition discriminate.
Qed.
