(** Property theorems C09-C12: the variational space. *)
From Coq Require Import ZArith List Bool Lia.
From Verif Require Import Base NdArray Config Spec Model Space Spec_space.
From Verif Require Config_proofs Space_proofs Count_proofs.
Import ListNotations.
Open Scope Z_scope.

(** A two-type model and a one-type model used as witnesses. *)
Definition exh : hamiltonian Z := mkHam [] [] 1 1.
Definition exm2 : model Z := mkModel 1 0 exh (Some 2) [2; 1] [2; 1] (Some 3) 2.
Definition exm1 : model Z := mkModel 1 0 exh None [3] [4] None 1.
Definition exm1' : model Z := mkModel 1 0 exh None [4] [4] (Some 5) 1.

Lemma exm2_wf : wf_model exm2. Proof. repeat split; simpl; lia. Qed.
Lemma exm1_wf : wf_model exm1. Proof. repeat split; simpl; lia. Qed.
Lemma exm1'_wf : wf_model exm1'. Proof. repeat split; simpl; lia. Qed.

(** C09 *)
Theorem C09_config_space_gen : forall len s, (1 <= len)%nat -> 0 <= s ->
  exists l, config_space_gen len s = Ok l /\ NoDup l /\
    forall x, In x l <-> length x = len /\ Forall (fun v => 0 <= v) x /\ sumZ x = s.
Proof. exact Space_proofs.config_space_gen_spec. Qed.
Print Assumptions C09_config_space_gen.

Example C09_nonvacuous : config_space_gen 2 2 = Ok [[0; 2]; [1; 1]; [2; 0]].
Proof. reflexivity. Qed.

(** C10.  [clouds_of d n] are the arrays stored under key [n]; [model_space]
    says what a cloud of the model with [n] phonons is. *)
Theorem C10_space_exact : forall T (m : model T) ae, wf_model m -> absolute_extent m = Some ae ->
  exists d, generate_space m = Ok d /\ map fst d = range 1 (sumZ (m_pn m) + 1) /\
    forall n, NoDup (clouds_of d n) /\ forall a, In a (clouds_of d n) <-> model_space m ae n a.
Proof. exact (@Space_proofs.space_complete). Qed.
Print Assumptions C10_space_exact.

Example C10_nonvacuous : wf_model exm2 /\ absolute_extent exm2 = Some 3 /\
  exists d, generate_space exm2 = Ok d /\
    clouds_of d 2 = [mkNd [2; 1]%nat [1; 1]; mkNd [2; 1]%nat [2; 0];
                     mkNd [2; 2]%nat [0; 1; 1; 0]; mkNd [2; 2]%nat [1; 0; 0; 1];
                     mkNd [2; 2]%nat [1; 1; 0; 0];
                     mkNd [2; 3]%nat [0; 0; 1; 1; 0; 0]; mkNd [2; 3]%nat [1; 0; 0; 0; 0; 1]].
Proof. split; [exact exm2_wf|]. split; [reflexivity|]. eexists. split; vm_compute; reflexivity. Qed.

(** In more than one dimension the generator exits. *)
Theorem C10_higher_dimension_exits : forall T (m : model T),
  (1 < h_dim (m_ham m))%nat -> generate_space m = Err SystemExit.
Proof. exact (@Space_proofs.higher_dim_exits). Qed.
Print Assumptions C10_higher_dimension_exits.

(** C11: the generated number equals the closed form, and the consistency
    check in [_predict_total_terms] agrees. *)
Theorem C11_analytic_count : forall T (m : model T) M N,
  wf_model m -> m_ntypes m = 1%nat -> m_mps m = None -> m_pe m = [M] -> m_pn m = [N] ->
  m_aext m = None -> 1 <= M -> 1 <= N ->
  exists d t, generate_space m = Ok d /\
    total_generalized_equations (m_pe m) (m_pn m) 1 = Ok t /\ space_size d = t /\
    predict_total_terms m (1 + space_size d) = Ok (Some true).
Proof. exact (@Count_proofs.count_formula). Qed.
Print Assumptions C11_analytic_count.

Example C11_nonvacuous : wf_model exm1 /\ m_pe exm1 = [3] /\ m_pn exm1 = [4] /\
  exists d, generate_space exm1 = Ok d /\ space_size d = 20.
Proof. split; [exact exm1_wf|]. repeat split. eexists. split; vm_compute; reflexivity. Qed.

(** An explicitly set, different absolute extent makes the check report a
    mismatch although nothing is wrong. *)
Theorem C11_explicit_extent_mismatch_refuted : exists (m : model Z) d,
  wf_model m /\ m_mps m = None /\ m_ntypes m = 1%nat /\ generate_space m = Ok d /\
  predict_total_terms m (1 + space_size d) = Ok (Some false).
Proof.
  exists (mkModel 1 0 exh None [3] [3] (Some 2) 1). eexists.
  split; [repeat split; simpl; lia|]. split; [reflexivity|]. split; [reflexivity|]. split; vm_compute; reflexivity.
Qed.
Print Assumptions C11_explicit_extent_mismatch_refuted.

(** C12 *)
Theorem C12_monotone_space : forall T (m m' : model T) ae ae', wf_model m -> wf_model m' ->
  absolute_extent m = Some ae -> absolute_extent m' = Some ae' -> limits_le m m' ae ae' ->
  exists d d', generate_space m = Ok d /\ generate_space m' = Ok d' /\
    forall n a, In a (clouds_of d n) -> In a (clouds_of d' n).
Proof. exact (@Space_proofs.space_grows). Qed.
Print Assumptions C12_monotone_space.

Example C12_nonvacuous : wf_model exm1 /\ wf_model exm1' /\ limits_le exm1 exm1' 3 5 /\
  absolute_extent exm1 = Some 3 /\ absolute_extent exm1' = Some 5.
Proof.
  split; [exact exm1_wf|]. split; [exact exm1'_wf|]. split; [|split; reflexivity].
  split; [reflexivity|]. split; [lia|]. split; [repeat constructor; lia|]. split; [repeat constructor; lia|exact I].
Qed.
