(** Property theorems C16: the rows of the system are the truncated equation
    of motion. *)
From Coq Require Import String ZArith List Bool Lia Permutation.
From Verif Require Import Base NdArray Config Spec Model Space Spec_space Render Term Equation System Spec_engine
  Ring Coef Spec_eom Props_Engine.
From Verif Require Eom_proofs Equation_proofs.
Import ListNotations.
Open Scope list_scope.
Open Scope Z_scope.

(** C16.  Any commutative ring of values, any phases, propagators and values of
    the model's numbers ([env]), any cloud of the space, any delta. *)
Theorem C16_cloud_row : forall T (K : cring) (e : env T K) F m ae a q0 q v,
  covariant e F -> good_model m ae -> space m ae a ->
  equation_from m a = Ok q0 -> init_full q0 v = Ok q ->
  exists d l st, v2 v = [d] /\ energy_of (h_freqs (m_ham m)) a l /\ acting m ae a st /\ bias e q = k0 /\
  row e (of_family F) q =
    kadd (F (cloud a) d) (ksum (map (fun h => ksum (map (eom_summand e F l a d h) (st h))) (h_terms (m_ham m)))).
Proof. intros. eapply Eom_proofs.cloud_row; eauto. Qed.
Print Assumptions C16_cloud_row.

Theorem C16_green_row : forall T (K : cring) (e : env T K) F m ae q0 q v,
  covariant e F -> good_model m ae -> green_equation m = Ok q0 -> init_full q0 v = Ok q ->
  exists d, v2 v = [d] /\ bias e q = G0 e /\
  row e (of_family F) q = kadd (F vacuum d) (ksum (map (green_summand e F) (filter creation (h_terms (m_ham m))))).
Proof. intros. eapply Eom_proofs.green_row; eauto. Qed.
Print Assumptions C16_green_row.

(** The same for every row of a constructed system. *)
Theorem C16_system_rows : forall T (K : cring) (e : env T K) F m ae ord s,
  covariant e F -> good_model m ae -> (forall k l, Permutation (ord k l) l) -> prime_system ord m = Ok s ->
  forall k es q, In (k, es) (s_eqs s) -> In q es ->
  (0 < k /\ bias e q = k0 /\ exists a d l st, unk (e_index q) = (a, [d]) /\ space m ae a /\ total a = k /\
     energy_of (h_freqs (m_ham m)) a l /\ acting m ae a st /\
     row e (of_family F) q =
       kadd (F (cloud a) d) (ksum (map (fun h => ksum (map (eom_summand e F l a d h) (st h))) (h_terms (m_ham m))))) \/
  (k = 0 /\ bias e q = G0 e /\ snd (unk (e_index q)) = [0] /\ phonon_free (fst (unk (e_index q))) /\
     row e (of_family F) q = kadd (F vacuum 0) (ksum (map (green_summand e F) (filter creation (h_terms (m_ham m)))))).
Proof. intros. eapply Eom_proofs.system_rows; eauto. Qed.
Print Assumptions C16_system_rows.

(** Annihilating where there is no phonon contributes nothing, so the sites of
    [acting] leave out, for annihilation operators, only zero summands. *)
Theorem C16_annihilation_sites : forall T (K : cring) (e : env T K) (F : family K) m ae a h l d x,
  space m ae a -> In h (h_terms (m_ham m)) -> ht_dag h = Minus -> ~ acts_at m ae a h [x] ->
  eom_summand e F l a d h x = k0.
Proof. intros. eapply Eom_proofs.no_phonon_no_term; eauto. Qed.
Print Assumptions C16_annihilation_sites.

(** Witness: k a = pi, i.e. phase (-1)^site, on the two-type model. *)
Definition ex_env : env Z Zring :=
  mkEnv (K := Zring) (fun z => z) (fun v => if Z.even (hd 0 v / 2) then 1 else -1)
    (fun v l => hd 0 v + 3 + fold_right (fun p s => fst p * snd p + s) 0 l) 11.
Definition ex_family : family Zring := fun n d => if Z.even (d / 2) then 4 else -4.

Lemma ex_covariant : covariant ex_env ex_family.
Proof.
  assert (A : forall x y, Z.even (x + y) = Bool.eqb (Z.even x) (Z.even y)) by apply Z.even_add.
  constructor; unfold ex_family, ex_env; cbn [ph hd].
  - reflexivity.
  - intros n s d. replace (d + 2 * s) with (d + s * 2) by lia. rewrite Z.div_add by lia.
    replace (-2 * s) with (- s * 2) by lia. rewrite Z.div_mul by lia. rewrite A, Z.even_opp.
    destruct (Z.even s), (Z.even (d / 2)); reflexivity.
  - intros d. cbn. destruct (Z.even (d / 2)); reflexivity.
Qed.

(** The cloud with one phonon of each type on neighbouring sites, delta = 1. *)
Example C16_nonvacuous : exists q0 q, space ex_model 2 ex_cloud /\
  equation_from ex_model ex_cloud = Ok q0 /\ init_full q0 (iv 1) = Ok q /\
  List.length (e_terms q) = 7%nat /\
  row (K := Zring) ex_env (of_family ex_family) q = -172.
Proof.
  eexists. eexists. split; [exact ex_cloud_space|]. split; [vm_compute; reflexivity|]. split; [vm_compute; reflexivity|].
  split; [vm_compute; reflexivity|]. vm_compute. reflexivity.
Qed.
