(** Property theorems C06: identifiers. *)
From Coq Require Import ZArith List Bool String.
From Verif Require Import Base NdArray Config Spec Model Render.
From Verif Require Render_proofs Props_Config.
Import ListNotations.
Open Scope Z_scope.

Theorem C06_config_id : forall a b, valid_cloud a -> valid_cloud b ->
  (config_id a = config_id b <-> (phonon_free a /\ phonon_free b) \/ a = b).
Proof. exact Render_proofs.config_id_spec. Qed.
Print Assumptions C06_config_id.

(** [v2] lists the (doubled) numeric values of [f_arg]; the dtype does not
    matter. *)
Theorem C06_term_id : forall a b f g, valid_cloud a -> valid_cloud b ->
  (term_id a f = term_id b g <->
   ((phonon_free a /\ phonon_free b) \/ a = b) /\ option_map v2 f = option_map v2 g).
Proof. exact Render_proofs.term_id_spec. Qed.
Print Assumptions C06_term_id.

(** The dictionary keys used by the system. *)
Theorem C06_phonon_config_id : forall a b, valid_cloud a -> valid_cloud b ->
  (phonon_config_id a = phonon_config_id b <-> (phonon_free a /\ phonon_free b) \/ a = b).
Proof. exact Render_proofs.phonon_config_id_spec. Qed.
Print Assumptions C06_phonon_config_id.

Example C06_nonvacuous : valid_cloud Props_Config.ex1 /\ valid_cloud Props_Config.ex2 /\
  term_id Props_Config.ex1 (Some (mkVec true [-1])) = "{[2, 0, 1](1, 3)}[-0.5]"%string /\
  term_id Props_Config.ex2 (Some (ivec [12])) = "{[1, 0, 0, 0, 0, 0, 0, 3](2, 2, 2)}[12.0]"%string.
Proof.
  split; [exact Props_Config.ex1_valid|]. split; [exact Props_Config.ex2_valid|]. split; reflexivity.
Qed.
