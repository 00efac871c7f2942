(** Property theorems C01-C05, C07, C08: the [Config] class. *)
From Coq Require Import ZArith List Bool Lia.
From Verif Require Import Base NdArray Config Spec Spec_ops.
From Verif Require NdArray_proofs Config_proofs Modify_proofs Legal_proofs.
Import ListNotations.
Open Scope Z_scope.

(** Example clouds: one type on three sites; two types on a 2x2 plaquette. *)
Definition ex1 : nd := mkNd [1; 3]%nat [2; 0; 1].
Definition ex2 : nd := mkNd [2; 2; 2]%nat [1; 0; 0; 0; 0; 0; 0; 3].

(** C01 *)
Theorem C01_config_accepts : forall a mm m, wf a ->
  ((exists c, config_init a mm m = Ok c) <-> valid_cloud a) /\
  (valid_cloud a -> config_init a mm m = Ok (mkConfig a mm m)) /\
  (~ valid_cloud a -> config_init a mm m = Err SystemExit).
Proof. exact Legal_proofs.config_init_spec. Qed.
Print Assumptions C01_config_accepts.

Lemma ex1_valid : valid_cloud ex1.
Proof. apply (Config_proofs.validate_iff ex1); reflexivity. Qed.
Lemma ex2_valid : valid_cloud ex2.
Proof. apply (Config_proofs.validate_iff ex2); reflexivity. Qed.
Example C01_nonvacuous_reject : wf (mkNd [1; 2]%nat [0; 1]) /\
  config_init (mkNd [1; 2]%nat [0; 1]) 1 0 = Err SystemExit.
Proof. split; reflexivity. Qed.

(** C02 *)
Theorem C02_remove_phonon : forall a mm m t loc,
  valid_cloud a -> m < mm -> 0 < occ a t loc ->
  exists b s,
    remove_phonon (mkConfig a mm m) (Z.of_nat t :: loc) = Ok (mkConfig b mm (m + 1), s) /\
    valid_cloud b /\
    modified_by a b (shift_vec (ndim a) s) t loc (-1) /\
    total b = total a - 1 /\
    (total b = 0 -> s = SScalar 0 /\ shp b = shp a).
Proof. exact Legal_proofs.remove_spec_prop. Qed.
Print Assumptions C02_remove_phonon.

Example C02_nonvacuous : valid_cloud ex1 /\ 0 < 1 /\ 0 < occ ex1 0 [2] /\
  remove_phonon (mkConfig ex1 1 0) [0; 2] = Ok (mkConfig (mkNd [1; 1]%nat [2]) 1 1, SVec [0]).
Proof. split; [exact ex1_valid|split; [lia|split; reflexivity]]. Qed.

(** C03 *)
Theorem C03_add_phonon : forall a mm m t loc,
  valid_cloud a -> ~ phonon_free a -> m < mm -> (t < ntypes a)%nat -> length loc = ndim a ->
  exists b s,
    add_phonon (mkConfig a mm m) (Z.of_nat t :: loc) = Ok (mkConfig b mm (m + 1), SVec s) /\
    valid_cloud b /\
    modified_by a b (oppv s) t loc 1 /\
    total b = total a + 1 /\
    s = map (fun z => Z.max (- z) 0) loc.
Proof. exact Legal_proofs.add_spec_prop. Qed.
Print Assumptions C03_add_phonon.

Example C03_nonvacuous : valid_cloud ex2 /\ ~ phonon_free ex2 /\
  (1 < ntypes ex2)%nat /\ length [-1; 3] = ndim ex2 /\
  add_phonon (mkConfig ex2 1 0) [1; -1; 3]
  = Ok (mkConfig (mkNd [2; 3; 4]%nat
      [0;0;0;0; 1;0;0;0; 0;0;0;0;  0;0;0;1; 0;0;0;0; 0;3;0;0]) 1 1, SVec [1; 0]).
Proof.
  split; [exact ex2_valid|]. split; [intros H; specialize (H 0%nat [0; 0]); discriminate|].
  split; [compute; lia|]. split; reflexivity.
Qed.

(** C04 *)
Theorem C04_add_then_remove : forall a mm m t loc,
  valid_cloud a -> ~ phonon_free a -> m + 1 < mm -> (t < ntypes a)%nat -> length loc = ndim a ->
  exists b s,
    add_phonon (mkConfig a mm m) (Z.of_nat t :: loc) = Ok (mkConfig b mm (m + 1), SVec s) /\
    remove_phonon (mkConfig b mm (m + 1)) (Z.of_nat t :: addv loc s)
    = Ok (mkConfig a mm (m + 2), SVec s).
Proof. exact Modify_proofs.add_remove. Qed.
Print Assumptions C04_add_then_remove.

Theorem C04_remove_then_add : forall a mm m t loc,
  valid_cloud a -> 1 < total a -> m + 1 < mm -> 0 < occ a t loc ->
  exists b s,
    remove_phonon (mkConfig a mm m) (Z.of_nat t :: loc) = Ok (mkConfig b mm (m + 1), s) /\
    exists v, s = SVec v /\
    add_phonon (mkConfig b mm (m + 1)) (Z.of_nat t :: subv loc v)
    = Ok (mkConfig a mm (m + 2), SVec v).
Proof. exact Modify_proofs.remove_add. Qed.
Print Assumptions C04_remove_then_add.

Example C04_nonvacuous : valid_cloud ex1 /\ 1 < total ex1 /\ 0 < occ ex1 0 [2] /\ 0 + 1 < 2 /\
  remove_phonon (mkConfig ex1 2 0) [0; 2] = Ok (mkConfig (mkNd [1; 1]%nat [2]) 2 1, SVec [0]) /\
  add_phonon (mkConfig (mkNd [1; 1]%nat [2]) 2 1) [0; 2] = Ok (mkConfig ex1 2 2, SVec [0]).
Proof. split; [exact ex1_valid|]. repeat split. Qed.

(** C05.  [remove_phonon_]: every outcome is success or exit; the four illegal
    kinds of request exit.  Coordinates below [-length] or at least [length]
    are outside; the negative ones in between are the subject of the
    refutation below. *)
Theorem C05_remove_aborts : forall a mm m x, valid_cloud a ->
  (mm <= m \/ length x <> length (shp a) \/
   (exists k, (k < length (shp a))%nat /\
      ~ (- Z.of_nat (nth k (shp a) 0%nat) <= nth k x 0 < Z.of_nat (nth k (shp a) 0%nat))) \/
   (exists t y, x = Z.of_nat t :: y /\ Forall (fun z => 0 <= z) y /\ occ a t y = 0)) ->
  remove_phonon (mkConfig a mm m) x = Err SystemExit.
Proof. exact Legal_proofs.remove_abort. Qed.
Print Assumptions C05_remove_aborts.

Theorem C05_remove_no_other_failure : forall a mm m x, valid_cloud a ->
  (exists r, remove_phonon (mkConfig a mm m) x = Ok r) \/
  remove_phonon (mkConfig a mm m) x = Err SystemExit.
Proof. exact Legal_proofs.remove_total. Qed.
Print Assumptions C05_remove_no_other_failure.

(** An accepted negative index removes the phonon counted from the end. *)
Theorem C05_remove_index_wraps : forall a mm m x b s, valid_cloud a ->
  remove_phonon (mkConfig a mm m) x = Ok (b, s) ->
  m < mm /\ exists t loc,
    Z.of_nat t :: map Z.of_nat loc
      = map (fun p => snd p mod Z.of_nat (fst p)) (combine (shp a) x) /\
    0 < occ a t (map Z.of_nat loc) /\
    remove_phonon (mkConfig a mm m) (Z.of_nat t :: map Z.of_nat loc) = Ok (b, s).
Proof. exact Legal_proofs.remove_wraps. Qed.
Print Assumptions C05_remove_index_wraps.

Theorem C05_add_outcome : forall a mm m x, valid_cloud a ->
  ((m < mm /\ length x = length (shp a) /\ 0 <= hd (-1) x < Z.of_nat (ntypes a)) <->
   exists r, add_phonon (mkConfig a mm m) x = Ok r) /\
  (~ (m < mm /\ length x = length (shp a) /\ 0 <= hd (-1) x < Z.of_nat (ntypes a)) <->
   add_phonon (mkConfig a mm m) x = Err SystemExit).
Proof. exact Legal_proofs.add_outcome_iff. Qed.
Print Assumptions C05_add_outcome.

(** The documented "indexes must fall within the existing config, else the
    program will abort" fails for negative indexes. *)
Theorem C05_negative_index_refuted : exists a x b s,
  valid_cloud a /\ length x = length (shp a) /\ Exists (fun z => z < 0) x /\
  remove_phonon (mkConfig a 1 0) x = Ok (b, s).
Proof.
  exists ex1, [0; -1], (mkConfig (mkNd [1; 1]%nat [2]) 1 1), (SVec [0]).
  split; [exact ex1_valid|]. split; [reflexivity|].
  split; [apply Exists_cons_tl, Exists_cons_hd; lia|reflexivity].
Qed.
Print Assumptions C05_negative_index_refuted.

Example C05_nonvacuous :
  remove_phonon (mkConfig ex1 1 0) [0; 1] = Err SystemExit /\
  remove_phonon (mkConfig ex1 1 0) [0; 3] = Err SystemExit /\
  remove_phonon (mkConfig ex1 1 0) [0] = Err SystemExit /\
  remove_phonon (mkConfig ex1 1 1) [0; 0] = Err SystemExit /\
  add_phonon (mkConfig ex1 1 0) [1; 0] = Err SystemExit.
Proof. repeat split. Qed.

(** C07 *)
Theorem C07_config_legal : forall a mps pe pn green,
  wf a -> Forall (fun d => 0 < d)%nat (tl (shp a)) ->
  (green = true -> (forall x, 0 <= at_ a x) /\ (1 <= length (shp a))%nat) ->
  (forall e, pe = Some e -> (ntypes a <= length e)%nat) ->
  (forall n, pn = Some n -> (ntypes a <= length n)%nat) ->
  exists b, config_legal a mps pe pn green = Ok b /\
            (b = true <-> legal_spec a mps pe pn green).
Proof. exact Legal_proofs.config_legal_spec. Qed.
Print Assumptions C07_config_legal.

Example C07_nonvacuous :
  config_legal ex2 (Some 3) (Some [1; 1]) (Some [1; 3]) false = Ok true /\
  config_legal ex2 (Some 2) (Some [1; 1]) (Some [1; 3]) false = Ok false /\
  config_legal ex1 None (Some [2]) None false = Ok false /\
  config_legal (mkNd [1; 1]%nat [0]) None None None true = Ok true /\
  config_legal (mkNd [1; 1]%nat [0]) None None None false = Ok false.
Proof. repeat split. Qed.

(** Without the side conditions the claim fails: constraint lists shorter than
    the number of types raise, empty axes raise, and with [allow_green] an
    array with negative entries summing to zero is called legal. *)
Theorem C07_short_constraint_refuted : exists a pe,
  valid_cloud a /\ config_legal a None (Some pe) None false = Err IndexError.
Proof. exists ex2, [2]. split; [exact ex2_valid|reflexivity]. Qed.
Print Assumptions C07_short_constraint_refuted.

Theorem C07_empty_axis_refuted : exists a,
  wf a /\ config_legal a None None None false = Err IndexError.
Proof. exists (mkNd [1; 0]%nat []). split; reflexivity. Qed.
Print Assumptions C07_empty_axis_refuted.

Theorem C07_negative_green_refuted : exists a,
  wf a /\ ~ legal_spec a None None None true /\ config_legal a None None None true = Ok true.
Proof.
  exists (mkNd [1; 2]%nat [1; -1]). split; [reflexivity|]. split; [|reflexivity].
  intros [[_ H]|[_ [H _]]].
  - specialize (H 0%nat [0]). discriminate.
  - specialize (H 0%nat [1]). vm_compute in H. apply H. reflexivity.
Qed.
Print Assumptions C07_negative_green_refuted.

(** C08 *)
Theorem C08_histories : forall c l c', history c l c' -> valid_cloud (cfg c) ->
  valid_cloud (cfg c') /\ length (shp (cfg c')) = length (shp (cfg c)) /\
  ntypes (cfg c') = ntypes (cfg c) /\ total (cfg c') = total (cfg c) + balance l /\
  max_mods c' = max_mods c /\ mods c' = mods c + Z.of_nat (length l) /\
  (l <> [] -> mods c' <= max_mods c).
Proof. exact Legal_proofs.history_invariant. Qed.
Print Assumptions C08_histories.

Example C08_nonvacuous :
  history (mkConfig ex1 5 0) [OpAdd [0; -2]; OpRemove [0; 0]; OpRemove [0; 2]]
          (mkConfig (mkNd [1; 1]%nat [2]) 5 3).
Proof.
  eapply h_add; [intros H; specialize (H 0%nat [0]); discriminate|reflexivity|].
  eapply h_rem; [reflexivity|]. eapply h_rem; [reflexivity|]. apply h_nil.
Qed.

(** Passing through the vacuum breaks validity: an intermediate phonon-free
    config accepts an add at any site and ends up with an empty edge. *)
Theorem C08_through_vacuum_refuted : exists c c1 c2,
  valid_cloud (cfg c) /\ run_op c (OpRemove [0; 0]) = Ok c1 /\
  run_op c1 (OpAdd [0; 1]) = Ok c2 /\ ~ valid_cloud (cfg c2).
Proof.
  exists (mkConfig (mkNd [1; 1]%nat [1]) 2 0), (mkConfig (mkNd [1; 1]%nat [0]) 2 1),
         (mkConfig (mkNd [1; 2]%nat [0; 1]) 2 2).
  split; [apply Config_proofs.validate_iff; reflexivity|].
  split; [reflexivity|]. split; [reflexivity|].
  intros H. apply Config_proofs.validate_iff in H; [discriminate|reflexivity].
Qed.
Print Assumptions C08_through_vacuum_refuted.
