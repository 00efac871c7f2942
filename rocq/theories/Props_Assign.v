(** Property theorems about assignments to Config and Term (C91). *)
From Coq Require Import ZArith List Bool Lia.
From Verif Require Import Base NdArray Config Spec Model Term Logger Single Spec_single Props_Single Assign.
From Verif Require NdArray_proofs Config_proofs Legal_proofs.
Import ListNotations.
Open Scope list_scope.
Open Scope Z_scope.

Notation configured rank c := (mkL (configure_loggers rank c) true).
Lemma say_on : forall rank c b, say (configured rank c) b = if b then Ok [] else Err SystemExit.
Proof. intros rank c [|]; [reflexivity|]. unfold say, critical. rewrite critical_ends. reflexivity. Qed.
Lemma say_off : forall hs b, say (mkL hs false) b = Ok (if b then [] else [Critical]).
Proof. intros hs [|]; reflexivity. Qed.

(** With the loggers in any configuration, the constructor is the one of Config.v
    (C01), and warns about more than four axes. *)
Theorem C91_constructor : forall rank c a mm m, wf a -> config_init_log (configured rank c) a mm m =
  match config_init a mm m with Ok x => Ok (x, if Nat.leb 5 (length (shp a)) then [Warning] else []) | Err e => Err e end.
Proof.
  intros rank c a mm m _. unfold config_init_log, validate_log, check_config_log, config_init, validate_config_is_legal, check_config. rewrite !say_on.
  destruct (config_shape_legal a) eqn:S; cbn [bind guard]; [|reflexivity]. destruct (config_values_legal a) eqn:V; cbn [bind guard app]; [|reflexivity].
  assert (W : (if config_shape_small_dimension a then [] else [Warning]) = (if Nat.leb 5 (length (shp a)) then [Warning] else [])).
  { unfold config_shape_small_dimension. destruct (Nat.leb_spec (length (shp a)) 4), (Nat.leb_spec 5 (length (shp a))); try lia; reflexivity. }
  destruct (total a =? 0); cbn [bind]; [rewrite W; reflexivity|].
  destruct (config_edges_legal a) as [b|e]; cbn [bind]; [|reflexivity].
  rewrite say_on. destruct b; cbn [bind guard]; [|reflexivity]. rewrite app_nil_r, W. reflexivity.
Qed.
Print Assumptions C91_constructor.

(** Assignment checks the axes and the signs only, and keeps the counters. *)
Theorem C91_setter : forall rank k c a, wf a ->
  ((2 <= length (shp a))%nat /\ (forall t x, 0 <= occ a t x) -> config_set (configured rank k) c a = Ok (mkConfig a (max_mods c) (mods c), if Nat.leb 5 (length (shp a)) then [Warning] else [])) /\
  (~ ((2 <= length (shp a))%nat /\ (forall t x, 0 <= occ a t x)) -> config_set (configured rank k) c a = Err SystemExit).
Proof.
  intros rank k c a Wf. unfold config_set, check_config_log. rewrite !say_on. unfold config_shape_legal. destruct (Nat.leb_spec 2 (length (shp a))) as [L|L]; cbn [bind]; [|split; [lia|reflexivity]].
  rewrite <- Config_proofs.occ_nonneg by lia. destruct (config_values_legal a) eqn:V; cbn [bind].
  - apply Config_proofs.nonneg_values in V; [|exact Wf]. split; [intros _; cbn [app]; unfold config_shape_small_dimension; destruct (Nat.leb_spec (length (shp a)) 4), (Nat.leb_spec 5 (length (shp a))); try lia; reflexivity|intros N; exfalso; apply N; split; assumption].
  - split; [intros [_ N]; exfalso; apply Config_proofs.nonneg_values in N; [congruence|exact Wf]|reflexivity].
Qed.
Print Assumptions C91_setter.

(** So it accepts clouds that the constructor rejects. *)
Theorem C91_edges_refuted : exists a, wf a /\ ~ valid_cloud a /\ (forall mm m, config_init a mm m = Err SystemExit) /\
  forall rank k c, config_set (configured rank k) c a = Ok (mkConfig a (max_mods c) (mods c), []).
Proof.
  set (a := mkNd [1; 2]%nat [0; 1]). assert (Wf : wf a) by reflexivity. exists a. split; [exact Wf|]. split; [|split].
  - intros V. apply Config_proofs.validate_iff in V; [|exact Wf]. vm_compute in V. discriminate V.
  - intros mm m. reflexivity.
  - intros rank k c. unfold config_set, check_config_log. rewrite !say_on. reflexivity.
Qed.
Print Assumptions C91_edges_refuted.

Lemma edges_total : forall a, wf a -> total a <> 0 -> exists b, config_edges_legal a = Ok b.
Proof.
  intros a Wf T. unfold config_edges_legal. destruct (shp a) as [|d s] eqn:Sh; [unfold sum0; rewrite Sh; exists true; reflexivity|].
  assert (Es : shp (sum0 a) = s) by (unfold sum0; rewrite Sh; reflexivity). rewrite Es.
  assert (P : prodn (d :: s) <> 0%nat). { intros Z. apply T. unfold wf in Wf. rewrite Sh, Z in Wf. unfold total. destruct (dat a); [reflexivity|discriminate Wf]. }
  assert (D : forall i, (i < length s)%nat -> nth i s 0%nat <> 0%nat).
  { cbn [prodn] in P. assert (Q : prodn s <> 0%nat) by nia. clear - Q. induction s as [|x s IH]; intros i Hi; [cbn in Hi; lia|]. cbn [prodn] in Q. destruct i as [|i]; cbn [nth]; [nia|]. apply IH; [nia|cbn in Hi; lia]. }
  assert (G : forall l, (forall i, In i l -> (i < length s)%nat) -> exists b, edges_loop (sum0 a) l = Ok b).
  { induction l as [|i l IH]; intros H; [exists true; reflexivity|]. cbn [edges_loop]. rewrite Es. destruct (Nat.eqb_spec (nth i s 0%nat) 0) as [Z|_]; [exfalso; exact (D i (H i (or_introl eq_refl)) Z)|].
    destruct ((slab_sum (sum0 a) i 0 =? 0) || (slab_sum (sum0 a) i (nth i s 0%nat - 1) =? 0)); [exists false; reflexivity|]. apply IH. intros j Hj. apply H. right. exact Hj. }
  apply G. intros i Hi. apply in_seq in Hi. lia.
Qed.

(** While the logger is disabled, the constructor accepts every array, ... *)
Theorem C91_silent : forall hs a mm m, wf a -> exists l, config_init_log (mkL hs false) a mm m = Ok (mkConfig a mm m, l).
Proof.
  intros hs a mm m Wf. unfold config_init_log, validate_log, check_config_log. rewrite !say_off. cbn [bind]. destruct (Z.eqb_spec (total a) 0) as [Z|Z]; cbn [bind]; [eexists; reflexivity|].
  destruct (edges_total a Wf Z) as [b ->]. cbn [bind]. rewrite say_off. cbn [bind]. eexists. reflexivity.
Qed.
Print Assumptions C91_silent.

(** ... such as one with -1 phonons. *)
Theorem C91_silent_refuted : exists a, wf a /\ ~ valid_cloud a /\ total a = -1 /\ forall rank mm m, exists l, config_init_log (enter rank disable_logger (imported rank)) a mm m = Ok (mkConfig a mm m, l).
Proof.
  set (a := mkNd [1; 1]%nat [-1]). assert (Wf : wf a) by reflexivity. exists a. split; [exact Wf|]. split; [|split; [reflexivity|]].
  - intros V. apply Config_proofs.validate_iff in V; [|exact Wf]. vm_compute in V. discriminate V.
  - intros rank mm m. apply C91_silent. exact Wf.
Qed.
Print Assumptions C91_silent_refuted.

(** The vectors of a term: with loggers the check of Term.v, without them none. *)
Theorem C91_vector : forall c v,
  (forall rank k, vector_set (configured rank k) c (Some v) = match checked c v with Ok x => Ok (Some x) | Err e => Err e end /\
     (vector_set (configured rank k) c (Some v) = Ok (Some v) <-> length (v2 v) = Nat.pred (length (shp (cfg c))))) /\
  (forall hs, vector_set (mkL hs false) c (Some v) = Ok (Some v)) /\ (forall st, vector_set st c None = Ok None).
Proof.
  intros c v. split; [|split; [intros hs; unfold vector_set; rewrite say_off; reflexivity|reflexivity]]. intros rank k. unfold vector_set, checked. rewrite say_on. fold (n_spatial c).
  destruct (Nat.eqb_spec (length (v2 v)) (n_spatial c)) as [E|E]; cbn [bind guard]; (split; [reflexivity|]); [split; [intros _; exact E|reflexivity]|split; [discriminate|intros X; contradiction]].
Qed.
Print Assumptions C91_vector.

(** The prefactor: an int or a float. *)
Theorem C91_prefactor : forall T (x : pyval T),
  (forall rank k, (is_real x -> prefactor_set (configured rank k) x = Ok x) /\ (~ is_real x -> prefactor_set (configured rank k) x = Err SystemExit)) /\
  (forall hs, prefactor_set (mkL hs false) x = Ok x).
Proof.
  intros T x. split; [|intros hs; unfold prefactor_set; rewrite say_off; reflexivity]. intros rank k. unfold prefactor_set. rewrite say_on.
  destruct x; cbn [is_number bind]; (split; [|]); try reflexivity; intros H; try (inversion H; fail); exfalso; apply H; constructor.
Qed.
Print Assumptions C91_prefactor.

(** A cloud of three sites, replaced by one of two; an array of five axes. *)
Example C91_nonvacuous : let c := mkConfig (mkNd [1; 3]%nat [1; 0; 2]) 1 0 in
  config_init_log (imported 0) (cfg c) 1 0 = Ok (c, []) /\ config_set (imported 0) c (mkNd [1; 2]%nat [1; 1]) = Ok (mkConfig (mkNd [1; 2]%nat [1; 1]) 1 0, []) /\
  config_set (imported 0) c (mkNd [2]%nat [1; 1]) = Err SystemExit /\ config_set (imported 0) c (mkNd [1; 1]%nat [-1]) = Err SystemExit /\
  config_init_log (imported 0) (mkNd [1; 1; 1; 1; 1]%nat [1]) 1 0 = Ok (mkConfig (mkNd [1; 1; 1; 1; 1]%nat [1]) 1 0, [Warning]).
Proof. repeat split; vm_compute; reflexivity. Qed.
