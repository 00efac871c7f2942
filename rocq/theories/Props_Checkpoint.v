(** Checkpoints of systems, JSON of models, root directories of solvers: C30,
    C31, C41, C49. *)
From Coq Require Import String ZArith List Bool Lia Permutation.
From Verif Require Import Base Config Model Space Render Term Equation System HModel Spec_model Cache Checkpoint Roots
  Spec_checkpoint Checkpoint_proofs Json_proofs Roots_proofs Props_Engine Props_Model Props_Solve.
Import ListNotations.
Open Scope list_scope.
Open Scope Z_scope.

(** * Witnesses *)
Lemma h_storable : storable h_model.
Proof. intros h [<-|[<-|[]]]; split; intros _; cbn [h_terms2 ht_psi ht_phi iv v2]; repeat constructor; exists 0; reflexivity. Qed.
(** The same with one phonon only. *)
Definition h_small : model Z := mkModel 1 0 (mkHam h_terms2 [5] 1 1) None [1] [1] None 1.
Lemma h_small_storable : storable h_small.
Proof. exact h_storable. Qed.

(** * C41: models as JSON *)
Section C41.
Context {T : Type}.
Variable N : numops T.

(** Every model made by the library's own operations can be stored. *)
Theorem C41_built_storable : forall dim m fs cs, built N dim m fs cs -> storable m.
Proof.
  intros dim m fs cs B. induction B as [hop lat temp mps|m fs cs a logs m' B IH E _ _|m fs cs x B IH|m fs cs x B IH|m fs cs x B IH|m fs cs x B IH].
  - apply start_ok.
  - exact (add_ok N m a logs m' E IH).
  - destruct (set_temperature N m x) as [l m1] eqn:E. apply (change_ok N m (CTemp x) l m1); [cbn [apply_change]; rewrite E; reflexivity|exact IH].
  - destruct (set_lattice N m x) as [l m1] eqn:E. apply (change_ok N m (CLattice x) l m1); [cbn [apply_change]; rewrite E; reflexivity|exact IH].
  - destruct (set_absolute_extent m x) as [l m1] eqn:E. apply (change_ok N m (CExtent x) l m1); [cbn [apply_change]; rewrite E; reflexivity|exact IH].
  - exact IH.
Qed.
End C41.
Print Assumptions C41_built_storable.

(** Saving and reloading gives a model with the same attributes. *)
Theorem C41_roundtrip : forall T (m : model T), storable m ->
  exists m', model_of_json (json_of_model m) = Ok m' /\ same_attributes m m'.
Proof. intros T m S. exists (pin m). split; [apply model_roundtrip; exact S|apply pin_same]. Qed.
Print Assumptions C41_roundtrip.

(** After any later changes (add_ calls and assignments) the model and its
    reloaded copy have logged the same, or raised the same, and agree on every
    attribute but the absolute extent; that of the copy is the one it was saved
    with unless it has been assigned or was explicit. *)
Theorem C41_later : forall T (N : numops T) (m m' : model T) cs, storable m -> model_of_json (json_of_model m) = Ok m' ->
  (exists x, apply_changes N m cs = Err x /\ apply_changes N m' cs = Err x) \/
  exists l m1 m1', apply_changes N m cs = Ok (l, m1) /\ apply_changes N m' cs = Ok (l, m1') /\ agree m1 m1' /\
    (m1' = m1 \/ (absolute_extent m1' = absolute_extent m /\ m_aext m1 = None)).
Proof.
  intros T N m m' cs S E. rewrite (model_roundtrip m S) in E. injection E as <-.
  assert (AR : forall x : model T, agree x x) by (intros x; constructor; reflexivity).
  destruct (m_aext m) as [e|] eqn:A.
  { rewrite (pin_explicit m) by (left; congruence). destruct (apply_changes N m cs) as [[l m1]|x]; [right; exists l, m1, m1; auto|left; exists x; auto]. }
  destruct (m_pe m) as [|e pe] eqn:P.
  { rewrite (pin_explicit m) by (right; exact P). destruct (apply_changes N m cs) as [[l m1]|x]; [right; exists l, m1, m1; auto|left; exists x; auto]. }
  destruct (lmaxZ_some pe e) as [z Z]. assert (AE : absolute_extent m = Some z) by (unfold absolute_extent; rewrite A, P; exact Z).
  rewrite pin_with, AE. destruct (changes_with N cs m z A) as [H|[l [m1 [E1 H]]]]; [left; exact H|right].
  destruct H as [E2|[A1 [_ E2]]].
  - exists l, m1, m1. auto.
  - exists l, m1, (with_ae m1 (Some z)). split; [exact E1|]. split; [exact E2|]. split; [constructor; reflexivity|]. right. split; [reflexivity|exact A1].
Qed.
Print Assumptions C41_later.

(** If the extent was explicit, or there were no phonons yet, the copy behaves
    exactly like the model. *)
Theorem C41_identical : forall T (N : numops T) (m m' : model T) cs, storable m -> model_of_json (json_of_model m) = Ok m' ->
  m_aext m <> None \/ m_pe m = [] -> apply_changes N m' cs = apply_changes N m cs.
Proof. intros T N m m' cs S E H. rewrite (model_roundtrip m S), (pin_explicit m H) in E. injection E as <-. reflexivity. Qed.
Print Assumptions C41_identical.

(** Otherwise, without assignment of an extent, the two end with the same
    attributes exactly if no later extent is larger than the saved one. *)
Theorem C41_same_extent : forall T (N : numops T) (m m' : model T) cs l m1 e, storable m -> model_of_json (json_of_model m) = Ok m' ->
  m_aext m = None -> absolute_extent m = Some e -> apply_changes N m cs = Ok (l, m1) -> (forall x, ~ In (CExtent x) cs) ->
  exists m1', apply_changes N m' cs = Ok (l, m1') /\ (same_attributes m1 m1' <-> forall x, In x (m_pe m1) -> x <= e).
Proof.
  intros T N m m' cs l m1 e S E A AE E1 NE. rewrite (model_roundtrip m S) in E. injection E as <-. rewrite pin_with, AE.
  assert (K : forall cs m l m1, m_aext m = None -> (forall x, ~ In (CExtent x) cs) -> apply_changes N m cs = Ok (l, m1) ->
    apply_changes N (with_ae m (Some e)) cs = Ok (l, with_ae m1 (Some e)) /\ m_aext m1 = None /\ exists r, m_pe m1 = m_pe m ++ r).
  { clear. induction cs as [|c cs IH]; intros m l m1 A NE E; cbn [apply_changes] in *.
    - injection E as <- <-. split; [reflexivity|]. split; [exact A|]. exists []. rewrite app_nil_r. reflexivity.
    - destruct (apply_change N m c) as [[l1 m2]|] eqn:E1; [|discriminate]. cbn [bind] in E.
      assert (X : apply_change N (with_ae m (Some e)) c = Ok (l1, with_ae m2 (Some e)) /\ m_aext m2 = None /\ exists r, m_pe m2 = m_pe m ++ r).
      { destruct c as [a|x|x|x|x].
        - cbn [apply_change] in *. rewrite add_with, E1. destruct (add_aext N m a l1 m2 E1) as [B C]. split; [reflexivity|]. split; [congruence|exact C].
        - cbn [apply_change] in *. unfold set_temperature in *. destruct x as [v|]; [destruct (n_ltb N v (n_0 N))|]; injection E1 as <- <-; cbn; (split; [reflexivity|]); (split; [exact A|]); exists []; rewrite app_nil_r; reflexivity.
        - cbn [apply_change] in *. unfold set_lattice in *. destruct x as [v|]; [destruct (n_ltb N v (n_0 N) || n_eqb N v (n_0 N))|]; injection E1 as <- <-; cbn; (split; [reflexivity|]); (split; [exact A|]); exists []; rewrite app_nil_r; reflexivity.
        - exfalso. apply (NE x). left. reflexivity.
        - cbn [apply_change] in *. injection E1 as <- <-. cbn. split; [reflexivity|]. split; [exact A|]. exists []. rewrite app_nil_r. reflexivity. }
      destruct X as [X1 [X2 [r1 X3]]]. rewrite X1. cbn [bind]. destruct (apply_changes N m2 cs) as [[l2 m3]|] eqn:E2; [|discriminate]. cbn [bind] in E. injection E as <- <-.
      destruct (IH m2 l2 m3 X2 (fun x I => NE x (or_intror I)) E2) as [Y1 [Y2 [r2 Y3]]]. rewrite Y1. split; [reflexivity|]. split; [exact Y2|]. rewrite Y3, X3, <- app_assoc. eauto. }
  destruct (K cs m l m1 A NE E1) as [K1 [K2 [r K3]]]. eexists. split; [exact K1|].
  assert (Z : lmaxZ (m_pe m) = Some e) by (unfold absolute_extent in AE; rewrite A in AE; exact AE).
  rewrite K3. rewrite <- (lmaxZ_app _ r _ Z). rewrite <- K3. split.
  - intros [_ _ _ _ _ _ _ H]. unfold absolute_extent in H. rewrite K2 in H. cbn [with_ae m_aext m_pe] in H. symmetry. exact H.
  - intros H. constructor; try reflexivity. unfold absolute_extent. rewrite K2. cbn [with_ae m_aext]. symmetry. exact H.
Qed.
Print Assumptions C41_same_extent.

Definition holstein (M n : Z) : add_args Z := mkAdd "Holstein" 5 M n None None (Some 1) None None.
Definition peierls (M n : Z) : add_args Z := mkAdd "Peierls" 3 M n None None (Some 1) None None.

(** The claim as stated is false: a Holstein term with extent 1, save, reload,
    then a Peierls term with extent 3: the absolute extent is 3 for the original
    and 1 for the copy. *)
Theorem C41_refuted : exists m m' cs l m1 m1', storable m /\ model_of_json (json_of_model m) = Ok m' /\
  apply_changes Znum m cs = Ok (l, m1) /\ apply_changes Znum m' cs = Ok (l, m1') /\ ~ In LError l /\
  absolute_extent m1 = Some 3 /\ absolute_extent m1' = Some 1.
Proof.
  pose (m0 := from_parameters 1 1 0 None 1 : model Z).
  destruct (apply_changes Znum m0 [CAdd (holstein 1 2)]) as [[l0 m]|] eqn:E0; [|vm_compute in E0; discriminate E0].
  assert (S : storable m) by (apply (changes_ok Znum _ _ _ _ E0); apply start_ok).
  exists m, (pin m), [CAdd (peierls 3 2)]. vm_compute in E0. injection E0 as <- <-. do 3 eexists. split; [exact S|]. split; [apply model_roundtrip; exact S|].
  split; [vm_compute; reflexivity|]. split; [vm_compute; reflexivity|]. split; [intros H; repeat (destruct H as [H|H]; [discriminate H|]); destruct H|]. split; vm_compute; reflexivity.
Qed.
Print Assumptions C41_refuted.

Example C41_nonvacuous : storable h_model /\ exists m', model_of_json (json_of_model h_model) = Ok m' /\ m' <> h_model /\
  exists l m1 m1', apply_changes Znum h_model [CAdd (peierls 1 2); CMax (Some 2)] = Ok (l, m1) /\ apply_changes Znum m' [CAdd (peierls 1 2); CMax (Some 2)] = Ok (l, m1') /\ ~ In LError l /\
  m_ntypes m1 = 2%nat /\ absolute_extent m1 = absolute_extent m1'.
Proof.
  split; [exact h_storable|]. exists (pin h_model). split; [apply model_roundtrip; exact h_storable|]. split; [intros H; discriminate H|].
  do 3 eexists. split; [vm_compute; reflexivity|]. split; [vm_compute; reflexivity|].
  split; [intros H; repeat (destruct H as [H|H]; [discriminate H|]); destruct H|]. split; vm_compute; reflexivity.
Qed.

(** * C31: round-trip *)
Section C31.
Context {T : Type}.
Variable ord : string -> list vec -> list vec.
Implicit Types (m : model T) (s : system T) (d : cdir T).

(** What a constructor returns does not depend on the directory. *)
Theorem C31_root_irrelevant : forall m lim root d, snd (new_system ord m lim root d) = (s <- prime_system ord m ;; Ok (py_of lim s)).
Proof. exact (new_result ord). Qed.

(** A new directory: reloading gives the same system, whatever the limit. *)
Theorem C31_roundtrip : forall m s lim, storable m -> prime_system ord m = Ok s ->
  exists w, new_system ord m lim true no_files = (w, Ok (py_of lim s)) /\
  exists w' p, from_checkpoint ord (final w no_files) = (w', Ok p) /\ same_system s p.
Proof.
  intros m s lim ST E. destruct (prime_parts ord m s E) as [_ [_ [_ [_ [_ SM]]]]]. subst m.
  destruct (construct_files ord s no_files lim E ST (or_intror eq_refl)) as [w [EC F]]. exists w. split; [exact EC|].
  destruct (reload_files ord s _ E F) as [w' [m' [ER [SA _]]]]. exists w'. eexists. split; [exact ER|]. repeat split; apply SA.
Qed.

(** Which files there are: equations.pkl only up to the limit. *)
Theorem C31_files : forall m s lim, prime_system ord m = Ok s ->
  final (fst (new_system ord m lim true no_files)) no_files =
    mkCdir (Some (Complete (json_of_model m))) (Some (Complete (s_gen s))) (Some (Complete (s_fargs s)))
           (if lim <? count (s_eqs s) then None else Some (Complete (s_eqs s))).
Proof. intros m s lim E. rewrite count_eq, (new_trace ord m s lim E). cbv zeta. destruct (lim <? n_equations (s_eqs s)); reflexivity. Qed.

(** Any further sequence of constructions from the same model (with any limits)
    and reloads gives the same system each time. *)
Theorem C31_histories : forall m s lim es, storable m -> prime_system ord m = Ok s ->
  (forall e, In e es -> e = Reload \/ exists lim', e = Construct m lim') ->
  exists ps d', chistory ord no_files (Construct m lim :: es) = (map Ok ps, d') /\ List.length ps = S (List.length es) /\ forall p, In p ps -> same_system s p.
Proof.
  intros m s lim es ST E H. destruct (prime_parts ord m s E) as [_ [_ [_ [_ [_ SM]]]]]. subst m.
  destruct (construct_files ord s no_files lim E ST (or_intror eq_refl)) as [w [EC F]].
  destruct (history_same ord s es _ E ST F H) as [ps [d' [EH [L [A _]]]]].
  exists (py_of lim s :: ps), d'. cbn [chistory cstep]. rewrite EC, EH. split; [reflexivity|]. split; [cbn; lia|].
  intros p [<-|P]; [|auto]. repeat split.
Qed.

(** If the construction fails, so does reloading, in the same way. *)
Theorem C31_failure : forall m lim x, storable m -> prime_system ord m = Err x ->
  snd (from_checkpoint ord (final (fst (new_system ord m lim true no_files)) no_files)) = Err x.
Proof. exact (failed_reload ord). Qed.

(** Pickles are never overwritten: any directory, any history, kills included. *)
Theorem C31_never_replaced : forall es d, let d' := snd (chistory ord d es) in
  (forall c, c_gen d = Some c -> c_gen d' = Some c) /\ (forall c, c_fargs d = Some c -> c_fargs d' = Some c) /\ (forall c, c_eqs d = Some c -> c_eqs d' = Some c).
Proof. exact (chistory_keeps ord). Qed.

(** Pickles removed by hand: what a reload gives for every subset of them. *)
Theorem C31_subsets : forall m s g f e, storable m -> prime_system ord m = Ok s ->
  (g = None \/ g = Some (Complete (s_gen s))) -> (f = None \/ f = Some (Complete (s_fargs s))) -> (e = None \/ e = Some (Complete (s_eqs s))) ->
  let r := snd (from_checkpoint ord (mkCdir (Some (Complete (json_of_model m))) g f e)) in
  ((g <> None <-> f <> None) -> exists p, r = Ok p /\ same_system s p) /\
  (g = None -> f <> None -> settled ord -> exists p, r = Ok p /\ same_system s p) /\
  (g <> None -> f = None -> e = None -> r = Err AttributeError) /\
  (g <> None -> f = None -> e <> None -> exists p, r = Ok p /\ same_attributes m (py_model p) /\ py_gen p = s_gen s /\ py_fargs p = None /\ py_eqs p = s_eqs s).
Proof.
  intros m s g f e ST E HG HF HE r. destruct (prime_parts ord m s E) as [sp [_ [_ [_ [H4 SM]]]]]. subst m.
  assert (SP : same_attributes (s_model s) (pin (s_model s))) by apply pin_same.
  pose proof (model_roundtrip _ ST) as RT.
  assert (EX : forall g fl e (w : list (cdir T) * result (pysystem T)), (g = None /\ fl = None \/ g = None /\ fl = Some (s_fargs s) /\ settled ord \/ g = Some (s_gen s) /\ fl = Some (s_fargs s)) ->
    (e = None \/ e = Some (s_eqs s)) -> forall d, exists p, snd (system_init ord (pin (s_model s)) g fl e default_lim true d) = Ok p /\ same_system s p).
  { clear - E SP. intros g fl e _ A B d. exists (mkPy (pin (s_model s)) (s_gen s) (Some (s_fargs s)) (s_eqs s) default_lim).
    split; [|split; [exact SP|]; repeat split]. destruct A as [[-> ->]|[[-> [-> SE]]|[-> ->]]].
    - apply (init_again ord s); auto.
    - apply (init_again ord s); auto.
    - destruct (prime_parts ord _ s E) as [sp [_ [_ [E3 [E4 _]]]]]. unfold system_init. destruct B as [-> | ->]; rewrite ?E3; cbn [snd]; rewrite E4; reflexivity. }
  destruct HG as [-> | ->]; destruct HF as [-> | ->]; (split; [|split; [|split]]);
    try (intros [A B]; exfalso; (apply A; [discriminate|reflexivity]) || (apply B; [discriminate|reflexivity]));
    try (intros X; exfalso; congruence); try (intros _ X; exfalso; congruence);
    intros; unfold r, from_checkpoint; cbn [c_model c_gen c_fargs c_eqs]; rewrite RT; cbn [bind]; (destruct HE as [-> | ->]; cbn [load unpickle bind]); try congruence;
    try (apply EX; [exact ([], Err TypeError)|auto|auto]).
  - reflexivity.
  - eexists. unfold system_init. cbn [snd]. rewrite H4. cbn [bind]. split; [reflexivity|]. split; [exact SP|auto].
Qed.

(** But model.json is: constructing a second model in the directory of a first
    returns the second system and leaves the second model with the equations of
    the first. *)
Theorem C31_other_model : forall m1 s1 m2 s2 lim1 lim2, storable m2 -> prime_system ord m1 = Ok s1 -> prime_system ord m2 = Ok s2 ->
  count (s_eqs s1) <= lim1 ->
  exists p d', chistory ord no_files [Construct m1 lim1; Construct m2 lim2; Reload] = ([Ok (py_of lim1 s1); Ok (py_of lim2 s2); Ok p], d') /\
    same_attributes m2 (py_model p) /\ py_gen p = s_gen s1 /\ py_fargs p = Some (s_fargs s1) /\ py_eqs p = s_eqs s1.
Proof.
  intros m1 s1 m2 s2 lim1 lim2 ST E1 E2 L. rewrite count_eq in L. pose proof (new_trace ord m1 s1 lim1 E1) as NT. pose proof (new_result ord m1 lim1 true no_files) as NR. rewrite E1 in NR. cbn [bind] in NR.
  cbn [chistory cstep]. destruct (new_system ord m1 lim1 true no_files) as [w r]. cbn [fst snd] in NT, NR. subst r w.
  cbv zeta. replace (lim1 <? n_equations (s_eqs s1)) with false by (symmetry; apply Z.ltb_ge; exact L). cbn [app final last].
  set (d1 := mkCdir _ _ _ _). destruct (prime_parts ord m2 s2 E2) as [sp [G1 [G2 [G3 [G4 _]]]]].
  assert (C : new_system ord m2 lim2 true d1 = (save_model m2 d1, Ok (py_of lim2 s2))).
  { pose proof (new_result ord m2 lim2 true d1) as NR2. rewrite E2 in NR2. cbn [bind] in NR2. rewrite (surjective_pairing (new_system ord m2 lim2 true d1)), NR2. f_equal.
    unfold new_system, system_init. rewrite G1. cbn [bind]. rewrite generalized_none, G2. cbn [bind]. rewrite G3. cbn [fst with_root]. unfold d1. cbn [save_model final last put_model c_gen c_fargs c_eqs].
    unfold checkpoint. cbn [too_many]. destruct (lim2 <? n_equations (s_eqs s2)); reflexivity. }
  rewrite C. cbn [save_model final last]. unfold d1. cbn [put_model c_gen c_fargs c_eqs].
  destruct (prime_parts ord m1 s1 E1) as [_ [_ [_ [_ [H4 _]]]]].
  unfold from_checkpoint. cbn [put_model c_model c_gen c_fargs c_eqs load unpickle bind]. rewrite (model_roundtrip m2 ST). cbn [bind]. unfold system_init. rewrite H4. cbn [bind].
  do 2 eexists. split; [reflexivity|]. cbn [py_model py_gen py_fargs py_eqs]. split; [apply pin_same|auto].
Qed.
End C31.
Print Assumptions C31_root_irrelevant.
Print Assumptions C31_roundtrip.
Print Assumptions C31_files.
Print Assumptions C31_histories.
Print Assumptions C31_failure.
Print Assumptions C31_never_replaced.
Print Assumptions C31_other_model.
Print Assumptions C31_subsets.

(** The docstrings' "existing files will not be overwritten" fails for
    model.json, and the checkpoint of another model is mixed up. *)
Theorem C31_overwrites_refuted : exists (m1 m2 : model Z) d c, let h := chistory id_ord no_files in
  d = snd (h [Construct m1 10]) /\ c_model d = Some (Complete c) /\ c_model (snd (h [Construct m1 10; Construct m2 10])) <> Some (Complete c).
Proof.
  destruct (sys_ex id_ord h_model (fun _ => true)) as [s1 [E1 _]]; [vm_compute; reflexivity|].
  destruct (sys_ex id_ord h_small (fun _ => true)) as [s2 [E2 _]]; [vm_compute; reflexivity|].
  exists h_model, h_small. do 2 eexists. split; [reflexivity|].
  assert (A : c_model (snd (chistory id_ord no_files [Construct h_model 10])) = Some (Complete (json_of_model h_model))).
  { cbn [chistory cstep]. pose proof (C31_files id_ord h_model s1 10 E1) as F. destruct (new_system id_ord h_model 10 true no_files) as [w r]. cbn [fst snd] in *. rewrite F. reflexivity. }
  split; [exact A|]. cbn [chistory cstep]. destruct (new_system id_ord h_model 10 true no_files) as [w r].
  set (d1 := final w no_files). clearbody d1. destruct (prime_parts id_ord h_small s2 E2) as [sp [G1 [G2 [G3 [G4 _]]]]].
  unfold new_system, system_init. rewrite G1. cbn [bind]. rewrite generalized_none, G2. cbn [bind]. rewrite G3. cbn [bind snd].
  assert (CK : forall lim g fl e d, c_model (final (checkpoint (T := Z) lim g fl e d) d) = c_model d).
  { clear. intros lim g fl e [a b c f]. unfold checkpoint. destruct (too_many lim e); [reflexivity|]. destruct g, fl, e, b, c, f; reflexivity. }
  rewrite !final_app. cbn [with_root]. rewrite !CK. cbn [save_model final last put_model c_model].
  intros H. assert (P : model_of_json (json_of_model h_small) = model_of_json (json_of_model h_model)) by congruence.
  rewrite (model_roundtrip _ h_storable), (model_roundtrip _ h_small_storable) in P. discriminate P.
Qed.
Print Assumptions C31_overwrites_refuted.

Theorem C31_mixed_refuted : exists (m1 m2 : model Z) s1 s2 p d', storable m1 /\ storable m2 /\ prime_system id_ord m1 = Ok s1 /\ prime_system id_ord m2 = Ok s2 /\
  chistory id_ord no_files [Construct m1 10; Construct m2 10; Reload] = ([Ok (py_of 10 s1); Ok (py_of 10 s2); Ok p], d') /\
  same_attributes m2 (py_model p) /\ List.length (flat_map snd (s_eqs s2)) <> List.length (flat_map snd (py_eqs p)).
Proof.
  destruct (sys_ex id_ord h_model (fun s => (count (s_eqs s) <=? 10) && Nat.eqb (List.length (flat_map snd (s_eqs s))) 3)) as [s1 [E1 H1]]; [vm_compute; reflexivity|].
  destruct (sys_ex id_ord h_small (fun s => negb (Nat.eqb (List.length (flat_map snd (s_eqs s))) 3))) as [s2 [E2 H2]]; [vm_compute; reflexivity|].
  apply andb_prop in H1. destruct H1 as [L H1]. apply Z.leb_le in L. apply Nat.eqb_eq in H1. apply negb_true_iff, Nat.eqb_neq in H2.
  destruct (C31_other_model id_ord h_model s1 h_small s2 10 10 h_small_storable E1 E2 L) as [p [d' [EH [SA [_ [_ PE]]]]]].
  exists h_model, h_small, s1, s2, p, d'. split; [exact h_storable|]. split; [exact h_small_storable|]. split; [exact E1|]. split; [exact E2|]. split; [exact EH|]. split; [exact SA|].
  rewrite PE, H1. exact H2.
Qed.
Print Assumptions C31_mixed_refuted.

Example C31_nonvacuous : exists s, storable h_model /\ prime_system id_ord h_model = Ok s /\ 1 < count (s_eqs s) /\
  exists ps d', chistory id_ord no_files [Construct h_model 1; Reload; Construct h_model 10; Reload] = (map Ok ps, d') /\
  List.length ps = 4%nat /\ (forall p, In p ps -> same_system s p).
Proof.
  destruct (sys_ex id_ord h_model (fun s => 1 <? count (s_eqs s))) as [s [E H]]; [vm_compute; reflexivity|]. apply Z.ltb_lt in H.
  exists s. split; [exact h_storable|]. split; [exact E|]. split; [exact H|].
  destruct (C31_histories id_ord h_model s 1 [Reload; Construct h_model 10; Reload] h_storable E) as [ps [d' X]]; [|exists ps, d'; exact X].
  intros e [<-|[<-|[<-|[]]]]; eauto.
Qed.

(** With an order that is not settled, removing generalized_equations.pkl alone
    changes the f_arg_list. *)
Definition rev_ord (k : string) (l : list vec) : list vec := rev l.
Theorem C31_order_refuted : exists (m : model Z) s p, storable m /\ (forall k l, Permutation (rev_ord k l) l) /\ prime_system rev_ord m = Ok s /\
  snd (from_checkpoint rev_ord (mkCdir (Some (Complete (json_of_model m))) None (Some (Complete (s_fargs s))) None)) = Ok p /\ py_fargs p <> Some (s_fargs s).
Proof.
  set (d := fun s : system Z => mkCdir (Some (Complete (json_of_model p_model))) None (Some (Complete (s_fargs s))) None).
  destruct (sys_ex rev_ord p_model (fun s => match snd (from_checkpoint rev_ord (d s)) with
    | Ok p => match py_fargs p with Some fl => negb (eqlZ (flat_map v2 (flat_map snd fl)) (flat_map v2 (flat_map snd (s_fargs s)))) | None => false end
    | Err _ => false end)) as [s [E H]]; [vm_compute; reflexivity|].
  exists p_model, s. fold (d s). destruct (snd (from_checkpoint rev_ord (d s))) as [p|]; [|discriminate]. exists p.
  split; [|split; [intros k l; apply Permutation_sym, Permutation_rev|split; [exact E|split; [reflexivity|]]]].
  - intros h I. repeat (destruct I as [<-|I]); [..|destruct I]; split; intros X; try discriminate X; repeat constructor; (exists 0; reflexivity) || (exists 1; reflexivity) || (exists (-1); reflexivity).
  - intros X. rewrite X in H. rewrite Equation_proofs.eqlZ_refl in H. discriminate H.
Qed.
Print Assumptions C31_order_refuted.
Example C31_settled : settled id_ord.
Proof. split; reflexivity. Qed.

(** * C30: crashes *)
Section C30.
Context {T : Type}.
Variable ord : string -> list vec -> list vec.
Implicit Types (m : model T) (s : system T) (d : cdir T).

(** The directory after [n] steps of a construction in a new directory. *)
Definition killed_at m lim n : cdir T := crash n (fst (new_system ord m lim true no_files)) no_files.
Definition reloads s d : Prop := exists p, snd (from_checkpoint ord d) = Ok p /\ same_system s p.

(** Reloading after a kill at every possible point. *)
Theorem C30_crash_points : forall m s lim, storable m -> prime_system ord m = Ok s ->
  let after n := snd (from_checkpoint ord (killed_at m lim n)) in let big := lim <? count (s_eqs s) in
  after 0%nat = Err SystemExit /\                 (* nothing there *)
  after 1%nat = Err ValueError /\                 (* inside model.json *)
  reloads s (killed_at m lim 2) /\
  after 3%nat = Err EOFError /\                   (* inside generalized_equations.pkl *)
  after 4%nat = Err AttributeError /\             (* no f_arg_list.pkl yet *)
  after 5%nat = Err EOFError /\                   (* inside f_arg_list.pkl *)
  reloads s (killed_at m lim 6) /\
  (if big then reloads s (killed_at m lim 7) else after 7%nat = Err EOFError) /\ (* inside equations.pkl *)
  forall n, (8 <= n)%nat -> reloads s (killed_at m lim n).
Proof.
  intros m s lim ST E. rewrite count_eq. destruct (prime_parts ord m s E) as [_ [_ [_ [_ [_ SM]]]]].
  assert (R : forall d, files_of s d -> reloads s d).
  { intros d F. rewrite <- SM in E. destruct (reload_files ord s d E F) as [w [m' [ER [SA _]]]]. unfold reloads. rewrite ER. eexists. split; [reflexivity|]. repeat split; apply SA. }
  assert (FO : forall g f e, holds g (s_gen s) -> holds f (s_fargs s) -> holds e (s_eqs s) -> (g <> None -> f <> None) -> (f <> None -> g <> None) -> files_of s (mkCdir (Some (Complete (json_of_model m))) g f e)).
  { intros g f e A B C D D'. constructor; cbn [c_model c_gen c_fargs c_eqs]; auto. exists m. split; [reflexivity|]. split; [exact ST|]. rewrite SM. constructor; reflexivity. }
  unfold killed_at, crash. rewrite (new_trace ord m s lim E). cbv zeta. cbn [app].
  assert (HN : forall A (x : A), holds None x) by (left; reflexivity). assert (HS : forall A (x : A), holds (Some (Complete x)) x) by (right; reflexivity).
  split; [reflexivity|]. split; [reflexivity|].
  split; [apply R; cbn [firstn final last]; apply FO; auto|].
  split; [cbn [firstn final last]; unfold from_checkpoint; cbn [c_model c_gen]; rewrite (model_roundtrip m ST); reflexivity|].
  split.
  { cbn [firstn final last]; unfold from_checkpoint; cbn [c_model c_gen c_fargs c_eqs]; rewrite (model_roundtrip m ST). reflexivity. }
  split; [cbn [firstn final last]; unfold from_checkpoint; cbn [c_model c_gen c_fargs c_eqs]; rewrite (model_roundtrip m ST); reflexivity|].
  split; [apply R; cbn [firstn final last]; apply FO; auto; discriminate|].
  destruct (lim <? n_equations (s_eqs s)); split.
  - apply R; cbn [firstn final last]; apply FO; auto; discriminate.
  - intros n L. do 8 (destruct n as [|n]; [lia|]). apply R. cbn [firstn final last]. rewrite ?firstn_nil. apply FO; auto; discriminate.
  - cbn [firstn final last]; unfold from_checkpoint; cbn [c_model c_gen c_fargs c_eqs]; rewrite (model_roundtrip m ST); reflexivity.
  - intros n L. do 8 (destruct n as [|n]; [lia|]). apply R. cbn [firstn final last]. rewrite ?firstn_nil. apply FO; auto; discriminate.
Qed.

(** A torn pickle stays: whatever is done with the directory afterwards,
    reloading never works again. *)
Theorem C30_torn_forever : forall es d, c_gen d = Some Torn \/ c_fargs d = Some Torn \/ c_eqs d = Some Torn ->
  exists x, snd (from_checkpoint ord (snd (chistory ord d es))) = Err x.
Proof.
  intros es d H. destruct (chistory_keeps ord es d) as [A [B C]]. set (d' := snd (chistory ord d es)) in *. clearbody d'.
  unfold from_checkpoint. destruct (c_model d') as [[j|]|]; [|eexists; reflexivity|eexists; reflexivity].
  destruct (model_of_json j) as [m'|x]; [|eexists; reflexivity]. cbn [bind].
  destruct H as [H|[H|H]]; [rewrite (A _ H); eexists; reflexivity| |].
  - rewrite (B _ H). destruct (load (c_gen d')); eexists; reflexivity.
  - rewrite (C _ H). destruct (load (c_gen d')); [|eexists; reflexivity]. cbn [bind]. destruct (load (c_fargs d')); eexists; reflexivity.
Qed.

(** Without a torn pickle the construction can be repeated, and then reloading
    works. *)
Theorem C30_repeat : forall m s lim lim' n, storable m -> prime_system ord m = Ok s ->
  let d := killed_at m lim n in c_gen d <> Some Torn -> c_fargs d <> Some Torn -> c_eqs d <> Some Torn ->
  exists w, new_system ord m lim' true d = (w, Ok (py_of lim' s)) /\ reloads s (final w d).
Proof.
  intros m s lim lim' n ST E d TG TF TE. destruct (prime_parts ord m s E) as [sp [G1 [G2 [G3 [G4 SM]]]]].
  pose proof (new_result ord m lim' true d) as NR. rewrite E in NR. cbn [bind] in NR.
  exists (fst (new_system ord m lim' true d)). split; [rewrite <- NR; apply surjective_pairing|].
  assert (F : files_of s (final (fst (new_system ord m lim' true d)) d)).
  2:{ rewrite <- SM in E. destruct (reload_files ord s _ E F) as [w [m' [ER [SA _]]]]. unfold reloads. rewrite ER. eexists. split; [reflexivity|]. repeat split; apply SA. }
  assert (FM : exists m', Some (Complete (json_of_model m)) = Some (Complete (json_of_model m')) /\ storable m' /\ same_attributes (s_model s) m').
  { exists m. split; [reflexivity|]. split; [exact ST|]. rewrite SM. constructor; reflexivity. }
  assert (D : exists j g f e, d = mkCdir j g f e /\ holds g (s_gen s) /\ holds f (s_fargs s) /\ holds e (s_eqs s)).
  { clear NR G1 G2 G3 G4. revert TG TF TE. unfold d, killed_at, crash. rewrite (new_trace ord m s lim E). cbv zeta. cbn [app]. unfold holds.
    do 7 (destruct n as [|n]; [cbn [firstn final last no_files c_gen c_fargs c_eqs]; intros; do 4 eexists; (split; [reflexivity|]); auto; congruence|]).
    destruct (lim <? n_equations (s_eqs s)); cbn [firstn final last]; [intros; do 4 eexists; (split; [reflexivity|]); auto|].
    destruct n as [|n]; cbn [firstn]; rewrite ?firstn_nil; cbn [last c_gen c_fargs c_eqs]; intros; do 4 eexists; (split; [reflexivity|]); auto; congruence. }
  destruct D as [j [g [f [e [-> [HG [HF HE]]]]]]]. clear TG TF TE NR.
  unfold new_system, system_init. rewrite G1. cbn [bind]. rewrite generalized_none, G2. cbn [bind]. rewrite G3. cbn [fst with_root]. rewrite !final_app.
  cbn [save_model final last put_model c_gen c_fargs c_eqs]. unfold checkpoint at 2. cbn [too_many].
  unfold checkpoint. cbn [too_many].
  destruct HG as [-> | ->]; destruct HF as [-> | ->]; destruct HE as [-> | ->]; cbn [put_gen put_fargs put_eqs c_model c_gen c_fargs c_eqs dump final last app];
    destruct (lim' <? n_equations (s_eqs s)); cbn [put_gen put_fargs put_eqs c_model c_gen c_fargs c_eqs dump final last app];
    constructor; cbn [c_model c_gen c_fargs c_eqs]; unfold holds; auto; discriminate.
Qed.

(** A kill during a reload of a complete checkpoint loses model.json ... *)
Theorem C30_killed_reload : forall m s lim, storable m -> prime_system ord m = Ok s ->
  let d := final (fst (new_system ord m lim true no_files)) no_files in
  fst (chistory ord d [KillReload 1; Reload]) = [Err ValueError].
Proof.
  intros m s lim ST E d. destruct (prime_parts ord m s E) as [_ [_ [_ [_ [H4 SM]]]]].
  pose proof (C31_files ord m s lim E) as F. fold d in F. rewrite F. clear d F.
  match goal with |- context [chistory ord ?d _] => set (d0 := d) end.
  assert (K : crash 1 (fst (from_checkpoint ord d0)) d0 = put_model Torn d0).
  { unfold from_checkpoint, d0. cbn [c_model c_gen c_fargs c_eqs load unpickle bind]. rewrite (model_roundtrip m ST). cbn [bind].
    destruct (lim <? count (s_eqs s)); cbn [load unpickle bind]; unfold system_init.
    - destruct (full_equations (s_fargs s) (s_gen s)); reflexivity.
    - reflexivity. }
  cbn [chistory cstep]. rewrite K. reflexivity.
Qed.
End C30.
Print Assumptions C30_crash_points.
Print Assumptions C30_torn_forever.
Print Assumptions C30_repeat.
Print Assumptions C30_killed_reload.

(** The claim as stated is false: there are crash points with model.json
    complete at which reloading raises, and it keeps raising after the
    construction has been repeated without any crash. *)
Theorem C30_refuted : exists (m : model Z) s n c, storable m /\ prime_system id_ord m = Ok s /\ c_model (killed_at id_ord m 10 n) = Some (Complete c) /\
  snd (from_checkpoint id_ord (killed_at id_ord m 10 n)) = Err EOFError /\
  exists p d' x, chistory id_ord no_files [KillConstruct m 10 n; Construct m 10] = ([Ok p], d') /\ snd (from_checkpoint id_ord d') = Err x.
Proof.
  destruct (sys_ex id_ord h_model (fun _ => true)) as [s [E _]]; [vm_compute; reflexivity|].
  exists h_model, s, 3%nat, (json_of_model h_model). split; [exact h_storable|]. split; [exact E|].
  assert (K : killed_at id_ord h_model 10 3 = mkCdir (Some (Complete (json_of_model h_model))) (Some Torn) None None).
  { unfold killed_at, crash. rewrite (new_trace id_ord h_model s 10 E). reflexivity. }
  split; [rewrite K; reflexivity|]. split; [exact (proj1 (proj2 (proj2 (proj2 (C30_crash_points id_ord h_model s 10 h_storable E)))))|].
  pose proof (new_result id_ord h_model 10 true (killed_at id_ord h_model 10 3)) as NR. rewrite E in NR. cbn [bind] in NR.
  destruct (C30_torn_forever id_ord [Construct h_model 10] (killed_at id_ord h_model 10 3)) as [x X]; [rewrite K; left; reflexivity|].
  exists (py_of 10 s). cbn [chistory cstep] in X |- *. unfold killed_at in *. 
  destruct (new_system id_ord h_model 10 true (crash 3 (fst (new_system id_ord h_model 10 true no_files)) no_files)) as [w r]. cbn [snd] in NR. subst r.
  cbn [snd] in X. do 2 eexists. split; [reflexivity|exact X].
Qed.
Print Assumptions C30_refuted.

Example C30_nonvacuous : exists s, storable h_model /\ prime_system id_ord h_model = Ok s /\ reloads id_ord s (killed_at id_ord h_model 10 2) /\
  snd (from_checkpoint id_ord (killed_at id_ord h_model 10 4)) = Err AttributeError /\
  exists w, new_system id_ord h_model 10 true (killed_at id_ord h_model 10 4) = (w, Ok (py_of 10 s)) /\ reloads id_ord s (final w (killed_at id_ord h_model 10 4)).
Proof.
  destruct (sys_ex id_ord h_model (fun _ => true)) as [s [E _]]; [vm_compute; reflexivity|].
  exists s. split; [exact h_storable|]. split; [exact E|].
  destruct (C30_crash_points id_ord h_model s 10 h_storable E) as [_ [_ [A [_ [B _]]]]]. split; [exact A|]. split; [exact B|].
  assert (K : killed_at id_ord h_model 10 4 = mkCdir (Some (Complete (json_of_model h_model))) (Some (Complete (s_gen s))) None None).
  { unfold killed_at, crash. rewrite (new_trace id_ord h_model s 10 E). reflexivity. }
  apply (C30_repeat id_ord h_model s 10 10 4 h_storable E); rewrite K; discriminate.
Qed.

(** * C49: roots of solvers *)
Section C49.
Context {T : Type}.
Variable ord : string -> list vec -> list vec.
Implicit Types (m : model T) (s : system T) (k : disk T).

(** A System built in the root the solver is given: after it and any further
    solvers that do not bring another System of that root, a solver given only
    the root loads it. *)
Theorem C49_same_root : forall m s lim r k ops, storable m -> prime_system ord m = Ok s -> k r = no_files ->
  exists k1 x, new_rsystem ord m lim (Some r) k = (k1, Ok x) /\ rs_root x = Some r /\ same_system s (rs_sys x) /\
  ((forall y root, In (Some y, root) ops -> rs_root y = Some r -> same_system s (rs_sys y)) ->
   exists k2 y, solver_init ord None (Some r) (solvers ord ((Some x, Some r) :: ops) k1) = (k2, Ok y) /\ rs_root y = Some r /\ same_system s (rs_sys y)).
Proof.
  intros m s lim r k ops ST E K. destruct (prime_parts ord m s E) as [_ [_ [_ [_ [_ SM]]]]]. subst m.
  destruct (construct_files ord s (k r) lim E ST (or_intror K)) as [w [EC F]].
  assert (SS : same_system s (py_of lim s)) by (repeat split).
  unfold new_rsystem. rewrite EC. cbn [bind]. do 2 eexists. split; [reflexivity|]. cbn [rs_root rs_sys]. split; [reflexivity|]. split; [exact SS|]. intros H.
  destruct (solver_loads ord s (solvers ord ((Some (mkRs (py_of lim s) (Some r)), Some r) :: ops) (put_root r (final w (k r)) k)) r E) as [k2 [p [EQ [SP _]]]].
  - apply solvers_files; [exact E| |].
    + rewrite put_same. exact F.
    + intros y root [I|I]; [|apply (H y root I)]. injection I as <- _. intros _. exact SS.
  - exists k2. eexists. split; [exact EQ|]. split; [reflexivity|exact SP].
Qed.

(** A solver writes System files only under the System's own root: not under
    its own, if that is another one. *)
Theorem C49_own_root_only : forall (x : rsystem T) root k r, rs_root x <> Some r ->
  snd (solver_init ord (Some x) root k) = Ok x /\ fst (solver_init ord (Some x) root k) r = k r.
Proof. intros x root k r H. split; [reflexivity|]. apply solver_other. exact H. Qed.

(** So a later solver with only the root exits. *)
Theorem C49_other_root : forall ops k r, k r = no_files -> (forall y root, In (y, root) ops -> exists x, y = Some x /\ rs_root x <> Some r) ->
  snd (solver_init ord None (Some r) (solvers ord ops k)) = Err SystemExit.
Proof.
  intros ops k r K H. cbn [solver_init]. rewrite solvers_other; [rewrite K; reflexivity|].
  intros y root I. destruct (H y root I) as [x [-> N]]. exact N.
Qed.

(** Neither a System nor a root. *)
Theorem C49_nothing : forall k, solver_init ord None None k = (k, Err SystemExit).
Proof. reflexivity. Qed.
End C49.
Print Assumptions C49_same_root.
Print Assumptions C49_own_root_only.
Print Assumptions C49_other_root.
Print Assumptions C49_nothing.

(** Results with a negative spectral function are reported and stored. *)
Theorem C49_negative : forall P V (key : P -> string) (calc : P -> result V) negative d p v, fget (key p) d = None -> calc p = Ok v -> negative v = true ->
  exists d', solve key calc negative (Some d) p = (Ok v, true, Some d') /\ fget (key p) d' = Some (Complete v).
Proof.
  intros P V key calc negative d p v G E NG. unfold solve, pre_solve. rewrite G, E. cbn [post_solve]. unfold post_solve. rewrite NG. eexists. split; [reflexivity|].
  clear. induction d as [|[n x] d IH]; cbn [fput fget]; [rewrite String.eqb_refl; reflexivity|]. destruct (String.eqb n (key p)) eqn:Q; cbn [fget]; rewrite Q; [reflexivity|exact IH].
Qed.
Print Assumptions C49_negative.

(** Both documented claims fail. *)
Theorem C49_refuted : exists (m : model Z) s x, storable m /\ prime_system id_ord m = Ok s /\
  new_rsystem id_ord m 10 None (fun _ => no_files) = ((fun _ => no_files), Ok x) /\
  snd (solver_init id_ord (Some x) (Some "r"%string) (fun _ => no_files)) = Ok x /\
  snd (solver_init id_ord None (Some "r"%string) (fst (solver_init id_ord (Some x) (Some "r"%string) (fun _ => no_files)))) = Err SystemExit.
Proof.
  destruct (sys_ex id_ord h_model (fun _ => true)) as [s [E _]]; [vm_compute; reflexivity|].
  exists h_model, s, (mkRs (py_of 10 s) None). split; [exact h_storable|]. split; [exact E|]. split.
  - unfold new_rsystem. rewrite (new_result id_ord h_model 10 false no_files), E. reflexivity.
  - split; [reflexivity|]. reflexivity.
Qed.
Print Assumptions C49_refuted.
Theorem C49_negative_refuted : exists (calc : Z -> result Z) negative p v d', calc p = Ok v /\ negative v = true /\
  solve (fun _ => "x"%string) calc negative (Some []) p = (Ok v, true, Some d') /\ fget "x" d' = Some (Complete v).
Proof. exists (fun z => Ok (- z)), (fun v => v <? 0), 1, (-1). eexists. split; [reflexivity|]. split; [reflexivity|]. split; reflexivity. Qed.
Print Assumptions C49_negative_refuted.

Example C49_nonvacuous : exists s k1 x k2 y, storable h_model /\ prime_system id_ord h_model = Ok s /\
  new_rsystem id_ord h_model 10 (Some "a"%string) (fun _ => no_files) = (k1, Ok x) /\
  solver_init id_ord None (Some "a"%string) (solvers id_ord [(Some x, Some "a"%string); (Some x, Some "b"%string); (None, Some "b"%string)] k1) = (k2, Ok y) /\
  same_system s (rs_sys y).
Proof.
  destruct (sys_ex id_ord h_model (fun _ => true)) as [s [E _]]; [vm_compute; reflexivity|].
  destruct (C49_same_root id_ord h_model s 10 "a" (fun _ => no_files) [] h_storable E eq_refl) as [k1 [x [E1 [RX [SX _]]]]].
  destruct (C49_same_root id_ord h_model s 10 "a" (fun _ => no_files) [(Some x, Some "b"%string); (None, Some "b"%string)] h_storable E eq_refl) as [k1' [x' [E1' [_ [_ H]]]]].
  rewrite E1 in E1'. injection E1' as <- <-. destruct H as [k2 [y [EQ [_ SY]]]].
  - intros z root [I|[I|[]]]; [injection I as <- _; intros _; exact SX|discriminate I].
  - exists s, k1, x, k2, y. split; [exact h_storable|]. split; [exact E|]. split; [exact E1|]. split; [exact EQ|exact SY].
Qed.
