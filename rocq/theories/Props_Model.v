(** Property theorems about building models: C18 on histories, C32, C33, C35,
    C44.  [N : numops T] is the arithmetic; [num_ok N] (|-x| = |x|, math.sqrt
    raises only ValueError) is all that is assumed of it. *)
From Coq Require Import String ZArith List Bool Lia Permutation.
From Verif Require Import Base NdArray Config Spec Model Space Spec_space Render Term Equation System Spec_engine
  Ring Coef Spec_eom HModel Spec_model Props_Engine.
From Verif Require HModel_proofs Props_Eom.
Import ListNotations.
Open Scope list_scope.
Open Scope Z_scope.

(** Whole-number arithmetic, for the witnesses. *)
Definition Znum : numops Z :=
  mkNum Z 0 1 2 Z.mul Z.div Z.opp Z.abs (fun x => if x <? 0 then Err ValueError else Ok (Z.sqrt x))
    (fun _ => 0) (fun x => x) (fun _ => 5) (fun _ => 3) Z.eqb Z.ltb.
Lemma Znum_ok : num_ok Znum.
Proof. constructor; cbn; [intros; apply Z.abs_opp|]. intros x e. destruct (x <? 0); congruence. Qed.

(** C32.  Unacceptable arguments are reported and change nothing. *)
Theorem C32_rejected : forall T (N : numops T) m a, ~ acceptable N m a -> model_add N m a = Ok ([LError], m).
Proof. intros. apply HModel_proofs.add_rejects. assumption. Qed.
Print Assumptions C32_rejected.

(** Acceptable ones add exactly the operators, limits and frequencies. *)
Theorem C32_added : forall T (N : numops T), num_ok N -> forall m a g,
  acceptable N m a -> supported (a_type a) -> coupling_value N m a g -> (forall o, a_override a = Some o -> 0 <= o) ->
  exists logs m', model_add N m a = Ok (logs, m') /\ ~ In LError logs /\ added N m a g m'.
Proof. intros. apply HModel_proofs.add_accepts; assumption. Qed.
Print Assumptions C32_added.

(** No real coupling constant, or a negative index: an exception and no model. *)
Theorem C32_raises : forall T (N : numops T), num_ok N -> forall m a, acceptable N m a -> supported (a_type a) ->
  (forall g, ~ coupling_value N m a g) \/ (exists o, a_override a = Some o /\ o < 0) -> exists x, model_add N m a = Err x.
Proof. intros. apply HModel_proofs.add_raises; assumption. Qed.
Print Assumptions C32_raises.

(** All or nothing, for the supported coupling types. *)
Theorem C32_all_or_nothing : forall T (N : numops T), num_ok N -> forall m a logs m',
  supported (a_type a) -> model_add N m a = Ok (logs, m') ->
  (In LError logs /\ m' = m /\ ~ acceptable N m a) \/
  (~ In LError logs /\ acceptable N m a /\ exists g, coupling_value N m a g /\ added N m a g m').
Proof. intros. eapply HModel_proofs.add_outcome; eassumption. Qed.
Print Assumptions C32_all_or_nothing.

(** For any other type the error is reported and the model changed all the
    same: every model, every otherwise acceptable call. *)
Theorem C32_unknown_type : forall T (N : numops T) m a, acceptable N m a -> ~ supported (a_type a) ->
  exists logs m', model_add N m a = Ok (logs, m') /\ In LError logs /\ m_ham m' = m_ham m /\ m' <> m /\
    exists M Nn, m_pe m' = m_pe m ++ a_M a :: M /\ m_pn m' = m_pn m ++ a_N a :: Nn.
Proof.
  intros T N m a A U. destruct (HModel_proofs.add_unknown N m a A U) as [logs [m' [E [L [H [M [Nn [H1 [H2 H3]]]]]]]]].
  exists logs, m'. split; [exact E|]. split; [exact L|]. split; [exact H|]. split; [intros ->; lia|]. exists M, Nn. auto.
Qed.
Print Assumptions C32_unknown_type.

(** Calls with Holstein coupling: at zero temperature, at temperature 1, with
    lambda < 0, with a misspelt name. *)
Definition call (c : string) (f M Nn : Z) : add_args Z := mkAdd c f M Nn None None (Some 1) None None.
Definition hot_call (c : string) (f M Nn : Z) : add_args Z := mkAdd c f M Nn (Some 1) (Some 2) None (Some 2) None.
Definition cold : model Z := from_parameters 1 1 0 None 1.
Definition warm : model Z := from_parameters 1 1 1 None 1.

Theorem C32_unknown_type_refuted : exists m a logs m', acceptable Znum m a /\ model_add Znum m a = Ok (logs, m') /\ In LError logs /\ m' <> m.
Proof.
  assert (A : acceptable Znum cold (call "Holstien" 4 2 3)).
  { constructor; cbn; try discriminate; try lia. right. split; [discriminate|reflexivity]. }
  assert (U : ~ supported (a_type (call "Holstien" 4 2 3))).
  { intros [H|[H|[H|H]]]; discriminate H. }
  destruct (C32_unknown_type Z Znum cold _ A U) as [logs [m' [E [L [_ [D _]]]]]]. exists cold, (call "Holstien" 4 2 3), logs, m'. auto.
Qed.
Print Assumptions C32_unknown_type_refuted.

Example C32_nonvacuous :
  (acceptable Znum cold (call "Peierls" 4 2 3) /\ exists m', model_add Znum cold (call "Peierls" 4 2 3) = Ok ([LDebug], m') /\
     m_pe m' = [2] /\ m_pn m' = [3] /\ h_freqs (m_ham m') = [4] /\ List.length (h_terms (m_ham m')) = 8%nat) /\
  (acceptable Znum warm (hot_call "Holstein" 4 2 3) /\ exists m', model_add Znum warm (hot_call "Holstein" 4 2 3) = Ok ([LDebug; LDebug], m') /\
     m_pe m' = [2; 1] /\ m_pn m' = [3; 2] /\ h_freqs (m_ham m') = [4; -4] /\
     map (fun h => (ht_index h, ht_coupling h)) (h_terms (m_ham m')) = [(0%nat, -20); (0%nat, -20); (1%nat, -12); (1%nat, -12)]) /\
  (~ acceptable Znum warm (call "Holstein" 4 2 3)) /\
  model_add Znum cold (mkAdd "Holstein" 4 2 3 None None None (Some (-1)) None) = Err ValueError /\
  (acceptable Znum cold (call "holstein" 4 2 3) /\ ~ supported "holstein").
Proof.
  assert (A : forall c f M Nn, 1 <= M -> 1 <= Nn -> acceptable Znum cold (call c f M Nn)).
  { intros. constructor; cbn; try discriminate; try lia. right. split; [discriminate|reflexivity]. }
  split; [split; [apply A; lia|eexists; split; [vm_compute; reflexivity|auto]]|].
  split; [split; [|eexists; split; [vm_compute; reflexivity|auto]]|].
  { constructor; cbn; try discriminate; try lia; intros; try (split; discriminate); try congruence.
    - assert (x = 1) by congruence. lia.
    - assert (x = 2) by congruence. lia.
    - left. split; [reflexivity|discriminate]. }
  split; [intros H; destruct (ac_tfd _ _ _ H eq_refl) as [H1 _]; apply H1; reflexivity|].
  split; [reflexivity|]. split; [apply A; lia|]. unfold supported. intros [H|[H|[H|H]]]; discriminate.
Qed.

(** C18 on histories: any sequence of accepted calls and assignments. *)
Theorem C18_histories : forall T (N : numops T), num_ok N -> forall m fs cs ord, built N 1 m fs cs -> cs <> [] -> distinct N fs ->
  (forall k, m_mps m = Some k -> 1 <= k) -> (forall k, m_aext m = Some k -> 1 <= k) ->
  (forall c, In c cs -> c = "BondPeierls"%string) \/ (forall c, In c cs -> c <> "BondPeierls"%string) ->
  (forall k l, Permutation (ord k l) l) ->
  exists ae s, good_model m ae /\ prime_system ord m = Ok s /\
    forall x, In x (index_ids (flat_map snd (s_eqs s))) <-> In x (rhs_ids (flat_map snd (s_eqs s))).
Proof.
  intros T N K m fs cs ord B C D Hm Ha Hb P. destruct (HModel_proofs.built_good N K m fs cs B C D Hm Ha Hb) as [ae G].
  destruct (C18_closure T m ae ord G P) as [s [E [H _]]]. exists ae, s. auto.
Qed.
Print Assumptions C18_histories.

(** Running a list of calls, for the witnesses. *)
Definition no_error (l : list level) : bool := forallb (fun x => match x with LError => false | _ => true end) l.
Fixpoint run (m : model Z) (l : list (add_args Z)) : result (model Z) :=
  match l with
  | [] => Ok m
  | a :: r => match model_add Znum m a with Ok (logs, m') => if no_error logs then run m' r else Err RuntimeError | Err x => Err x end
  end.
Definition fs_of (temp : Z) (l : list (add_args Z)) : list Z :=
  flat_map (fun a => if 0 <? temp then [a_freq a; - a_freq a] else [a_freq a]) l.

Lemma add_temp : forall T (N : numops T), num_ok N -> forall m a logs m', model_add N m a = Ok (logs, m') -> ~ In LError logs -> m_temp m' = m_temp m.
Proof. intros T N K m a logs m' E L. destruct (HModel_proofs.add_outcome_any N K m a logs m' E L) as [_ [_ [g [_ D]]]]. apply D. Qed.

Lemma run_built : forall l m fs cs m', built Znum 1 m fs cs -> forallb (fun a => is_none (a_override a)) l = true -> run m l = Ok m' ->
  built Znum 1 m' (fs ++ fs_of (m_temp m) l) (cs ++ map a_type l).
Proof.
  induction l as [|a l IH]; intros m fs cs m' B O E.
  - cbn in E |- *. assert (m = m') by congruence. subst. rewrite !app_nil_r. exact B.
  - cbn [run] in E. cbn [forallb] in O. apply andb_true_iff in O. destruct O as [O1 O2].
    destruct (model_add Znum m a) as [[logs m1]|] eqn:Ea; [|discriminate]. destruct (no_error logs) eqn:EL; [|discriminate].
    assert (NL : ~ In LError logs). { intros H. unfold no_error in EL. rewrite forallb_forall in EL. specialize (EL LError H). discriminate. }
    assert (O3 : a_override a = None) by (destruct (a_override a); [discriminate|reflexivity]).
    pose proof (built_add Znum 1 m fs cs a logs m1 B Ea NL O3) as B1. apply (IH m1 _ _ m' B1 O2) in E.
    rewrite (add_temp Z Znum Znum_ok m a logs m1 Ea NL) in E. rewrite <- !app_assoc in E. exact E.
Qed.

Lemma start_built : forall hop lat temp mps, built Znum 1 (from_parameters hop lat temp mps 1) [] [].
Proof. intros. constructor. Qed.

Definition system_of (m : result (model Z)) : result unit := m <- m ;; _ <- prime_system id_ord m ;; Ok tt.

Definition the (r : result (model Z)) : model Z := match r with Ok m => m | Err _ => cold end.
Definition is_ok {A} (r : result A) : bool := match r with Ok _ => true | Err _ => false end.
Lemma hist : forall temp l, forallb (fun a => is_none (a_override a)) l && is_ok (run (from_parameters 1 1 temp None 1) l) = true ->
  built Znum 1 (the (run (from_parameters 1 1 temp None 1) l)) (fs_of temp l) (map a_type l).
Proof.
  intros temp l H. apply andb_true_iff in H. destruct H as [H1 H2]. destruct (run (from_parameters 1 1 temp None 1) l) as [m|] eqn:E; [|discriminate].
  exact (run_built l _ [] [] m (start_built 1 1 temp None) H1 E).
Qed.

Ltac history temp l := exists (the (run (from_parameters 1 1 temp None 1) l)), (fs_of temp l), (map a_type l); split; [apply (hist temp l); vm_compute; reflexivity|].

(** Two couplings at zero temperature; one at temperature 1 *)
Example C18_histories_nonvacuous :
  (exists m fs cs, built Znum 1 m fs cs /\ cs = ["Holstein"; "Peierls"]%string /\ distinct Znum fs /\ fs = [1; 2] /\ system_of (Ok m) = Ok tt) /\
  (exists m fs cs, built Znum 1 m fs cs /\ cs = ["Holstein"]%string /\ distinct Znum fs /\ fs = [1; -1] /\ system_of (Ok m) = Ok tt).
Proof.
  split.
  - history 0 [call "Holstein" 1 1 1; call "Peierls" 2 1 1]. split; [vm_compute; reflexivity|]. split; [vm_compute; repeat constructor|]. split; [vm_compute; reflexivity|]. vm_compute. reflexivity.
  - history 1 [hot_call "Holstein" 1 2 1].
    split; [vm_compute; reflexivity|]. split; [vm_compute; repeat constructor|]. split; [vm_compute; reflexivity|]. vm_compute. reflexivity.
Qed.

(** Each hypothesis is needed; every history below consists of accepted calls.
    Two types with the same frequency: *)
Theorem C18_equal_frequencies_refuted : exists m fs cs, built Znum 1 m fs cs /\ fs = [1; 1] /\
  cs = ["Holstein"; "Holstein"]%string /\ system_of (Ok m) = Err IndexError.
Proof. history 0 [call "Holstein" 1 1 1; call "Holstein" 1 1 1]. split; [vm_compute; reflexivity|]. split; [vm_compute; reflexivity|]. vm_compute. reflexivity. Qed.
Print Assumptions C18_equal_frequencies_refuted.

(** Bond Peierls next to a coupling with integer offsets: *)
Theorem C18_mixed_offsets_refuted : exists m fs cs, built Znum 1 m fs cs /\ fs = [1; 2] /\ distinct Znum fs /\
  cs = ["Holstein"; "BondPeierls"]%string /\ system_of (Ok m) = Err TypeError.
Proof. history 0 [call "Holstein" 1 1 1; call "BondPeierls" 2 1 1]. split; [vm_compute; reflexivity|]. split; [vm_compute; repeat constructor|]. split; [vm_compute; reflexivity|]. vm_compute. reflexivity. Qed.
Print Assumptions C18_mixed_offsets_refuted.

(** No coupling at all: *)
Theorem C18_no_coupling_refuted : exists m, built Znum 1 m [] [] /\ system_of (Ok m) = Err KeyError.
Proof. exists cold. split; [constructor|]. vm_compute. reflexivity. Qed.
Print Assumptions C18_no_coupling_refuted.

(** A per-site limit of zero; an absolute extent of zero: *)
Theorem C18_zero_limit_refuted : exists m fs cs, built Znum 1 m fs cs /\ cs = ["Holstein"]%string /\ m_mps m = Some 0 /\ system_of (Ok m) = Err KeyError.
Proof.
  exists (set_max_per_site (the (run cold [call "Holstein" 1 1 1])) (Some 0)). eexists. eexists.
  split; [apply built_mps; apply (hist 0 [call "Holstein" 1 1 1]); vm_compute; reflexivity|].
  split; [vm_compute; reflexivity|]. split; [vm_compute; reflexivity|]. vm_compute. reflexivity.
Qed.
Print Assumptions C18_zero_limit_refuted.
Theorem C18_zero_extent_refuted : exists m fs cs, built Znum 1 m fs cs /\ cs = ["Holstein"]%string /\ m_aext m = Some 0 /\ system_of (Ok m) = Err KeyError.
Proof.
  exists (snd (set_absolute_extent (the (run cold [call "Holstein" 1 1 1])) (Some 0))). eexists. eexists.
    split; [apply built_aext; apply (hist 0 [call "Holstein" 1 1 1]); vm_compute; reflexivity|].
    split; [vm_compute; reflexivity|]. split; [vm_compute; reflexivity|]. vm_compute. reflexivity.
Qed.
Print Assumptions C18_zero_extent_refuted.

(** The documented use of [phonon_index_override] (several couplings to one
    mode, model.py:846-850): Holstein and Peierls couplings to mode 0.  The
    call is accepted but counts a second type, which no system can hold. *)
Theorem C18_override_refuted : exists m, run cold [call "Holstein" 1 1 1; mkAdd "Peierls" 1 1 1 None None (Some 1) None (Some 0)] = Ok m /\
  map (fun h => ht_index h) (h_terms (m_ham m)) = repeat 0%nat 10 /\ m_ntypes m = 2%nat /\ system_of (Ok m) = Err IndexError.
Proof. eexists. split; [vm_compute; reflexivity|]. split; [vm_compute; reflexivity|]. split; [vm_compute; reflexivity|]. vm_compute. reflexivity. Qed.
Print Assumptions C18_override_refuted.

(** C33.  [fs] lists the frequencies as given to the calls. *)
Theorem C33_frequencies : forall T (N : numops T), num_ok N -> forall dim m fs cs, built N dim m fs cs -> distinct N fs ->
  h_freqs (m_ham m) = fs /\ m_ntypes m = List.length fs /\
  forall h, In h (h_terms (m_ham m)) -> nth_error fs (ht_index h) = Some (ht_freq h).
Proof. intros. eapply HModel_proofs.built_freqs; eassumption. Qed.
Print Assumptions C33_frequencies.

(** The energy in every row of the system uses them. *)
Theorem C33_energy : forall T (N : numops T), num_ok N -> forall m fs cs, built N 1 m fs cs -> distinct N fs ->
  forall (K : cring) (e : env T K) F ae ord s, covariant e F -> good_model m ae -> (forall k l, Permutation (ord k l) l) -> prime_system ord m = Ok s ->
  forall k es q, In (k, es) (s_eqs s) -> In q es -> 0 < k ->
  exists a d l st, unk (e_index q) = (a, [d]) /\ total a = k /\ energy_of fs a l /\ acting m ae a st /\
    row e (of_family F) q = kadd (F (cloud a) d) (ksum (map (fun h => ksum (map (eom_summand e F l a d h) (st h))) (h_terms (m_ham m)))).
Proof.
  intros T N NK m fs cs B D K e F ae ord s C G P E k es q Hk Hq K0.
  destruct (HModel_proofs.built_freqs N NK 1 m fs cs B D) as [<- _].
  destruct (Props_Eom.C16_system_rows T K e F m ae ord s C G P E k es q Hk Hq) as [[_ [_ [a [d [l [st [H1 [_ [H2 [H3 [H4 H5]]]]]]]]]]]|[K1 _]]; [|lia].
  exists a, d, l, st. auto.
Qed.
Print Assumptions C33_energy.

(** Two types with one frequency share an entry. *)
Theorem C33_equal_frequencies_refuted : exists m fs cs, built Znum 1 m fs cs /\ fs = [1; 1; 3] /\ h_freqs (m_ham m) = [1; 3] /\
  exists h, In h (h_terms (m_ham m)) /\ ht_freq h = 1 /\ nth_error (h_freqs (m_ham m)) (ht_index h) = Some 3.
Proof.
  history 0 [call "Holstein" 1 1 1; call "Holstein" 1 1 1; call "Holstein" 3 1 1]. split; [vm_compute; reflexivity|]. split; [vm_compute; reflexivity|].
  exists (nth 2 (h_terms (m_ham (the (run cold [call "Holstein" 1 1 1; call "Holstein" 1 1 1; call "Holstein" 3 1 1])))) (mkHterm "" half half Plus 0 0%nat 0)).
  split; [vm_compute; right; right; left; reflexivity|]. split; vm_compute; reflexivity.
Qed.
Print Assumptions C33_equal_frequencies_refuted.

Example C33_nonvacuous : exists m fs cs, built Znum 1 m fs cs /\ distinct Znum fs /\ fs = [4; 2] /\ h_freqs (m_ham m) = [4; 2].
Proof. history 0 [call "Holstein" 4 1 1; call "Peierls" 2 1 1]. split; [vm_compute; repeat constructor|]. split; vm_compute; reflexivity. Qed.

(** C35.  The operators are pairwise different, so closure of the set is
    closure of the list. *)
Theorem C35_symmetric : forall T (N : numops T), num_ok N -> (forall x, n_opp N (n_opp N x) = x) -> forall dim m fs cs, built N dim m fs cs ->
  NoDup (h_terms (m_ham m)) /\ forall h, In h (h_terms (m_ham m)) ->
    In (conjugate h) (h_terms (m_ham m)) /\ In (reflect N h) (h_terms (m_ham m)).
Proof. intros. eapply HModel_proofs.built_closed; eassumption. Qed.
Print Assumptions C35_symmetric.

Example C35_nonvacuous : exists m fs cs, built Znum 1 m fs cs /\ List.length (h_terms (m_ham m)) = 18%nat.
Proof. history 0 [call "Holstein" 4 1 1; call "Peierls" 2 1 1; call "EdwardsFermionBoson" 7 1 1; call "BondPeierls" 3 1 1]. vm_compute. reflexivity. Qed.

(** C44 *)
Theorem C44_temperature : forall T (N : numops T) m x,
  ((x = None \/ exists v, x = Some v /\ n_ltb N v (n_0 N) = true) -> set_temperature N m x = ([LError], m)) /\
  (forall v, x = Some v -> n_ltb N v (n_0 N) = false -> exists m', set_temperature N m x = ([], m') /\
     m_temp m' = v /\ m_lattice m' = m_lattice m /\ m_ham m' = m_ham m /\ m_mps m' = m_mps m /\ m_pe m' = m_pe m /\ m_pn m' = m_pn m /\
     m_aext m' = m_aext m /\ m_ntypes m' = m_ntypes m).
Proof.
  intros T N m x. split.
  - intros [->|[v [-> H]]]; cbn; [reflexivity|]. rewrite H. reflexivity.
  - intros v -> H. cbn. rewrite H. eexists. split; [reflexivity|]. repeat split.
Qed.
Print Assumptions C44_temperature.

Theorem C44_lattice_constant : forall T (N : numops T) m x,
  ((x = None \/ exists v, x = Some v /\ (n_ltb N v (n_0 N) = true \/ n_eqb N v (n_0 N) = true)) -> set_lattice N m x = ([LError], m)) /\
  (forall v, x = Some v -> n_ltb N v (n_0 N) = false -> n_eqb N v (n_0 N) = false -> exists logs m', set_lattice N m x = (logs, m') /\ ~ In LError logs /\
     m_lattice m' = v /\ m_temp m' = m_temp m /\ m_ham m' = m_ham m /\ m_mps m' = m_mps m /\ m_pe m' = m_pe m /\ m_pn m' = m_pn m /\
     m_aext m' = m_aext m /\ m_ntypes m' = m_ntypes m).
Proof.
  intros T N m x. split.
  - intros [->|[v [-> [H|H]]]]; cbn; [reflexivity| |]; rewrite H, ?orb_true_r; reflexivity.
  - intros v -> H1 H2. cbn. rewrite H1, H2. cbn [orb]. eexists. eexists. split; [reflexivity|].
    split; [destruct (n_eqb N v (n_1 N)); cbn; intuition; discriminate|]. repeat split.
Qed.
Print Assumptions C44_lattice_constant.

(** With two or more types the absolute extent cannot be assigned; unassigned
    it is the largest extent. *)
Theorem C44_absolute_extent : forall T (m : model T) x,
  ((2 <= List.length (m_pe m))%nat -> set_absolute_extent m x = ([LError], m)) /\
  ((List.length (m_pe m) < 2)%nat -> exists m', set_absolute_extent m x = ([], m') /\ m_aext m' = x /\
     m_lattice m' = m_lattice m /\ m_temp m' = m_temp m /\ m_ham m' = m_ham m /\ m_mps m' = m_mps m /\ m_pe m' = m_pe m /\ m_pn m' = m_pn m /\
     m_ntypes m' = m_ntypes m) /\
  (forall e, m_aext m = Some e -> absolute_extent m = Some e) /\
  (m_aext m = None -> m_pe m = [] -> absolute_extent m = None) /\
  (m_aext m = None -> m_pe m <> [] -> exists e, absolute_extent m = Some e /\ In e (m_pe m) /\ forall y, In y (m_pe m) -> y <= e).
Proof.
  intros T m x. unfold set_absolute_extent, absolute_extent. split; [|split; [|split; [|split]]].
  - intros H. rewrite (proj2 (Nat.ltb_lt _ _)) by lia. reflexivity.
  - intros H. rewrite (proj2 (Nat.ltb_ge _ _)) by lia. eexists. split; [reflexivity|]. repeat split.
  - intros e ->. reflexivity.
  - intros -> ->. reflexivity.
  - intros -> H. destruct (m_pe m) as [|a l]; [congruence|]. cbn [lmaxZ]. eexists. split; [reflexivity|]. clear H.
    revert a. induction l as [|b l IH]; intros a; cbn [fold_left].
    + split; [left; reflexivity|]. intros y [<-|[]]. lia.
    + destruct (IH (Z.max a b)) as [H1 H2]. split.
      * destruct H1 as [H1|H1]; [|right; right; exact H1]. rewrite <- H1. destruct (Z.max_spec a b) as [[_ E]|[_ E]]; rewrite E; [right; left|left]; reflexivity.
      * intros y Hy. assert (Z.max a b <= fold_left Z.max l (Z.max a b)) by (apply H2; left; reflexivity).
        destruct Hy as [<-|[<-|Hy]]; [lia|lia|]. apply H2. right. exact Hy.
Qed.
Print Assumptions C44_absolute_extent.

Example C44_nonvacuous : set_temperature Znum cold (Some (-1)) = ([LError], cold) /\ m_temp (snd (set_temperature Znum cold (Some 3))) = 3 /\
  set_lattice Znum cold (Some 0) = ([LError], cold) /\ m_lattice (snd (set_lattice Znum cold (Some 2))) = 2 /\
  m_aext (snd (set_absolute_extent cold (Some 4))) = Some 4 /\
  exists m, run cold [call "Holstein" 1 2 1; call "Holstein" 2 3 1] = Ok m /\ absolute_extent m = Some 3 /\ set_absolute_extent m (Some 5) = ([LError], m).
Proof. repeat split. eexists. repeat split; vm_compute; reflexivity. Qed.
