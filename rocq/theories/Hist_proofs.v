(** Free propagator; histories of calls that give symmetric models (C42, C47,
    C48). *)
From Coq Require Import String ZArith List Bool Lia Permutation Ring.
From Verif Require Import Base NdArray NdArray_proofs Config Spec Spec_ops Config_proofs Modify_proofs Legal_proofs
  Model HModel Space Spec_space Space_proofs Count_proofs Render Render_proofs Term Equation System Spec_engine
  Term_proofs Equation_proofs System_proofs Prime_proofs Engine_proofs Order_proofs Ring Coef Spec_eom Eom_proofs
  Solvers Spec_solve Sysok_proofs Sparse_proofs Spec_model HModel_proofs Spec_sym Rows_proofs Sym_proofs.
Import ListNotations.
Open Scope list_scope.
Open Scope Z_scope.

(** * No coupling *)
Section Free.
Context {T : Type} {K : cring}.
Add Ring KRfree : (klaws K).
Variables (m : model T) (ae : Z) (e : env T K).
Hypothesis G : good_model m ae.
Hypothesis Z0 : forall h, In h (h_terms (m_ham m)) -> ev e (ht_coupling h) = k0.

Lemma free_conditions : forall u g, conditions m ae e u g <->
  (forall a d, space m ae a -> reached m ae a d -> u (a, [d]) = k0) /\ u (vac m, [0]) = g.
Proof.
  intros u g. unfold conditions.
  assert (S1 : forall a d l, ksum (map (fun h => ksum (map (summand e u l a d h) (st m ae a h))) (h_terms (m_ham m))) = k0).
  { intros a d l. rewrite (ksum_ext _ (fun _ => k0)).
    - apply ksum_zero. reflexivity.
    - intros h Hh. apply ksum_zero. intros x Hx. unfold summand. rewrite (Z0 h Hh). ring. }
  assert (S2 : ksum (map (gsummand e u (m_ntypes m)) (filter creation (h_terms (m_ham m)))) = k0).
  { apply ksum_zero. intros h Hh. apply filter_In in Hh. unfold gsummand. rewrite (Z0 h (proj1 Hh)). ring. }
  rewrite S2. split.
  - intros [H1 H2]. split; [|rewrite <- H2; ring]. intros a d Sa R. destruct (space_unfold m ae a Sa) as [_ [_ [_ [NT _]]]].
    destruct (energy_ex (h_freqs (m_ham m)) a) as [l El]; [rewrite NT; apply (gm_freqs _ _ G)|].
    specialize (H1 a d l Sa R El). rewrite S1 in H1. rewrite <- H1. ring.
  - intros [H1 H2]. split; [|rewrite H2; ring]. intros a d l Sa R El. rewrite S1, (H1 a d Sa R). ring.
Qed.

Variables (ord : string -> list vec -> list vec) (s : system T).
Hypothesis P : forall k l, Permutation (ord k l) l.
Hypothesis Es : prime_system ord m = Ok s.

Lemma free_result : forall sp X v, scaffold e (full_basis s) s = Ok (X, v) ->
  nonsingular X /\ (solves X v (sp X v) -> sparse_solve e sp s = Ok (G0 e)).
Proof.
  intros sp X v E. destruct (sys_ok_good m ae ord s G P Es) as [O _]. split.
  - rewrite (scaffold_ok e s O) in E. assert (X = mkCoo (NN s) (NN s) (triplets e s)) as -> by congruence.
    apply (regular_iff m ae G ord P s Es e). intros u Pu C. apply free_conditions in C. destruct C as [C1 C2]. auto.
  - intros SV. destruct (sparse_result e s O sp X v E SV) as [g [Eg [[u [Pu [Su Gu]]] _]]]. rewrite Eg. f_equal.
    rewrite (g_value_unique s O u g (u (vac m, [0])) Gu (g_value_vac m ae G ord P s Es u)).
    apply (solution_iff m ae G ord P s Es e u Pu) in Su. apply free_conditions in Su. apply Su.
Qed.
End Free.

(** * Calls with opposite coupling strengths *)
Section Hist.
Context {T : Type} {K : cring}.
Add Ring KRhist : (klaws K).
Variable N : numops T.
Variable e : env T K.
Hypothesis EO : forall x, ev e (n_opp N x) = kopp (ev e x).

Lemma get_terms_scaled : forall c dim ty g g' idx f, ev e g' = kmul c (ev e g) ->
  match get_terms N dim ty g idx f, get_terms N dim ty g' idx f with
  | Some ts, Some ts' => Forall2 (scaled_op e c) ts ts'
  | None, None => True
  | _, _ => False
  end.
Proof.
  intros c dim ty g g' idx f H.
  assert (H' : ev e (n_opp N g') = kmul c (ev e (n_opp N g))) by (rewrite !EO, H; ring).
  unfold get_terms. destruct (String.eqb ty "Holstein"); [|destruct (String.eqb ty "EdwardsFermionBoson"); [|destruct (String.eqb ty "BondPeierls"); [|destruct (String.eqb ty "Peierls"); [|exact I]]]];
  repeat (apply Forall2_cons; [unfold scaled_op; cbn [ht_psi ht_phi ht_dag ht_index ht_coupling]; repeat split; assumption|]); apply Forall2_nil.
Qed.

(** Two Hamiltonians in the same state, with opposite couplings. *)
Definition neg_ham (h h' : hamiltonian T) : Prop :=
  h_freqs h' = h_freqs h /\ h_dim h' = h_dim h /\ h_hop h' = h_hop h /\ Forall2 (scaled_op e (kopp k1)) (h_terms h) (h_terms h').

Hypothesis MO : forall x y, n_mul N (n_opp N x) y = n_opp N (n_mul N x y).

Lemma ham_add_neg : forall h h' c idx f g V l h1, neg_ham h h' -> ham_add N h c idx f (Some g) None V = Ok (l, h1) ->
  exists h1', ham_add N h' c idx f (Some (n_opp N g)) None V = Ok (l, h1') /\ neg_ham h1 h1'.
Proof.
  intros h h' c idx f g V l h1 [Ef [Ed [Eh Ft]]] E. unfold ham_add in *. cbv zeta in *. rewrite Ed.
  assert (X : ev e (n_mul N (n_opp N g) V) = kmul (kopp k1) (ev e (n_mul N g V))) by (rewrite MO, EO; ring).
  pose proof (get_terms_scaled (kopp k1) (h_dim h) c (n_mul N g V) (n_mul N (n_opp N g) V) (Z.to_nat idx) f X) as Y.
  destruct (get_terms N (h_dim h) c (n_mul N g V) (Z.to_nat idx) f) as [ts|], (get_terms N (h_dim h) c (n_mul N (n_opp N g) V) (Z.to_nat idx) f) as [ts'|]; try contradiction.
  - destruct (guard (0 <=? idx) SystemExit) as [[]|]; [|discriminate]. cbn [bind] in *. eexists.
    assert (l = [LDebug]) as -> by congruence. split; [reflexivity|].
    assert (h1 = mkHam (h_terms h ++ ts) (if existsb (n_eqb N f) (h_freqs h) then h_freqs h else h_freqs h ++ [f]) (h_dim h) (h_hop h)) as -> by congruence.
    unfold neg_ham. cbn [h_freqs h_dim h_hop h_terms]. rewrite Ef, Eh. do 3 (split; [reflexivity|]). apply Forall2_app; assumption.
  - assert (l = [LError; LDebug] /\ h1 = h) as [-> ->] by (split; congruence). exists h'. split; [reflexivity|]. repeat split; assumption.
Qed.

Record neg_model (m m' : model T) : Prop := {
  ng_lat : m_lattice m' = m_lattice m; ng_temp : m_temp m' = m_temp m; ng_mps : m_mps m' = m_mps m; ng_pe : m_pe m' = m_pe m;
  ng_pn : m_pn m' = m_pn m; ng_aext : m_aext m' = m_aext m; ng_nt : m_ntypes m' = m_ntypes m; ng_ham : neg_ham (m_ham m) (m_ham m') }.

Lemma add_neg : forall m m' a l m1, neg_model m m' -> a_cs a <> None -> model_add N m a = Ok (l, m1) ->
  exists m1', model_add N m' (negated N a) = Ok (l, m1') /\ neg_model m1 m1'.
Proof.
  intros m m' a l m1 R C E. destruct R as [R1 R2 R3 R4 R5 R6 R7 R8].
  unfold model_add in *. cbv zeta in *. cbn [negated a_type a_freq a_M a_N a_Mtfd a_Ntfd a_cs a_dcs a_override].
  rewrite R1, R2, R3, R4, R5, R6, R7. destruct (a_cs a) as [g|] eqn:Ec; [|congruence]. cbn [option_map is_none] in *.
  set (hot := n_ltb N (n_0 N) (m_temp m)) in *.
  assert (D : forall r, Ok (r, m) = Ok (l, m1) -> exists m1', Ok (r, m') = Ok (l, m1') /\ neg_model m1 m1').
  { intros r H. assert (r = l) as -> by congruence. assert (m1 = m) as -> by congruence. exists m'. split; [reflexivity|]. constructor; assumption. }
  destruct (hot && (is_none (a_Mtfd a) || is_none (a_Ntfd a))); [apply D; exact E|].
  destruct ((a_N a <? 1) || (a_M a <? 1)); [apply D; exact E|].
  destruct (lt1 (a_Mtfd a) || lt1 (a_Ntfd a)); [apply D; exact E|].
  destruct (a_dcs a) as [lam|]; cbn [is_none xorb negb] in *; [apply D; exact E|].
  destruct (match a_override a with Some o => hot && Z.odd o | None => false end); [apply D; exact E|].
  destruct (tfd_prefactors N (m_temp m) (a_freq a)) as [V Vt].
  set (idx := match a_override a with Some o => o | None => Z.of_nat (m_ntypes m) end) in *.
  destruct (ham_add N (m_ham m) (a_type a) idx (a_freq a) (Some g) None V) as [[l1 h1]|] eqn:E1; [|discriminate]. cbn [bind] in E.
  destruct (ham_add_neg _ _ _ _ _ _ _ _ _ R8 E1) as [h1' [E1' R1']]. rewrite E1'. cbn [bind].
  destruct hot.
  - destruct (ham_add N h1 (a_type a) (idx + 1) (n_opp N (a_freq a)) (Some g) None Vt) as [[l2 h2]|] eqn:E2; [|discriminate]. cbn [bind] in E.
    destruct (ham_add_neg _ _ _ _ _ _ _ _ _ R1' E2) as [h2' [E2' R2']]. rewrite E2'. cbn [bind].
    destruct (a_Mtfd a) as [Mt|]; [|discriminate]. destruct (a_Ntfd a) as [Nt|]; [|discriminate]. cbn [m_pe m_pn m_ntypes] in *.
    match type of E with Ok (?x, ?y) = _ => assert (x = l) by congruence; assert (y = m1) by congruence end. subst l m1.
    eexists. split; [reflexivity|]. constructor; cbn; try reflexivity. exact R2'.
  - match type of E with Ok (?x, ?y) = _ => assert (x = l) by congruence; assert (y = m1) by congruence end. subst l m1.
    eexists. split; [reflexivity|]. constructor; cbn; try reflexivity. exact R1'.
Qed.

Lemma adds_neg : forall l m m' m1, neg_model m m' -> (forall a, In a l -> a_cs a <> None) -> adds N m l = Ok m1 ->
  exists m1', adds N m' (map (negated N) l) = Ok m1' /\ neg_model m1 m1'.
Proof.
  induction l as [|a l IH]; intros m m' m1 R C E; cbn [adds map] in *.
  - assert (m1 = m) as -> by congruence. exists m'. auto.
  - destruct (model_add N m a) as [[lg m2]|] eqn:Ea; [|discriminate]. cbn [bind snd] in E.
    destruct (add_neg _ _ _ _ _ R (C a (or_introl eq_refl)) Ea) as [m2' [Ea' R']]. rewrite Ea'. cbn [bind snd].
    apply (IH m2 m2' m1 R'); [intros; apply C; right; assumption|exact E].
Qed.

Lemma neg_flipped : forall m m', neg_model m m' -> flipped e (fun _ => true) m m'.
Proof.
  intros m m' [R1 R2 R3 R4 R5 R6 R7 [Q1 [Q2 [Q3 Q4]]]]. split; [|exact Q4]. constructor; try assumption.
  unfold absolute_extent. rewrite R6, R4. reflexivity.
Qed.

Lemma neg_start : forall hop lat temp mps dim, neg_model (from_parameters hop lat temp mps dim) (from_parameters hop lat temp mps dim).
Proof. intros. constructor; try reflexivity. repeat split. apply Forall2_nil. Qed.

End Hist.

(** * Models built by calls are mirror symmetric *)
Section Mirror.
Context {T : Type} {K : cring}.
Add Ring KRmirr : (klaws K).
Variable N : numops T.
Variable e : env T K.
Hypothesis EO : forall x, ev e (n_opp N x) = kopp (ev e x).

Lemma built_types : num_ok N -> forall dim m fs cs, built N dim m fs cs ->
  forall h h', In h (h_terms (m_ham m)) -> In h' (h_terms (m_ham m)) -> ht_index h = ht_index h' -> ht_type h = ht_type h'.
Proof.
  intros Kn dim m fs cs B. induction B as [hop lat temp mps|m fs cs a logs m' B IH E L O|m fs cs x B IH|m fs cs x B IH|m fs cs x B IH|m fs cs x B IH].
  - intros h h' [].
  - pose proof (built_inv N Kn dim m fs cs B) as I. destruct (add_outcome_any N Kn m a logs m' E L) as [Sp [A [g [Gv D]]]]. unfold added in D. rewrite O in D. cbv zeta in D.
    destruct D as [_ [_ [_ [_ [_ [_ [ts [[_ Ots] D]]]]]]]].
    assert (Old : forall h, In h (h_terms (m_ham m)) -> (ht_index h < m_ntypes m)%nat).
    { intros h Hh. destruct (i_terms _ _ _ _ _ I h Hh) as [g' [psi [phi [d [s [_ [_ [_ [_ H]]]]]]]]]. rewrite (i_nt _ _ _ _ _ I). apply nth_error_Some. congruence. }
    assert (New : forall h, In h (h_terms (m_ham m')) -> In h (h_terms (m_ham m)) \/ (ht_type h = a_type a /\ (m_ntypes m <= ht_index h)%nat)).
    { assert (N1 : forall h, In h ts -> ht_type h = a_type a /\ (m_ntypes m <= ht_index h)%nat).
      { intros h Hh. apply Ots in Hh. destruct Hh as [psi [phi [d [s [_ ->]]]]]. cbn. split; [reflexivity|lia]. }
      destruct (n_ltb N (n_0 N) (m_temp m)).
      - destruct D as [Mt [Nt [ts' [fr [_ [_ [[_ Ots'] [_ [_ [_ [Eh _]]]]]]]]]]]. intros h Hh. rewrite Eh in Hh. apply in_app_or in Hh. destruct Hh as [Hh|Hh]; [left; exact Hh|right].
        apply in_app_or in Hh. destruct Hh as [Hh|Hh]; [apply N1; exact Hh|]. apply Ots' in Hh. destruct Hh as [psi [phi [d [s [_ ->]]]]]. cbn. split; [reflexivity|lia].
      - destruct D as [_ [_ [_ [Eh _]]]]. intros h Hh. rewrite Eh in Hh. apply in_app_or in Hh. destruct Hh as [Hh|Hh]; [left; exact Hh|right; apply N1; exact Hh]. }
    intros h h' H H' Ei. destruct (New h H) as [A1|[A1 A2]], (New h' H') as [B1|[B1 B2]].
    + apply IH; assumption.
    + apply Old in A1. lia.
    + apply Old in B1. lia.
    + congruence.
  - unfold set_temperature. destruct x as [v|]; try exact IH. destruct (n_ltb N v (n_0 N)); exact IH.
  - unfold set_lattice. destruct x as [v|]; try exact IH. destruct (n_ltb N v (n_0 N) || n_eqb N v (n_0 N)); exact IH.
  - unfold set_absolute_extent. destruct (Nat.ltb 1 (List.length (m_pe m))); exact IH.
  - exact IH.
Qed.

Lemma map_opp_inj : forall l l', map Z.opp l = map Z.opp l' -> l = l'.
Proof. induction l as [|x l IH]; intros [|y l'] H; cbn in H; try discriminate; [reflexivity|]. injection H as H1 H2. f_equal; [lia|apply IH; exact H2]. Qed.

Lemma vneg_inj : forall v w, vneg v = vneg w -> v = w.
Proof. intros [i l] [j l'] H. unfold vneg in H. cbn in H. injection H as H1 H2. rewrite (map_opp_inj _ _ H2), H1. reflexivity. Qed.

Lemma built_mirror : num_ok N -> (forall x, n_opp N (n_opp N x) = x) -> forall dim m fs cs, built N dim m fs cs ->
  exists f, mirror_symmetric e f m.
Proof.
  intros Kn OO dim m fs cs B. destruct (built_closed N Kn OO dim m fs cs B) as [ND Cl]. set (ops := h_terms (m_ham m)) in *.
  exists (fun t => existsb (fun h => Nat.eqb (ht_index h) t && String.eqb (ht_type h) "Peierls") ops).
  exists (map (reflect N) ops). fold ops. split.
  - apply NoDup_Permutation_bis; [exact ND|rewrite map_length; reflexivity|].
    assert (IR : forall h h', reflect N h = reflect N h' -> h = h').
    { intros [t p q d c i f] [t' p' q' d' c' i' f'] H. unfold reflect in H. cbn in H. injection H as H1 H2 H3 H4 H5 H6 H7. subst t' d' i' f'.
      assert (p = p') as -> by (apply vneg_inj; unfold vneg; congruence). assert (q = q') as -> by (apply vneg_inj; unfold vneg; congruence). f_equal.
      destruct (String.eqb t "Peierls"); [|exact H7]. rewrite <- (OO c), <- (OO c'), H7. reflexivity. }
    apply NoDup_length_incl.
    + clear -IR ND. induction ops as [|h r IH]; [constructor|]. inversion ND; subst. cbn [map]. constructor; [|apply IH; assumption].
      rewrite in_map_iff. intros [h' [E H']]. apply IR in E. subst. contradiction.
    + rewrite map_length. reflexivity.
    + intros h Hh. apply in_map_iff in Hh. destruct Hh as [h' [<- Hh']]. apply Cl. exact Hh'.
  - assert (FF : forall l f, (forall h, In h l -> mirror_op e f h (reflect N h)) -> Forall2 (mirror_op e f) l (map (reflect N) l)).
    { induction l as [|h l IH]; intros f H; cbn [map]; constructor; [apply H; left; reflexivity|apply IH; intros; apply H; right; assumption]. }
    apply FF. intros h Hh. unfold mirror_op, reflect. cbn [ht_psi ht_phi ht_dag ht_index ht_coupling vneg v2]. do 4 (split; [reflexivity|]).
    assert (E : existsb (fun h0 => Nat.eqb (ht_index h0) (ht_index h) && String.eqb (ht_type h0) "Peierls") ops = String.eqb (ht_type h) "Peierls").
    { apply eq_true_iff_eq. rewrite existsb_exists. split.
      - intros [h0 [H0 H1]]. apply andb_true_iff in H1. destruct H1 as [H1 H2]. apply Nat.eqb_eq in H1.
        rewrite <- (built_types Kn dim m fs cs B h0 h H0 Hh H1). exact H2.
      - intros H. exists h. split; [exact Hh|]. rewrite Nat.eqb_refl, H. reflexivity. }
    rewrite E. destruct (String.eqb (ht_type h) "Peierls"); [rewrite EO; ring|ring].
Qed.
End Mirror.
