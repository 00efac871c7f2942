(** Momentum periodicity of the Green's function and the separations at which
    the real-space propagator is needed (C50). *)
From Coq Require Import String ZArith List Bool Lia Permutation Ring.
From Verif Require Import Base NdArray NdArray_proofs Config Spec Spec_ops Config_proofs Modify_proofs Legal_proofs
  Model HModel Space Spec_space Space_proofs Count_proofs Render Render_proofs Term Equation System Spec_engine
  Term_proofs Equation_proofs System_proofs Prime_proofs Engine_proofs Order_proofs Ring Coef Spec_eom Eom_proofs
  Solvers Spec_solve Sysok_proofs Sparse_proofs Spec_model Spec_sym Rows_proofs Sym_proofs Spec_spectral.
Import ListNotations.
Open Scope list_scope.
Open Scope Z_scope.

Section Period.
Context {T : Type} {K : cring}.
Add Ring KRpd : (klaws K).
Variables (m : model T) (ae : Z) (c : Z).
Hypothesis G : good_model m ae.
Hypothesis Hlat : on_lattice m c.
Let ops := h_terms (m_ham m).

Definition sg : K := if Z.even c then k1 else kopp k1.
Definition gauge (u : nd * list Z -> K) (p : nd * list Z) : K := if total (fst p) =? 0 then u p else kmul sg (u p).

Lemma sg_sq : forall x : K, kmul sg (kmul sg x) = x.
Proof. intros x. unfold sg. destruct (Z.even c); ring. Qed.

Lemma phi_even : forall h, In h ops -> Z.even (phi1 h) = Z.even c /\ Z.even (psi1 h) = true.
Proof.
  intros h Hh. destruct (Hlat h Hh) as [[x Ex] [y Ey]]. split.
  - replace (phi1 h) with (c + 2 * y) by lia. rewrite Z.even_add_mul_2. reflexivity.
  - rewrite Ex. rewrite Z.even_mul. reflexivity.
Qed.

Lemma even_sub : forall a b, Z.even (a - 2 * b) = Z.even a.
Proof. intros a b. replace (a - 2 * b) with (a + 2 * (- b)) by lia. apply Z.even_add_mul_2. Qed.

Lemma gauge_proper : forall u, proper u -> proper (gauge u).
Proof.
  intros u Pu a a' d V V' F F'. unfold gauge. cbn [fst]. rewrite (proj2 (valid_total_free _ V) F), (proj2 (valid_total_free _ V') F'). apply Pu; assumption.
Qed.

Section Shift.
Variables e e' : env T K.
Hypothesis S : staggered e e'.

Lemma gauge_summand : forall u a h x l d, In h ops -> summand e' (gauge u) l a d h x = kmul sg (summand e u l a d h x).
Proof.
  intros u a h x l d Hh. unfold summand. rewrite (sg_ev _ _ S), (sg_g0 _ _ S).
  assert (J : jump e' (gauge u) (next a h x) (phi1 h - 2 * x) = kmul sg (jump e u (next a h x) (phi1 h - 2 * x))).
  { unfold jump, gauge. cbn [fst]. destruct (total (fst (next a h x)) =? 0).
    - rewrite (sg_ph _ _ S), even_sub, (proj1 (phi_even h Hh)). unfold sg. destruct (Z.even c); ring.
    - rewrite (sg_ph _ _ S). replace (Z.even (-2 * snd (next a h x))) with true by (symmetry; rewrite Z.even_mul; reflexivity). ring. }
  rewrite J. ring.
Qed.

Lemma gauge_green : forall u h, In h ops -> gsummand e' (gauge u) (m_ntypes m) h = gsummand e u (m_ntypes m) h.
Proof.
  intros u h Hh. unfold gsummand, gauge. cbn [fst]. destruct (single_in_space m ae G _ (gm_index _ _ G h Hh)) as [_ T1]. rewrite T1. change (1 =? 0) with false. cbv iota.
  rewrite (sg_ev _ _ S), (sg_G0 _ _ S), (sg_ph _ _ S). destruct (phi_even h Hh) as [E1 E2]. rewrite Z.even_sub, E1, E2. unfold sg. destruct (Z.even c); cbn [Bool.eqb]; ring.
Qed.

Lemma gauge_conditions : forall u g, conditions m ae e u g -> conditions m ae e' (gauge u) g.
Proof.
  intros u g [C1 C2]. split.
  - intros a d l Sa R El. specialize (C1 a d l Sa R El). fold ops in C1. fold ops.
    destruct (space_unfold m ae a Sa) as [_ [_ [Ta _]]].
    transitivity (kmul sg (kadd (u (a, [d])) (ksum (map (fun h => ksum (map (summand e u l a d h) (st m ae a h))) ops)))); [|rewrite C1; ring].
    unfold gauge at 1. cbn [fst]. rewrite (proj2 (Z.eqb_neq (total a) 0)) by lia.
    assert (E : ksum (map (fun h => ksum (map (summand e' (gauge u) l a d h) (st m ae a h))) ops) =
      kmul sg (ksum (map (fun h => ksum (map (summand e u l a d h) (st m ae a h))) ops))).
    { rewrite <- ksum_scal. apply ksum_ext. intros h Hh. rewrite <- ksum_scal. apply ksum_ext. intros x _. apply gauge_summand. exact Hh. }
    rewrite E. ring.
  - rewrite <- C2. f_equal.
    + unfold gauge. cbn [fst]. destruct (vac_valid m) as [_ [T0 _]]. rewrite T0. reflexivity.
    + apply ksum_ext. intros h Hh. apply filter_In in Hh. apply gauge_green. apply Hh.
Qed.
End Shift.

Lemma staggered_sym : forall e e' : env T K, staggered e e' -> staggered e' e.
Proof.
  intros e e' [E1 E2 E3 E4]. constructor; intros; auto. rewrite E2. destruct (Z.even d); [reflexivity|ring].
Qed.

Lemma gauge_zero : forall u, u (vac m, [0]) = k0 -> (forall a d, space m ae a -> reached m ae a d -> u (a, [d]) = k0) ->
  gauge u (vac m, [0]) = k0 /\ forall a d, space m ae a -> reached m ae a d -> gauge u (a, [d]) = k0.
Proof.
  intros u Z0 Z1. unfold gauge. cbn [fst]. split.
  - rewrite Z0. destruct (_ =? 0); [reflexivity|ring].
  - intros a d Sa R. rewrite (Z1 a d Sa R). destruct (_ =? 0); [reflexivity|ring].
Qed.

Lemma gauge_back : forall u, gauge (gauge u) (vac m, [0]) = u (vac m, [0]).
Proof. intros u. unfold gauge. cbn [fst]. destruct (_ =? 0); [reflexivity|apply sg_sq]. Qed.
Lemma gauge_back' : forall u p, gauge (gauge u) p = u p.
Proof. intros u p. unfold gauge. destruct (_ =? 0); [reflexivity|apply sg_sq]. Qed.
End Period.

Lemma period_result : forall {T} {K : cring} (m : model T) ae c ord ord' s s' (e e' : env T K) sp X v X' v',
  good_model m ae -> on_lattice m c -> staggered e e' ->
  (forall k l, Permutation (ord k l) l) -> (forall k l, Permutation (ord' k l) l) ->
  prime_system ord m = Ok s -> prime_system ord' m = Ok s' ->
  scaffold e (full_basis s) s = Ok (X, v) -> scaffold e' (full_basis s') s' = Ok (X', v') ->
  nonsingular X -> nonsingular X' /\ (solves X v (sp X v) -> solves X' v' (sp X' v') -> sparse_solve e' sp s' = sparse_solve e sp s).
Proof.
  intros T K m ae c ord ord' s s' e e' sp X v X' v' G L S P P' Es Es' E E' NS.
  assert (NS' : nonsingular X').
  { apply (same_regular m m ae ae G G ord ord' s s' P P' Es Es' e e' X v X' v' E E' NS). intros u' Pu' C'.
    exists (gauge c u'). split; [apply gauge_proper; exact Pu'|]. split; [exact (gauge_conditions m ae c G L e' e (staggered_sym e e' S) u' k0 C')|].
    intros [Z1 Z2]. destruct (gauge_zero m ae c (gauge c u') Z1 Z2) as [Y1 Y2]. split; [rewrite <- (gauge_back' c u'); exact Y1|].
    intros a d Sa R. rewrite <- (gauge_back' c u'). apply Y2; assumption. }
  split; [exact NS'|]. intros SV SV'.
  apply (same_result m m ae ae G G ord ord' s s' P P' Es Es' e e' sp X v X' v' E E' SV SV' NS').
  intros u Pu C. exists (gauge c u). split; [apply gauge_proper; exact Pu|]. split; [rewrite (sg_G0 _ _ S); exact (gauge_conditions m ae c G L e e' S u (G0 e) C)|].
  unfold gauge. cbn [fst]. destruct (vac_valid m) as [_ [T0 _]]. rewrite T0. reflexivity.
Qed.

(** * Separations *)
Lemma reached_even : forall {T} (m : model T) ae c a d, on_lattice m c -> reached m ae a d -> Z.Even (d - c).
Proof.
  intros T m ae c a d L [[h [Hh [_ [_ ->]]]]|[b [h [x [s [_ [Hh [_ [_ ->]]]]]]]]]; destruct (L h Hh) as [_ [y Ey]].
  - exists y. exact Ey.
  - exists (y - x + s). lia.
Qed.

Lemma separations : forall {T} {K : cring} (m : model T) ae c ord s (e e' : env T K), good_model m ae -> on_lattice m c -> same_on_sites e e' ->
  (forall k l, Permutation (ord k l) l) -> prime_system ord m = Ok s ->
  forall u q, proper u -> In q (all_eqs s) -> row e' u q = row e u q.
Proof.
  intros T K m ae c ord s e e' G L S P Es u q Pu Hq. destruct (eq_rows m ae G ord P s Es q Hq) as [[_ [a [d [l [_ [Sa [R [_ RW]]]]]]]]|[_ [_ RW]]].
  - rewrite !RW by exact Pu. f_equal. apply ksum_ext. intros h Hh. apply ksum_ext. intros x _. unfold summand, jump. rewrite (ss_ev _ _ S), !(ss_ph _ _ S).
    destruct (L h Hh) as [[y Ey] [y' Ey']]. destruct (reached_even m ae c a d L R) as [y'' Ey''].
    replace (psi1 h - phi1 h + 2 * x + d) with (2 * (y - y' + x + y'')) by lia. rewrite (ss_g0 _ _ S). reflexivity.
  - rewrite !RW. f_equal. apply ksum_ext. intros h _. unfold gsummand. rewrite (ss_ev _ _ S), (ss_ph _ _ S), (ss_G0 _ _ S). reflexivity.
Qed.
