(** Proofs about the units of energy (C85). *)
From Coq Require Import String ZArith List Bool Lia Permutation Ring.
From Verif Require Import Base NdArray NdArray_proofs Config Spec Spec_ops Config_proofs Modify_proofs Legal_proofs
  Model HModel Space Spec_space Space_proofs Count_proofs Render Render_proofs Term Equation System Spec_engine
  Term_proofs Equation_proofs System_proofs Prime_proofs Engine_proofs Order_proofs Ring Coef Spec_eom Eom_proofs
  Solvers Spec_solve Sysok_proofs Sparse_proofs Spec_model Spec_sym Rows_proofs Sym_proofs Spec_spectral Neghop_proofs Spec_units.
Import ListNotations.
Open Scope list_scope.
Open Scope Z_scope.

Section Units.
Context {T : Type} {K : cring}.
Add Ring KRun : (klaws K).
Variables (m : model T) (ae : Z) (f : T -> T) (c : K) (e e' : env T K).
Hypothesis G : good_model m ae.
Hypothesis U : units_changed f c e e'.
Let m' := in_units f m.
Let ops := h_terms (m_ham m).

Lemma units_space : forall a, space m' ae a = space m ae a. Proof. reflexivity. Qed.
Lemma units_acts : forall a h x, acts_at m' ae a (op_in f h) x = acts_at m ae a h x. Proof. reflexivity. Qed.

Lemma units_good : good_model m' ae.
Proof.
  destruct G as [W A A1 MP PE PN FR IX PH PS PL MI DT]. constructor; try assumption.
  - unfold m', in_units. cbn [m_ham h_freqs m_ntypes]. rewrite map_length. exact FR.
  - intros h Hh. apply in_map_iff in Hh. destruct Hh as [h0 [<- H0]]. exact (IX h0 H0).
  - intros h Hh. apply in_map_iff in Hh. destruct Hh as [h0 [<- H0]]. exact (PH h0 H0).
  - intros h Hh. apply in_map_iff in Hh. destruct Hh as [h0 [<- H0]]. exact (PS h0 H0).
  - intros t Ht. destruct (PL t Ht) as [h [Hh [E1 E2]]]. exists (op_in f h). split; [apply in_map; exact Hh|]. auto.
  - destruct MI as [h [Hh E2]]. exists (op_in f h). split; [apply in_map; exact Hh|exact E2].
  - intros h1 h2 H1 H2. apply in_map_iff in H1, H2. destruct H1 as [x [<- H1]]. destruct H2 as [y [<- H2]]. exact (DT x y H1 H2).
Qed.

Lemma units_reached : forall a d, reached m' ae a d <-> reached m ae a d.
Proof.
  intros a d. unfold reached. split.
  - intros [[h [Hh X]]|[b [h [x [s [Sb [Hh X]]]]]]]; apply in_map_iff in Hh; destruct Hh as [h0 [<- H0]].
    + left. exists h0. split; [exact H0|exact X].
    + right. exists b, h0, x, s. split; [exact Sb|]. split; [exact H0|exact X].
  - intros [[h [Hh X]]|[b [h [x [s [Sb [Hh X]]]]]]].
    + left. exists (op_in f h). split; [apply in_map; exact Hh|exact X].
    + right. exists b, (op_in f h), x, s. split; [exact Sb|]. split; [apply in_map; exact Hh|exact X].
Qed.

Let fl (l : list (T * Z)) := map (fun p => (f (fst p), snd p)) l.

Lemma units_energy : forall a l, energy_of (h_freqs (m_ham m)) a l -> energy_of (h_freqs (m_ham m')) a (fl l).
Proof.
  intros a l [L H]. split; [unfold fl; rewrite map_length; exact L|]. intros t Ht. destruct (H t Ht) as [x [E1 E2]]. exists (f x).
  unfold m', in_units. cbn [m_ham h_freqs]. split; [exact (map_nth_error f t _ E1)|]. exact (map_nth_error (fun p => (f (fst p), snd p)) t l E2).
Qed.

Lemma units_summand : forall u a l d h x, summand e' u (fl l) a d (op_in f h) x = summand e u l a d h x.
Proof.
  intros u a l d h x. unfold summand. change (multi a (op_in f h) x) with (multi a h x). change (next a (op_in f h) x) with (next a h x). change (psi1 (op_in f h)) with (psi1 h). change (phi1 (op_in f h)) with (phi1 h).
  change (ht_coupling (op_in f h)) with (f (ht_coupling h)). unfold jump. rewrite !(uc_ph _ _ _ _ U), (uc_ev _ _ _ _ U), <- (uc_g0 _ _ _ _ U _ l). fold (fl l).
  destruct (total (fst (next a h x)) =? 0); ring.
Qed.

Lemma units_gsummand : forall u h, gsummand e' u (m_ntypes m) (op_in f h) = gsummand e u (m_ntypes m) h.
Proof.
  intros u h. unfold gsummand. change (psi1 (op_in f h)) with (psi1 h). change (phi1 (op_in f h)) with (phi1 h). change (ht_index (op_in f h)) with (ht_index h).
  change (ht_coupling (op_in f h)) with (f (ht_coupling h)). rewrite (uc_ph _ _ _ _ U), (uc_ev _ _ _ _ U), <- (uc_G0 _ _ _ _ U). ring.
Qed.

Lemma units_conditions : forall u g, conditions m' ae e' u g -> conditions m ae e u g.
Proof.
  intros u g [C1 C2]. split.
  - intros a d l Sa R El. rewrite <- (C1 a d (fl l) Sa (proj2 (units_reached a d) R) (units_energy a l El)). f_equal.
    unfold m', in_units. cbn [m_ham h_terms]. rewrite map_map. fold m'. fold ops. apply ksum_ext. intros h Hh.
    rewrite (ksum_perm _ _ (Permutation_map _ (st_perm m m' ae ae a h (op_in f h) G units_good Sa Sa Hh (in_map (op_in f) _ _ Hh) (fun x => iff_refl _)))).
    apply ksum_ext. intros x _. symmetry. apply units_summand.
  - rewrite <- C2. f_equal. fold ops. unfold m', in_units. cbn [m_ham h_terms m_ntypes]. fold ops.
    assert (FM : filter creation (map (op_in f) ops) = map (op_in f) (filter creation ops)).
    { generalize ops. intros l0. induction l0 as [|h l0 IH]; [reflexivity|]. cbn [map filter]. change (creation (op_in f h)) with (creation h). destruct (creation h); cbn [map]; rewrite IH; reflexivity. }
    rewrite FM, map_map. apply ksum_ext. intros h _. symmetry. apply units_gsummand.
Qed.

Lemma units_scaled : forall u, proper u -> conditions m' ae e' u (G0 e') -> proper (fun p => kmul c (u p)) /\ conditions m ae e (fun p => kmul c (u p)) (G0 e).
Proof.
  intros u Pu Cu. split; [intros a a' d V V' F F'; rewrite (Pu a a' d V V' F F'); reflexivity|].
  pose proof (units_conditions u _ Cu) as C. pose proof (comb_conditions m ae e c k0 u u _ _ C C) as Q.
  assert (X : forall x : K, kadd (kmul c x) (kmul k0 x) = kmul c x) by (intros; ring).
  rewrite X, (uc_G0 _ _ _ _ U) in Q. destruct Q as [Q1 Q2].
  assert (EX : forall p, comb c k0 u u p = kmul c (u p)) by (intros p; unfold comb; apply X).
  split.
  - intros a d l Sa R El. rewrite <- (Q1 a d l Sa R El). rewrite EX. f_equal. apply ksum_ext. intros h _. apply ksum_ext. intros x _. unfold summand, jump. rewrite !EX. reflexivity.
  - rewrite <- Q2, EX. f_equal. apply ksum_ext. intros h _. unfold gsummand. rewrite EX. reflexivity.
Qed.
End Units.

Lemma units_result : forall {T} {K : cring} (m : model T) ae f (c : K) ord ord' s s' (e e' : env T K) sp sp' X v X' v',
  good_model m ae -> units_changed f c e e' -> (forall k l, Permutation (ord k l) l) -> (forall k l, Permutation (ord' k l) l) ->
  prime_system ord m = Ok s -> prime_system ord' (in_units f m) = Ok s' ->
  scaffold e (full_basis s) s = Ok (X, v) -> scaffold e' (full_basis s') s' = Ok (X', v') -> nonsingular X ->
  nonsingular X' /\ (solves X v (sp X v) -> solves X' v' (sp' X' v') ->
    exists g g', sparse_solve e sp s = Ok g /\ sparse_solve e' sp' s' = Ok g' /\ kmul c g' = g).
Proof.
  intros T K m ae f c ord ord' s s' e e' sp sp' X v X' v' G U P P' Es Es' E E' NS. pose proof (units_good m ae f G) as G'.
  assert (NS' : nonsingular X').
  { apply (same_regular m (in_units f m) ae ae G G' ord ord' s s' P P' Es Es' e e' X v X' v' E E' NS). intros u Pu Cu. exists u. split; [exact Pu|].
    split; [apply (units_conditions m ae f c e e' G U); exact Cu|]. intros [Z1 Z2]. split; [exact Z1|]. intros a d Sa R. apply Z2; [exact Sa|]. apply (units_reached m ae f). exact R. }
  split; [exact NS'|]. intros SV SV'.
  destruct (sys_ok_good m ae ord s G P Es) as [O _]. destruct (sys_ok_good (in_units f m) ae ord' s' G' P' Es') as [O' _].
  destruct (sparse_result e s O sp X v E SV) as [g [Eg [_ U1]]].
  destruct (sparse_result e' s' O' sp' X' v' E' SV') as [g' [Eg' [[u [Pu [Su Gu]]] _]]].
  exists g, g'. split; [exact Eg|]. split; [exact Eg'|].
  destruct (units_scaled m ae f c e e' G U u Pu (proj1 (solution_iff (in_units f m) ae G' ord' P' s' Es' e' u Pu) Su)) as [Pc Cc].
  pose proof (U1 NS _ Pc (proj2 (solution_iff m ae G ord P s Es e _ Pc) Cc)) as Gc.
  rewrite (g_value_unique s O _ g _ Gc (g_value_vac m ae G ord P s Es _)).
  rewrite (g_value_unique s' O' u g' _ Gu (g_value_vac (in_units f m) ae G' ord' P' s' Es' u)). reflexivity.
Qed.
