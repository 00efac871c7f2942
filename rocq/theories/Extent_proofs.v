(** The dependence of the Green's function on the extents of the clouds (C65). *)
From Coq Require Import String ZArith Reals List Bool Lia Lra Permutation Classical Ring.
From Verif Require Import Base NdArray NdArray_proofs Config Spec Spec_ops Config_proofs Modify_proofs Legal_proofs
  Model Space Spec_space Space_proofs Term Equation System Spec_engine
  Equation_proofs Ring Coef Spec_eom Eom_proofs
  HModel Spec_model Cplx Physics Physics_proofs
  Toeplitz_proofs Weight_proofs Spec_spectral Energy_proofs Spectral_proofs Spec_green Green_proofs Cutoff_proofs Tent_proofs Walk_proofs Reach_proofs.
From Verif Require Spec_cutoff Spec_extent HModel_proofs.
Import ListNotations.
Open Scope list_scope.
Open Scope Z_scope.

Definition moves (m : model R) : list move := Hop true :: Hop false :: map Act (h_terms (m_ham m)).

(** * The rows in the frame of the particle *)
Section Rows.
Variable c : Z.
Variable hop kk w eta : R.
Variable os : list move.

Definition term_at (F : placement -> C) (n : placement) (o : move) : C :=
  Cmul (RtoC (weight c hop o n)) (Cmul (phase kk (ahead o)) (F (step c o n))).
Definition row_at (F : placement -> C) (n : placement) (E : R) (s : C) : Prop :=
  Cadd (Csub (Cmul (w, eta) (F n)) (Cmul (RtoC E) (F n))) (Csum_list (map (term_at F n) os)) = s.

Lemma Csum_list_sub : forall {A} (f g : A -> C) l, Csum_list (map (fun x => Csub (f x) (g x)) l) = Csub (Csum_list (map f l)) (Csum_list (map g l)).
Proof. induction l as [|x l IH]; cbn [map Csum_list fold_right]; [ring|]. fold (Csum_list (map (fun x => Csub (f x) (g x)) l)). rewrite IH. unfold Csum_list. ring. Qed.
Lemma Csum_list_scal : forall {A} (f : A -> C) z l, Csum_list (map (fun x => Cmul z (f x)) l) = Cmul z (Csum_list (map f l)).
Proof. induction l as [|x l IH]; cbn [map Csum_list fold_right]; [ring|]. fold (Csum_list (map (fun x => Cmul z (f x)) l)). rewrite IH. unfold Csum_list. ring. Qed.
Lemma Im_Csum_list : forall {A} (f : A -> C) l, Im (Csum_list (map f l)) = Rsum (map (fun x => Im (f x)) l).
Proof. induction l as [|x l IH]; [reflexivity|]. rewrite Rsum_cons, <- IH. reflexivity. Qed.

Lemma row_sub : forall F F' n E s s', row_at F n E s -> row_at F' n E s' -> row_at (fun n => Csub (F n) (F' n)) n E (Csub s s').
Proof.
  intros F F' n E s s' <- <-. unfold row_at.
  rewrite (map_ext (term_at (fun n => Csub (F n) (F' n)) n) (fun o => Csub (term_at F n o) (term_at F' n o))); [rewrite Csum_list_sub; ring|].
  intros o. unfold term_at. ring.
Qed.

Lemma row_balance : forall F n E s, row_at F n E s -> (eta * Cnorm2 (F n) + Rsum (map (fun o => cur c hop kk F o n) os) = Im (Cmul (Cconj (F n)) s))%R.
Proof.
  intros F n E s <-. unfold cur. change (fun o => Im (Cmul (Cconj (F n)) (Cmul (RtoC (weight c hop o n)) (Cmul (phase kk (ahead o)) (F (step c o n)))))) with (fun o => Im ((fun o => Cmul (Cconj (F n)) (term_at F n o)) o)).
  rewrite <- (Im_Csum_list (fun o => Cmul (Cconj (F n)) (term_at F n o))), Csum_list_scal. set (S := Csum_list _). unfold Cnorm2, Cmul, Cadd, Csub, Cconj, RtoC, Re, Im. cbn [fst snd]. ring.
Qed.

Lemma zero_balance : forall F n, F n = C0 -> (eta * Cnorm2 (F n) + Rsum (map (fun o => cur c hop kk F o n) os) = 0)%R.
Proof.
  intros F n E. rewrite (Rsum_ext _ (fun _ => 0%R)); [rewrite Rsum_0, E; unfold Cnorm2, C0, Re, Im; cbn [fst snd]; ring|].
  intros o _. unfold cur. rewrite E. unfold Cmul, C0, Cconj, Re, Im. cbn [fst snd]. ring.
Qed.
End Rows.

Lemma phase_inj : forall kk j z s, Cmul (phase kk j) z = Cmul (phase kk j) s -> z = s.
Proof.
  intros kk j z s E. assert (H : Cmul (phase kk (- j)) (Cmul (phase kk j) z) = Cmul (phase kk (- j)) (Cmul (phase kk j) s)) by (rewrite E; reflexivity).
  assert (I : Cmul (phase kk (- j)) (phase kk j) = C1) by (rewrite <- phase_add; replace (- j + j) with 0 by lia; apply phase_0).
  replace (Cmul (phase kk (- j)) (Cmul (phase kk j) z)) with (Cmul (Cmul (phase kk (- j)) (phase kk j)) z) in H by ring.
  replace (Cmul (phase kk (- j)) (Cmul (phase kk j) s)) with (Cmul (Cmul (phase kk (- j)) (phase kk j)) s) in H by ring.
  rewrite I in H. transitivity (Cmul C1 z); [ring|]. rewrite H. ring.
Qed.

Section Covariant.
Variable m : model R.
Variable c : Z.
Variable k w eta : R.
Variable Psi : placement -> Z -> C.
Hypothesis Mom : forall n s j, Psi (translated n s) (j + s) = Cmul (Cexpi (- (k * m_lattice m * IZR s))) (Psi n j).
Let kk := (k * m_lattice m)%R.
Let hop := h_hop (m_ham m).
Notation F := (fun n => Psi n 0).

Lemma frame : forall n j, Psi n j = Cmul (phase kk j) (Psi (translated n (- j)) 0).
Proof.
  intros n j. pose proof (Mom (translated n (- j)) j 0) as H. cbn [Z.add] in H.
  replace (translated (translated n (- j)) j) with n in H; [exact H|].
  apply placement_eq. intros t x. unfold translated. f_equal. lia.
Qed.

Lemma target_add : forall (h : hterm R) j, target h j = j + target h 0.
Proof. intros. unfold target. lia. Qed.
Lemma mode_add : forall (h : hterm R) j, mode c h j = j + mode c h 0.
Proof. intros. unfold mode. lia. Qed.

Lemma frame_H : forall n0 j E,
  Csub (Cmul (w, eta) (Psi n0 j)) (on_H m c E Psi n0 j) =
  Cmul (phase kk j) (Cadd (Csub (Cmul (w, eta) (Psi (translated n0 (- j)) 0)) (Cmul (RtoC E) (Psi (translated n0 (- j)) 0)))
    (Csum_list (map (term_at c hop kk F (translated n0 (- j))) (moves m)))).
Proof.
  intros n0 j E. unfold on_H, moves. cbn [map]. rewrite (frame n0 j), (frame n0 (j + 1)), (frame n0 (j - 1)).
  set (n := translated n0 (- j)).
  assert (E1 : translated n0 (- (j + 1)) = step c (Hop true) n) by (apply placement_eq; intros t x; unfold n, step, translated, moved, ahead; f_equal; lia).
  assert (E2 : translated n0 (- (j - 1)) = step c (Hop false) n) by (apply placement_eq; intros t x; unfold n, step, translated, moved, ahead; f_equal; lia).
  rewrite E1, E2. unfold Z.sub. rewrite !phase_add. change (-(1)) with (-1).
  rewrite (map_ext (fun h => Cmul (RtoC (ht_coupling h * factor c h n0 j)) (Psi (after c h n0 j) (target h j))) (fun h => Cmul (phase kk j) (term_at c hop kk F n (Act h)))).
  2:{ intros h. rewrite (frame (after c h n0 j) (target h j)), target_add, phase_add. unfold term_at. cbn [weight ahead].
      replace (factor c h n 0) with (factor c h n0 j).
      2:{ unfold factor. destruct (ht_dag h); [reflexivity|]. unfold n, translated. rewrite mode_add. do 2 f_equal. lia. }
      replace (translated (after c h n0 j) (- (j + target h 0))) with (step c (Act h) n); [ring|].
      apply placement_eq. intros t x. rewrite step_act. unfold n, translated, after, changed, sg. replace (x + target h 0 - - j) with (x - - (j + target h 0)) by lia. f_equal.
      rewrite (mode_add h j). replace (x - - (j + target h 0) =? j + mode c h 0) with (x =? mode c h 0 - target h 0); [reflexivity|].
      destruct (Z.eqb_spec x (mode c h 0 - target h 0)), (Z.eqb_spec (x - - (j + target h 0)) (j + mode c h 0)); try reflexivity; lia. }
  rewrite Csum_list_scal. cbn [Csum_list fold_right]. fold (Csum_list (map (term_at c hop kk F n) (map Act (h_terms (m_ham m))))). rewrite map_map.
  unfold term_at at 2 3. cbn [weight ahead]. fold hop. ring.
Qed.
End Covariant.

Section Frame.
Variable m : model R.
Variable ae c : Z.
Variable k w eta : R.
Hypothesis G : good_model m ae.
Hypothesis Hlat : on_lattice m c.
Variable Psi : placement -> Z -> C.
Hypothesis Row : greens_row m ae c k (w, eta) Psi.
Let kk := (k * m_lattice m)%R.
Let hop := h_hop (m_ham m).
Notation F := (fun n => Psi n 0).

Notation frame_H := (frame_H m c k w eta Psi (gr_momentum _ _ _ _ _ _ Row)).
Notation phase_inj := (phase_inj (k * m_lattice m)%R).

Lemma row_cloud : forall a l s, space m ae a -> energy_of (h_freqs (m_ham m)) a l ->
  row_at c hop kk w eta (moves m) F (translated (cloud a) s) (phonon_energy l) C0.
Proof.
  intros a l s Sa El. pose proof (gr_cloud _ _ _ _ _ _ Row a l (- s) Sa El) as R0. rewrite frame_H in R0. replace (- - s) with s in R0 by lia.
  apply (phase_inj (- s)). etransitivity; [exact R0|ring].
Qed.

Lemma row_vac : row_at c hop kk w eta (moves m) F vacuum 0 C1.
Proof.
  pose proof (gr_vacuum _ _ _ _ _ _ Row 0) as R0. rewrite frame_H in R0.
  assert (E : translated vacuum (- 0) = vacuum) by (apply placement_eq; reflexivity). rewrite E in R0.
  apply (phase_inj 0). etransitivity; [exact R0|]. fold kk. change (Cexpi (- (kk * IZR 0))) with (phase kk 0). rewrite phase_0. ring.
Qed.

Lemma F_support : forall n, F n <> C0 -> n = vacuum \/ exists a s, space m ae a /\ n = translated (cloud a) s.
Proof.
  intros n H. destruct (classic (allowed m ae n)) as [A|A]; [|exfalso; apply H; apply (gr_support _ _ _ _ _ _ Row); exact A].
  destruct A as [Z0|[a [s [Sa E]]]]; [left; apply placement_eq; exact Z0|right; exists a, s; split; [exact Sa|apply placement_eq; exact E]].
Qed.

Lemma energy_list : forall a, space m ae a -> exists l, energy_of (h_freqs (m_ham m)) a l.
Proof. intros a Sa. apply energy_ex. destruct (space_unfold m ae a Sa) as [_ [_ [_ [NT _]]]]. rewrite NT. apply (gm_freqs _ _ G). Qed.

(** The source: what the rows leave. *)
Definition source (n : placement) : R := (eta * Cnorm2 (Psi n 0) + Rsum (map (fun o => cur c hop kk F o n) (moves m)))%R.
Lemma source_out : forall n, n <> vacuum -> source n = 0%R.
Proof.
  intros n Nn. unfold source. destruct (classic (F n = C0)) as [E|E]; [exact (zero_balance c hop kk eta (moves m) F n E)|].
  destruct (F_support n E) as [V|[a [s [Sa ->]]]]; [contradiction|]. destruct (energy_list a Sa) as [l El].
  pose proof (row_balance c hop kk w eta (moves m) F _ _ _ (row_cloud a l s Sa El)) as B. cbn beta in B. rewrite B. unfold Cmul, C0, Cconj, Re, Im. cbn [fst snd]. ring.
Qed.
Lemma source_vac : source vacuum = (- Im (F vacuum))%R.
Proof.
  unfold source. pose proof (row_balance c hop kk w eta (moves m) F _ _ _ row_vac) as B. cbn beta in B. rewrite B. unfold Cmul, C1, Cconj, Re, Im. cbn [fst snd]. ring.
Qed.
End Frame.

(** * Clouds on the chain *)
Lemma occ_type : forall a t x, valid_cloud a -> (t < ntypes a)%nat -> occ a t x <= total_type a t.
Proof.
  intros a t x V Ht. pose proof V as [W [R _]].
  assert (F : Forall (fun v => 0 <= v) (map (fun i => get a (t :: i)) (all_idx (tl (shp a))))).
  { apply Forall_forall. intros v Hv. apply in_map_iff in Hv. destruct Hv as [i [<- Hi]]. apply In_all_idx in Hi.
    assert (I : inr (shp a) (t :: i)) by (unfold ntypes in *; destruct (shp a) as [|n0 r]; [cbn in R; lia|]; constructor; [cbn in Ht; lia|exact Hi]).
    rewrite <- at_of by exact I. apply (valid_nonneg a V). }
  unfold occ. destruct (Z.eq_dec (at_ a (Z.of_nat t :: x)) 0) as [E|E]; [rewrite E; apply sumZ_nonneg; exact F|].
  destruct (at_nz _ _ E) as [i [Hi [Xi Ei]]]. rewrite <- Ei. destruct i as [|t' i]; [discriminate|]. cbn [map] in Xi. injection Xi as E1 E2. apply Nat2Z.inj in E1. subst t'.
  apply sumZ_ge; [exact F|]. apply in_map_iff. exists i. split; [reflexivity|]. apply In_all_idx.
  unfold ntypes in *. destruct (shp a) as [|n0 r]; [cbn in R; lia|]. inversion Hi; subst. assumption.
Qed.

Lemma length_flat : forall {A B} (f : A -> list B) q l, (forall a, List.length (f a) = q) -> List.length (flat_map f l) = (List.length l * q)%nat.
Proof. intros A B f q l H. induction l as [|a l IH]; [reflexivity|]. cbn [flat_map List.length]. rewrite app_length, H, IH. reflexivity. Qed.

Section Clouds.
Variable m : model R.
Variable ae : Z.
Hypothesis G : good_model m ae.

Lemma cloud_inside : forall a s, space m ae a -> forall t x, translated (cloud a) s t x <> 0 -> (t < m_ntypes m)%nat /\ s <= x < s + Spec_extent.width a.
Proof.
  intros a s Sa t x H. destruct (space_unfold m ae a Sa) as [V [NF [P [Nt [N1 [[z [Sh Hz]] _]]]]]]. unfold translated, cloud, occ in H.
  destruct (at_nz _ _ H) as [i [Hi [Xi _]]]. unfold Spec_extent.width. rewrite Sh in *. cbn [nth]. destruct i as [|t' [|y [|? ?]]]; try discriminate. cbn [map] in Xi. injection Xi as E1 E2.
  inversion Hi as [|? ? ? ? I1 I2]; subst. inversion I2 as [|? ? ? ? I3 I4]; subst. lia.
Qed.

Lemma cloud_faces : forall a s k, space m ae a -> inside (m_ntypes m) k (translated (cloud a) s) -> Z.abs s <= k /\ Z.abs (s + Spec_extent.width a - 1) <= k.
Proof.
  intros a s k Sa I. destruct (space_unfold m ae a Sa) as [V [NF [P [Nt [N1 [[z [Sh Hz]] [TT _]]]]]]].
  destruct (TT 0%nat ltac:(rewrite N1; lia)) as [[t [x [Lx [X0 Px]]]] [t' [x' [Lx' [X1 Px']]]]]. rewrite N1 in Lx, Lx'.
  destruct x as [|x [|? ?]]; try discriminate. destruct x' as [|x' [|? ?]]; try discriminate. cbn [nth] in X0, X1.
  unfold Spec_extent.width. rewrite Sh in X1 |- *. cbn [nth] in X1 |- *.
  pose proof (I t (x + s)) as I1. pose proof (I t' (x' + s)) as I2. unfold translated, cloud in I1, I2. replace (x + s - s) with x in I1 by lia. replace (x' + s - s) with x' in I2 by lia.
  destruct (I1 ltac:(lia)) as [_ J1]. destruct (I2 ltac:(lia)) as [_ J2]. subst. split; [exact J1|]. lia.
Qed.
End Clouds.

Section Two.
Variable m m' : model R.
Variable ae ae' c : Z.
Variable k w eta : R.
Hypothesis eta_pos : (0 < eta)%R.
Hypothesis G : good_model m ae.
Hypothesis G' : good_model m' ae'.
Hypothesis Hlat : on_lattice m c.
Hypothesis Hham : m_ham m = m_ham m'.
Hypothesis Hlattice : m_lattice m = m_lattice m'.
Hypothesis Htypes : m_ntypes m = m_ntypes m'.
Hypothesis Hherm : hermitian (phys_env m k w eta) m.
Variable N rho : Z.
Hypothesis N_pos : 0 <= N.
Hypothesis HN : Spec_extent.at_most m ae N.
Hypothesis HN' : Spec_extent.at_most m' ae' N.
Hypothesis rho_pos : 0 <= rho.
Hypothesis Hrho : Spec_extent.couples_within m c rho.
Variable Psi Psi' : placement -> Z -> C.
Hypothesis Row : greens_row m ae c k (w, eta) Psi.
Hypothesis Row' : greens_row m' ae' c k (w, eta) Psi'.
Let kk := (k * m_lattice m)%R.
Let hop := h_hop (m_ham m).
Let nt := m_ntypes m.
Notation F := (fun n => Psi n 0).
Notation F' := (fun n => Psi' n 0).

Definition cand (n : placement) : Prop := n = vacuum \/ exists a s, (space m ae a \/ space m' ae' a) /\ n = translated (cloud a) s.

Lemma moves_conj : exists l, Permutation (moves m) l /\ Forall2 (conj_move c) (moves m) l.
Proof.
  destruct Hherm as [l [P FA]]. exists (Hop false :: Hop true :: map Act l). unfold moves. split.
  - rewrite perm_swap. do 2 apply perm_skip. apply Permutation_map. exact P.
  - constructor; [apply (conj_hop c true)|]. constructor; [apply (conj_hop c false)|].
    assert (HL : forall h, In h (h_terms (m_ham m)) -> exists p q, psi1 h = 2 * p /\ phi1 h = 2 * q + c) by (intros h Hh; exact (halves m c Hlat h Hh)).
    clear P. induction FA as [|h h' hs hs' A FA IH]; cbn [map]; constructor; [|apply IH; intros x Hx; apply HL; right; exact Hx].
    destruct A as [A1 [A2 [A3 [A4 [A5 _]]]]]. destruct (HL h (or_introl eq_refl)) as [p [q [Hp Hq]]].
    destruct (mode_is c h p q 0 Hp Hq) as [M1 T1]. destruct (mode_is c h' (- p) (q - p) 0 ltac:(lia) ltac:(lia)) as [M2 T2].
    constructor; [rewrite T1, T2; lia|rewrite M1, M2, T1; lia|exact A3|exact A4|].
    cbn [phys_env ev] in A5. unfold RtoC in A5. injection A5. auto.
Qed.

Lemma moves_fit : forall o, In o (moves m) -> fits nt c rho o.
Proof.
  intros o [<- | [<- | Ho]]; [exact I|exact I|]. apply in_map_iff in Ho. destruct Ho as [h [<- Hh]]. split; [apply Hrho, Hh|apply (gm_index _ _ G), Hh].
Qed.

Lemma moves_short : exists r, 0 <= r /\ forall o, In o (moves m) -> Z.abs (ahead o) <= r.
Proof.
  induction (moves m) as [|o l [r [R0 IH]]]; [exists 0; split; [lia|intros o []]|]. exists (Z.max r (Z.abs (ahead o))). split; [lia|].
  intros q [<- | Hq]; [lia|]. specialize (IH q Hq). lia.
Qed.

Lemma cand_range : forall n, cand n -> forall t x, 0 <= n t x <= N.
Proof.
  intros n [-> | [a [s [Sa ->]]]] t x; [unfold vacuum; lia|]. unfold translated, cloud. destruct Sa as [Sa|Sa].
  - split; [|apply HN; exact Sa]. destruct (space_unfold m ae a Sa) as [V _]. apply (valid_nonneg a V).
  - split; [|apply HN'; exact Sa]. destruct (space_unfold m' ae' a Sa) as [V _]. apply (valid_nonneg a V).
Qed.

Lemma cand_windows : exists A1 A2, (0 <= A1)%R /\ (0 <= A2)%R /\ forall r, 0 <= r ->
  exists L, NoDup L /\ (forall n, In n L <-> cand n /\ inside nt r n) /\ (INR (List.length L) <= A1 * IZR r + A2)%R.
Proof.
  destruct (clouds_from m ae 1 G ltac:(lia)) as [cl [_ Hcl]]. destruct (clouds_from m' ae' 1 G' ltac:(lia)) as [cl' [_ Hcl']].
  set (cs := cl ++ cl'). assert (Hcs : forall a, space m ae a \/ space m' ae' a -> In a cs).
  { intros a [Sa|Sa]; apply in_app_iff; [left; apply Hcl|right; apply Hcl']; (split; [exact Sa|]); [destruct (space_unfold m ae a Sa) as [_ [_ [P _]]]|destruct (space_unfold m' ae' a Sa) as [_ [_ [P _]]]]; lia. }
  assert (Hcs' : forall a, In a cs -> space m ae a \/ space m' ae' a) by (intros a Ha; apply in_app_iff in Ha; destruct Ha as [Ha|Ha]; [left; apply Hcl, Ha|right; apply Hcl', Ha]).
  exists (2 * INR (List.length cs))%R, (INR (List.length cs) + 1)%R. pose proof (pos_INR (List.length cs)) as PI. split; [lra|]. split; [lra|]. intros r Hr.
  set (X := vacuum :: flat_map (fun a => map (fun s => translated (cloud a) s) (ints (- r) (Z.to_nat (2 * r + 1)))) cs).
  assert (LX : List.length X = S (List.length cs * Z.to_nat (2 * r + 1))).
  { unfold X. cbn [List.length]. f_equal. apply length_flat. intros a. rewrite map_length. apply length_ints. }
  assert (ND : exists Y, NoDup Y /\ (forall n, In n Y <-> In n X) /\ (List.length Y <= List.length X)%nat).
  { clear LX. induction X as [|n X [Y [NY [EY LY]]]]; [exists []; split; [constructor|]; split; [tauto|cbn; lia]|].
    destruct (classic (In n X)) as [I|NI]; [exists Y|exists (n :: Y)].
    - split; [exact NY|]. split; [|cbn [List.length]; lia]. intros x. rewrite EY. cbn [In]. split; [auto|intros [<- | H]; auto].
    - split; [constructor; [rewrite EY; exact NI|exact NY]|]. split; [|cbn [List.length]; lia]. intros x. cbn [In]. rewrite EY. tauto. }
  destruct ND as [Y [NY [EY LY]]]. destruct (sub_list (fun n => cand n /\ inside nt r n) Y NY) as [L [NL [EL _]]]. exists L. split; [exact NL|]. split.
  - intros n. rewrite EL, EY. split; [tauto|]. intros [Cn In_r]. split; [|split; assumption]. destruct Cn as [-> | [a [s [Sa ->]]]]; [left; reflexivity|right].
    apply in_flat_map. exists a. split; [apply Hcs, Sa|]. apply in_map_iff. exists s. split; [reflexivity|]. apply in_ints.
    assert (Z.abs s <= r); [|lia]. destruct Sa as [Sa|Sa]; [apply (cloud_faces m ae a s r Sa In_r)|].
    apply (cloud_faces m' ae' a s r Sa). unfold nt in In_r. rewrite Htypes in In_r. exact In_r.
  - assert (LE : (List.length L <= List.length Y)%nat) by (apply NoDup_incl_length; [exact NL|intros n Hn; apply EL in Hn; apply Hn]).
    assert (LL : (INR (List.length L) <= INR (List.length X))%R) by (apply le_INR; lia). eapply Rle_trans; [exact LL|].
    rewrite LX, S_INR, mult_INR, (INR_IZR_INZ (Z.to_nat _)), Z2Nat.id, plus_IZR, mult_IZR by lia. lra.
Qed.

Lemma drift_is : drift hop N (moves m) = (Rabs hop + sqrt (IZR N) / 2 * Spec_extent.carried m)%R.
Proof.
  unfold drift, moves. rewrite !Rsum_cons. cbn [ahead strength_of]. change (Z.abs 1) with 1. change (Z.abs (-1)) with 1.
  assert (E : Rsum (map (fun o => IZR (Z.abs (ahead o)) * strength_of hop N o)%R (map Act (h_terms (m_ham m)))) = (sqrt (IZR N) * Spec_extent.carried m)%R).
  { unfold Spec_extent.carried. assert (HL : forall h, In h (h_terms (m_ham m)) -> exists p q, psi1 h = 2 * p /\ phi1 h = 2 * q + c) by (intros h Hh; exact (halves m c Hlat h Hh)).
    induction (h_terms (m_ham m)) as [|h hs IH]; [unfold Rsum; cbn [map fold_right]; lra|]. change (map Act (h :: hs)) with (Act h :: map Act hs). rewrite Rsum_cons, IH by (intros x Hx; apply HL; right; exact Hx).
    cbn [fold_right ahead strength_of]. destruct (HL h (or_introl eq_refl)) as [p [q [Hp Hq]]]. destruct (mode_is c h p q 0 Hp Hq) as [_ T1]. rewrite T1, Hp.
    replace (Z.abs (0 - p)) with (Z.abs p) by lia. replace (Z.abs (2 * p)) with (2 * Z.abs p) by lia. rewrite mult_IZR. field. }
  rewrite E. lra.
Qed.

Lemma norm_F : forall (mm : model R) (aa : Z) (Ps : placement -> Z -> C), good_model mm aa -> m_ham mm = m_ham m -> m_lattice mm = m_lattice m ->
  (forall a, space mm aa a -> space m ae a \/ space m' ae' a) -> greens_row mm aa c k (w, eta) Ps ->
  norm_le nt cand (fun n => Ps n 0) (1 / (eta * eta)).
Proof.
  intros mm aa Ps Gm E1 E2 Sub Ro. destruct moves_conj as [l [Pl Fl]]. destruct moves_short as [r [R0 Hr]]. destruct cand_windows as [A1 [A2 [P1 [P2 HW]]]].
  assert (HM : moves mm = moves m) by (unfold moves; rewrite E1; reflexivity).
  set (src := source mm c k eta Ps).
  assert (SC : forall n, Ps n 0 <> C0 -> cand n).
  { intros n H. destruct (F_support mm aa c k w eta Ps Ro n H) as [-> | [a [s [Sa ->]]]]; [left; reflexivity|right]. exists a, s. split; [apply Sub, Sa|reflexivity]. }
  assert (SO : forall n, n <> vacuum -> src n = 0%R) by (intros n Nn; apply (source_out mm aa c k w eta Gm Ps Ro n Nn)).
  assert (SV : src vacuum = (- Im (Ps vacuum 0%Z))%R) by exact (source_vac mm aa c k w eta Ps Ro).
  assert (BL : forall j, balanced nt c hop kk eta (moves m) cand (fun n => Ps n 0) src j).
  { intros j n _ _. unfold src, source. rewrite HM. unfold hop, kk. rewrite E1, E2. reflexivity. }
  destruct (gr_bounded _ _ _ _ _ _ Ro) as [B HB].
  assert (BB : forall n, (Cnorm2 (Ps n 0%Z) <= B * B)%R).
  { intros n. rewrite <- Cabs_sq. pose proof (Cabs_ge0 (Ps n 0%Z)). apply Rmult_le_compat; try assumption; apply HB. }
  pose proof (second_pass nt c hop kk eta eta_pos N rho r rho_pos R0 (moves m) l Pl Fl moves_fit Hr cand (or_introl eq_refl) cand_range A1 A2 P1 P2 HW
    (fun n => Ps n 0) src SC SO BL (B * B)%R BB) as SP.
  assert (V0 : (src vacuum <= 1 / eta)%R).
  { pose proof (SP 0 [vacuum] ltac:(lia) ltac:(repeat constructor; intros []) ltac:(intros n [<- | []]; split; [left; reflexivity|apply inside_vacuum])) as S0.
    unfold mass in S0. cbn [map] in S0. unfold Rsum in S0. cbn [fold_right] in S0. rewrite wt_vacuum, Rmult_1_l, Rplus_0_r in S0.
    assert (I2 : (src vacuum * src vacuum <= Cnorm2 (Ps vacuum 0%Z))%R) by (rewrite SV; unfold Cnorm2; pose proof (Rle_0_sqr (Re (Ps vacuum 0%Z))) as Q; unfold Rsqr in Q; lra).
    set (x := src vacuum) in *. destruct (Rle_lt_dec x (1 / eta)) as [H|H]; [exact H|exfalso].
    assert (X0 : (0 < 1 / eta)%R) by (apply Rdiv_lt_0_compat; lra).
    assert (x * x > x * (1 / eta))%R by (apply Rmult_gt_compat_l; lra). unfold Rdiv in *. lra. }
  intros j L Hj NL HL. eapply Rle_trans; [apply (SP j L Hj NL HL)|]. replace (1 / (eta * eta))%R with (1 / eta / eta)%R by (field; lra).
  apply Rmult_le_compat_r; [left; apply Rinv_0_lt_compat; exact eta_pos|exact V0].
Qed.

Theorem extent_error : forall K, 1 <= K -> Spec_extent.same_narrow m ae m' ae' (2 * (K + rho) - 1) ->
  (eta * eta * eta * IZR K * Cnorm2 (Csub (Psi vacuum 0%Z) (Psi' vacuum 0%Z)) <= 4 * Rabs hop + 2 * sqrt (IZR N) * Spec_extent.carried m)%R.
Proof.
  intros K HK SN. destruct moves_conj as [l [Pl Fl]]. destruct moves_short as [r [R0 Hr]]. destruct cand_windows as [A1 [A2 [P1 [P2 HW]]]].
  pose proof (norm_F m ae Psi G eq_refl eq_refl (fun a H => or_introl H) Row) as NF.
  pose proof (norm_F m' ae' Psi' G' (eq_sym Hham) (eq_sym Hlattice) (fun a H => or_intror H) Row') as NF'.
  assert (C : forall n, F n <> C0 -> cand n).
  { intros n H. destruct (F_support m ae c k w eta Psi Row n H) as [-> | [a [s [Sa ->]]]]; [left; reflexivity|right]. exists a, s. split; [left; exact Sa|reflexivity]. }
  assert (C' : forall n, F' n <> C0 -> cand n).
  { intros n H. destruct (F_support m' ae' c k w eta Psi' Row' n H) as [-> | [a [s [Sa ->]]]]; [left; reflexivity|right]. exists a, s. split; [right; exact Sa|reflexivity]. }
  assert (BL : balanced nt c hop kk eta (moves m) cand (fun n => Csub (F n) (F' n)) (fun _ => 0%R) (K + rho - 1)).
  { intros n Cn In_n.
    assert (M' : moves m' = moves m) by (unfold moves; rewrite Hham; reflexivity).
    assert (ROW : forall E s s', s = s' -> row_at c hop kk w eta (moves m) F n E s -> row_at c hop kk w eta (moves m) F' n E s' ->
       (eta * Cnorm2 (Csub (F n) (F' n)) + Rsum (map (fun o => cur c hop kk (fun n => Csub (F n) (F' n)) o n) (moves m)) = 0)%R).
    { intros E s s' <- R1 R2. pose proof (row_balance c hop kk w eta (moves m) _ n E _ (row_sub c hop kk w eta (moves m) F F' n E s s R1 R2)) as B. cbn beta in B |- *. rewrite B.
      unfold Cmul, Csub, Cconj, Re, Im. cbn [fst snd]. ring. }
    destruct Cn as [-> | [a [s [Sa ->]]]].
    - apply (ROW 0%R C1 C1 eq_refl); [exact (row_vac m ae c k w eta Psi Row)|].
      pose proof (row_vac m' ae' c k w eta Psi' Row') as R2. unfold hop, kk. rewrite <- M', Hham, Hlattice. exact R2.
    - assert (Wa : Spec_extent.width a <= 2 * (K + rho) - 1).
      { destruct Sa as [Sa|Sa]; [pose proof (cloud_faces m ae a s _ Sa In_n) as H; lia|]. unfold nt in In_n. rewrite Htypes in In_n. pose proof (cloud_faces m' ae' a s _ Sa In_n) as H. lia. }
      assert (Sm : space m ae a) by (destruct Sa as [Sa|Sa]; [exact Sa|apply (SN a Wa), Sa]). assert (Sm' : space m' ae' a) by (apply (SN a Wa), Sm).
      destruct (energy_list m ae G a Sm) as [le El].
      apply (ROW (phonon_energy le) C0 C0 eq_refl); [exact (row_cloud m ae c k w eta Psi Row a le s Sm El)|].
      rewrite Hham in El. pose proof (row_cloud m' ae' c k w eta Psi' Row' a le s Sm' El) as R2. unfold hop, kk. rewrite <- M', Hham, Hlattice. exact R2. }
  pose proof (reach nt c hop kk eta eta_pos N rho r rho_pos R0 (moves m) l Pl Fl moves_fit Hr cand (or_introl eq_refl) cand_range A1 A2 HW
    F F' (Psi vacuum 0) (Psi' vacuum 0) K _ _ C C' NF NF' eq_refl eq_refl HK BL) as B.
  rewrite drift_is in B. set (d := Cnorm2 _) in *. set (q := Spec_extent.carried m) in *.
  assert (E2 : (0 < eta * eta)%R) by (apply Rmult_lt_0_compat; lra).
  replace (eta * eta * eta * IZR K * d)%R with ((eta * eta) * (eta * IZR K * d))%R by ring.
  eapply Rle_trans; [apply Rmult_le_compat_l; [lra|exact B]|]. right. field. lra.
Qed.
End Two.

(** * Limits *)
Lemma narrow_clouds : forall {T} (m m' : model T) ae ae' M, m_ntypes m = m_ntypes m' -> Spec_extent.same_numbers m m' -> Spec_extent.extents_agree m m' ae ae' M ->
  forall a, Spec_extent.width a <= M -> space m ae a -> space m' ae' a.
Proof.
  intros T m m' ae ae' M NT [Pn Mp] [Pe Ae] a Wa Sa. destruct (space_unfold m ae a Sa) as [V [NF [P [Nt [N1 [[z [Sh Hz]] [TT [L1 [L2 L3]]]]]]]]].
  unfold Spec_extent.width in Wa. rewrite Sh in Wa. cbn [nth] in Wa.
  apply space_intro; [exact V|exact NF|exists z; rewrite <- NT; split; [exact Sh|lia]|rewrite <- Mp; exact L1| |rewrite <- Pn, <- NT; exact L3].
  intros t Ht. rewrite <- NT in Ht. specialize (L2 t Ht). destruct (Pe t Ht) as [<- | [_ B]]; [exact L2|]. split; [lia|].
  assert (X : forall x, occ a t x <> 0 -> 0 <= hd 0 x < Z.of_nat z).
  { intros x H. unfold occ in H. destruct (at_nz _ _ H) as [i [Hi [Xi _]]]. rewrite Sh in Hi. destruct i as [|t' [|y [|? ?]]]; try (inversion Hi; fail).
    - inversion Hi as [|? ? ? ? I1 I2]. inversion I2.
    - cbn [map] in Xi. injection Xi as E1 E2. subst x. cbn [hd]. inversion Hi as [|? ? ? ? I1 I2]; subst. inversion I2 as [|? ? ? ? I3 I4]; subst. lia.
    - inversion Hi as [|? ? ? ? I1 I2]; subst. inversion I2 as [|? ? ? ? I3 I4]; subst. inversion I4. }
  intros x y Hx Hy. apply X in Hx, Hy. lia.
Qed.

Lemma extents_sym : forall {T} (m m' : model T) ae ae' M, m_ntypes m = m_ntypes m' -> Spec_extent.extents_agree m m' ae ae' M -> Spec_extent.extents_agree m' m ae' ae M.
Proof.
  intros T m m' ae ae' M NT [A B]. split.
  - intros t Ht. rewrite <- NT in Ht. destruct (A t Ht) as [E|[E F]]; [left; congruence|right; split; assumption].
  - destruct B as [E|[E F]]; [left; congruence|right; split; assumption].
Qed.

Lemma numbers_at_most : forall (m : model R) ae N, (forall t, (t < m_ntypes m)%nat -> nth t (m_pn m) 0 <= N) -> 0 <= N -> Spec_extent.at_most m ae N.
Proof.
  intros m ae N H P a t x Sa. destruct (space_unfold m ae a Sa) as [V [NF [_ [Nt [N1 [[z [Sh Hz]] [TT [L1 [L2 L3]]]]]]]]].
  destruct (Nat.lt_ge_cases t (m_ntypes m)) as [Ht|Ht].
  - pose proof (occ_type a t [x] V ltac:(lia)). specialize (L3 t Ht). specialize (H t Ht). lia.
  - destruct (Z.eq_dec (occ a t [x]) 0) as [->|E]; [exact P|]. exfalso. pose proof (cloud_inside m ae a 0 Sa t x) as I.
    unfold translated, cloud in I. rewrite Z.sub_0_r in I. specialize (I E). lia.
Qed.

Lemma couples_ex : forall (m : model R) c, exists rho, 0 <= rho /\ Spec_extent.couples_within m c rho.
Proof.
  intros m c. unfold Spec_extent.couples_within. induction (h_terms (m_ham m)) as [|h l [r [R0 IH]]]; [exists 0; split; [lia|intros h []]|].
  exists (Z.max r (Z.abs (mode c h 0))). split; [lia|]. intros q [<- | Hq]; [lia|]. specialize (IH q Hq). lia.
Qed.

(** Every built model changes modes next to the particle only. *)
Lemma built_couples : forall m fs cs ae, built Rnum 1 m fs cs -> good_model m ae -> num_ok Rnum -> exists c, on_lattice m c /\ Spec_extent.couples_within m c 1.
Proof.
  intros m fs cs ae B G K. pose proof (HModel_proofs.i_terms _ _ _ _ _ (HModel_proofs.built_inv Rnum K 1%nat m fs cs B)) as I.
  assert (F : forall h, In h (h_terms (m_ham m)) -> isf (ht_psi h) = false /\
    exists psi phi d s, op_spec 1 (ht_type h) psi phi d s /\ psi1 h = hd 0 psi /\ phi1 h = hd 0 phi /\ isf (ht_phi h) = String.eqb (ht_type h) "BondPeierls").
  { intros h Hh. destruct (I h Hh) as [g [psi [phi [d [s [_ [_ [O [X _]]]]]]]]]. split; [rewrite X; reflexivity|]. exists psi, phi, d, s.
    split; [exact O|]. rewrite X. cbn. auto. }
  assert (S : forall h h', In h (h_terms (m_ham m)) -> In h' (h_terms (m_ham m)) -> isf (ht_phi h') = true -> isf (ht_phi h) = true).
  { intros h h' Hh Hh' H. pose proof (gm_dtype _ _ G h h' Hh Hh' H) as X. rewrite (proj1 (F h Hh)) in X. exact X. }
  destruct (gm_minus _ _ G) as [h0 [Hh0 _]]. exists (if isf (ht_phi h0) then 1 else 0).
  assert (E : forall h, In h (h_terms (m_ham m)) -> isf (ht_phi h) = isf (ht_phi h0)).
  { intros h Hh. destruct (isf (ht_phi h0)) eqn:E0; [apply (S h h0 Hh Hh0 E0)|]. destruct (isf (ht_phi h)) eqn:E1; [|reflexivity]. rewrite (S h0 h Hh0 Hh E1) in E0. discriminate. }
  split; intros h Hh; rewrite <- (E h Hh); destruct (F h Hh) as [_ [psi [phi [d [s [O [Ep [Eq ->]]]]]]]].
  - rewrite Ep, Eq. inversion O; subst; cbn [hd repeat String.eqb Ascii.eqb Bool.eqb]; split;
      try (match goal with |- Z.Even (2 * ?x) => exists x; lia | |- Z.Even 0 => exists 0; lia | |- Z.Even (2 * ?x - 0) => exists x; lia | |- Z.Even (0 - 0) => exists 0; lia end).
    match goal with H : ?s0 = 1 \/ ?s0 = -1 |- Z.Even (?s0 - 1) => destruct H as [-> | ->]; [exists 0; lia|exists (-1); lia] end.
  - unfold mode. rewrite Ep, Eq. inversion O; subst; cbn [hd repeat String.eqb Ascii.eqb Bool.eqb];
      try (match goal with H : ?s0 = 1 \/ ?s0 = -1 |- _ => destruct H as [-> | ->] end); vm_compute; discriminate.
Qed.
