(** Proofs for C66: the Green's function on all states exists, is unique, and is
    the limit of the computed ones. *)
From Coq Require Import String ZArith Reals List Bool Lia Lra Permutation Classical FunctionalExtensionality.
From Verif Require Import Base NdArray NdArray_proofs Spec Config_proofs Model HModel Ring Coef Cplx Physics Physics_proofs Toeplitz_proofs Weight_proofs Spec_eom
  Spec_space Spec_engine Modify_proofs Equation_proofs Spec_model Spec_spectral Energy_proofs Spec_green Cutoff_proofs Tent_proofs Walk_proofs Reach_proofs Full_proofs Spec_exact Extent_proofs.
From Verif Require Spec_extent.
Import ListNotations.
Open Scope list_scope.
Open Scope Z_scope.

(** * The sums of the specification *)
Lemma sites_ints : forall r, sites r = ints (- r) (Z.to_nat (2 * r + 1)).
Proof.
  intros r. unfold sites. generalize (Z.to_nat (2 * r + 1)) as n. intros n.
  assert (H : forall n x y, map (fun i => Z.of_nat i - x) (seq y n) = ints (Z.of_nat y - x) n).
  { clear. induction n as [|n IH]; intros x y; cbn [seq map ints]; [reflexivity|]. f_equal. rewrite IH. f_equal. lia. }
  rewrite H. reflexivity.
Qed.
Lemma near_modes_is : forall nt r, near_modes nt r = modes nt r.
Proof.
  intros nt r. unfold near_modes, modes. rewrite sites_ints. induction (seq 0 nt) as [|t l IH]; cbn [list_prod flat_map]; [reflexivity|]. rewrite IH. reflexivity.
Qed.
Lemma near_inside : forall nt r n, near nt r n <-> inside nt r n.
Proof. intros. reflexivity. Qed.

Definition ph (m : model R) (t : nat) (z : Z) : R := (nth t (h_freqs (m_ham m)) 0 * IZR z)%R.
Lemma energy_gsum : forall m r n, energy m r n = gsum (ph m) n (modes (m_ntypes m) r).
Proof. intros m r n. unfold energy. rewrite near_modes_is. unfold gsum, ph, at_mode. induction (modes _ _) as [|p l IH]; [reflexivity|]. rewrite Rsum_cons, <- IH. reflexivity. Qed.
Lemma ph_0 : forall m t, ph m t 0 = 0%R.
Proof. intros. unfold ph. lra. Qed.
Lemma energy_window : forall m r r' n, inside (m_ntypes m) r n -> inside (m_ntypes m) r' n -> energy m r n = energy m r' n.
Proof. intros m r r' n H H'. rewrite !energy_gsum. apply gsum_window; [apply ph_0|exact H|exact H']. Qed.
Lemma energy_vacuum : forall m r, energy m r vacuum = 0%R.
Proof. intros m r. rewrite energy_gsum. unfold gsum. rewrite (Rsum_ext _ (fun _ => 0%R)); [apply Rsum_0|]. intros p _. apply ph_0. Qed.
Lemma norm2_wt : forall nt r n, (/ norm2 nt r n = wt nt r n)%R /\ (0 < norm2 nt r n)%R.
Proof.
  intros nt r n. unfold wt.
  assert (E : norm2 nt r n = exp (lsum n (modes nt r))).
  { unfold norm2. rewrite near_modes_is. unfold lsum, gsum, at_mode. induction (modes nt r) as [|p l IH]; [unfold Rsum; cbn [fold_right map]; rewrite exp_0; reflexivity|].
    cbn [fold_right]. rewrite Rsum_cons, exp_plus, <- IH. f_equal. unfold lf. rewrite exp_ln; [reflexivity|apply fact_pos]. }
  rewrite E, exp_Ropp. split; [reflexivity|apply exp_pos].
Qed.
Lemma norm_sum : forall nt r (F : placement -> C) l, fold_right (fun n s => Cnorm2 (F n) / norm2 nt r n + s)%R 0%R l = Rsum (map (mass nt F r) l).
Proof.
  intros nt r F. induction l as [|n l IH]; [reflexivity|]. rewrite Rsum_cons, <- IH. cbn [fold_right]. f_equal. unfold mass, Rdiv.
  destruct (norm2_wt nt r n) as [-> _]. ring.
Qed.

(** * Clouds and placements *)
Lemma total_type_seq : forall a nt z t, shp a = [nt; z] -> total_type a t = sumZ (map (fun i => get a [t; i]) (seq 0 z)).
Proof.
  intros a nt z t Sh. unfold total_type. rewrite Sh. cbn [tl all_idx]. f_equal.
  induction (seq 0 z) as [|i l IH]; [reflexivity|]. cbn [flat_map map app]. rewrite <- IH. reflexivity.
Qed.
Lemma IZR_sumZ : forall l, IZR (sumZ l) = Rsum (map IZR l).
Proof.
  intros l. unfold Rsum. assert (H : sumZ l = fold_right Z.add 0 l) by (unfold sumZ; first [reflexivity|symmetry; apply fold_symmetric; intros; lia]). rewrite H. clear H.
  induction l as [|x l IH]; [reflexivity|]. cbn [fold_right map]. rewrite plus_IZR, IH. reflexivity.
Qed.

Lemma cloud_sum : forall (w : nat -> R) nt z a s W, wf a -> shp a = [nt; z] -> inside nt W (translated (cloud a) s) ->
  gsum (fun t v => w t * IZR v)%R (translated (cloud a) s) (modes nt W) = Rsum (map (fun t => w t * IZR (total_type a t))%R (seq 0 nt)).
Proof.
  intros w nt z a s W Wf Sh I.
  set (l := flat_map (fun t => map (fun i => (t, s + Z.of_nat i)) (seq 0 z)) (seq 0 nt)).
  rewrite (gsum_support nt (fun t v => w t * IZR v)%R ltac:(intros; lra) _ (modes nt W) l).
  - unfold gsum, l. rewrite Rsum_flat. apply Rsum_ext. intros t Ht. apply in_seq in Ht. rewrite map_map, (total_type_seq a nt z t Sh), IZR_sumZ, map_map, <- Rsum_scal.
    apply Rsum_ext. intros i Hi. apply in_seq in Hi. cbn [fst snd]. f_equal. f_equal. unfold at_mode, translated, cloud, occ. cbn [fst snd]. replace (s + Z.of_nat i - s) with (Z.of_nat i) by lia.
    rewrite <- (at_of a [t; i]); [reflexivity|]. rewrite Sh. repeat constructor; lia.
  - apply nodup_modes.
  - unfold l. generalize (seq_NoDup nt 0). generalize (seq 0 nt) as q. intros q ND. induction ND as [|t q N1 N2 IH]; cbn [flat_map]; [constructor|].
    apply NoDup_app; [apply NoDup_map_on; [|apply seq_NoDup]; intros x y _ _ E; assert (X : s + Z.of_nat x = s + Z.of_nat y) by exact (f_equal snd E); lia|exact IH|].
    intros [t' x] H1 H2. apply in_map_iff in H1. destruct H1 as [y [E _]]. assert (t = t') as <- by exact (f_equal fst E). apply in_flat_map in H2. destruct H2 as [t' [H2 H3]].
    apply in_map_iff in H3. destruct H3 as [u [E3 _]]. assert (t' = t) as -> by exact (f_equal fst E3). contradiction.
  - intros [t x] H. unfold at_mode in H. cbn [fst snd] in H. split; [apply in_modes, I, H|]. unfold translated, cloud, occ in H.
    destruct (at_nz _ _ H) as [i [Hi [Xi _]]]. rewrite Sh in Hi. destruct i as [|t' [|y [|? ?]]]; try discriminate. cbn [map] in Xi. injection Xi as E1 E2.
    inversion Hi as [|? ? ? ? I1 I2]; subst. inversion I2 as [|? ? ? ? I3 I4]; subst. unfold l. apply in_flat_map. exists t. split; [apply in_seq; lia|]. apply in_map_iff. exists y. split; [f_equal; lia|apply in_seq; lia].
Qed.

Lemma energy_sum : forall (m : model R) a l, (m_ntypes m <= List.length (h_freqs (m_ham m)))%nat -> ntypes a = m_ntypes m -> energy_of (h_freqs (m_ham m)) a l ->
  phonon_energy l = Rsum (map (fun t => nth t (h_freqs (m_ham m)) 0 * IZR (total_type a t))%R (seq 0 (m_ntypes m))).
Proof.
  intros m a l Hf Nt [Ll El]. rewrite Nt in *.
  assert (E : l = map (fun t => (nth t (h_freqs (m_ham m)) 0%R, total_type a t)) (seq 0 (m_ntypes m))).
  { apply nth_ext with (d := (0%R, 0)) (d' := (0%R, 0)); [rewrite map_length, seq_length; exact Ll|]. intros t Ht. rewrite Ll in Ht. destruct (El t Ht) as [f [E1 E2]].
    rewrite (nth_error_nth _ _ (0%R, 0) E2). symmetry.
    rewrite nth_indep with (d' := (fun t => (nth t (h_freqs (m_ham m)) 0%R, total_type a t)) 0%nat) by (rewrite map_length, seq_length; exact Ht).
    rewrite (map_nth (fun t => (nth t (h_freqs (m_ham m)) 0%R, total_type a t)) (seq 0 (m_ntypes m)) 0%nat t), seq_nth by exact Ht. cbn [Nat.add]. f_equal. apply nth_error_nth. exact E1. }
  rewrite E. clear E. unfold phonon_energy, Rsum. induction (seq 0 (m_ntypes m)) as [|t q IH]; [reflexivity|]. cbn [map fold_right fst snd]. rewrite IH. reflexivity.
Qed.

Lemma least : forall (P : Z -> Prop) k, (exists x, P x) -> (forall x, P x -> - k <= x) -> exists x, P x /\ forall y, P y -> x <= y.
Proof.
  intros P k [x Hx] B. assert (H : forall d x, P x -> x + k <= Z.of_nat d -> exists x, P x /\ forall y, P y -> x <= y).
  { clear x Hx. induction d as [|d IH]; intros x Hx Hd.
    - exists x. split; [exact Hx|]. intros y Hy. specialize (B y Hy). lia.
    - destruct (classic (exists y, P y /\ y < x)) as [[y [Hy Lt]]|N]; [apply (IH y Hy); lia|]. exists x. split; [exact Hx|]. intros y Hy.
      destruct (Z.le_gt_cases x y) as [H|H]; [exact H|]. exfalso. apply N. exists y. auto. }
  apply (H (Z.to_nat (x + k)) x Hx). specialize (B x Hx). lia.
Qed.

(** Every placement with a phonon is a translated cloud. *)
Lemma cloud_of : forall nt k n, inside nt k n -> (forall t x, 0 <= n t x) -> n <> vacuum ->
  exists a s z, valid_cloud a /\ ~ phonon_free a /\ shp a = [nt; z] /\ Z.of_nat z <= 2 * k + 1 /\ n = translated (cloud a) s /\
    (forall t x, occ a t x <> 0 -> 0 <= hd 0 x < Z.of_nat z) /\ forall t x, occ a t x = 0 \/ exists y, occ a t x = n t y.
Proof.
  intros nt k n I NN Nv. set (P := fun x => exists t, n t x <> 0).
  assert (EP : exists x, P x).
  { destruct (classic (exists x, P x)) as [H|H]; [exact H|]. exfalso. apply Nv. apply placement_eq. intros t x. unfold vacuum. destruct (Z.eq_dec (n t x) 0) as [E|E]; [exact E|]. exfalso. apply H. exists x, t. exact E. }
  destruct (least P k EP) as [x0 [[t0 P0] L0]]; [intros x [t H]; destruct (I t x H); lia|].
  destruct (least (fun x => P (- x)) k) as [x1' [[t1 P1] L1]]; [destruct EP as [x Hx]; exists (- x); replace (- - x) with x by lia; exact Hx|intros x [t H]; destruct (I t (- x) H); lia|].
  set (x1 := - x1') in *. assert (X : x0 <= x1) by (apply L0; exists t1; exact P1).
  destruct (I _ _ P0) as [T0 A0]. destruct (I _ _ P1) as [T1 A1].
  assert (LU : forall t x, n t x <> 0 -> x0 <= x <= x1).
  { intros t x H. split; [apply L0; exists t; exact H|]. specialize (L1 (- x) ltac:(exists t; replace (- - x) with x by lia; exact H)). unfold x1. lia. }
  set (z := Z.to_nat (x1 - x0 + 1)). set (a := tab [nt; z] (fun i => n (nth 0 i 0%nat) (x0 + Z.of_nat (nth 1 i 0%nat)))).
  assert (O : forall t x, occ a t x = if inb [nt; z] (Z.of_nat t :: x) then n t (x0 + hd 0 x) else 0).
  { intros t x. unfold occ, a. rewrite at_tab. destruct (inb [nt; z] (Z.of_nat t :: x)) eqn:E; [|reflexivity]. destruct x as [|x [|? ?]]; cbn [inb] in E; try (rewrite ?andb_false_r in E; discriminate).
    cbn [map nth hd]. rewrite Nat2Z.id. f_equal. rewrite Z2Nat.id; [reflexivity|]. apply andb_prop in E. destruct E as [_ E]. apply andb_prop in E. destruct E as [E _]. apply andb_prop in E. destruct E as [E _]. lia. }
  assert (CL : forall t x, occ a t [x] = n t (x0 + x)).
  { intros t x. rewrite O. destruct (inb _ _) eqn:E; [reflexivity|]. destruct (Z.eq_dec (n t (x0 + x)) 0) as [->|H]; [reflexivity|]. exfalso.
    destruct (I _ _ H) as [H1 _]. pose proof (LU _ _ H) as H2. cbn [inb] in E.
    rewrite (proj2 (Z.leb_le 0 (Z.of_nat t))), (proj2 (Z.ltb_lt (Z.of_nat t) (Z.of_nat nt))), (proj2 (Z.leb_le 0 x)), (proj2 (Z.ltb_lt x (Z.of_nat z))) in E by (unfold z; lia). discriminate. }
  assert (NF : ~ phonon_free a).
  { intros H. specialize (H t0 [0]). rewrite CL, Z.add_0_r in H. contradiction. }
  exists a, x0, z. split; [|split; [exact NF|split; [reflexivity|split; [unfold z; lia|split; [apply placement_eq; intros t x; unfold translated, cloud; rewrite CL; f_equal; lia|split]]]]].
  - split; [apply wf_tab|]. split; [cbn; lia|]. split; [intros t x; rewrite O; destruct (inb _ _); [apply NN|lia]|]. right.
    intros d Hd. unfold ndim in Hd. cbn in Hd. assert (d = 0%nat) as -> by lia. split.
    + exists t0, [0]. split; [reflexivity|]. split; [reflexivity|]. rewrite CL, Z.add_0_r. specialize (NN t0 x0). lia.
    + exists t1, [x1 - x0]. split; [reflexivity|]. split; [cbn [a tab shp nth]; unfold z; lia|]. rewrite CL. replace (x0 + (x1 - x0)) with x1 by lia. specialize (NN t1 x1). unfold x1 in *. lia.
  - intros t x H. rewrite O in H. destruct (inb _ _) eqn:E; [|contradiction]. destruct x as [|x [|? ?]]; cbn [inb] in E; try (rewrite ?andb_false_r in E; discriminate). cbn [hd].
    apply andb_prop in E. destruct E as [_ E]. apply andb_prop in E. destruct E as [E _]. apply andb_prop in E. destruct E as [E1 E2]. lia.
  - intros t x. rewrite O. destruct (inb _ _); [right; eexists; reflexivity|left; reflexivity].
Qed.

(** * Choice of uniquely determined numbers *)
Lemma real_choice : forall {A} (P : A -> R -> Prop), (forall a, exists x, P a x) -> (forall a x y, P a x -> P a y -> x = y) -> exists f : A -> R, forall a, P a (f a).
Proof.
  intros A P HE HU. set (E := fun a y => exists x, P a x /\ (y <= x)%R).
  assert (B : forall a, bound (E a)). { intros a. destruct (HE a) as [x Hx]. exists x. intros y [x' [Hx' L]]. rewrite (HU a x x' Hx Hx'). exact L. }
  assert (N : forall a, exists y, E a y). { intros a. destruct (HE a) as [x Hx]. exists x, x. split; [exact Hx|lra]. }
  exists (fun a => proj1_sig (completeness (E a) (B a) (N a))). intros a. destruct (completeness (E a) (B a) (N a)) as [s [U L]]. cbn [proj1_sig].
  destruct (HE a) as [x Hx]. assert (s = x) as ->; [|exact Hx]. apply Rle_antisym.
  - apply L. intros y [x' [Hx' Ly]]. rewrite (HU a x x' Hx Hx'). exact Ly.
  - apply U. exists x. split; [exact Hx|lra].
Qed.
Lemma complex_choice : forall {A} (P : A -> C -> Prop), (forall a, exists z, P a z) -> (forall a x y, P a x -> P a y -> x = y) -> exists f : A -> C, forall a, P a (f a).
Proof.
  intros A P HE HU.
  destruct (real_choice (fun a x => exists z, P a z /\ Re z = x)) as [f Hf]; [intros a; destruct (HE a) as [z Hz]; exists (Re z), z; auto|intros a x y [z [Hz <-]] [z' [Hz' <-]]; rewrite (HU a z z' Hz Hz'); reflexivity|].
  destruct (real_choice (fun a x => exists z, P a z /\ Im z = x)) as [g Hg]; [intros a; destruct (HE a) as [z Hz]; exists (Im z), z; auto|intros a x y [z [Hz <-]] [z' [Hz' <-]]; rewrite (HU a z z' Hz Hz'); reflexivity|].
  exists (fun a => (f a, g a)). intros a. destruct (Hf a) as [z [Hz E]]. destruct (Hg a) as [z' [Hz' E']]. rewrite (HU a z' z Hz' Hz) in E'. rewrite <- E, <- E'. destruct z as [x y]. exact Hz.
Qed.
Lemma rows_choice : forall {A} (P : A -> (placement -> Z -> C) -> Prop), (forall a, exists Psi, P a Psi) ->
  (forall a Psi Psi', P a Psi -> P a Psi' -> forall n j, Psi n j = Psi' n j) -> exists f, forall a, P a (f a).
Proof.
  intros A P HE HU.
  destruct (complex_choice (fun (q : A * (placement * Z)) z => exists Psi, P (fst q) Psi /\ Psi (fst (snd q)) (snd (snd q)) = z)) as [f Hf].
  - intros [a [n j]]. destruct (HE a) as [Psi H]. exists (Psi n j), Psi. auto.
  - intros [a [n j]] x y [Psi [H <-]] [Psi' [H' <-]]. cbn [fst snd] in *. apply (HU a); assumption.
  - exists (fun a n j => f (a, (n, j))). intros a. destruct (HE a) as [Psi H].
    assert ((fun n j => f (a, (n, j))) = Psi) as ->; [|exact H]. apply functional_extensionality. intros n. apply functional_extensionality. intros j.
    destruct (Hf (a, (n, j))) as [Psi' [H' E]]. cbn [fst snd] in *. rewrite <- E. apply (HU a); assumption.
Qed.

(** * Limits of complex numbers *)
Definition Ccv (u : nat -> C) (l : C) : Prop := Un_cv (fun q => Re (u q)) (Re l) /\ Un_cv (fun q => Im (u q)) (Im l).
Lemma cv_const : forall r, Un_cv (fun _ => r) r.
Proof. intros r eps He. exists 0%nat. intros n _. unfold R_dist. rewrite Rminus_diag_eq, Rabs_R0 by reflexivity. exact He. Qed.
Lemma Ccv_const : forall z, Ccv (fun _ => z) z.
Proof. intros z. split; apply cv_const. Qed.
Lemma Ccv_add : forall u v l l', Ccv u l -> Ccv v l' -> Ccv (fun q => Cadd (u q) (v q)) (Cadd l l').
Proof. intros u v l l' [A B] [D E]. split; [exact (CV_plus _ _ _ _ A D)|exact (CV_plus _ _ _ _ B E)]. Qed.
Lemma Ccv_mul : forall u v l l', Ccv u l -> Ccv v l' -> Ccv (fun q => Cmul (u q) (v q)) (Cmul l l').
Proof.
  intros u v l l' [A B] [D E]. split.
  - exact (CV_minus _ _ _ _ (CV_mult _ _ _ _ A D) (CV_mult _ _ _ _ B E)).
  - exact (CV_plus _ _ _ _ (CV_mult _ _ _ _ A E) (CV_mult _ _ _ _ B D)).
Qed.
Lemma Ccv_sub : forall u v l l', Ccv u l -> Ccv v l' -> Ccv (fun q => Csub (u q) (v q)) (Csub l l').
Proof.
  intros u v l l' [A B] [D E]. split; [exact (CV_minus _ _ _ _ A D)|exact (CV_minus _ _ _ _ B E)].
Qed.
Lemma Ccv_sum : forall {A} (f : nat -> A -> C) (g : A -> C) l, (forall x, In x l -> Ccv (fun q => f q x) (g x)) -> Ccv (fun q => Csum_list (map (f q) l)) (Csum_list (map g l)).
Proof.
  intros A f g. induction l as [|x l IH]; intros H; [exact (Ccv_const C0)|]. cbn [map Csum_list fold_right].
  apply (Ccv_add (fun q => f q x) (fun q => Csum_list (map (f q) l))); [apply H; left; reflexivity|apply IH; intros y Hy; apply H; right; exact Hy].
Qed.
Lemma Ccv_eq : forall u l s N, Ccv u l -> (forall q, (N <= q)%nat -> u q = s) -> l = s.
Proof.
  intros u l s N [A B] H.
  assert (T : forall (f : C -> R) x, Un_cv (fun q => f (u q)) x -> x = f s).
  { intros f x Hx. apply (UL_sequence (fun q => f (u q))); [exact Hx|]. intros eps He. exists N. intros q Hq. rewrite (H q Hq). unfold R_dist. rewrite Rminus_diag_eq, Rabs_R0 by reflexivity. exact He. }
  apply Ceq; [apply T; exact A|apply T; exact B].
Qed.
Lemma Ccv_unique : forall u l l', Ccv u l -> Ccv u l' -> l = l'.
Proof. intros u l l' [A B] [D E]. apply Ceq; eapply UL_sequence; eassumption. Qed.
Lemma Ccv_norm2 : forall u l, Ccv u l -> Un_cv (fun q => Cnorm2 (u q)) (Cnorm2 l).
Proof. intros u l [A B]. exact (CV_plus _ _ _ _ (CV_mult _ _ _ _ A A) (CV_mult _ _ _ _ B B)). Qed.
Lemma cv_sum : forall {A} (f : nat -> A -> R) (g : A -> R) l, (forall x, In x l -> Un_cv (fun q => f q x) (g x)) -> Un_cv (fun q => Rsum (map (f q) l)) (Rsum (map g l)).
Proof.
  intros A f g. induction l as [|x l IH]; intros H; [exact (cv_const 0%R)|].
  apply (CV_plus (fun q => f q x) (fun q => Rsum (map (f q) l))); [apply H; left; reflexivity|apply IH; intros y Hy; apply H; right; exact Hy].
Qed.

(** * Rows on all states *)
Section Physical.
Variable m : model R.
Variable ae c : Z.
Variable k w eta : R.
Hypothesis eta_pos : (0 < eta)%R.
Hypothesis G : good_model m ae.
Hypothesis Hlat : on_lattice m c.
Hypothesis Hherm : hermitian (phys_env m k w eta) m.
Variable rho : Z.
Hypothesis rho_pos : 0 <= rho.
Hypothesis Hrho : Spec_extent.couples_within m c rho.
Let nt := m_ntypes m.
Let hop := h_hop (m_ham m).
Let kk := (k * m_lattice m)%R.
Notation dom := (full m).

Lemma full_vacuum : dom vacuum.
Proof.
  split; [intros; unfold vacuum; lia|]. split; [exists 0; intros t x H; unfold vacuum in H; lia|]. intros q E t x. pose proof (gm_mps _ _ G q E). unfold vacuum. lia.
Qed.
Lemma full_nonneg : forall n, dom n -> forall t x, 0 <= n t x.
Proof. intros n [H _]. exact H. Qed.

Definition has_rows (F : placement -> C) (K p : Z) : Prop :=
  forall n s, dom n -> inside nt K n -> (tot nt K n <= IZR p)%R -> (n = vacuum -> s = C1) -> (n <> vacuum -> s = C0) ->
    row_at c hop kk w eta (moves m) F n (energy m K n) s.

Lemma rows_sub : forall F F' K p, has_rows F K p -> has_rows F' K p ->
  rows_within nt c hop kk eta (moves m) dom (fun n => Csub (F n) (F' n)) (fun _ => 0%R) K p.
Proof.
  intros F F' K p H H' n Dn In_n Tn. destruct (classic (n = vacuum)) as [E|E].
  - pose proof (row_balance _ _ _ _ _ _ _ n _ _ (row_sub _ _ _ _ _ _ F F' n _ C1 C1 (H n C1 Dn In_n Tn (fun _ => eq_refl) (fun X => False_ind _ (X E))) (H' n C1 Dn In_n Tn (fun _ => eq_refl) (fun X => False_ind _ (X E))))) as B.
    cbn beta in B |- *. rewrite B. unfold Cmul, Csub, Cconj, Re, Im. cbn [fst snd]. ring.
  - pose proof (row_balance _ _ _ _ _ _ _ n _ _ (row_sub _ _ _ _ _ _ F F' n _ C0 C0 (H n C0 Dn In_n Tn (fun X => False_ind _ (E X)) (fun _ => eq_refl)) (H' n C0 Dn In_n Tn (fun X => False_ind _ (E X)) (fun _ => eq_refl)))) as B.
    cbn beta in B |- *. rewrite B. unfold Cmul, Csub, Cconj, Re, Im. cbn [fst snd]. ring.
Qed.

(** What the rows of a solution leave. *)
Definition src (F : placement -> C) (n : placement) : R := (eta * Cnorm2 (F n) + Rsum (map (fun o => cur c hop kk F o n) (moves m)))%R.
Lemma src_out : forall F, (forall n, F n <> C0 -> dom n) -> (forall K p, has_rows F K p) -> forall n, n <> vacuum -> src F n = 0%R.
Proof.
  intros F HF HR n Nn. unfold src. destruct (classic (F n = C0)) as [E|E]; [exact (zero_balance c hop kk eta (moves m) F n E)|].
  pose proof (HF n E) as Dn. pose proof Dn as [_ [[K IK] _]]. destruct (tot_int nt K n) as [p Ep].
  pose proof (row_balance _ _ _ _ _ _ _ n _ _ (HR K p n C0 Dn IK ltac:(rewrite Ep; lra) (fun X => False_ind _ (Nn X)) (fun _ => eq_refl))) as B. cbn beta in B. rewrite B. unfold Cmul, C0, Cconj, Re, Im. cbn [fst snd]. ring.
Qed.
Lemma src_vac : forall F, (forall K p, has_rows F K p) -> src F vacuum = (- Im (F vacuum))%R.
Proof.
  intros F HR. unfold src. pose proof (row_balance _ _ _ _ _ _ _ vacuum _ _ (HR 0 0 vacuum C1 full_vacuum (inside_vacuum nt 0) ltac:(rewrite tot_vacuum; lra) (fun _ => eq_refl) (fun X => False_ind _ (X eq_refl)))) as B.
  cbn beta in B. rewrite B. unfold Cmul, C1, Cconj, Re, Im. cbn [fst snd]. ring.
Qed.

Lemma rows_norm : forall F V, (forall n, F n <> C0 -> dom n) -> (forall K p, has_rows F K p) -> norm_le nt dom F V -> norm_le nt dom F (1 / (eta * eta)).
Proof.
  intros F V HF HR HV. destruct (moves_conj m m c k w eta Hlat eq_refl Hherm) as [l [Pl Fl]]. destruct (moves_short m m eq_refl) as [r [R0 Hr]].
  pose proof (full_norm nt c hop kk eta eta_pos rho r rho_pos R0 (moves m) l Pl Fl (moves_fit m ae c G rho Hrho) Hr dom full_vacuum full_nonneg F (src F) V HF (src_out F HF HR) (fun _ _ n _ _ _ => eq_refl) HV) as SP.
  assert (V0 : (src F vacuum <= 1 / eta)%R).
  { pose proof (SP 0 [vacuum] ltac:(lia) ltac:(repeat constructor; intros []) ltac:(intros n [<- | []]; split; [exact full_vacuum|apply inside_vacuum])) as S0.
    unfold mass in S0. cbn [map] in S0. unfold Rsum in S0. cbn [fold_right] in S0. rewrite wt_vacuum, Rmult_1_l, Rplus_0_r in S0.
    assert (I2 : (src F vacuum * src F vacuum <= Cnorm2 (F vacuum))%R) by (rewrite (src_vac F HR); unfold Cnorm2; pose proof (Rle_0_sqr (Re (F vacuum))) as Q; unfold Rsqr in Q; lra).
    set (x := src F vacuum) in *. destruct (Rle_lt_dec x (1 / eta)) as [H|H]; [exact H|exfalso].
    assert (X0 : (0 < 1 / eta)%R) by (apply Rdiv_lt_0_compat; lra).
    assert (x * x > x * (1 / eta))%R by (apply Rmult_gt_compat_l; lra). unfold Rdiv in *. lra. }
  intros j L Hj NL HL. eapply Rle_trans; [apply (SP j L Hj NL HL)|]. replace (1 / (eta * eta))%R with (1 / eta / eta)%R by (field; lra).
  apply Rmult_le_compat_r; [left; apply Rinv_0_lt_compat; exact eta_pos|exact V0].
Qed.

(** The Green's function is not zero, and its imaginary part is negative. *)
Lemma rows_negative : forall F V, (forall n, F n <> C0 -> dom n) -> (forall K p, has_rows F K p) -> norm_le nt dom F V -> (Im (F vacuum) < 0)%R.
Proof.
  intros F V HF HR HV. destruct (moves_conj m m c k w eta Hlat eq_refl Hherm) as [l [Pl Fl]]. destruct (moves_short m m eq_refl) as [r [R0 Hr]].
  pose proof (full_norm nt c hop kk eta eta_pos rho r rho_pos R0 (moves m) l Pl Fl (moves_fit m ae c G rho Hrho) Hr dom full_vacuum full_nonneg F (src F) V HF (src_out F HF HR) (fun _ _ n _ _ _ => eq_refl) HV) as SP.
  rewrite (src_vac F HR) in SP. destruct (Rlt_le_dec (Im (F vacuum)) 0) as [H|H]; [exact H|exfalso].
  assert (NE : (- Im (F vacuum) / eta <= 0)%R). { unfold Rdiv. assert (0 < / eta)%R by (apply Rinv_0_lt_compat; exact eta_pos). assert (0 <= Im (F vacuum) * / eta)%R by (apply Rmult_le_pos; lra). lra. }
  assert (Z0 : forall n, F n = C0).
  { intros n. destruct (classic (F n = C0)) as [E|E]; [exact E|]. pose proof (HF n E) as Dn. pose proof Dn as [_ [[j Ij] _]].
    specialize (SP (Z.max 0 j) [n] ltac:(lia) ltac:(repeat constructor; intros []) ltac:(intros s [<- | []]; split; [exact Dn|apply (inside_mono nt j); [lia|exact Ij]])).
    cbn [map] in SP. unfold Rsum in SP. cbn [fold_right] in SP. apply (mass_zero nt F n (Z.max 0 j)). lra. }
  pose proof (HR 0 0 vacuum C1 full_vacuum (inside_vacuum nt 0) ltac:(rewrite tot_vacuum; lra) (fun _ => eq_refl) (fun X => False_ind _ (X eq_refl))) as Q. unfold row_at in Q.
  rewrite (map_ext (term_at c hop kk F vacuum) (fun _ => Cmul C0 C0)) in Q by (intros o; unfold term_at; rewrite Z0; ring).
  rewrite (Csum_list_scal (fun _ => C0)), Z0 in Q. apply (f_equal Re) in Q. revert Q. generalize (Csum_list (map (fun _ : move => C0) (moves m))) as x. generalize (energy m 0 vacuum) as y. intros y x Q.
  unfold Cadd, Csub, Copp, Cmul, RtoC, C0, C1, Re, Im in Q. cbn [fst snd] in Q. lra.
Qed.

Theorem rows_unique : forall F F' V V', (forall n, F n <> C0 -> dom n) -> (forall n, F' n <> C0 -> dom n) -> (forall K p, has_rows F K p) -> (forall K p, has_rows F' K p) ->
  norm_le nt dom F V -> norm_le nt dom F' V' -> forall n, F n = F' n.
Proof.
  intros F F' V V' HF HF' HR HR' NF NF' n. destruct (moves_conj m m c k w eta Hlat eq_refl Hherm) as [l [Pl Fl]]. destruct (moves_short m m eq_refl) as [r [R0 Hr]].
  assert (Z0 : Csub (F n) (F' n) = C0).
  { apply (full_zero nt c hop kk eta eta_pos rho r rho_pos R0 (moves m) l Pl Fl (moves_fit m ae c G rho Hrho) Hr dom full_vacuum full_nonneg (fun n => Csub (F n) (F' n)) (2 * V + 2 * V')).
    - intros q H. assert (Dq : dom q).
      { destruct (classic (F q = C0)) as [E|E]; [|apply HF, E]. apply HF'. intros E'. apply H. rewrite E, E'. apply Ceq; unfold Csub, C0, Re, Im; cbn [fst snd]; ring. }
      split; [exact Dq|]. apply Dq.
    - intros K p. apply rows_sub; [apply HR|apply HR'].
    - apply norm_sub; assumption. }
  transitivity (Cadd (Csub (F n) (F' n)) (F' n)); [ring|]. rewrite Z0. ring.
Qed.

(** * The truncated solutions *)
Section Truncated.
Variable mm : model R.
Variable aa : Z.
Hypothesis Gm : good_model mm aa.
Hypothesis E1 : m_ham m = m_ham mm.
Hypothesis E2 : m_lattice m = m_lattice mm.
Hypothesis E3 : m_ntypes m = m_ntypes mm.
Hypothesis E4 : m_mps m = m_mps mm.
Variable Ps : placement -> Z -> C.
Hypothesis Ro : greens_row mm aa c k (w, eta) Ps.
Notation F := (fun n => Ps n 0).

Lemma space_full : forall a s, space mm aa a -> full m (translated (cloud a) s).
Proof.
  intros a s Sa. destruct (space_unfold mm aa a Sa) as [V [NF [_ [Nt [N1 [[z [Sh Hz]] [TT [L1 [L2 L3]]]]]]]]]. split; [intros; apply (valid_nonneg a V)|]. split.
  - exists (Z.abs s + Spec_extent.width a). intros t x H. destruct (cloud_inside mm aa a s Sa t x H) as [H1 H2]. split; [rewrite E3; exact H1|lia].
  - intros q Hq t x. rewrite E4 in Hq. apply (L1 q Hq).
Qed.

Lemma truncated_full : forall n, F n <> C0 -> dom n.
Proof.
  intros n H. destruct (F_support mm aa c k w eta Ps Ro n H) as [-> | [a [s [Sa ->]]]]; [exact full_vacuum|apply space_full, Sa].
Qed.

Lemma moves_same : moves mm = moves m.
Proof. unfold moves. rewrite E1. reflexivity. Qed.

Lemma truncated_rows : forall K p, room m mm aa (2 * K + 1) p -> has_rows F K p.
Proof.
  intros K p [_ [Ra Rt]] n s Dn In_n Tn S1 S0. unfold hop, kk. rewrite <- moves_same, E1, E2. destruct (classic (n = vacuum)) as [E|E].
  - rewrite (S1 E), E, energy_vacuum. exact (row_vac mm aa c k w eta Ps Ro).
  - rewrite (S0 E). destruct (cloud_of nt K n In_n (full_nonneg n Dn) E) as [a [x0 [z [V [NF [Sh [Hz [En [Oz On]]]]]]]]].
    pose proof (valid_wf a V) as Wf. assert (Nt : ntypes a = m_ntypes m) by (unfold ntypes; rewrite Sh; reflexivity).
    assert (TP : forall t, (t < nt)%nat -> 0 <= total_type a t).
    { intros t Ht. pose proof (occ_type a t [0] V ltac:(rewrite Nt; exact Ht)). pose proof (valid_nonneg a V (Z.of_nat t :: [0])) as Q. unfold occ in *. lia. }
    assert (TT : forall t, (t < nt)%nat -> total_type a t <= p).
    { intros t Ht. apply le_IZR. eapply Rle_trans; [|exact Tn]. rewrite En. unfold tot.
      assert (Q : gsum (fun _ v => IZR v) (translated (cloud a) x0) (modes nt K) = Rsum (map (fun t => 1 * IZR (total_type a t))%R (seq 0 nt))).
      { rewrite <- (cloud_sum (fun _ => 1%R) nt z a x0 K Wf Sh) by (rewrite <- En; exact In_n). unfold gsum. apply Rsum_ext. intros; ring. }
      rewrite Q. apply Rle_trans with (1 * IZR (total_type a t))%R; [lra|].
      assert (I : In t (seq 0 nt)) by (apply in_seq; lia).
      assert (P0 : forall t, In t (seq 0 nt) -> (0 <= 1 * IZR (total_type a t))%R) by (intros u Hu; apply in_seq in Hu; rewrite Rmult_1_l; apply IZR_le; apply TP; lia).
      clear Q. induction (seq 0 nt) as [|u l IH]; [destruct I|]. rewrite Rsum_cons. destruct I as [-> | I].
      - assert (0 <= Rsum (map (fun t => 1 * IZR (total_type a t))%R l))%R by (apply Rsum_nonneg; intros v Hv; apply P0; right; exact Hv). lra.
      - specialize (IH I ltac:(intros v Hv; apply P0; right; exact Hv)). pose proof (P0 u (or_introl eq_refl)). lra. }
    assert (Sa : space mm aa a).
    { apply space_intro; [exact V|exact NF|exists z; rewrite <- E3; split; [exact Sh|lia]| | |].
      - intros q Hq t x. rewrite <- E4 in Hq. destruct (On t x) as [-> | [y ->]]; [pose proof (gm_mps _ _ G q Hq); lia|apply Dn; exact Hq].
      - intros t Ht. rewrite <- E3 in Ht. destruct (Rt t Ht) as [R1 R2]. split; [lia|]. intros x y Hx Hy. apply Oz in Hx, Hy. lia.
      - intros t Ht. rewrite <- E3 in Ht. destruct (Rt t Ht) as [R1 R2]. specialize (TT t Ht). lia. }
    destruct (energy_list mm aa Gm a Sa) as [le El]. pose proof (row_cloud mm aa c k w eta Ps Ro a le x0 Sa El) as R2.
    replace (energy m K n) with (phonon_energy le); [rewrite En; exact R2|].
    rewrite (energy_sum mm a le (gm_freqs _ _ Gm)); [|rewrite <- E3; exact Nt|exact El]. rewrite energy_gsum, En. fold nt. rewrite <- E1, <- E3. symmetry.
    apply (cloud_sum (fun t => nth t (h_freqs (m_ham m)) 0%R) nt z a x0 K Wf Sh). rewrite <- En. exact In_n.
Qed.

Lemma truncated_norm : norm_le nt dom F (1 / (eta * eta)).
Proof.
  assert (H' : hermitian (phys_env mm k w eta) mm) by (rewrite (phys_same m mm) by assumption; unfold hermitian; rewrite <- E1; exact Hherm).
  assert (L' : on_lattice mm c) by (unfold on_lattice; rewrite <- E1; exact Hlat).
  assert (C' : Spec_extent.couples_within mm c rho) by (unfold Spec_extent.couples_within; rewrite <- E1; exact Hrho).
  assert (HN : exists N, 0 <= N /\ Spec_extent.at_most mm aa N).
  { exists (fold_right Z.max 0 (m_pn mm)). assert (Q : 0 <= fold_right Z.max 0 (m_pn mm) /\ forall t, nth t (m_pn mm) 0 <= fold_right Z.max 0 (m_pn mm)).
    { induction (m_pn mm) as [|x l [IH1 IH2]]; cbn [fold_right]; [split; [lia|intros [|t]; cbn; lia]|]. split; [lia|]. intros [|t]; cbn [nth]; [lia|]. specialize (IH2 t). lia. }
    split; [apply Q|]. apply numbers_at_most; [intros t _; apply Q|apply Q]. }
  destruct HN as [N [N0 HN]].
  pose proof (norm_F mm mm aa aa c k w eta eta_pos Gm Gm L' eq_refl H' N rho N0 HN HN rho_pos C' mm aa Ps Gm eq_refl eq_refl (fun a H => or_introl H) Ro) as NF.
  rewrite <- E3 in NF. fold nt in NF.
  intros j L Hj NL HL. destruct (sub_list (cand mm mm aa aa) L NL) as [L2 [NL2 [EL Q]]]. rewrite (Q (mass nt F j)).
  - apply (NF j L2 Hj NL2). intros n Hn. apply EL in Hn. destruct Hn as [Hn Cn]. split; [exact Cn|apply HL, Hn].
  - intros n _ Nc. unfold mass. assert (Z0 : F n = C0).
    { destruct (classic (F n = C0)) as [E|E]; [exact E|]. exfalso. apply Nc. destruct (F_support mm aa c k w eta Ps Ro n E) as [-> | [a [s [Sa ->]]]]; [left; reflexivity|right]. exists a, s. split; [left; exact Sa|reflexivity]. }
    cbn beta in Z0. rewrite Z0. unfold Cnorm2, C0, Re, Im. cbn [fst snd]. ring.
Qed.
End Truncated.

(** * The specification *)
Lemma translated_0 : forall n, translated n (- 0) = n.
Proof. intros n. apply placement_eq. intros t x. unfold translated. f_equal. lia. Qed.
Lemma translated_twice : forall n s s', translated (translated n s) s' = translated n (s + s').
Proof. intros n s s'. apply placement_eq. intros t x. unfold translated. f_equal. lia. Qed.
Lemma full_translated : forall n s, dom n -> dom (translated n s).
Proof.
  intros n s [A [[r B] D]]. split; [intros; apply A|]. split; [|intros q Hq t x; apply (D q Hq)]. exists (r + Z.abs s). intros t x H. destruct (B t (x - s) H) as [H1 H2]. split; [exact H1|lia].
Qed.
Lemma occupied : forall n : placement, n <> vacuum -> exists t x, n t x <> 0.
Proof.
  intros n H. destruct (classic (exists t x, n t x <> 0)) as [E|E]; [exact E|]. exfalso. apply H. apply placement_eq. intros t x. unfold vacuum.
  destruct (Z.eq_dec (n t x) 0) as [X|X]; [exact X|]. exfalso. apply E. exists t, x. exact X.
Qed.

Lemma exact_support : forall Psi, exact_row m c k (w, eta) Psi -> forall n, Psi n 0 <> C0 -> dom n.
Proof. intros Psi E n H. destruct (classic (dom n)) as [D|D]; [exact D|]. exfalso. apply H. apply (er_support _ _ _ _ _ E), D. Qed.
Lemma exact_norm : forall Psi, exact_row m c k (w, eta) Psi -> exists V, norm_le nt dom (fun n => Psi n 0) V.
Proof.
  intros Psi E. destruct (er_norm _ _ _ _ _ E) as [V HV]. exists V. intros j L Hj NL HL. rewrite <- norm_sum. apply (HV j L NL HL).
Qed.
Lemma exact_rows : forall Psi, exact_row m c k (w, eta) Psi -> forall K p, has_rows (fun n => Psi n 0) K p.
Proof.
  intros Psi E K p n s Dn In_n _ S1 S0. destruct (classic (n = vacuum)) as [V|V].
  - rewrite (S1 V), V, energy_vacuum. pose proof (er_vacuum _ _ _ _ _ E 0) as R0. rewrite (frame_H m c k w eta Psi (er_momentum _ _ _ _ _ E)) in R0. rewrite translated_0 in R0.
    apply (phase_inj (k * m_lattice m)%R 0). etransitivity; [exact R0|]. fold kk. change (Cexpi (- (kk * IZR 0))) with (phase kk 0). rewrite phase_0. ring.
  - rewrite (S0 V). pose proof (er_cloud _ _ _ _ _ E n K 0 Dn In_n (occupied n V)) as R0. rewrite (frame_H m c k w eta Psi (er_momentum _ _ _ _ _ E)) in R0. rewrite translated_0 in R0.
    apply (phase_inj (k * m_lattice m)%R 0). etransitivity; [exact R0|ring].
Qed.

Definition spread (F : placement -> C) (n : placement) (j : Z) : C := Cmul (phase kk j) (F (translated n (- j))).
Lemma spread_0 : forall F, (fun n => spread F n 0) = F.
Proof. intros F. apply functional_extensionality. intros n. unfold spread. rewrite translated_0, phase_0. ring. Qed.

Lemma rows_exact : forall F V, (forall n, F n <> C0 -> dom n) -> (forall K p, has_rows F K p) -> norm_le nt dom F V -> exact_row m c k (w, eta) (spread F).
Proof.
  intros F V HF HR HV.
  assert (Mom : forall n s j, spread F (translated n s) (j + s) = Cmul (Cexpi (- (k * m_lattice m * IZR s))) (spread F n j)).
  { intros n s j. unfold spread. fold kk. change (Cexpi (- (kk * IZR s))) with (phase kk s). rewrite phase_add, translated_twice. replace (s + - (j + s)) with (- j) by lia. ring. }
  constructor.
  - intros n j H. unfold spread. assert (Z0 : F (translated n (- j)) = C0); [|rewrite Z0; ring].
    destruct (classic (F (translated n (- j)) = C0)) as [E|E]; [exact E|]. exfalso. apply H. apply HF in E. apply (full_translated _ j) in E. rewrite translated_twice in E.
    replace (- j + j) with (- 0) in E by lia. rewrite translated_0 in E. exact E.
  - exists V. intros r l NL HL.
    assert (EM : fold_right (fun n s => Cnorm2 (spread F n 0) / norm2 (m_ntypes m) r n + s)%R 0%R l = Rsum (map (mass nt F r) l)).
    { rewrite (norm_sum nt r (fun n => spread F n 0)), spread_0. reflexivity. }
    rewrite EM. replace (Rsum (map (mass nt F r) l)) with (Rsum (map (mass nt F (Z.max 0 r)) l)).
    + apply HV; [lia|exact NL|]. intros n Hn. destruct (HL n Hn) as [H1 H2]. split; [exact H1|]. apply (inside_mono nt r); [lia|exact H2].
    + apply mass_window; [intros n Hn; apply HL, Hn|lia].
  - exact Mom.
  - intros n r j Dn Nr On. rewrite (frame_H m c k w eta (spread F) Mom), spread_0. set (n' := translated n (- j)).
    assert (Dn' : dom n') by (apply full_translated; exact Dn). set (r' := r + Z.abs j).
    assert (Ir : inside nt r' n) by (apply (inside_mono nt r); [unfold r'; lia|exact Nr]).
    assert (Ir' : inside nt r' n') by (intros t x H; destruct (Nr t (x - - j) H) as [H1 H2]; split; [exact H1|unfold r'; lia]).
    assert (EE : energy m r n = energy m r' n').
    { rewrite (energy_window m r r' n Nr Ir), !energy_gsum. symmetry. apply gsum_translated; [apply ph_0|exact Ir|exact Ir']. }
    assert (Nv : n' <> vacuum).
    { intros E. destruct On as [t [x Ox]]. apply Ox. assert (Q : n' t (x - j) = 0) by (rewrite E; reflexivity). unfold n', translated in Q. replace (x - j - - j) with x in Q by lia. exact Q. }
    destruct (tot_int nt r' n') as [p Ep]. pose proof (HR r' p n' C0 Dn' Ir' ltac:(rewrite Ep; lra) (fun X => False_ind _ (Nv X)) (fun _ => eq_refl)) as R0. unfold row_at in R0.
    fold kk hop. change (spread F n' 0) with ((fun n => spread F n 0) n'). rewrite spread_0, EE, R0. ring.
  - intros j. rewrite (frame_H m c k w eta (spread F) Mom), spread_0.
    assert (EV : translated vacuum (- j) = vacuum) by (apply placement_eq; reflexivity). rewrite EV.
    pose proof (HR 0 0 vacuum C1 full_vacuum (inside_vacuum nt 0) ltac:(rewrite tot_vacuum; lra) (fun _ => eq_refl) (fun X => False_ind _ (X eq_refl))) as R0. unfold row_at in R0. rewrite energy_vacuum in R0.
    fold kk hop. change (spread F vacuum 0) with ((fun n => spread F n 0) vacuum). rewrite spread_0, R0. change (Cexpi (- (kk * IZR j))) with (phase kk j). ring.
Qed.

(** * The distance *)
Lemma push_is : forall P, push hop (moves m) P = (sqrt (IZR P) / 2 * coupling_sum m)%R.
Proof.
  intros P. unfold push, moves. rewrite !Rsum_cons. cbn [dt].
  assert (E : Rsum (map (fun o => dt o * strength_of hop P o)%R (map Act (h_terms (m_ham m)))) = (sqrt (IZR P) * coupling_sum m)%R).
  { unfold coupling_sum. induction (h_terms (m_ham m)) as [|h hs IH]; [unfold Rsum; cbn [map fold_right]; lra|]. change (map Act (h :: hs)) with (Act h :: map Act hs). rewrite Rsum_cons, IH.
    cbn [fold_right dt strength_of]. ring. }
  rewrite E. lra.
Qed.

Theorem exact_error : forall F V mm aa Ps K P, (forall n, F n <> C0 -> dom n) -> (forall K p, has_rows F K p) -> norm_le nt dom F V ->
  good_model mm aa -> m_ham m = m_ham mm -> m_lattice m = m_lattice mm -> m_ntypes m = m_ntypes mm -> greens_row mm aa c k (w, eta) Ps ->
  1 <= K -> 1 <= P -> room m mm aa (2 * (K + rho) - 1) (P - 1) ->
  (eta * eta * eta * (IZR P * IZR K) * Cnorm2 (Csub (Ps vacuum 0%Z) (F vacuum)) <=
     4 * IZR P * (Rabs hop + sqrt (IZR P) / 2 * Spec_extent.carried m) + 2 * IZR K * sqrt (IZR P) * coupling_sum m)%R.
Proof.
  intros F V mm aa Ps K P HF HR HV Gm E1 E2 E3 Ro HK HP Rm. pose proof Rm as [E4 _].
  destruct (moves_conj m m c k w eta Hlat eq_refl Hherm) as [l [Pl Fl]]. destruct (moves_short m m eq_refl) as [r [R0 Hr]].
  pose proof (rows_norm F V HF HR HV) as NF.
  assert (TR : has_rows (fun n => Ps n 0) (K + rho - 1) (P - 1)).
  { apply (truncated_rows mm aa Gm E1 E2 E3 E4 Ps Ro). replace (2 * (K + rho - 1) + 1) with (2 * (K + rho) - 1) by lia. exact Rm. }
  pose proof (full_error nt c hop kk eta eta_pos rho r rho_pos R0 (moves m) l Pl Fl (moves_fit m ae c G rho Hrho) Hr dom full_vacuum full_nonneg (fun n => Ps n 0) F _ _ K P
    (truncated_full mm aa E3 E4 Ps Ro) HF (truncated_norm mm aa Gm E1 E2 E3 Ps Ro) NF HK HP (rows_sub _ _ _ _ TR (HR _ _))) as B.
  unfold hop in B at 1. rewrite (drift_is m m c Hlat eq_refl P), push_is in B. fold hop in B.
  set (d := Cnorm2 _) in *. set (q := Spec_extent.carried m) in *. set (s := coupling_sum m) in *.
  assert (Q2 : (0 < eta * eta)%R) by (apply Rmult_lt_0_compat; lra).
  replace (eta * eta * eta * (IZR P * IZR K) * d)%R with ((eta * eta) * (eta * (IZR P * IZR K) * d))%R by ring.
  eapply Rle_trans; [apply Rmult_le_compat_l; [lra|exact B]|]. right. field. lra.
Qed.

(** * Existence *)
Section Limit.
Variable mm : nat -> model R.
Variable aa : nat -> Z.
Variable Ps : nat -> placement -> Z -> C.
Let side (q : nat) : Z := Z.of_nat q + 1.
Hypothesis Gm : forall q, good_model (mm q) (aa q).
Hypothesis E1 : forall q, m_ham m = m_ham (mm q).
Hypothesis E2 : forall q, m_lattice m = m_lattice (mm q).
Hypothesis E3 : forall q, m_ntypes m = m_ntypes (mm q).
Hypothesis Rm : forall q, room m (mm q) (aa q) (2 * (side q * (side q * side q) + rho) - 1) (side q * side q - 1).
Hypothesis Ro : forall q, greens_row (mm q) (aa q) c k (w, eta) (Ps q).
Notation F q := (fun n => Ps q n 0).

Lemma side_rows : forall q0 q, (q0 <= q)%nat -> has_rows (F q) (side q0 * (side q0 * side q0) + rho - 1) (side q0 * side q0 - 1).
Proof.
  intros q0 q Hq. destruct (Rm q) as [R1 [R2 R3]]. apply (truncated_rows (mm q) (aa q) (Gm q) (E1 q) (E2 q) (E3 q) R1 (Ps q) (Ro q)).
  assert (S1 : 1 <= side q0 <= side q) by (unfold side; lia).
  assert (S2 : side q0 * side q0 <= side q * side q) by nia. assert (S3 : side q0 * (side q0 * side q0) <= side q * (side q * side q)) by nia.
  split; [exact R1|]. split; [lia|]. intros t Ht. specialize (R3 t Ht). lia.
Qed.

Lemma side_full : forall q n, F q n <> C0 -> dom n.
Proof. intros q. apply (truncated_full (mm q) (aa q) (E3 q) (proj1 (Rm q)) (Ps q) (Ro q)). Qed.
Lemma side_norm : forall q, norm_le nt dom (F q) (1 / (eta * eta)).
Proof. intros q. apply (truncated_norm (mm q) (aa q) (Gm q) (E1 q) (E2 q) (E3 q) (Ps q) (Ro q)). Qed.

Lemma side_limit : forall n, exists z, Ccv (fun q => Ps q n 0) z.
Proof.
  intros n. destruct (classic (dom n)) as [Dn|Dn].
  2:{ exists C0. replace (fun q => Ps q n 0) with (fun _ : nat => C0); [apply Ccv_const|]. apply functional_extensionality. intros q.
      destruct (classic (Ps q n 0 = C0)) as [E|E]; [auto|]. exfalso. apply Dn. apply (side_full q n E). }
  destruct (moves_conj m m c k w eta Hlat eq_refl Hherm) as [l [Pl Fl]]. destruct (moves_short m m eq_refl) as [r [R0 Hr]].
  pose proof Dn as [NN [[j0 I0] _]]. set (j := Z.max 0 j0). assert (Ij : inside nt j n) by (apply (inside_mono nt j0); [unfold j; lia|exact I0]).
  destruct (tot_int nt j n) as [p0 Ep]. assert (P0 : 0 <= p0) by (apply le_IZR; rewrite <- Ep; apply tot_pos; exact NN).
  pose proof (wt_pos nt j n) as W0. set (B := (flow hop (moves m) * (2 * (1 / (eta * eta)) + 2 * (1 / (eta * eta))))%R).
  assert (CL : forall q0 q q', (q0 <= q)%nat -> (q0 <= q')%nat -> j <= side q0 -> p0 <= side q0 -> (eta * (IZR (side q0) - IZR (j + p0)) * (wt nt j n * Cnorm2 (Csub (Ps q n 0%Z) (Ps q' n 0%Z))) <= B)%R).
  { intros q0 q q' Hq Hq' Hj Hp.
    apply (full_close nt c hop kk eta eta_pos rho r rho_pos R0 (moves m) l Pl Fl (moves_fit m ae c G rho Hrho) Hr dom full_vacuum full_nonneg (F q) (F q') _ _ (side q0)
      (side_full q) (side_full q') (side_norm q) (side_norm q')); [unfold side; lia|apply rows_sub; apply side_rows; assumption|exact Dn|exact Ij|rewrite Ep; lra|unfold j in *; lia|lia]. }
  apply (limit_ex (fun q => Ps q n 0)). intros eps Heps.
  assert (PE : (0 < eta * (wt nt j n * eps))%R) by (apply Rmult_lt_0_compat; [exact eta_pos|apply Rmult_lt_0_compat; assumption]).
  set (X := (B / (eta * (wt nt j n * eps)))%R). destruct (archimed X) as [U _]. set (Y := Z.max (j + p0) (up X + (j + p0))).
  exists (Z.to_nat Y). intros q q' Hq Hq'.
  assert (YP : 0 <= Y) by (unfold Y, j; lia). assert (SY : side (Z.to_nat Y) = Y + 1) by (unfold side; lia).
  specialize (CL (Z.to_nat Y) q q' Hq Hq' ltac:(unfold Y in *; lia) ltac:(unfold Y, j in *; lia)). rewrite SY in CL. set (d := Cnorm2 _) in *.
  destruct (Rlt_le_dec d eps) as [LT|GE]; [exact LT|exfalso].
  assert (H1 : (X < IZR (Y + 1) - IZR (j + p0))%R).
  { rewrite <- minus_IZR. eapply Rlt_le_trans; [exact U|]. apply IZR_le. unfold Y. lia. }
  assert (H0 : (0 <= IZR (Y + 1) - IZR (j + p0))%R) by (rewrite <- minus_IZR; apply IZR_le; unfold Y; lia).
  set (s := (IZR (Y + 1) - IZR (j + p0))%R) in *.
  assert (H2 : (eta * s * (wt nt j n * eps) <= eta * s * (wt nt j n * d))%R).
  { apply Rmult_le_compat_l; [apply Rmult_le_pos; lra|]. apply Rmult_le_compat_l; lra. }
  assert (H3 : (X * (eta * (wt nt j n * eps)) < s * (eta * (wt nt j n * eps)))%R) by (apply Rmult_lt_compat_r; assumption).
  assert (H4 : (X * (eta * (wt nt j n * eps)) = B)%R) by (unfold X; field; repeat split; apply Rgt_not_eq; assumption).
  lra.
Qed.

Theorem limit_rows : exists Fl, (forall n, Fl n <> C0 -> dom n) /\ (forall K p, has_rows Fl K p) /\ norm_le nt dom Fl (1 / (eta * eta)).
Proof.
  destruct (complex_choice (fun n z => Ccv (fun q => Ps q n 0) z) side_limit (fun n x y => Ccv_unique _ x y)) as [Fl CV]. exists Fl. split; [|split].
  - intros n H. destruct (classic (dom n)) as [D|D]; [exact D|]. exfalso. apply H. apply (Ccv_eq _ _ C0 0 (CV n)). intros q _.
    destruct (classic (Ps q n 0 = C0)) as [E|E]; [exact E|]. exfalso. apply D. apply (side_full q n E).
  - intros K p n s Dn In_n Tn S1 S0. unfold row_at.
    apply (Ccv_eq (fun q => Cadd (Csub (Cmul (w, eta) (Ps q n 0)) (Cmul (RtoC (energy m K n)) (Ps q n 0))) (Csum_list (map (term_at c hop kk (F q) n) (moves m)))) _ s (Z.to_nat (Z.max K p))).
    + apply (Ccv_add (fun q => Csub (Cmul (w, eta) (Ps q n 0)) (Cmul (RtoC (energy m K n)) (Ps q n 0))) (fun q => Csum_list (map (term_at c hop kk (F q) n) (moves m)))).
      * apply (Ccv_sub (fun q => Cmul (w, eta) (Ps q n 0)) (fun q => Cmul (RtoC (energy m K n)) (Ps q n 0))).
        -- apply (Ccv_mul (fun _ => (w, eta)) (fun q => Ps q n 0)); [apply Ccv_const|apply CV].
        -- apply (Ccv_mul (fun _ => RtoC (energy m K n)) (fun q => Ps q n 0)); [apply Ccv_const|apply CV].
      * apply (Ccv_sum (fun q => term_at c hop kk (F q) n)). intros o _. unfold term_at.
        apply (Ccv_mul (fun _ => RtoC (weight c hop o n)) (fun q => Cmul (phase kk (ahead o)) (Ps q (step c o n) 0))); [apply Ccv_const|].
        apply (Ccv_mul (fun _ => phase kk (ahead o)) (fun q => Ps q (step c o n) 0)); [apply Ccv_const|apply CV].
    + intros q Hq. set (S := side q). assert (SK : K < S /\ p < S /\ 1 <= S) by (unfold S, side; lia).
      assert (S2 : S <= S * S) by nia. assert (S3 : S * S <= S * (S * S)) by nia. pose proof (side_rows q q ltac:(lia)) as HR. fold S in HR.
      assert (IK : inside nt (S * (S * S) + rho - 1) n) by (apply (inside_mono nt K); [lia|exact In_n]).
      rewrite (energy_window m K (S * (S * S) + rho - 1) n In_n IK). apply HR; [exact Dn|exact IK| |exact S1|exact S0].
      rewrite (tot_window nt _ K n IK In_n). eapply Rle_trans; [exact Tn|apply IZR_le; lia].
  - intros j L Hj NL HL. apply (@Rle_cv_lim (fun q => Rsum (map (mass nt (F q) j) L)) (fun _ => (1 / (eta * eta))%R) _ _); [intros q; apply (side_norm q j L Hj NL HL)| |apply cv_const].
    apply (cv_sum (fun q => mass nt (F q) j)). intros n _. unfold mass. apply (CV_mult (fun _ => wt nt j n) (fun q => Cnorm2 (Ps q n 0))); [apply cv_const|]. apply Ccv_norm2, CV.
Qed.
End Limit.
End Physical.
